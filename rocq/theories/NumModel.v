(** Numpy primitives on real numbers used by the grid code (exact
    arithmetic).  Simplification for the whole file: float64 values are real
    numbers, integers are unbounded [Z]. *)
From Coq Require Import List ZArith Reals Lia Lra Bool.
Import ListNotations.
From Verif Require Import Prelude.
Open Scope Z_scope.

(** [np.prod] of an integer array. *)
Definition prodZ (l : list Z) : Z := fold_right Z.mul 1 l.

(** [np.unravel_index(idx, shape)] (C order); an index outside
    [[0, prod shape)] raises ValueError. *)
Fixpoint unravel (idx : Z) (shape : list Z) : list Z :=
  match shape with
  | [] => []
  | _ :: t => (idx / prodZ t) :: unravel (idx mod prodZ t) t
  end.
Definition np_unravel_index (idx : Z) (shape : list Z) : res (list Z) :=
  if (0 <=? idx) && (idx <? prodZ shape) then Ok (unravel idx shape)
  else Err ValueError.

(** [np.ravel_multi_index(multi, shape)] (C order, mode 'raise'). *)
Fixpoint ravel (multi shape : list Z) : Z :=
  match multi, shape with
  | k :: ks, _ :: t => k * prodZ t + ravel ks t
  | _, _ => 0
  end.
Fixpoint in_shape (multi shape : list Z) : bool :=
  match multi, shape with
  | [], [] => true
  | k :: ks, n :: t => (0 <=? k) && (k <? n) && in_shape ks t
  | _, _ => false
  end.
Definition np_ravel_multi_index (multi shape : list Z) : res Z :=
  if in_shape multi shape then Ok (ravel multi shape) else Err ValueError.

Open Scope R_scope.

(** [np.clip(x, lo, hi)] = minimum(maximum(x, lo), hi). *)
Definition clipR (x lo hi : R) : R := Rmin (Rmax x lo) hi.
Definition clipZ (x lo hi : Z) : Z := Z.min (Z.max x lo) hi.

(** Floor of a real number. *)
Definition floorR (x : R) : Z := Int_part x.

(** [np.rint]: nearest integer, ties to even. *)
Definition rint (x : R) : Z :=
  let f := floorR x in
  let r := x - IZR f in
  if Rlt_dec r (1 / 2) then f
  else if Rlt_dec (1 / 2) r then (f + 1)%Z
  else if Z.even f then f else (f + 1)%Z.

(** [x % m] on floats for m > 0. *)
Definition modR (x m : R) : R := x - IZR (floorR (x / m)) * m.

(** [np.linspace(low, up, n)]: arange(n)*step + start with the last element
    set to [up]. *)
Definition linspace (low up : R) (n : Z) : list R :=
  map (fun k => if (Z.of_nat k =? n - 1)%Z && (1 <? n)%Z then up
                else IZR (Z.of_nat k) * ((up - low) / IZR (n - 1)) + low)
      (seq 0 (Z.to_nat n)).

(** [np.digitize(x, bins)] for increasing bins: the number of bins <= x. *)
Definition digitize (x : R) (bins : list R) : Z :=
  Z.of_nat (length (filter (fun b => if Rle_dec b x then true else false) bins)).

(** [np.meshgrid( *axes, indexing='ij')], ravelled and column-stacked: the
    rows of the Cartesian product, last axis fastest. *)
Fixpoint meshgrid_ij {A} (axes : list (list A)) : list (list A) :=
  match axes with
  | [] => [[]]
  | a :: t => flat_map (fun x => map (cons x) (meshgrid_ij t)) a
  end.
