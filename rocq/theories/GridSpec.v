(** What a user of [GridWorld] means by grid points, cells and distances;
    written without the helpers of the model. *)
From Coq Require Import List ZArith Reals.
Import ListNotations.
From Verif Require Import Prelude GridModel.

(** A usable grid: every axis has lower < upper and at least two points. *)
Definition valid_grid (g : grid) : Prop :=
  Forall2 (fun l n => (fst l < snd l)%R /\ (2 <= n)%Z) (limits g) (num_points g).

(** Axis [j]: bounds, number of points, spacing. *)
Definition lower (g : grid) (j : nat) : R := fst (nth j (limits g) (0, 0)%R).
Definition upper (g : grid) (j : nat) : R := snd (nth j (limits g) (0, 0)%R).
Definition npts (g : grid) (j : nat) : Z := nth j (num_points g) 0%Z.
Definition spacing (g : grid) (j : nat) : R :=
  ((upper g j - lower g j) / IZR (npts g j - 1))%R.
Definition dims (g : grid) : nat := length (limits g).

Definition coordinate (p : list R) (j : nat) : R := nth j p 0%R.

(** [p] is a vertex of the grid. *)
Definition is_vertex (g : grid) (p : list R) : Prop :=
  length p = dims g /\
  forall j, (j < dims g)%nat ->
    exists k : Z, (0 <= k < npts g j)%Z /\
      coordinate p j = (lower g j + IZR k * spacing g j)%R.

(** [x] lies in the box spanned by the limits. *)
Definition inside (g : grid) (x : list R) : Prop :=
  forall j, (j < dims g)%nat -> (lower g j <= coordinate x j <= upper g j)%R.

(** [c] is the lower corner of a grid cell. *)
Definition is_cell_corner (g : grid) (c : list R) : Prop :=
  length c = dims g /\
  forall j, (j < dims g)%nat ->
    exists k : Z, (0 <= k < npts g j - 1)%Z /\
      coordinate c j = (lower g j + IZR k * spacing g j)%R.

(** The product of the first [d] values of [f]. *)
Fixpoint product (f : nat -> Z) (d : nat) : Z :=
  match d with O => 1 | S d' => product f d' * f d' end%Z.

(** The counts requested per axis, and when the argument fits [d] axes. *)
Definition requested (np : npoints_arg) (d j : nat) : Z :=
  match np with
  | Scalar n => n
  | Vector ns => if Nat.eqb (length ns) 1 then nth 0 ns 0%Z else nth j ns 0%Z
  end.
Definition fits (np : npoints_arg) (d : nat) : Prop :=
  match np with Scalar _ => True | Vector ns => length ns = 1%nat \/ length ns = d end.

