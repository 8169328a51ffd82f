(** Vocabulary for the certificate properties. *)
From Coq Require Import Reals List Bool Arith ZArith.
From Verif Require Import Prelude GridModel GridSpec SafeModel SafeSpec CertModel.
Import ListNotations.
Local Open Scope R_scope.

(** 1-norm distance of two vectors of the same length. *)
Definition dist1 (x y : list R) : R := sum (map2 (fun a b => Rabs (a - b)) x y).

(** Weighted 1-norm distance. *)
Definition wdist (w x y : list R) : R :=
  sum (map2 Rmult w (map2 (fun a b => Rabs (a - b)) x y)).

(** [y] is within the error bounds [err] of [mean], coordinate by coordinate. *)
Definition within (y mean err : list R) : Prop :=
  length y = length mean /\ length err = length mean /\
  forall j, (j < length mean)%nat -> Rabs (nth j y 0 - nth j mean 0) <= nth j err 0.

(** The Lipschitz constants of the Lyapunov function that the object has been
    given, per coordinate, at a point of dimension [d]: a scalar (or a callable
    with one column) holds for every coordinate. *)
Definition coordinate_constants (S : setup) (m : list R) : list R :=
  match lip_v S with
  | LvConst c => repeat c (length m)
  | LvFun f => match f m with [c] => repeat c (length m) | r => r end
  end.

(** The dynamics model is right about the closed loop [F] at state [x]: the exact
    successor, or bounds that contain it, in which case the Lyapunov function
    must have the given constants between the mean and the true successor. *)
Definition model_right (S : setup) (F : list R -> list R) (x : list R) : Prop :=
  match dynamics S x (policy S x) with
  | Exact y => y = F x
  | Uncertain mean err =>
    within (F x) mean err /\
    length (coordinate_constants S mean) = length mean /\
    Forall (Rle 0) (coordinate_constants S mean) /\
    Rabs (lyapunov_function S (F x) - lyapunov_function S mean)
      <= wdist (coordinate_constants S mean) (F x) mean
  end.

(** A state of the box, or the successor of one. *)
Definition reached (g : grid) (F : list R -> list R) (x : list R) : Prop :=
  length x = dims g /\
  (inside g x \/ exists z, length z = dims g /\ inside g z /\ x = F z).

(** Everything the theory asks for, for a grid [g], a new safe set computed on it
    ([L] before, [L'] after), and a true closed loop [F]. *)
Record premises (g : grid) (S : setup) (F : list R -> list R) (lv lf : R)
    (L L' : lyap) : Prop := {
  pr_lv : lip_v S = LvConst lv;
  pr_lf : lip_f S = LfConst lf;
  pr_lv_pos : 0 <= lv;
  pr_lf_pos : 0 <= lf;
  (* the Lyapunov function has its constant on the states of the box and their
     successors, the closed loop on the states of the box *)
  pr_V : forall x y, reached g F x -> reached g F y ->
    Rabs (lyapunov_function S x - lyapunov_function S y) <= lv * dist1 x y;
  pr_F : forall x y, length x = dims g -> inside g x -> length y = dims g -> inside g y ->
    dist1 (F x) (F y) <= lf * dist1 x y;
  pr_dim : forall x, length x = dims g -> length (F x) = dims g;
  (* the dynamics model is right at the grid states *)
  pr_model : forall x, is_vertex g x -> model_right S F x;
  (* tau is at least the largest distance to the nearest grid state *)
  pr_tau : sum (map (fun h => h / 2) (unit_maxes g)) <= tau S;
  (* the values are those of the Lyapunov function *)
  pr_vals : l_vals L = map (lyapunov_function S) (all_points g);
  (* the sublevel set lies inside of the grid *)
  pr_inside : forall x, length x = dims g -> lyapunov_function S x < l_cmax L' ->
    inside g x;
  (* the initial set is known to be safe: the closed loop does not leave the
     level set from the cells around its states *)
  pr_init : forall k x, initially_safe L k -> length x = dims g ->
    dist1 x (grid_point g k) <= tau S ->
    lyapunov_function S x < l_cmax L' - lv * tau S ->
    lyapunov_function S (F x) < l_cmax L' - lv * tau S
}.

Fixpoint iterate {A} (n : nat) (f : A -> A) (x : A) : A :=
  match n with O => x | S n' => f (iterate n' f x) end.
