(** Vocabulary for the statements about finer grids. *)
From Coq Require Import Reals List Bool Arith ZArith.
From Verif Require Import Prelude GridModel GridSpec SafeModel SafeSpec CertModel CertSpec.
Import ListNotations.
Local Open Scope R_scope.

(** The dynamics model is right about the closed loop [F] at [x], and its error
    bounds add up to at most [e]. *)
Definition accurate (S : setup) (F : list R -> list R) (e : R) (x : list R) : Prop :=
  match dynamics S x (policy S x) with
  | Exact y => y = F x
  | Uncertain mean err => within (F x) mean err /\ sum err <= e
  end.

(** The largest 1-norm distance of a state of the box to the nearest vertex. *)
Definition cell_radius (g : grid) : R := sum (map (fun h => h / 2) (unit_maxes g)).

(** A state of the box, its successor, or the mean of a prediction for a vertex. *)
Definition visited (g : grid) (S : setup) (F : list R -> list R) (x : list R) : Prop :=
  reached g F x \/
  (length x = dims g /\
   exists z err, is_vertex g z /\ dynamics S z (policy S z) = Uncertain x err).

(** What is known about the system, for every grid [g]: constants, dimensions, an
    accurate model at the vertices, and values that belong to the grid. *)
Record system (g : grid) (S : setup) (F : list R -> list R) (lv lf e : R) (L : lyap)
    : Prop := {
  sy_lv : lip_v S = LvConst lv;
  sy_lf : lip_f S = LfConst lf;
  sy_lv_pos : 0 <= lv;
  sy_lf_pos : 0 <= lf;
  sy_e : 0 <= e;
  sy_V : forall x y, visited g S F x -> visited g S F y ->
    Rabs (lyapunov_function S x - lyapunov_function S y) <= lv * dist1 x y;
  sy_F : forall x y, length x = dims g -> inside g x -> length y = dims g -> inside g y ->
    dist1 (F x) (F y) <= lf * dist1 x y;
  sy_dim : forall x, length x = dims g -> length (F x) = dims g;
  sy_model : forall x, is_vertex g x -> accurate S F e x;
  sy_vals : l_vals L = map (lyapunov_function S) (all_points g)
}.

(** The state [x] is a member of the initial set. *)
Definition initial_state (g : grid) (L : lyap) (x : list R) : Prop :=
  exists k, initially_safe L k /\ grid_point g k = x.
