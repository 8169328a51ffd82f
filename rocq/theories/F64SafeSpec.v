(** Vocabulary for safe sets that are computed in double precision. *)
From Coq Require Import Reals List Bool Arith ZArith.
From Verif Require Import Prelude FunModel QuadModel F64CertModel F64CertSpec.
From Verif Require Import GridModel GridSpec SafeModel SafeSpec CertModel CertSpec RefineSpec
  F64Model F64Spec.
Import ListNotations.
Local Open Scope R_scope.

(** A safe set that is computed with errors: the values are within [ev] of those of
    the Lyapunov function, the certificate is evaluated at points [pt] within [r]
    of the grid states and is right there, with room for the cell.  [D] are the
    states for which the constants hold. *)
Record inexact (g : grid) (V : list R -> R) (F : list R -> list R) (D : list R -> Prop)
    (lv lf r ev : R) (pt : nat -> list R) (C : cert) (L L' : lyap) : Prop := {
  ix_lv : 0 <= lv;
  ix_lf : 0 <= lf;
  ix_box : forall x, length x = dims g -> inside g x -> D x;
  ix_pt : forall k, (k < size L)%nat ->
    D (pt k) /\ length (pt k) = dims g /\ dist1 (pt k) (grid_point g k) <= r;
  ix_V : forall x y, D x -> D y -> Rabs (V x - V y) <= lv * dist1 x y;
  ix_VF : forall x y, D x -> D y -> Rabs (V (F x) - V (F y)) <= lv * dist1 (F x) (F y);
  ix_F : forall x y, D x -> D y -> dist1 (F x) (F y) <= lf * dist1 x y;
  ix_dim : forall x, length x = dims g -> length (F x) = dims g;
  ix_size : Z.of_nat (size L) = nindex g;
  ix_vals : forall k, (k < size L)%nat -> Rabs (value L k - V (grid_point g k)) <= ev;
  ix_neg : forall k, (k < size L)%nat -> neg C k = true ->
    V (F (pt k)) - V (pt k) < - lv * (1 + lf) * (cell_radius g + r);
  ix_inside : forall x, length x = dims g -> V x < l_cmax L' - lv * cell_radius g - ev -> inside g x;
  ix_init : forall k x, initially_safe L k -> length x = dims g ->
    dist1 x (grid_point g k) <= cell_radius g ->
    V x < l_cmax L' - lv * cell_radius g - ev ->
    V (F x) < l_cmax L' - lv * cell_radius g - ev
}.

(** The exact quadratic function and the exact linear closed loop. *)
Definition vec (x : list R) (j : nat) : R := nth j x 0.
Definition quadV (P : tensor) (d : nat) (x : list R) : R := quad P d (vec x).
Definition linF (policy dynamics : tensor) (d m : nat) (x : list R) : list R :=
  map (loop policy dynamics d m (vec x)) (seq 0 d).

(** The box with a margin of 1/128 spacing. *)
Definition near_box (g : grid) (x : list R) : Prop :=
  length x = dims g /\
  forall j, (j < dims g)%nat ->
    lower g j - / 128 * spacing g j <= coordinate x j <= upper g j + / 128 * spacing g j.

(** Row [i] of a tensor is the vector [x]. *)
Definition row_is (t : tensor) (i : nat) (x : list R) : Prop :=
  (i < rows t)%nat /\ cols t = length x /\ forall j, (j < length x)%nat -> entry t i j = nth j x 0.

(** The value of state number [k] has been computed in some batch by a
    [QuadraticFunction] at the point number [k] of the grid. *)
Definition value_computed (g : grid) (P : tensor) (ev lv : R) (L : lyap) (k : nat) : Prop :=
  exists points v i, f_quadratic P points v /\ row_is points i (nth k (f_all_points g) []) /\
    value L k = entry v i 0%nat /\
    quad_slack P (dims g) (entry points i) + lv * (cell_radius g / 64) <= ev.

(** State number [k] has been tested in some batch, and [tau] leaves room for the
    rounding errors. *)
Definition check_computed (g : grid) (P policy dynamics : tensor) (m : nat) (lv lf tau : R)
    (C : cert) (k : nat) : Prop :=
  exists s states actions next dec i,
    f_index_to_state g (Z.of_nat k) = Ok s /\ row_is states i s /\ cols actions = m /\
    f_decrease P policy dynamics states actions next dec /\
    (neg C k = true <-> entry dec i 0%nat < f_threshold lv lf tau) /\
    decrease_slack P policy dynamics (dims g) m (entry states i) (entry actions i) (entry next i)
        (entry dec i 0%nat) + threshold_slack lv lf tau
      <= lv * (1 + lf) * (tau - 65 / 64 * cell_radius g).
