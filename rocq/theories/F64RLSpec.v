(** Reading aids for value iteration in double precision. *)
From Coq Require Import List ZArith Reals.
From Verif Require Import Prelude NumModel GridModel GridSpec TriModel SafeModel CertModel RLModel RLSpec
  F64Model.
Import ListNotations.
Local Open Scope R_scope.

(** [e] is the exact value at [x] of the function with the values [v] at the
    (exact) points of a one-dimensional grid and straight lines in between. *)
Definition on_line (g : grid) (v : list R) (x e : R) : Prop :=
  exists k : nat, (Z.of_nat k <= npts g 0 - 2)%Z /\
    let s := (x - (lower g 0 + INR k * spacing g 0)) / spacing g 0 in
    0 <= s <= 1 /\ e = (1 - s) * nth k v 0 + s * nth (S k) v 0.

(** The states at which value iteration evaluates, their rewards and successors. *)
Definition listed (g : grid) (k : nat) : list R := nth k (f_all_points g) [].
Definition reward_at (P : learner) (g : grid) (k : nat) : R := rl_reward P (listed g k) (rl_policy P (listed g k)).
Definition next_at (P : learner) (g : grid) (k : nat) : list R := successor P (rl_policy P (listed g k)) (listed g k).

(** [v] solves the Bellman equation for these rewards and successors, in exact
    arithmetic; successors outside of the limits count as the nearest limit. *)
Definition solves (P : learner) (g : grid) (v : list R) : Prop :=
  Z.of_nat (length v) = npts g 0 /\
  forall k, (k < length v)%nat -> exists e,
    on_line g v (clipR (coordinate (next_at P g k) 0) (lower g 0) (upper g 0)) e /\
    nth k v 0 = reward_at P g k + rl_gamma P * e.

(** Rounding error of one sweep, relative to the size of the values. *)
Definition sweep_error (g : grid) : R :=
  / 2 ^ 42 * (Rmax (Rabs (lower g 0)) (Rabs (upper g 0)) / spacing g 0).
