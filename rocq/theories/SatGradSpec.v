(** Vocabulary for policy optimization through saturation. *)
From Coq Require Import Reals List Arith ZArith.
From Verif Require Import Prelude NumModel GridModel GridSpec TriModel TriSpec AutoTriModel.
Import ListNotations.
Local Open Scope R_scope.

(** No action that the policy computes before saturation is exactly a bound. *)
Definition off_bounds (n : nat) (lower upper : R) (raw : list (list R)) : Prop :=
  forall k o, (k < length raw)%nat -> (o < n)%nat -> TriSpec.entry raw k o <> lower /\ TriSpec.entry raw k o <> upper.
(** A number that saturation changes. *)
Definition beyond (lower upper x : R) : Prop := x < lower \/ upper < x.
(** The values at the vertices with output [o] at grid index [i] changed by [z]. *)
Definition changed (values : mat) (i o : nat) (z : R) : mat :=
  set_nth i (set_nth o (nth o (nth i values []) 0 + z) (nth i values [])) values.
