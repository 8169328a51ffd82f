(** Vocabulary for triangulations as Lyapunov functions. *)
From Coq Require Import List ZArith Reals.
Import ListNotations.
From Verif Require Import Prelude GridModel GridSpec TriModel TriSpec.
Open Scope R_scope.

(** [z] lies on the straight line from [y] to [x]. *)
Definition on_segment (x y z : list R) : Prop :=
  length z = length x /\ exists s, 0 <= s <= 1 /\
    forall j, (j < length x)%nat -> coordinate z j = coordinate y j + s * (coordinate x j - coordinate y j).

(** The entries of the gradients that are reported on the line from [y] to [x] for
    output [o] are at most [K]. *)
Definition entries_between (t : tri) (o : nat) (K : R) (x y : list R) : Prop :=
  forall z M j, on_segment x y z -> gradient t [z] = Ok [M] -> (j < length x)%nat -> Rabs (entry M o j) <= K.
