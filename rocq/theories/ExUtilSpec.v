(** Vocabulary for the properties of the helpers in the examples. *)
From Coq Require Import Reals List Bool Arith.
From Verif Require Import Prelude.
Import ListNotations.
Local Open Scope R_scope.

(** In increasing order. *)
Definition ordered (a : list R) : Prop :=
  forall i j, (i <= j)%nat -> (j < length a)%nat -> nth i a 0 <= nth j a 0.

(** The sum of those weights whose position is selected. *)
Definition total (P : nat -> bool) (w : list R) : R :=
  fold_right Rplus 0 (map (fun i => if P i then nth i w 0 else 0) (seq 0 (length w))).
(** The number of selected positions below n. *)
Definition number (P : nat -> bool) (n : nat) : nat := length (filter P (seq 0 n)).
