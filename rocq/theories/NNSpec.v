(** Vocabulary for the Lipschitz property of networks. *)
From Coq Require Import Reals List Bool Arith.
From Verif Require Import Prelude FunModel QuadModel NNModel.
Import ListNotations.
Local Open Scope R_scope.

(** Euclidean norm of the difference of two vectors of length n. *)
Definition distance (n : nat) (x y : nat -> R) : R := sqrt (rsum n (fun i => Rsqr (x i - y i))).

Definition contractive (a : activation) : Prop :=
  forall u v, Rabs (activate a u - activate a v) <= Rabs (u - v).

(** (s, U, V) is a singular value decomposition of A: A = U diag(s) V' with
    orthonormal columns and non-negative s. *)
Definition orthonormal (r n : nat) (U : tensor) : Prop :=
  forall k l, (k < r)%nat -> (l < r)%nat ->
    rsum n (fun i => entry U i k * entry U i l) = if Nat.eqb k l then 1 else 0.
Definition is_svd (A : tensor) (d : (nat -> R) * tensor * tensor) : Prop :=
  let '(s, U, V) := d in
  let r := Nat.min (rows A) (cols A) in
  orthonormal r (rows A) U /\ orthonormal r (cols A) V /\
  (forall k, (k < r)%nat -> 0 <= s k) /\
  forall i j, (i < rows A)%nat -> (j < cols A)%nat ->
    entry A i j = rsum r (fun k => entry U i k * s k * entry V j k).

(** The number of hidden layers. *)
Definition depth (nn : network) : nat :=
  length (zip (but_last (layers nn)) (but_last (nonlinearities nn))).
