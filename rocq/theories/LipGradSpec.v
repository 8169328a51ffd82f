(** Vocabulary for the gradient of the Lipschitz constant of networks. *)
From Coq Require Import Reals List Bool Arith.
From Verif Require Import Prelude FunModel QuadModel NNModel NNSpec AutoNetSpec.
Import ListNotations.
Local Open Scope R_scope.

(** The singular value decompositions are right for all matrices of the shape of A. *)
Definition decomposes (tf_svd : tensor -> (nat -> R) * tensor * tensor) (A : tensor) : Prop :=
  forall B, same_shape A B -> is_svd B (tf_svd B).

(** The largest singular value is positive and larger than all others. *)
Definition simple_top (A : tensor) (d : (nat -> R) * tensor * tensor) : Prop :=
  let '(s, _, _) := d in
  exists k, (k < Nat.min (rows A) (cols A))%nat /\ 0 < s k /\
    forall l, (l < Nat.min (rows A) (cols A))%nat -> l <> k -> s l < s k.

(** The difference of two tensors *)
Definition minus (A B : tensor) : tensor := {| rows := rows A; cols := cols A; entry := fun i j => entry A i j - entry B i j |}.
