(** Vocabulary for the gradient steps of the actor-critic examples. *)
From Coq Require Import Reals List Bool Arith.
From Coquelicot Require Import Coquelicot.
From Verif Require Import Prelude FunModel QuadModel AutoNetSpec.
Import ListNotations.
Local Open Scope R_scope.

(** At states [X] and actions [U] the dynamics are defined for all actions of this shape,
    and [d] gives the derivatives: along every curve of actions through [U], the weighted
    sum [dY] of the next states changes at the rate that [d] predicts. *)
Definition dynamics_gradient (n : nat) (dynamics : tensor -> tensor -> res tensor) (d : tensor -> tensor -> tensor -> tensor) (X U : tensor) : Prop :=
  (forall U', same_shape U U' -> exists Y, dynamics X U' = Ok Y /\ rows Y = rows X /\ cols Y = n) /\
  forall dY, rows dY = rows X -> cols dY = n -> same_shape (d X U dY) U /\
    forall (Ut Yt : R -> tensor) (v : nat -> nat -> R), Ut 0 = U -> (forall z, same_shape U (Ut z)) ->
      (forall z, dynamics X (Ut z) = Ok (Yt z)) ->
      (forall i k, (i < rows U)%nat -> (k < cols U)%nat -> is_derive (fun z => entry (Ut z) i k) 0 (v i k)) ->
      is_derive (fun z => tdot dY (Yt z)) 0 (rsum (rows U) (fun i => rsum (cols U) (fun k => entry (d X U dY) i k * v i k))).
