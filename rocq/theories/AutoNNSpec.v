(** Vocabulary for the derivatives of neural networks. *)
From Coq Require Import Reals List Bool Arith.
From Coquelicot Require Import Coquelicot.
From Verif Require Import Prelude FunModel QuadModel NNModel AutoNNModel.
Import ListNotations.
Local Open Scope R_scope.

(** The given derivative of an activation is right at x. *)
Definition smooth_act (a : act) (x : R) : Prop :=
  match a with (Some f, df) => is_derive f x (df x) | (None, _) => True end.

(** In all layers, the given derivatives of the activations are right at their inputs. *)
Fixpoint smooth_at (ls : list layer) (ps : list tensor) (net : tensor) : Prop :=
  match ls with
  | [] => True
  | (units, a, b) :: ls' =>
      forall W B ps', dense_vars b ps = Ok (W, B, ps') ->
      (forall inputs, dense net units W B None = Ok inputs ->
         forall i j, (i < rows inputs)%nat -> (j < cols inputs)%nat -> smooth_act a (entry inputs i j)) /\
      (forall net', dense net units W B (fst a) = Ok net' -> smooth_at ls' ps' net')
  end.
