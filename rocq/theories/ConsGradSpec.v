(** Vocabulary for the safe policy update. *)
From Coq Require Import Reals List Bool Arith ZArith.
From Coquelicot Require Import Coquelicot.
From Verif Require Import Prelude FunModel NNModel NumModel GridModel GridSpec TriModel TriSpec SafeModel CertModel RLModel AutoTriModel AutoTriSpec PolGradModel PolGradSpec
  AutoNNSpec AutoNetSpec ConsGradModel.
Import ListNotations.
Local Open Scope R_scope.

(** The error bounds of the next state *)
Definition error_of (P : learner) (s a : list R) : list R :=
  match rl_dynamics P s a with Exact _ => [] | Uncertain _ err => err end.
(** The largest absolute entry of the gradient of a triangulation *)
Definition steepness (t : tri) (x : list R) : R :=
  match gradient t [x] with Ok [[r]] => fold_right Rmax 0 (map Rabs r) | _ => 0 end.

(** Dynamics with [m] states return means and error bounds for actions with [n] entries. *)
Definition uncertain (P : learner) (m n : nat) : Prop :=
  forall s a, length a = n -> exists mean err, rl_dynamics P s a = Uncertain mean err /\ length mean = m /\ length err = m.
(** The given derivatives of the error bounds are right in state [s] with action [a]. *)
Definition right_errors (P : learner) (E : error_rates) (m n : nat) (s a : list R) : Prop :=
  forall d, length d = m -> is_gradient n (fun a' => sumn m (fun j => coordinate d j * coordinate (error_of P s a') j)) a (E s a d).
(** The given derivatives of [policy.lipschitz()] are right for the parameters [ps]. *)
Definition right_lipschitz (tf_svd : tensor -> (nat -> R) * tensor * tensor) (ps dlip : list tensor) : Prop :=
  List.Forall2 same_shape dlip ps /\
  forall dps, List.Forall2 same_shape ps dps ->
  exists l, (forall z, lipschitz tf_svd (moved_all z ps dps) = Ok (l z)) /\ is_derive l 0 (tdots dlip dps).
