(** Vocabulary for the statements about the mountain car. *)
From Coq Require Import Reals List Bool Arith ZArith.
From Verif Require Import Prelude GridModel CertModel RLModel CarModel.
Import ListNotations.
Local Open Scope R_scope.

(** The state after [n] steps with the policy [pi]. *)
Fixpoint drive (pi : R * R -> R) (n : nat) (s : R * R) : R * R :=
  match n with O => s | S m => drive pi m (car_next s (pi s)) end.
(** The discounted rewards of the first [n] states. *)
Fixpoint car_return (gamma : R) (pi : R * R -> R) (n : nat) (s : R * R) : R :=
  match n with
  | O => 0
  | S m => car_reward gamma s (pi s) + gamma * car_return gamma pi m (car_next s (pi s))
  end.
(** The learner of the notebook: the dynamics and the reward are those of the car. *)
Definition as_pair (s : list R) : R * R := (nth 0 s 0, nth 1 s 0).
Definition car_learner (P : learner) : Prop :=
  (forall s a, rl_dynamics P s a =
     let y := car_next (as_pair s) (nth 0 a 0) in Exact [fst y; snd y]) /\
  (forall s a, rl_reward P s a = car_reward (rl_gamma P) (as_pair s) (nth 0 a 0)).
(** No parameter changed by more than [d]. *)
Definition all_close (d : R) (a b : list R) : Prop :=
  length a = length b /\ forall k, (k < length a)%nat -> Rabs (nth k a 0 - nth k b 0) <= d.
