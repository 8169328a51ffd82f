(** Model of policy optimization by gradient descent through [Saturation]
    (safe_learning/functions.py, lines 310-354): examples/basic_dynamic_programming.ipynb
    cells 2 and 4, where the policy is a saturated triangulation.

    Simplifications.  As in [PolGradModel]; the bounds are two numbers, as in the
    notebook.  Cells are counted from 0. *)
From Coq Require Import Reals List Bool Arith ZArith.
From Verif Require Import Prelude NumModel GridModel TriModel SafeModel CertModel RLModel AutoTriModel PolGradModel CarModel.
Import ListNotations.
Local Open Scope R_scope.

(** functions.py lines 349-354, [Saturation.build_evaluation], for one number. *)
Definition saturate (lower upper x : R) : R := Rmin (Rmax x lower) upper.
(** The same lines backwards: TensorFlow's gradients of [tf.minimum] and [tf.maximum]
    go to the first argument where the two are equal. *)
Definition saturate_grad (lower upper x dy : R) : R :=
  maximum_grad x lower (minimum_grad (Rmax x lower) upper dy).

(** basic_dynamic_programming.ipynb cell 4, [policy_loss], for a saturated triangulation
    (functions.py lines 349-354 and 1473-1499, reinforcement_learning.py lines 89-103). *)
Definition saturated_loss (P : learner) (lower upper : R) (T : tf_tri) (states : list (list R)) (weights : list R) : res R :=
  do raw <- tf_eval T states;
  loss_of P states (map (map (saturate lower upper)) raw) weights.
(** Its gradients with respect to the values of the triangulation
    ([Saturation.parameters] are those of the function inside, functions.py lines 332-337). *)
Definition saturated_gradients (P : learner) (D : rates) (lower upper : R) (T : tf_tri) (states : list (list R)) (weights : list R) : res slices :=
  do raw <- tf_eval T states;
  do da <- loss_backprop P D states (map (map (saturate lower upper)) raw) weights;
  do r <- tf_gradients T states (map2 (map2 (saturate_grad lower upper)) raw da);
  Ok (snd r).
(** basic_dynamic_programming.ipynb cell 4, [adapt_policy]. *)
Definition saturated_step (P : learner) (D : rates) (lower upper learning_rate : R) (states : list (list R)) (weights : list R) (T : tf_tri) : res tf_tri :=
  do s <- saturated_gradients P D lower upper T states weights;
  Ok (tf_assign T (scatter_sub learning_rate (tf_var T) s)).

(** basic_dynamic_programming.ipynb cell 2, [dynamics] and [reward_function] ([CarModel]) on
    lists; the policy is not used because actions are always given. *)
Definition car_learner (gamma : R) (T : tf_tri) : learner :=
  {| rl_policy := fun _ => [];
     rl_dynamics := fun s a => let n := car_next (nth 0 s 0, nth 1 s 0) (nth 0 a 0) in Exact [fst n; snd n];
     rl_reward := fun s a => car_reward gamma (nth 0 s 0, nth 1 s 0) (nth 0 a 0);
     rl_value := T; rl_gamma := gamma |}.
(** The same lines backwards with respect to the action: the rewards do not use it. *)
Definition car_rates : rates :=
  {| d_reward := fun s a => [0]; d_dynamics := fun s a d => [0.001 * nth 1 d 0] |}.
