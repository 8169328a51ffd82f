(** Model of the gradient steps of the actor-critic examples with neural networks:
    [optimizer.minimize] of the objectives of critic and actor in
    examples/reinforcement_learning_pendulum.ipynb (cells 16, 31, 34 and 48) and
    examples/reinforcement_learning_cartpole.ipynb (cell 15).

    Simplifications.  As in [ActorModel] and [AutoNNModel]; exact arithmetic.  The
    dynamics come with what TensorFlow computes for their derivative with respect to
    the actions, given the one with respect to the next states.  The matrix [R] is
    called [Rc]. *)
From Coq Require Import Reals List Bool Arith.
From Verif Require Import NumModel GridModel TriModel AutoTriModel SafeModel CertModel RLModel LyapNetModel AutoNetModel LoopModel ExUtilModel RoaTrainModel.
From Verif Require Import Prelude FunModel QuadModel NNModel AutoNNModel PolGradModel TrainGradModel ActorModel.
Import ListNotations.
Local Open Scope R_scope.

(** [QuadraticFunction.build_evaluation] (functions.py lines 1534-1539) backwards: the
    derivative with respect to the points. *)
Definition quadratic_backprop (P points dys : tensor) : res tensor :=
  do linear_form <- matmul points P;
  let dlinear := {| rows := rows points; cols := cols points;
                    entry := fun i j => entry dys i 0%nat * entry points i j |} in
  do d <- matmul dlinear (transpose P);
  Ok {| rows := rows points; cols := cols points;
        entry := fun i j => entry d i j + entry dys i 0%nat * entry linear_form i j |}.
(** [tf.slice] of columns, the derivative of [tf.concat]. *)
Definition col_slice (start len : nat) (t : tensor) : tensor :=
  {| rows := rows t; cols := len; entry := fun i j => entry t i (start + j)%nat |}.
(** The derivative of [tf.reduce_mean]. *)
Definition dmean (t : tensor) (dy : R) : R := dy / (INR (rows t) * INR (cols t)).

Section Steps.
  Variables Q Rc : tensor.
  Variable state_dim action_dim : nat.
  Variable dynamics : tensor -> tensor -> res tensor.
  Variable d_dynamics : tensor -> tensor -> tensor -> tensor.
  Variable gamma : R.

  (** [value_update]: pendulum, lines 267-269 and 813-814; cartpole, lines 263-264. *)
  Definition critic_gradients (scaling : R -> R -> R) (policy : tensor -> res tensor)
      (nn : network) (dacts : list (R -> R)) (states : tensor) (ps : list tensor) : res (list tensor) :=
    do target <- lookahead Q Rc dynamics gamma policy (nn_eval nn ps) states;
    do now <- nn_eval nn ps states;
    do diff <- op2 Rminus (Tensor now) target;
    do r <- r_max Q Rc state_dim action_dim;
    let t := as_tensor diff in
    let dabs := dmean t (scaling gamma r) in
    do g <- nn_gradients nn dacts ps states
              {| rows := rows t; cols := cols t; entry := fun i j => tf_sign (entry t i j) * dabs |};
    Ok (snd g).
  Definition critic_update (scaling : R -> R -> R) (policy : tensor -> res tensor) (nn : network) (dacts : list (R -> R))
      (learning_rate : R) (states : tensor) (ps : list tensor) : res (list tensor) :=
    do gs <- critic_gradients scaling policy nn dacts states ps;
    Ok (map2 (descend learning_rate) ps gs).

  (** [policy_update]: pendulum, lines 566-568 and 820-821; cartpole, lines 270-271. *)
  Definition actor_gradients (vf : network) (dvacts : list (R -> R)) (vps : list tensor)
      (nn : network) (dacts : list (R -> R)) (states : tensor) (ps : list tensor) : res (list tensor) :=
    do actions <- nn_eval nn ps states;
    do future_states <- dynamics states actions;
    do future_values <- nn_eval vf vps future_states;
    do r <- r_max Q Rc state_dim action_dim;
    let d := dmean future_values (- discount_scaling gamma r) in
    (* gamma * value_function(dynamics(states, actions)) *)
    do gv <- nn_gradients vf dvacts vps future_states
               {| rows := rows future_values; cols := cols future_values; entry := fun _ _ => gamma * d |};
    let da := d_dynamics states actions (fst gv) in
    (* reward_function(states, actions) *)
    do points <- hcat [states; actions];
    do dp <- quadratic_backprop (quadratic_function (Matrix (block_diag (neg Q) (neg Rc)))) points
               {| rows := rows future_values; cols := 1; entry := fun _ _ => d |};
    let dr := col_slice (cols states) (cols actions) dp in
    do g <- nn_gradients nn dacts ps states
              {| rows := rows actions; cols := cols actions; entry := fun i j => entry dr i j + entry da i j |};
    Ok (snd g).
  Definition actor_update (vf : network) (dvacts : list (R -> R)) (vps : list tensor) (nn : network) (dacts : list (R -> R))
      (learning_rate : R) (states : tensor) (ps : list tensor) : res (list tensor) :=
    do gs <- actor_gradients vf dvacts vps nn dacts states ps;
    Ok (map2 (descend learning_rate) ps gs).
End Steps.

(** Pendulum, lines 494-500: training with given values. *)
Definition supervised_gradients (nn : network) (dacts : list (R -> R)) (states true_values : tensor) (ps : list tensor) : res (list tensor) :=
  do now <- nn_eval nn ps states;
  do diff <- op2 Rminus (Tensor now) (Tensor true_values);
  let t := as_tensor diff in
  let dabs := dmean t 1 in
  do g <- nn_gradients nn dacts ps states
            {| rows := rows t; cols := cols t; entry := fun i j => tf_sign (entry t i j) * dabs |};
  Ok (snd g).
Definition supervised_update (nn : network) (dacts : list (R -> R)) (learning_rate : R) (states true_values : tensor)
    (ps : list tensor) : res (list tensor) :=
  do gs <- supervised_gradients nn dacts states true_values ps;
  Ok (map2 (descend learning_rate) ps gs).
