(** Model of policy optimization by gradient descent on the result of
    [PolicyIteration.future_values] (safe_learning/reinforcement_learning.py, lines
    89-103 and 114): safe_learning/tests/test_rl.py lines 59-62,
    examples/basic_dynamic_programming.ipynb cell 4, examples/inverted_pendulum.ipynb
    cell 9, and [tf.train.GradientDescentOptimizer.minimize].

    Simplifications.  As in [RLModel], [AutoTriModel] and [AutoNNModel]; exact
    arithmetic.  No Lyapunov object is passed; the [Saturation] around the policy of
    basic_dynamic_programming.ipynb is in [SatGradModel].  The dynamics and the rewards come with
    what TensorFlow computes for their derivatives with respect to the actions.  The
    loss is the sum of the future values times one number for every state: -1 for
    [-tf.reduce_sum], -1/n for [-tf.reduce_mean]. *)
From Coq Require Import Reals List Bool Arith ZArith.
From Verif Require Import Prelude FunModel QuadModel NNModel AutoNNModel NumModel GridModel TriModel SafeModel CertModel RLModel AutoTriModel.
Import ListNotations.
Local Open Scope R_scope.

(** The derivatives of the rewards with respect to the action, and that of the dynamics:
    the state, the action and the derivative with respect to the next state give
    the derivative with respect to the action. *)
Record rates := { d_reward : list R -> list R -> list R; d_dynamics : list R -> list R -> list R -> list R }.

(** reinforcement_learning.py lines 94-103 backwards for one state: the derivative with
    respect to the action. *)
Definition future_backprop1 (P : learner) (D : rates) (s a : list R) (dy : R) : res (list R) :=
  let next := match rl_dynamics P s a with Exact y => y | Uncertain mean _ => mean end in
  do r <- tf_backprop1 (rl_value P) next [rl_gamma P * dy];
  Ok (vadd (vscale dy (d_reward D s a)) (d_dynamics D s a (fst r))).

(** Arrays of states, and the rows of an array. *)
Definition array (n : nat) (l : list (list R)) : tensor :=
  {| rows := length l; cols := n; entry := fun i j => nth j (nth i l []) 0 |}.
Definition row (t : tensor) (i : nat) : list R := map (entry t i) (seq 0 (cols t)).
Definition all_rows (t : tensor) : list (list R) := map (row t) (seq 0 (rows t)).

(** The loss for given actions: [future_values] with weights. *)
Definition loss_of (P : learner) (states actions : list (list R)) (weights : list R) : res R :=
  do values <- mapM (fun sa => future_value P None (Some (snd sa)) None (fst sa)) (combine states actions);
  Ok (sum (map2 Rmult weights values)).
Definition loss_backprop (P : learner) (D : rates) (states actions : list (list R)) (weights : list R) : res (list (list R)) :=
  mapM (fun saw => future_backprop1 P D (fst (fst saw)) (snd (fst saw)) (snd saw)) (combine (combine states actions) weights).

(** *** Policies that are neural networks *)
Definition network_loss (P : learner) (nn : network) (ps : list tensor) (n : nat) (states : list (list R)) (weights : list R) : res R :=
  do actions <- nn_eval nn ps (array n states);
  loss_of P states (all_rows actions) weights.
Definition network_gradients (P : learner) (D : rates) (nn : network) (dacts : list (R -> R)) (ps : list tensor) (n : nat)
    (states : list (list R)) (weights : list R) : res (list tensor) :=
  do actions <- nn_eval nn ps (array n states);
  do da <- loss_backprop P D states (all_rows actions) weights;
  do r <- nn_gradients nn dacts ps (array n states) (array (cols actions) da);
  Ok (snd r).
(** [GradientDescentOptimizer(learning_rate).minimize(loss, var_list=policy.parameters)] *)
Definition descend (learning_rate : R) (p g : tensor) : tensor :=
  {| rows := rows p; cols := cols p; entry := fun i j => entry p i j - learning_rate * entry g i j |}.
Definition network_step (P : learner) (D : rates) (nn : network) (dacts : list (R -> R)) (n : nat) (learning_rate : R)
    (states : list (list R)) (weights : list R) (ps : list tensor) : res (list tensor) :=
  do gs <- network_gradients P D nn dacts ps n states weights;
  Ok (map2 (descend learning_rate) ps gs).

(** *** Policies that are triangulations *)
Definition triangulation_loss (P : learner) (T : tf_tri) (states : list (list R)) (weights : list R) : res R :=
  do actions <- tf_eval T states;
  loss_of P states actions weights.
Definition triangulation_gradients (P : learner) (D : rates) (T : tf_tri) (states : list (list R)) (weights : list R) : res slices :=
  do actions <- tf_eval T states;
  do da <- loss_backprop P D states actions weights;
  do r <- tf_gradients T states da;
  Ok (snd r).
(** [scatter_sub] of the slices: for every slice, the row is changed. *)
Definition scatter_sub (learning_rate : R) (values : list (list R)) (s : slices) : list (list R) :=
  fold_left (fun vs iv => let i := Z.to_nat (fst iv) in
                          set_nth i (vsub (nth i vs []) (vscale learning_rate (snd iv))) vs) s values.
Definition triangulation_step (P : learner) (D : rates) (learning_rate : R) (states : list (list R)) (weights : list R) (T : tf_tri)
    : res tf_tri :=
  do s <- triangulation_gradients P D T states weights;
  Ok (tf_assign T (scatter_sub learning_rate (tf_var T) s)).
