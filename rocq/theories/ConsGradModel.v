(** Model of the safe policy update of examples/inverted_pendulum.ipynb (cells 9, 14 and
    17, counted from 0): gradient descent on
    [-tf.reduce_mean(rl.future_values(states, lyapunov=lyapunov))]
    (safe_learning/reinforcement_learning.py, lines 89-114) for a neural network policy,
    with a Lyapunov object (safe_learning/lyapunov.py, lines 265-288 and 324-376) whose function is the
    negative value function.

    Simplifications.  As in [PolGradModel], but with the Lyapunov object.  The dynamics
    return means and error bounds, and come with what TensorFlow computes for their
    derivatives; so does [NeuralNetwork.lipschitz].  [Triangulation.gradient]
    (functions.py lines 1501-1510) is a [tf.py_func] and has no gradient. *)
From Coq Require Import Reals List Bool Arith ZArith.
From Verif Require Import Prelude FunModel QuadModel NNModel AutoNNModel NumModel GridModel TriModel SafeModel CertModel RLModel TriLyapModel AutoTriModel PolGradModel.
Import ListNotations.
Local Open Scope R_scope.

(** The derivatives of the error bounds: the state, the action and the derivative with
    respect to the error bounds give the derivative with respect to the action. *)
Definition error_rates : Type := list R -> list R -> list R -> list R.

(** functions.py lines 1501-1510: the triangulation with the values of the variable. *)
Definition current (T : tf_tri) : tri := with_params (tf_inner T) (tf_var T).
(** inverted_pendulum.ipynb cell 14, [lyapunov]: the negative value function, the largest
    entry of its gradient, and the constant of the closed loop.  [policy] and
    [dynamics] of the object are not used by [v_decrease_bound] and [threshold]. *)
Definition safe_lyapunov (T : tf_tri) (lf tau : R) : setup :=
  {| lyapunov_function := neg_triangulated (current T); policy := fun _ => []; CertModel.dynamics := fun _ _ => Exact [];
     lip_v := largest_gradient (current T); lip_f := LfConst lf; CertModel.tau := tau |}.

(** The settings of cells 9 and 14: [ca + cb * policy.lipschitz()] is [lipschitz_dynamics],
    [multiplier] the argument [lagrange_multiplier]. *)
Record update := { ca : R; cb : R; u_tau : R; multiplier : R }.

(** inverted_pendulum.ipynb cell 17, [policy_loss]. *)
Definition constrained_loss (tf_svd : tensor -> (nat -> R) * tensor * tensor) (P : learner) (U : update) (nn : network) (ps : list tensor) (n : nat)
    (states : list (list R)) (weights : list R) : res R :=
  do actions <- nn_eval nn ps (array n states);
  do lip <- lipschitz tf_svd ps;
  let lyapunov := safe_lyapunov (rl_value P) (ca U + cb U * lip) (u_tau U) in
  do values <- mapM (fun sa => future_value P None (Some (snd sa)) (Some (lyapunov, multiplier U)) (fst sa)) (combine states (all_rows actions));
  Ok (CertModel.sum (map2 Rmult weights values)).

(** reinforcement_learning.py lines 94-114 backwards for one state: the derivative with respect to
    the action.  The next state is used by the value function (line 101) and by the
    Lyapunov function (line 108), which multiplies by -1. *)
Definition constrained_backprop1 (P : learner) (D : rates) (E : error_rates) (U : update) (s a : list R) (dy : R) : res (list R) :=
  match rl_dynamics P s a with
  | Exact _ => Err NameError
  | Uncertain next err =>
    do r <- tf_backprop1 (rl_value P) next [rl_gamma P * dy];
    do r' <- tf_backprop1 (rl_value P) next [- multiplier U * dy * -1];
    let lv := lv_scalar (safe_lyapunov (rl_value P) 0 (u_tau U)) next in
    let derr := map (fun _ => - multiplier U * dy * lv) err in
    Ok (vadd (vadd (vscale dy (d_reward D s a)) (E s a derr)) (d_dynamics D s a (vadd (fst r) (fst r'))))
  end.
(** Lines 111-112 and lyapunov.py lines 283-288 backwards: the derivative with respect to
    [policy.lipschitz()], of one state. *)
Definition lipschitz_backprop1 (P : learner) (U : update) (s : list R) (dy : R) : R :=
  let lv := lv_scalar (safe_lyapunov (rl_value P) 0 (u_tau U)) s in
  - multiplier U * dy * -1 * (- lv * u_tau U) * cb U.
(** The gradients with respect to the parameters of the policy; [dlip] are those of
    [policy.lipschitz()]. *)
Definition constrained_gradients (P : learner) (D : rates) (E : error_rates) (U : update) (nn : network) (dacts : list (R -> R)) (ps dlip : list tensor) (n : nat)
    (states : list (list R)) (weights : list R) : res (list tensor) :=
  do actions <- nn_eval nn ps (array n states);
  do da <- mapM (fun saw => constrained_backprop1 P D E U (fst (fst saw)) (snd (fst saw)) (snd saw)) (combine (combine states (all_rows actions)) weights);
  do r <- nn_gradients nn dacts ps (array n states) (array (cols actions) da);
  let dl := CertModel.sum (map2 (lipschitz_backprop1 P U) states weights) in
  Ok (map2 (fun g h => {| rows := rows g; cols := cols g; FunModel.entry := fun i j => FunModel.entry g i j + dl * FunModel.entry h i j |}) (snd r) dlip).
(** inverted_pendulum.ipynb cell 17, [adapt_policy]. *)
Definition constrained_step (P : learner) (D : rates) (E : error_rates) (U : update) (nn : network) (dacts : list (R -> R)) (dlip : list tensor -> list tensor)
    (n : nat) (learning_rate : R) (states : list (list R)) (weights : list R) (ps : list tensor) : res (list tensor) :=
  do gs <- constrained_gradients P D E U nn dacts ps (dlip ps) n states weights;
  Ok (map2 (descend learning_rate) ps gs).
