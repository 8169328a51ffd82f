(** Model of the gradient steps in the training of Lyapunov networks,
    examples/lyapunov_function_learning.ipynb: the graph of cell 30 with
    [GradientDescentOptimizer.minimize], and that of cell 25 for the optional
    pre-training.

    Simplifications.  As in [AutoNetModel] and [RoaTrainModel]; exact arithmetic.  A batch is an
    array of states with the array of next states, which do not depend on the
    network, labels and class weights.  [safe_level], [lagrange_multiplier] and
    [learning_rate] are placeholders. *)
From Coq Require Import Reals List Bool Arith.
From Verif Require Import Prelude FunModel QuadModel LyapNetModel AutoNetModel AutoNNModel.
From Verif Require Import NumModel GridModel TriModel AutoTriModel SafeModel CertModel LoopModel ExUtilModel RoaTrainModel PolGradModel.
Import ListNotations.
Local Open Scope R_scope.

Record batch := { b_states : tensor; b_next : tensor; b_labels : nat -> bool; b_weights : nat -> R }.
Definition column (n : nat) (f : nat -> R) : tensor := {| rows := n; cols := 1; FunModel.entry := fun i _ => f i |}.

(** Cell 30: [objective] *)
Definition training_objective (v : lyapunov_network) (safe_level lagrange eps : R) (b : batch) (ps : list tensor) : res R :=
  do V <- lyapunov_eval v ps (b_states b);
  do V' <- lyapunov_eval v ps (b_next b);
  let n := rows (b_states b) in
  Ok (rsum n (fun i =>
        classifier_loss safe_level (b_weights b i) (to_float (b_labels b i)) (FunModel.entry V i 0%nat) +
        lagrange * decrease_loss eps (to_float (b_labels b i)) (FunModel.entry V i 0%nat) (FunModel.entry V' i 0%nat)) / INR n).

(** [objective] backwards: derivatives with respect to all parameters.  Nothing is
    propagated through [tf.stop_gradient]. *)
Definition training_gradients (v : lyapunov_network) (dacts : list (R -> R)) (safe_level lagrange eps : R) (b : batch) (ps : list tensor)
    : res (list tensor) :=
  do V <- lyapunov_eval v ps (b_states b);
  do V' <- lyapunov_eval v ps (b_next b);
  let n := rows (b_states b) in
  let drow := 1 / INR n in
  (* class_weights * tf.maximum(- class_labels * decision_distance, 0) *)
  let ddistance i :=
    let class_label := 2 * to_float (b_labels b i) - 1 in
    let z := - class_label * (safe_level - FunModel.entry V i 0%nat) in
    - class_label * maximum_grad z 0 (b_weights b i * drow) in
  (* roa_labels * tf.maximum(tf_dv_nn, 0) / tf.stop_gradient(tf_values_nn + OPTIONS.eps) *)
  let ddv i :=
    maximum_grad (FunModel.entry V' i 0%nat - FunModel.entry V i 0%nat) 0
      (to_float (b_labels b i) * (lagrange * drow / (FunModel.entry V i 0%nat + eps))) in
  do r <- lyapunov_gradients v dacts ps (b_states b) (column n (fun i => - ddistance i + - ddv i));
  do r' <- lyapunov_gradients v dacts ps (b_next b) (column n ddv);
  Ok (map2 (fun g g' => {| rows := rows g; cols := cols g;
                           FunModel.entry := fun i j => FunModel.entry g i j + FunModel.entry g' i j |}) (snd r) (snd r')).
(** [training_update] *)
Definition training_update (v : lyapunov_network) (dacts : list (R -> R)) (safe_level lagrange eps learning_rate : R) (b : batch)
    (ps : list tensor) : res (list tensor) :=
  do gs <- training_gradients v dacts safe_level lagrange eps b ps;
  Ok (map2 (descend learning_rate) ps gs).

(** Cell 25: the distance from given values [targets], [tf_objective] and its derivatives; the
    derivative of [tf.abs] is [tf.sign]. *)
Definition tf_sign (x : R) : R := if Rlt_dec 0 x then 1 else if Rlt_dec x 0 then -1 else 0.
Definition pre_objective (v : lyapunov_network) (targets : nat -> R) (X : tensor) (ps : list tensor) : res R :=
  do V <- lyapunov_eval v ps X;
  Ok (rsum (rows X) (fun i => Rabs (FunModel.entry V i 0%nat - targets i)) / INR (rows X)).
Definition pre_gradients (v : lyapunov_network) (dacts : list (R -> R)) (targets : nat -> R) (X : tensor) (ps : list tensor) : res (list tensor) :=
  do V <- lyapunov_eval v ps X;
  do r <- lyapunov_gradients v dacts ps X
            (column (rows X) (fun i => 1 / INR (rows X) * tf_sign (FunModel.entry V i 0%nat - targets i)));
  Ok (snd r).
Definition pre_update (v : lyapunov_network) (dacts : list (R -> R)) (targets : nat -> R) (learning_rate : R) (X : tensor)
    (ps : list tensor) : res (list tensor) :=
  do gs <- pre_gradients v dacts targets X ps;
  Ok (map2 (descend learning_rate) ps gs).
