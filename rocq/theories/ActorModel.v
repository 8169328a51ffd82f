(** Model of the actor-critic examples
    [examples/reinforcement_learning_pendulum.ipynb] (lines 163-167, 240-272, 492-500,
    545-568 and 784-822) and [examples/reinforcement_learning_cartpole.ipynb] (lines
    167-171, 237-275): rewards, scaling, the objectives of critic and actor, and one
    gradient step.

    Simplifications.  Tensors as in [FunModel].  Policy, dynamics and value function
    are arguments; a graph is represented by the value it computes.  The optimizers
    get the gradient of what they minimize; [tf.stop_gradient] makes the value
    function in the target an argument of its own.  The matrix [R] is called [Rc].
    Arithmetic is exact.                                                      *)
From Coq Require Import Reals List Bool Arith.
From Verif Require Import Prelude FunModel QuadModel.
Import ListNotations.
Local Open Scope R_scope.

Definition neg (t : tensor) : tensor :=
  {| rows := rows t; cols := cols t; entry := fun i j => - entry t i j |}.
(** [scipy.linalg.block_diag] of two matrices. *)
Definition block_diag (a b : tensor) : tensor :=
  {| rows := rows a + rows b; cols := cols a + cols b;
     entry := fun i j =>
       if andb (Nat.ltb i (rows a)) (Nat.ltb j (cols a)) then entry a i j
       else if orb (Nat.ltb i (rows a)) (Nat.ltb j (cols a)) then 0
       else entry b (i - rows a) (j - cols a) |}.
(** Pendulum, line 167; cartpole, line 171. *)
Definition reward_function (Q Rc : tensor) (states actions : tensor) : res tensor :=
  quadratic_eval (quadratic_function (Matrix (block_diag (neg Q) (neg Rc)))) [states; actions].

(** [np.ones((1, n))], [np.linalg.multi_dot] of three matrices, and [r_max]
    (pendulum, lines 256-258; cartpole, lines 250-252). *)
Definition ones (n : nat) : tensor := {| rows := 1; cols := n; entry := fun _ _ => 1 |}.
Definition multi_dot (a b c : tensor) : res tensor := do ab <- matmul a b; matmul ab c.
Definition r_max (Q Rc : tensor) (state_dim action_dim : nat) : res R :=
  let max_state := ones state_dim in
  let max_action := ones action_dim in
  do a <- multi_dot max_state Q (transpose max_state);
  do b <- multi_dot max_action Rc (transpose max_action);
  do s <- op2 Rplus (Tensor a) (Tensor b);
  Ok (entry (as_tensor s) 0%nat 0%nat).
(** The two scalings: pendulum, lines 805-806; cartpole, lines 255-256. *)
Definition plain_scaling (gamma r : R) : R := 1 / r.
Definition discount_scaling (gamma r : R) : R := (1 - gamma) / r.

(** [tf.reduce_mean] *)
Definition reduce_mean (t : tensor) : R :=
  rsum (rows t) (fun i => rsum (cols t) (fun j => entry t i j)) / (INR (rows t) * INR (cols t)).
Definition tf_abs (v : value) : tensor :=
  let t := as_tensor v in
  {| rows := rows t; cols := cols t; entry := fun i j => Rabs (entry t i j) |}.

Section Graph.
  Variables Q Rc : tensor.
  Variable state_dim action_dim : nat.
  Variable dynamics : tensor -> tensor -> res tensor.
  Variable gamma : R.

  (** [rewards + gamma * future_values]: pendulum, lines 245-251 and 263, 548-552 and
      563, 789-793 and 811, 819; cartpole, lines 238-243 and 261, 269. *)
  Definition lookahead (policy values : tensor -> res tensor) (states : tensor) : res value :=
    do actions <- policy states;
    do rewards <- reward_function Q Rc states actions;
    do future_states <- dynamics states actions;
    do future_values <- values future_states;
    do scaled <- op2 Rmult (Number gamma) (Tensor future_values);
    op2 Rplus (Tensor rewards) scaled.

  (** The objective of the critic: pendulum, lines 263-264 and 811-812; cartpole,
      lines 261-262.  [frozen] is the value function of the target. *)
  Definition value_objective (scaling : R -> R -> R) (policy frozen values : tensor -> res tensor)
      (states : tensor) : res R :=
    do target <- lookahead policy frozen states;
    do now <- values states;
    do diff <- op2 Rminus (Tensor now) target;
    do r <- r_max Q Rc state_dim action_dim;
    Ok (scaling gamma r * reduce_mean (tf_abs diff)).

  (** The objective of the actor: pendulum, lines 563 and 819; cartpole, line 269. *)
  Definition policy_objective (policy values : tensor -> res tensor) (states : tensor) : res R :=
    do future <- lookahead policy values states;
    do r <- r_max Q Rc state_dim action_dim;
    Ok (- discount_scaling gamma r * reduce_mean (as_tensor future)).

  (** One [session.run(value_update)] (pendulum, lines 268-269 and 813-814; cartpole,
      lines 263-264) for value functions with one parameter: a step against the
      derivative of the objective, in which the target is a constant. *)
  Definition value_update (scaling : R -> R -> R) (policy : tensor -> res tensor)
      (values : R -> tensor -> res tensor) (rate : R) (states : tensor) (w w' : R) : Prop :=
    exists f l,
      (forall u, value_objective scaling policy (values w) (values u) states = Ok (f u)) /\
      derivable_pt_lim f w l /\ w' = w - rate * l.
End Graph.

(** Pendulum, lines 494-495: the objective for given values. *)
Definition supervised_objective (values : tensor -> res tensor) (states true_values : tensor) : res R :=
  do now <- values states;
  do diff <- op2 Rminus (Tensor now) (Tensor true_values);
  Ok (reduce_mean (tf_abs diff)).
