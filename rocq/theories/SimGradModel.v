(** Model of [tf.gradients] of the example systems [InvertedPendulum] and [CartPole]
    (examples/utilities.py, lines 144-437): [build_evaluation] and [ode]
    differentiated backwards.  Policies are trained through these systems in
    examples/reinforcement_learning_pendulum.ipynb and
    examples/reinforcement_learning_cartpole.ipynb.

    Simplifications.  As in [DynModel]: the operations act on one row, with exact
    arithmetic; a batch of states and actions is one row after the other. *)
From Coq Require Import Reals List Bool Arith.
From Verif Require Import Prelude FunModel DynModel.
Import ListNotations.
Local Open Scope R_scope.

(** [ode], lines 257-289: the derivatives with respect to the state and the action. *)
Definition pendulum_ode_backprop (p : pendulum) (state action dx : row) : res (row * row) :=
  match state, action, dx with
  | [angle; velocity], [u], [d_velocity; d_ddot] =>
      let d_friction := if Rlt_dec 0 (friction p) then - d_ddot * (friction p / inertia p) else 0 in
      Ok ([d_ddot * (gravity / arm p) * cos angle; d_velocity + d_friction], [d_ddot / inertia p])
  | _, _, _ => Err ValueError
  end.

(** [ode], lines 402-437. *)
Definition cartpole_ode_backprop (p : cartpole) (state action dx : row) : res (row * row) :=
  let m := pole_mass p in let M := cart_mass p in let L := pole_length p in
  let b := rot_friction p in let g := gravity in
  match state, action, dx with
  | [x; theta; v; omega], [u], [d_x_dot; d_theta_dot; d_v_dot; d_omega_dot] =>
      let det := L * (M + m * Rsqr (sin theta)) in
      (* v_dot = n1 / det, omega_dot = n2 / det *)
      let n1 := (u - m * L * Rsqr omega * sin theta - b * omega * cos theta + 1 / 2 * m * g * L * sin (2 * theta)) * L in
      let n2 := u * cos theta - 1 / 2 * m * L * Rsqr omega * sin (2 * theta) - b * (m + M) * omega / (m * L) + (m + M) * g * sin theta in
      let d_n1 := d_v_dot / det in
      let d_n2 := d_omega_dot / det in
      let d_det := - d_v_dot * n1 / det / det - d_omega_dot * n2 / det / det in
      let d_theta :=
        d_n1 * L * (- m * L * Rsqr omega * cos theta + b * omega * sin theta + 1 / 2 * m * g * L * (2 * cos (2 * theta))) +
        d_n2 * (- u * sin theta - 1 / 2 * m * L * Rsqr omega * (2 * cos (2 * theta)) + (m + M) * g * cos theta) +
        d_det * L * m * (2 * sin theta * cos theta) in
      let d_omega :=
        d_theta_dot + d_n1 * L * (- m * L * (2 * omega) * sin theta - b * cos theta) +
        d_n2 * (- (1 / 2) * m * L * (2 * omega) * sin (2 * theta) - b * (m + M) / (m * L)) in
      Ok ([0; d_theta; d_x_dot; d_omega], [d_n1 * L + d_n2 * cos theta])
  | _, _, _ => Err ValueError
  end.

(** The loop backwards: [state + dt * state_derivative]. *)
Definition add (x y : row) : row := map2 Rplus x y.
Fixpoint euler_backprop (n : nat) (dt : R) (f : row -> res row) (df : row -> row -> res (row * row)) (x dy : row) : res (row * row) :=
  match n with
  | O => Ok (dy, [0])
  | S n' =>
      do dx <- f x;
      do r <- euler_backprop n' dt f df (euler dt x dx) dy;
      do s <- df x (map (Rmult dt) (fst r));
      Ok (add (fst r) (fst s), add (snd r) (snd s))
  end.

(** [build_evaluation], lines 242-255 and 387-400, backwards; products with diagonal
    matrices are differentiated by products with the same matrices. *)
Definition run_backprop (n : nat) (nm : normalization) (dt : R) (ode : row -> row -> res row)
    (dode : row -> row -> row -> res (row * row)) (state_action dy : row) : res row :=
  do xu <- split1 n state_action;
  do xu <- denormalize nm (fst xu) (Some (snd xu));
  match snd xu with
  | Some u =>
      do d <- normalize nm dy None;
      do r <- euler_backprop 10 (dt / 10) (fun x => ode x u) (fun x => dode x u) (fst xu) (fst d);
      do g <- denormalize nm (fst r) (Some (snd r));
      match snd g with
      | Some du => Ok (fst g ++ du)
      | None => Err TypeError
      end
  | None => Err TypeError
  end.
Definition pendulum_backprop (p : pendulum) : row -> row -> res row :=
  run_backprop 2 (pendulum_norm p) (pendulum_dt p) (pendulum_ode p) (pendulum_ode_backprop p).
Definition cartpole_backprop (p : cartpole) : row -> row -> res row :=
  run_backprop 4 (cartpole_norm p) (cartpole_dt p) (cartpole_ode p) (cartpole_ode_backprop p).

(** [concatenate_inputs(start=1)] and the evaluation of a batch, row by row; backwards,
    the part of the derivative that belongs to the actions. *)
Definition row_list (t : tensor) (i : nat) : row := map (entry t i) (seq 0 (cols t)).
Definition batched (n : nat) (f : row -> res row) (states actions : tensor) : res tensor :=
  do points <- hcat [states; actions];
  do ys <- mapM (fun i => f (row_list points i)) (seq 0 (rows points));
  Ok {| rows := rows points; cols := n; entry := fun i j => nth j (nth i ys []) 0 |}.
Definition batched_backprop (df : row -> row -> res row) (states actions dys : tensor) : tensor :=
  {| rows := rows actions; cols := cols actions;
     entry := fun i k =>
       match df (row_list states i ++ row_list actions i) (row_list dys i) with
       | Ok g => nth (cols states + k) g 0
       | Err _ => 0
       end |}.
