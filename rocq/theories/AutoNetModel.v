(** Model of [tf.gradients] of an evaluated [LyapunovNetwork] (examples/utilities.py,
    lines 85-104): the operations of [build_evaluation] differentiated backwards.
    examples/lyapunov_function_learning.ipynb uses the derivatives with respect to
    the points as Lipschitz constants (cell 19) and those with respect to the
    variables for training (cells 25 and 30).

    Simplifications.  As in [LyapNetModel]; exact arithmetic.  Every activation
    comes with the function of its input that TensorFlow multiplies the incoming
    derivative with (for [tf.tanh]: 1 - tanh^2). *)
From Coq Require Import Reals List Bool Arith.
From Verif Require Import Prelude FunModel QuadModel LyapNetModel.
Import ListNotations.
Local Open Scope R_scope.

(** Lines 95-100: the variables of one layer and its matrix. *)
Record layer_vars := { root : tensor; added : option tensor; matrix : tensor; others : list tensor }.
Definition layer_kernel (e : R) (d d' h : nat) (ps : list tensor) : res layer_vars :=
  do Wp <- get_variable h d ps;
  let W := fst Wp in
  do gram <- matmul (transpose W) W;
  do reg <- op2 Rmult (Number e) (Tensor (eye d));
  do kernel <- op2 Rplus (Tensor gram) reg;
  if Nat.ltb d d' then
    do Vp <- get_variable (d' - d) d (snd Wp);
    do k <- vcat2 (as_tensor kernel) (fst Vp);
    Ok {| root := W; added := Some (fst Vp); matrix := k; others := snd Vp |}
  else Ok {| root := W; added := None; matrix := as_tensor kernel; others := snd Wp |}.

(** [tf.slice] of rows, the derivative of [tf.concat] *)
Definition row_slice (start len : nat) (t : tensor) : tensor :=
  {| rows := len; cols := cols t; entry := fun i j => entry t (start + i) j |}.

(** The loop backwards: the derivatives with respect to the input of the layers and to
    the variables.  [acts] pairs the activations with their derivatives; [dys] is
    the derivative with respect to the values. *)
Fixpoint layers_backprop (e : R) (d : nat) (dims hid : list nat) (acts : list ((R -> R) * (R -> R)))
    (ps : list tensor) (net dys : tensor) : res (tensor * list tensor) :=
  match dims, hid with
  | d' :: dims', h :: hid' =>
      do k <- layer_kernel e d d' h ps;
      do out <- matmul net (transpose (matrix k));
      match acts with
      | [] => Err IndexError
      | (f, df) :: acts' =>
          do r <- layers_backprop e d' dims' hid' acts' (others k)
                    {| rows := rows out; cols := cols out; entry := fun i j => f (entry out i j) |} dys;
          (* the activation *)
          let dout := {| rows := rows out; cols := cols out;
                         entry := fun i j => entry (fst r) i j * df (entry out i j) |} in
          (* tf.matmul(net, kernel, transpose_b=True) *)
          do dnet <- matmul dout (matrix k);
          do dkernel <- matmul (transpose dout) net;
          (* tf.concat, tf.matmul(W, W, transpose_a=True) + constant *)
          let dgram := row_slice 0 d dkernel in
          do dW1 <- matmul (root k) (transpose dgram);
          do dW2 <- matmul (root k) dgram;
          do dW <- op2 Rplus (Tensor dW1) (Tensor dW2);
          Ok (dnet, as_tensor dW ::
                    match added k with Some _ => [row_slice d (d' - d) dkernel] | None => [] end ++ snd r)
      end
  | _, _ =>
      (* reduce_sum(square(net), axis=1, keepdims=True) *)
      Ok ({| rows := rows net; cols := cols net; entry := fun i j => entry dys i 0%nat * (2 * entry net i j) |}, [])
  end.

(** [tf.gradients(network(points), [points] + network.parameters, grad_ys=dys)] *)
Definition lyapunov_gradients (v : lyapunov_network) (dacts : list (R -> R)) (ps : list tensor) (points dys : tensor)
    : res (tensor * list tensor) :=
  layers_backprop (eps v) (input_dim v) (output_dims v) (hidden_dims v) (combine (activations v) dacts) ps points dys.

(** Cell 19: [grad_lyapunov_function(x)] and [L_v(x)]. *)
Definition grad_lyapunov_function (v : lyapunov_network) (dacts : list (R -> R)) (ps : list tensor) (x : tensor) : res tensor :=
  do r <- lyapunov_gradients v dacts ps x {| rows := rows x; cols := 1; entry := fun _ _ => 1 |};
  Ok (fst r).
Definition L_v (v : lyapunov_network) (dacts : list (R -> R)) (ps : list tensor) (x : tensor) : res tensor :=
  do g <- grad_lyapunov_function v dacts ps x;
  Ok {| rows := rows g; cols := 1; entry := fun i _ => rsum (cols g) (fun k => Rabs (entry g i k)) |}.
