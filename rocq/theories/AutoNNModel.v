(** Model of [tf.gradients] of an evaluated [NeuralNetwork]: the operations of
    [build_evaluation] (safe_learning/functions.py, lines 1702-1729) differentiated
    backwards.  This is how policies and value functions that are neural networks
    are trained (examples/inverted_pendulum.ipynb cells 9 and 17,
    examples/reinforcement_learning_pendulum.ipynb cells 16, 31, 34 and 48).

    Simplifications.  As in [NNModel]; exact arithmetic.  Every activation comes
    with the function of its input that TensorFlow multiplies the incoming
    derivative with (for [tf.nn.relu]: 1 for positive inputs, else 0); it is not used
    where the activation is [None]. *)
From Coq Require Import Reals List Bool Arith.
From Verif Require Import Prelude FunModel QuadModel NNModel.
Import ListNotations.
Local Open Scope R_scope.

(** An activation with its derivative, and a layer: the number of units, the
    activation and whether there is a bias. *)
Definition act : Type := activation * (R -> R).
Definition act_grad (a : act) (x : R) : R := match fst a with Some _ => snd a x | None => 1 end.
Definition layer : Type := nat * act * bool.

(** functions.py lines 1710-1725: the layers in the order of evaluation; only hidden
    layers have a bias. *)
Definition nn_layers (nn : network) (dacts : list (R -> R)) : list layer :=
  let acts : list act := combine (nonlinearities nn) dacts in
  map (fun ua : nat * act => (ua, use_bias nn)) (zip (but_last (layers nn)) (but_last acts)) ++
  [(last (layers nn) 0%nat, last acts (None, fun _ => 1), false)].

(** functions.py lines 1712-1717 and 1720-1725 before the activation: the variables of a
    layer and the remaining ones. *)
Definition dense_vars (b : bool) (ps : list tensor) : res (tensor * option tensor * list tensor) :=
  match b, ps with
  | true, W :: B :: ps' => Ok (W, Some B, ps')
  | false, W :: ps' => Ok (W, None, ps')
  | _, _ => Err ValueError
  end.

(** The layers backwards.  [dys] is the derivative with respect to the result. *)
Fixpoint dense_backprop (scale : R) (ls : list layer) (ps : list tensor) (net dys : tensor)
    : res (tensor * list tensor) :=
  match ls with
  | [] =>
      match ps with
      | [] => (* functions.py line 1728: tf.multiply(net, output_scale) *)
              Ok ({| rows := rows net; cols := cols net; entry := fun i j => entry dys i j * scale |}, [])
      | _ => Err ValueError
      end
  | (units, a, b) :: ls' =>
      do v <- dense_vars b ps;
      let '(W, B, ps') := v in
      do inputs <- dense net units W B None;
      do r <- dense_backprop scale ls' ps'
                {| rows := rows inputs; cols := cols inputs;
                   entry := fun i j => activate (fst a) (entry inputs i j) |} dys;
      (* the activation *)
      let dinputs := {| rows := rows inputs; cols := cols inputs;
                        entry := fun i j => entry (fst r) i j * act_grad a (entry inputs i j) |} in
      (* tf.matmul(net, W) *)
      do dnet <- matmul dinputs (transpose W);
      do dW <- matmul (transpose net) dinputs;
      (* tf.nn.bias_add: the sum over the rows *)
      let dB := {| rows := 1; cols := cols inputs;
                   entry := fun _ j => rsum (rows inputs) (fun i => entry dinputs i j) |} in
      Ok (dnet, dW :: match B with Some _ => [dB] | None => [] end ++ snd r)
  end.

(** [tf.gradients(nn(points), [points] + nn.parameters, grad_ys=dys)] *)
Definition nn_gradients (nn : network) (dacts : list (R -> R)) (ps : list tensor) (points dys : tensor)
    : res (tensor * list tensor) :=
  match nonlinearities nn with
  | [] => Err IndexError
  | _ => dense_backprop (output_scale nn) (nn_layers nn dacts) ps points dys
  end.

(** [tf.nn.relu] and what TensorFlow takes for its derivative. *)
Definition relu (x : R) : R := Rmax x 0.
Definition relu_grad (x : R) : R := if Rlt_dec 0 x then 1 else 0.
