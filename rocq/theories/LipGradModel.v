(** Model of the gradient of [NeuralNetwork.lipschitz] (safe_learning/functions.py, lines
    1731-1786) with respect to the parameters of the network, which the safe policy
    update of examples/inverted_pendulum.ipynb (cells 14 and 17, counted from 0) uses.

    Simplifications.  TensorFlow returns no gradient for the biases, which is the same as
    zeros when it is added to others. *)
From Coq Require Import Reals List Bool Arith.
From Verif Require Import Prelude FunModel QuadModel NNModel.
Import ListNotations.
Local Open Scope R_scope.

(** The rule for [tf.reduce_max] (line 1761): the entries that are equal to the maximum
    have equal shares. *)
Definition reduce_max_grad (l : list R) (dy : R) : list R :=
  let hits := map (fun x => if Req_EM_T x (reduce_max l) then 1 else 0) l in
  map (fun h => h / fold_right Rplus 0 hits * dy) hits.

Section Gradient.
Variable tf_svd : tensor -> (nat -> R) * tensor * tensor.
(** [_svd], lines 1765-1786 backwards: [U0] and [V0] are constants. *)
Definition svd_backprop (A : tensor) (ds : list R) : tensor :=
  let '(_, U, V) := tf_svd A in
  {| rows := rows A; cols := cols A;
     entry := fun i j => rsum (Nat.min (rows A) (cols A)) (fun k => entry U i k * nth k ds 0 * entry V j k) |}.
Definition factor (W : tensor) : R := reduce_max (svd tf_svd W).
Definition factor_backprop (W : tensor) (dy : R) : tensor := svd_backprop W (reduce_max_grad (svd tf_svd W) dy).

(** Lines 1757-1763 backwards, given the product [lip] before these factors: the
    derivative with respect to [lip] and those with respect to the weights. *)
Fixpoint product_backprop (lip : R) (Ws : list tensor) (dy : R) : R * list tensor :=
  match Ws with
  | [] => (dy, [])
  | W :: Ws' =>
      let '(d, gs) := product_backprop (lip * factor W) Ws' dy in
      (d * factor W, factor_backprop W (d * lip) :: gs)
  end.

(** [_parameter_iter], lines 1731-1740 backwards: the derivatives with respect to the
    weights as derivatives with respect to the parameters. *)
Definition zeros (A : tensor) : tensor := {| rows := rows A; cols := cols A; entry := fun _ _ => 0 |}.
Fixpoint spread (ps gs : list tensor) : list tensor :=
  match ps, gs with
  | [_; _], [g; g'] => [g; g']
  | _ :: b :: ps', g :: gs' => g :: zeros b :: spread ps' gs'
  | [_], [g] => [g]
  | _, _ => []
  end.
Definition lipschitz_gradients (ps : list tensor) : res (list tensor) :=
  do Ws <- parameter_iter ps;
  Ok (spread ps (snd (product_backprop 1 Ws 1))).
End Gradient.
