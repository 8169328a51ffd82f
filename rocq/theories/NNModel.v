(** Model of [NeuralNetwork] (safe_learning/functions.py, lines 1665-1786).

    Simplifications.  Tensors as in [FunModel]; the values of the trainable
    variables are a list in the order of their creation, i.e. [self.parameters];
    activations work on single numbers.  [tf.svd] is an argument.  Matrices have at
    least one row and one column. *)
From Coq Require Import Reals List Bool Arith.
From Verif Require Import Prelude FunModel QuadModel.
Import ListNotations.
Local Open Scope R_scope.

Definition activation := option (R -> R).
Definition activate (a : activation) (x : R) : R := match a with Some f => f x | None => x end.

Record network := {
  layers : list nat; nonlinearities : list activation; output_scale : R; use_bias : bool
}.

(** [l[:-1]], and [zip]. *)
Definition but_last {A} (l : list A) : list A := removelast l.
Fixpoint zip {A B} (l : list A) (m : list B) : list (A * B) :=
  match l, m with a :: l', b :: m' => (a, b) :: zip l' m' | _, _ => [] end.

(** [tf.layers.dense]: the variables were created with [units] columns (a row of
    [units] numbers for the bias) and one row for each column of the input. *)
Definition dense (net : tensor) (units : nat) (W : tensor) (b : option tensor) (a : activation)
    : res tensor :=
  if Nat.eqb (cols W) units then
    do lin <- matmul net W;
    do out <- match b with
              | None => Ok (Tensor lin)
              | Some b => if andb (Nat.eqb (rows b) 1) (Nat.eqb (cols b) units)
                          then op2 Rplus (Tensor lin) (Tensor b) else Err ValueError
              end;
    let t := as_tensor out in
    Ok {| rows := rows t; cols := cols t; entry := fun i j => activate a (entry t i j) |}
  else Err ValueError.

(** The loop of [build_evaluation], lines 1710-1717; the variables not used up are
    returned as well. *)
Fixpoint hidden (bias : bool) (ls : list (nat * activation)) (ps : list tensor) (net : tensor)
    : res (tensor * list tensor) :=
  match ls with
  | [] => Ok (net, ps)
  | (units, a) :: ls' =>
      match bias, ps with
      | true, W :: b :: ps' => do net' <- dense net units W (Some b) a; hidden bias ls' ps' net'
      | false, W :: ps' => do net' <- dense net units W None a; hidden bias ls' ps' net'
      | _, _ => Err ValueError
      end
  end.

(** [build_evaluation], lines 1702-1729. *)
Definition nn_eval (nn : network) (ps : list tensor) (points : tensor) : res tensor :=
  do hid <- hidden (use_bias nn) (zip (but_last (layers nn)) (but_last (nonlinearities nn))) ps points;
  match snd hid, nonlinearities nn with
  | [W], _ :: _ =>
      do net <- dense (fst hid) (last (layers nn) 0%nat) W None (last (nonlinearities nn) None);
      Ok {| rows := rows net; cols := cols net;
            entry := fun i j => entry net i j * output_scale nn |}
  | _ :: _, [] => Err IndexError
  | _, _ => Err ValueError
  end.

(** [_parameter_iter], lines 1731-1740: the first components. *)
Fixpoint in_pairs (ps : list tensor) : list tensor :=
  match ps with
  | W :: b :: ps' => W :: in_pairs ps'
  | _ => []
  end.
Definition parameter_iter (ps : list tensor) : res (list tensor) :=
  match ps with
  | [] => Err IndexError
  | p :: _ => Ok (in_pairs ps ++ [last ps p])
  end.

(** [_svd], lines 1765-1786: the diagonal of U' A V. *)
Section Lipschitz.
Variable tf_svd : tensor -> (nat -> R) * tensor * tensor.
Definition svd (A : tensor) : list R :=
  let '(_, U, V) := tf_svd A in
  map (fun k => rsum (rows A) (fun i => entry U i k * rsum (cols A) (fun j => entry A i j * entry V j k)))
      (seq 0 (Nat.min (rows A) (cols A))).
Definition reduce_max (l : list R) : R :=
  match l with [] => 0 | x :: l' => fold_left Rmax l' x end.

(** [lipschitz], lines 1742-1763. *)
Definition lipschitz (ps : list tensor) : res R :=
  do Ws <- parameter_iter ps;
  Ok (fold_left (fun lip W => lip * reduce_max (svd W)) Ws 1).
End Lipschitz.
