(** Model of [LyapunovNetwork] (examples/utilities.py, lines 48-104).

    Simplifications.  Tensors as in [FunModel]; the values of the variables are a
    list in the order of their creation; activations work on single numbers.
    [print_params] and [layer_partitions], which is only used for printing, are
    left out. *)
From Coq Require Import Reals List Bool Arith.
From Verif Require Import Prelude FunModel QuadModel.
Import ListNotations.
Local Open Scope R_scope.

Record lyapunov_network := {
  input_dim : nat; output_dims : list nat; hidden_dims : list nat;
  activations : list (R -> R); eps : R
}.

(** [np.all(np.diff(l) >= 0)], line 64. *)
Fixpoint non_decreasing (l : list nat) : bool :=
  match l with
  | a :: (b :: _) as l' => andb (Nat.leb a b) (non_decreasing l')
  | _ => true
  end.
(** [self.output_dims[i - 1]], or [self.input_dim] for i = 0, lines 70-74 and 91-94. *)
Definition layer_input_dims (n : nat) (dims : list nat) : list nat := removelast (n :: dims).

(** [__init__], lines 51-75; ceil((d + 1) / 2) with exact division. *)
Definition make_lyapunov_network (n : nat) (layer_dims : list nat) (acts : list (R -> R)) (e : R)
    : res lyapunov_network :=
  match layer_dims with
  | [] => Err IndexError
  | d0 :: _ =>
      if Nat.ltb d0 n then Err ValueError
      else if non_decreasing layer_dims then
        Ok {| input_dim := n; output_dims := layer_dims;
              hidden_dims := map (fun d => Nat.div (d + 1 + 1) 2) (layer_input_dims n layer_dims);
              activations := acts; eps := e |}
      else Err ValueError
  end.

(** The next variable; it was created with the shape [r, c]. *)
Definition get_variable (r c : nat) (ps : list tensor) : res (tensor * list tensor) :=
  match ps with
  | W :: ps' => if andb (Nat.eqb (rows W) r) (Nat.eqb (cols W) c) then Ok (W, ps') else Err ValueError
  | [] => Err ValueError
  end.
Definition eye (n : nat) : tensor :=
  {| rows := n; cols := n; entry := fun i j => if Nat.eqb i j then 1 else 0 |}.
(** [tf.concat(.., axis=0)] *)
Definition vcat2 (t u : tensor) : res tensor :=
  if Nat.eqb (cols t) (cols u) then
    Ok {| rows := rows t + rows u; cols := cols t;
          entry := fun i j => if Nat.ltb i (rows t) then entry t i j else entry u (i - rows t) j |}
  else Err ValueError.

(** The loop of [build_evaluation], lines 90-102. *)
Fixpoint lyapunov_layers (e : R) (d : nat) (dims hid : list nat) (acts : list (R -> R))
    (ps : list tensor) (net : tensor) : res tensor :=
  match dims, hid with
  | d' :: dims', h :: hid' =>
      do Wp <- get_variable h d ps;
      let W := fst Wp in
      do gram <- matmul (transpose W) W;
      do reg <- op2 Rmult (Number e) (Tensor (eye d));
      do kernel <- op2 Rplus (Tensor gram) reg;
      do Kp <- (if Nat.ltb d d' then
                  do Vp <- get_variable (d' - d) d (snd Wp);
                  do k <- vcat2 (as_tensor kernel) (fst Vp);
                  Ok (k, snd Vp)
                else Ok (as_tensor kernel, snd Wp));
      do out <- matmul net (transpose (fst Kp));
      match acts with
      | [] => Err IndexError
      | f :: acts' =>
          lyapunov_layers e d' dims' hid' acts' (snd Kp)
            {| rows := rows out; cols := cols out; entry := fun i j => f (entry out i j) |}
      end
  | _, _ => Ok net
  end.

(** [build_evaluation], lines 85-104. *)
Definition lyapunov_eval (v : lyapunov_network) (ps : list tensor) (points : tensor) : res tensor :=
  do net <- lyapunov_layers (eps v) (input_dim v) (output_dims v) (hidden_dims v) (activations v) ps points;
  Ok {| rows := rows net; cols := 1;
        entry := fun i _ => rsum (cols net) (fun j => Rsqr (entry net i j)) |}.
