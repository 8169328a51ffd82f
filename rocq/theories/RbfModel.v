(** Model of [RBFNetwork] (examples/utilities.py, lines 123-141).

    Simplifications.  Exact arithmetic.  The variance is a number (the default is
    one); a network of variances per dimension is not modelled.  The weights, a
    TensorFlow variable, are an argument: one number per grid state. *)
From Coq Require Import Reals List Bool Arith ZArith.
From Verif Require Import Prelude NumModel FunModel QuadModel GridModel.
Import ListNotations.
Local Open Scope R_scope.

(** [self._betas] and [self._centres_3D] (without its first axis of length one):
    number of rows, number of columns, entries. *)
Record rbf : Type := { betas : R; c_rows : nat; c_cols : nat; c_entry : nat -> nat -> R }.

(** examples/utilities.py:130, [np.min]. *)
Definition np_min (l : list R) : R := fold_right Rmin (hd 0 l) l.
(** examples/utilities.py:127-130: the variance. *)
Definition rbf_variance (g : grid) (variances : option R) : R :=
  match variances with Some v => v | None => np_min (unit_maxes g) ^ 2 end.
(** examples/utilities.py:134: [np.reshape(self.centres.T, (1, ndim, h))], in the order
    of the entries of the transposed array; [h = -1] stands for the fitting number. *)
Definition reshape_centres (ndim : nat) (centres : list (list R)) (h : Z) : res (nat * (nat -> nat -> R)) :=
  let n := length centres in
  let cols := if (h =? -1)%Z then Z.of_nat n else h in
  if (Z.of_nat ndim * cols =? Z.of_nat (ndim * n))%Z && (0 <=? cols)%Z then
    let c := Z.to_nat cols in
    Ok (c, fun i j => let p := (i * c + j)%nat in nth (p / n) (nth (p mod n) centres []) 0)
  else Err ValueError.
(** examples/utilities.py:124-134, the constructor.  No line sets the attribute
    [_hidden_units]; [hidden_units] is its value if a subclass defines it. *)
Definition make_rbf (g : grid) (variances : option R) (hidden_units : option Z) : res rbf :=
  match hidden_units with
  | None => Err AttributeError
  | Some h =>
      do c <- reshape_centres (ndim g) (all_points g) h;
      Ok {| betas := 1 / (2 * rbf_variance g variances);
            c_rows := ndim g; c_cols := fst c; c_entry := snd c |}
  end.

(** examples/utilities.py:138-139: entry [k] of the row of [phi_X] of one state;
    axes of length one are broadcast. *)
Definition broadcast_width (a b : nat) : res nat :=
  if Nat.eqb a b then Ok a else if Nat.eqb a 1 then Ok b else if Nat.eqb b 1 then Ok a else Err ValueError.
Definition at_axis (n i : nat) : nat := if Nat.eqb n 1 then 0%nat else i.
Definition phi (f : rbf) (x : list R) (k : nat) : res R :=
  do w <- broadcast_width (length x) (c_rows f);
  Ok (exp (- betas f * rsum w (fun d =>
        (nth (at_axis (length x) d) x 0 - c_entry f (at_axis (c_rows f) d) k) ^ 2))).
(** examples/utilities.py:136-141, [build_evaluation] for one state. *)
Definition rbf_eval (f : rbf) (weights : list R) (x : list R) : res R :=
  if Nat.eqb (c_cols f) (length weights) then
    do p <- mapM (phi f x) (seq 0 (c_cols f));
    Ok (rsum (c_cols f) (fun k => nth k p 0 * nth k weights 0))
  else Err ValueError.
