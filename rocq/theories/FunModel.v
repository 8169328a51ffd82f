(** Model of the function objects of [safe_learning/functions.py]: [Function]
    (lines 31-122), [AddedFunction] (125-160), [MultipliedFunction] (163-199),
    [ConstantFunction] (241-251) and [Saturation] (310-354).

    Simplifications.  Tensors have two axes; a TensorFlow graph is represented by
    the value it computes.  A leaf stands for any other [Function] whose
    variables are created by its constructor (as those of [Triangulation]) and
    whose [build_evaluation] is decorated with [concatenate_inputs]; variables
    are identified by numbers and their values are kept in a store.  The
    assignments of one [sess.run] happen in the order of the list. *)
From Coq Require Import Reals List Bool Arith.
From Verif Require Import Prelude.
Import ListNotations.
Local Open Scope R_scope.

(** Entries outside the shape are meaningless. *)
Record tensor := { rows : nat; cols : nat; entry : nat -> nat -> R }.
Inductive value := Number (x : R) | Tensor (t : tensor).

(** Broadcasting of one axis, and of the elementwise operators. *)
Definition bdim (a b : nat) : res nat :=
  if Nat.eqb a b then Ok a
  else if Nat.eqb a 1 then Ok b
  else if Nat.eqb b 1 then Ok a
  else Err ValueError.
Definition bidx (n i : nat) : nat := if Nat.eqb n 1 then 0%nat else i.
Definition op2 (f : R -> R -> R) (a b : value) : res value :=
  match a, b with
  | Number x, Number y => Ok (Number (f x y))
  | Number x, Tensor t =>
      Ok (Tensor {| rows := rows t; cols := cols t; entry := fun i j => f x (entry t i j) |})
  | Tensor t, Number y =>
      Ok (Tensor {| rows := rows t; cols := cols t; entry := fun i j => f (entry t i j) y |})
  | Tensor t, Tensor u =>
      do r <- bdim (rows t) (rows u);
      do c <- bdim (cols t) (cols u);
      Ok (Tensor {| rows := r; cols := c;
                    entry := fun i j => f (entry t (bidx (rows t) i) (bidx (cols t) j))
                                          (entry u (bidx (rows u) i) (bidx (cols u) j)) |})
  end.

(** [tf.concat(.., axis=1)] *)
Definition hcat2 (t u : tensor) : res tensor :=
  if Nat.eqb (rows t) (rows u) then
    Ok {| rows := rows t; cols := cols t + cols u;
          entry := fun i j => if Nat.ltb j (cols t) then entry t i j else entry u i (j - cols t) |}
  else Err ValueError.
Fixpoint hcat (l : list tensor) : res tensor :=
  match l with
  | [] => Err ValueError
  | [t] => Ok t
  | t :: l' => do u <- hcat l'; hcat2 t u
  end.

Definition store := nat -> tensor.
Definition upd (s : store) (v : nat) (t : tensor) : store :=
  fun w => if Nat.eqb w v then t else s w.

(** Function objects.  [Leaf vars dims ev]: a leaf with these variables, its
    input and output dimension, and its evaluation given the values of the
    variables.  [Const None] is what [ConstantFunction(None)] makes. *)
Inductive fn :=
| Leaf (vars : list nat) (dims : nat * nat) (ev : list tensor -> tensor -> res value)
| Const (c : option value)
| Added (f g : fn)
| Multiplied (f g : fn)
| Saturated (f : fn) (lower upper : value).

(** The attributes [input_dim] and [output_dim]: sums, products and constants do
    not have them. *)
Definition dims (f : fn) : res (nat * nat) :=
  (fix go (f : fn) : res (nat * nat) :=
     match f with
     | Leaf _ d _ => Ok d
     | Saturated g _ _ => go g
     | _ => Err AttributeError
     end) f.

(** The constructor of [Saturation], lines 323-337; [None] has no attributes. *)
Definition make_saturation (f : option fn) (lower upper : value) : res fn :=
  match f with
  | None => Err AttributeError
  | Some f => do _ <- dims f; Ok (Saturated f lower upper)
  end.

(** [build_evaluation], lines 157-160, 196-199, 249-251, 349-354.  Computing with
    the constant [None] is an error. *)
Fixpoint eval (s : store) (f : fn) (points : tensor) : res value :=
  match f with
  | Leaf vars _ ev => ev (map s vars) points
  | Const (Some c) => Ok c
  | Const None => Err TypeError
  | Added f g => do a <- eval s f points; do b <- eval s g points; op2 Rplus a b
  | Multiplied f g => do a <- eval s f points; do b <- eval s g points; op2 Rmult a b
  | Saturated f lower upper =>
      do r <- eval s f points; do a <- op2 Rmax r lower; op2 Rmin a upper
  end.

(** [__call__], lines 63-82: the inputs are concatenated by the decorator of
    [build_evaluation], which [Saturation] does not have. *)
Definition call (s : store) (f : fn) (args : list tensor) : res value :=
  match f, args with
  | Saturated _ _ _, [x] => eval s f x
  | Saturated _ _ _, _ => Err TypeError
  | _, _ => do x <- hcat args; eval s f x
  end.

(** [parameters], lines 57-61, 147-150, 185-188; [Saturation] has the scope of the
    wrapped function (lines 339-342). *)
Fixpoint parameters (f : fn) : list nat :=
  match f with
  | Leaf vars _ _ => vars
  | Const _ => []
  | Added f g | Multiplied f g => parameters f ++ parameters g
  | Saturated f _ _ => parameters f
  end.

(** Python's operators on functions and numbers, lines 112-122.  There are no
    reflected operators. *)
Inductive pyobj := PF (f : fn) | PN (x : R).
Definition lift (o : pyobj) : fn :=
  match o with PF f => f | PN x => Const (Some (Number x)) end.
Definition py_add (a b : pyobj) : res pyobj :=
  match a, b with
  | PF f, o => Ok (PF (Added f (lift o)))
  | PN x, PN y => Ok (PN (x + y))
  | PN _, PF _ => Err TypeError
  end.
Definition py_mul (a b : pyobj) : res pyobj :=
  match a, b with
  | PF f, o => Ok (PF (Multiplied f (lift o)))
  | PN x, PN y => Ok (PN (x * y))
  | PN _, PF _ => Err TypeError
  end.
Definition py_neg (a : pyobj) : pyobj :=
  match a with
  | PF f => PF (Multiplied f (lift (PN (-1))))
  | PN x => PN (- x)
  end.

(** [Function.copy_parameters], lines 100-110: the assignment operations are
    created first (this checks the shapes) and then run.  The result is the new
    store and what the call returns. *)
Definition same_shape (t u : tensor) : bool :=
  Nat.eqb (rows t) (rows u) && Nat.eqb (cols t) (cols u).
Fixpoint assign (s : store) (ps qs : list nat) : store :=
  match ps, qs with
  | p :: ps', q :: qs' => assign (upd s p (s q)) ps' qs'
  | _, _ => s
  end.
Definition base_copy (s : store) (ps qs : list nat) : store * res (option fn) :=
  if forallb (fun b => b) (map2 (fun p q => same_shape (s p) (s q)) ps qs)
  then (assign s ps qs, Ok None) else (s, Err ValueError).

(** Lines 152-155, 190-194, 344-347.  The attributes [fun1], [fun2] and [fun] of
    [other] may be missing.  [AddedFunction(None, ..)] turns [None] into a
    constant. *)
Definition fun1 (f : fn) : res fn :=
  match f with Added g _ | Multiplied g _ => Ok g | _ => Err AttributeError end.
Definition fun2 (f : fn) : res fn :=
  match f with Added _ g | Multiplied _ g => Ok g | _ => Err AttributeError end.
Definition wrapped (f : fn) : res fn :=
  match f with Saturated g _ _ => Ok g | _ => Err AttributeError end.
Definition lift_opt (o : option fn) : fn :=
  match o with Some f => f | None => Const None end.
Fixpoint copy_parameters (s : store) (f other : fn) : store * res (option fn) :=
  match f with
  | Leaf vars _ _ => base_copy s vars (parameters other)
  | Const _ => base_copy s [] (parameters other)
  | Added f g =>
      match fun1 other with
      | Err e => (s, Err e)
      | Ok o =>
          match copy_parameters s f o with
          | (s1, Err e) => (s1, Err e)
          | (s1, Ok r1) =>
              match copy_parameters s1 g o with
              | (s2, Err e) => (s2, Err e)
              | (s2, Ok r2) => (s2, Ok (Some (Added (lift_opt r1) (lift_opt r2))))
              end
          end
      end
  | Multiplied f g =>
      match fun1 other with
      | Err e => (s, Err e)
      | Ok o =>
          match copy_parameters s f o with
          | (s1, Err e) => (s1, Err e)
          | (s1, Ok r1) =>
              match fun2 other with
              | Err e => (s1, Err e)
              | Ok o2 =>
                  match copy_parameters s1 g o2 with
                  | (s2, Err e) => (s2, Err e)
                  | (s2, Ok r2) => (s2, Ok (Some (Multiplied (lift_opt r1) (lift_opt r2))))
                  end
              end
          end
      end
  | Saturated f lower upper =>
      match wrapped other with
      | Err e => (s, Err e)
      | Ok o =>
          match copy_parameters s f o with
          | (s1, Err e) => (s1, Err e)
          | (s1, Ok r) => (s1, rmap Some (make_saturation r lower upper))
          end
      end
  end.
