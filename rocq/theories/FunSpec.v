(** Vocabulary for the properties of function objects. *)
From Coq Require Import Reals List Bool Arith.
From Verif Require Import Prelude FunModel.
Import ListNotations.
Local Open Scope R_scope.

(** Equal tensors: same shape and same entries. *)
Definition teq (t u : tensor) : Prop :=
  rows t = rows u /\ cols t = cols u /\
  forall i j, (i < rows t)%nat -> (j < cols t)%nat -> entry t i j = entry u i j.
Definition veq (v w : value) : Prop :=
  match v, w with
  | Number x, Number y => x = y
  | Tensor t, Tensor u => teq t u
  | _, _ => False
  end.
Definition req (a b : res value) : Prop :=
  match a, b with
  | Ok v, Ok w => veq v w
  | Err e, Err e' => e = e'
  | _, _ => False
  end.

(** What a user writes. *)
Inductive uexp :=
| UF (f : fn) | UN (x : R) | UAdd (a b : uexp) | UMul (a b : uexp) | UNeg (a : uexp).
Fixpoint build (e : uexp) : res pyobj :=
  match e with
  | UF f => Ok (PF f)
  | UN x => Ok (PN x)
  | UAdd a b => do x <- build a; do y <- build b; py_add x y
  | UMul a b => do x <- build a; do y <- build b; py_mul x y
  | UNeg a => do x <- build a; Ok (py_neg x)
  end.

(** Its meaning at a point. *)
Definition negate (v : value) : value :=
  match v with
  | Number x => Number (- x)
  | Tensor t => Tensor {| rows := rows t; cols := cols t; entry := fun i j => - entry t i j |}
  end.
Fixpoint meaning (s : store) (e : uexp) (points : tensor) : res value :=
  match e with
  | UF f => eval s f points
  | UN x => Ok (Number x)
  | UAdd a b => do x <- meaning s a points; do y <- meaning s b points; op2 Rplus x y
  | UMul a b => do x <- meaning s a points; do y <- meaning s b points; op2 Rmult x y
  | UNeg a => do x <- meaning s a points; Ok (negate x)
  end.

(** The function objects in an expression from left to right. *)
Fixpoint functions_of (e : uexp) : list fn :=
  match e with
  | UF f => [f]
  | UN _ => []
  | UAdd a b | UMul a b => functions_of a ++ functions_of b
  | UNeg a => functions_of a
  end.
(** A sum or product of a number (on the left) and a function (on the right). *)
Fixpoint number_first (e : uexp) : Prop :=
  match e with
  | UF _ | UN _ => False
  | UAdd a b | UMul a b =>
      number_first a \/ number_first b \/ (functions_of a = [] /\ functions_of b <> [])
  | UNeg a => number_first a
  end.

(** The entry of a value which ends up at a position of a broadcast result. *)
Definition at_pos (v : value) (i j : nat) : R :=
  match v with
  | Number x => x
  | Tensor t => entry t (if Nat.eqb (rows t) 1 then 0 else i)%nat (if Nat.eqb (cols t) 1 then 0 else j)%nat
  end.
Definition shape (v : value) : nat * nat :=
  match v with Number _ => (1, 1)%nat | Tensor t => (rows t, cols t) end.
(** [a] can be stretched to the shape of [b]. *)
Definition fits (a b : value) : Prop :=
  (fst (shape a) = 1%nat \/ fst (shape a) = fst (shape b)) /\
  (snd (shape a) = 1%nat \/ snd (shape a) = snd (shape b)).

(** The shapes agree. *)
Definition alike (t u : tensor) : Prop := rows t = rows u /\ cols t = cols u.

(** Functions of the same structure, with variables of the same shapes: products
    of leaves and constants. *)
Inductive twins (s : store) : fn -> fn -> Prop :=
| twin_leaf vars vars' d ev :
    Forall2 (fun p q => alike (s p) (s q)) vars vars' ->
    twins s (Leaf vars d ev) (Leaf vars' d ev)
| twin_const c : twins s (Const c) (Const c)
| twin_mul f g f' g' : twins s f f' -> twins s g g' -> twins s (Multiplied f g) (Multiplied f' g').

(** The variables of a function are its own. *)
Definition separate (f g : fn) : Prop :=
  NoDup (parameters f) /\ forall v, In v (parameters f) -> ~ In v (parameters g).
Definition outside (f : fn) (s s' : store) : Prop :=
  forall v, ~ In v (parameters f) -> s' v = s v.
