(** Vocabulary for the actor-critic examples. *)
From Coq Require Import Reals List Bool Arith.
From Verif Require Import Prelude FunModel QuadModel QuadSpec NNModel RolloutModel RolloutSpec.
Import ListNotations.
Local Open Scope R_scope.

(** Row i of a tensor. *)
Definition row_of (t : tensor) (i : nat) : list R := map (entry t i) (seq 0 (cols t)).
(** The batch that consists of one state. *)
Definition single (x : list R) : tensor :=
  {| rows := 1; cols := length x; entry := fun _ j => nth j x 0 |}.

(** [F] applies f to every row. *)
Definition rowwise (n m : nat) (f : list R -> list R) (F : tensor -> res tensor) : Prop :=
  forall X, cols X = n -> exists Y, F X = Ok Y /\ rows Y = rows X /\ cols Y = m /\
    forall i, (i < rows X)%nat -> row_of Y i = f (row_of X i).
Definition rowwise2 (n m k : nat) (f : list R -> list R -> list R) (F : tensor -> tensor -> res tensor) : Prop :=
  forall X U, cols X = n -> cols U = m -> rows U = rows X ->
    exists Y, F X U = Ok Y /\ rows Y = rows X /\ cols Y = k /\
    forall i, (i < rows X)%nat -> row_of Y i = f (row_of X i) (row_of U i).

(** A square matrix, and x' P x. *)
Definition square (n : nat) (P : tensor) : Prop := rows P = n /\ cols P = n.
Definition quad (P : tensor) (x : list R) : R := form (rows P) (entry P) (fun i => nth i x 0).

(** The reward of state x and action u. *)
Definition reward (Q Rc : tensor) (x u : list R) : R := - quad Q x - quad Rc u.
(** The sum of all entries. *)
Definition total (P : tensor) : R := rsum (rows P) (fun i => rsum (cols P) (fun j => entry P i j)).
(** Reward of one step plus the discounted value of the next state. *)
Definition one_step (Q Rc : tensor) (gamma : R) (f : list R -> list R -> list R)
    (pi : list R -> list R) (v : list R -> R) (x : list R) : R :=
  reward Q Rc x (pi x) + gamma * v (f x (pi x)).
(** Closed loop and its return over T steps. *)
Definition loop (f : list R -> list R -> list R) (pi : list R -> list R) (x : list R) : list R := f x (pi x).
Definition closed_return (Q Rc : tensor) (gamma : R) f pi (T : nat) (x : list R) : R :=
  return_of gamma (loop f pi) (fun y => reward Q Rc y (pi y)) T x.
(** Entries of size at most 1. *)
Definition in_box (x : list R) : Prop := Forall (fun a => Rabs a <= 1) x.

(** An activation that maps zero to zero. *)
Definition fixes_zero (a : activation) : Prop := activate a 0 = 0.
(** One parameter w after the other, each from an update of the one before. *)
Fixpoint updates (update : R -> R -> Prop) (k : nat) (w w' : R) : Prop :=
  match k with
  | O => w' = w
  | S k => exists u, update w u /\ updates update k u w'
  end.
