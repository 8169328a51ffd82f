(** Vocabulary for quadratic and linear functions. *)
From Coq Require Import Reals List Bool Arith.
From Verif Require Import Prelude FunModel QuadModel.
Import ListNotations.
Local Open Scope R_scope.

(** x' P x for the vector x of length n. *)
Definition form (n : nat) (P : nat -> nat -> R) (x : nat -> R) : R :=
  rsum n (fun i => rsum n (fun j => x i * P i j * x j)).
Definition dot (n : nat) (a b : nat -> R) : R := rsum n (fun i => a i * b i).

(** Entry (r, o) of A1 x1 + A2 x2 + ..., where row r of [Xs] holds the inputs. *)
Fixpoint linear_sum (As Xs : list tensor) (r o : nat) : R :=
  match As, Xs with
  | A :: As', X :: Xs' => dot (cols A) (entry A o) (entry X r) + linear_sum As' Xs' r o
  | _, _ => 0
  end.
Definition total_cols (l : list tensor) : nat := list_sum (map cols l).

(** A number is a 1x1 matrix, a vector is a row. *)
Definition height (a : array) : nat := match a with Matrix t => rows t | _ => 1%nat end.
Definition width (a : array) : nat :=
  match a with Scalar _ => 1%nat | Vector n _ => n | Matrix t => cols t end.
Definition element (a : array) (i j : nat) : R :=
  match a with Scalar x => x | Vector _ v => v j | Matrix t => entry t i j end.
Definition meaning (a : array) : tensor :=
  {| rows := height a; cols := width a; entry := element a |}.
