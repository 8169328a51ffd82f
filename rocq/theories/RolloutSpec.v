(** Vocabulary for the properties of rollouts. *)
From Coq Require Import Reals List Bool Arith.
From Verif Require Import Prelude RolloutModel QuadModel.
Import ListNotations.
Local Open Scope R_scope.

Fixpoint iterate {A} (n : nat) (f : A -> A) (x : A) : A :=
  match n with O => x | S n' => f (iterate n' f x) end.

(** A function of batches that handles every row separately. *)
Definition by_row {A B} (f : A -> B) (F : list A -> res (list B)) : Prop :=
  forall b, F b = Ok (map f b).

(** The first T terms of the discounted return of a state. *)
Definition return_of (discount : R) (step : row -> row) (r : row -> R) (T : nat) (x : row) : R :=
  rsum T (fun t => discount ^ t * r (iterate t step x)).

(** Euclidean distance. *)
Definition distance (x y : row) : R :=
  sqrt (rsum (length x) (fun i => Rsqr (nth i x 0 - nth i y 0))).

(** The trajectory of x converges to e. *)
Definition converges (step : row -> row) (x e : row) : Prop :=
  forall eps, 0 < eps -> exists N, forall n, (N <= n)%nat -> distance (iterate n step x) e < eps.
