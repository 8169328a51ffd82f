(** Vocabulary for the constants of the examples. *)
From Coq Require Import Reals List Bool Arith ZArith.
From Verif Require Import Prelude FunModel QuadModel QuadSpec GridModel GridSpec CertModel CertSpec.
Import ListNotations.
Local Open Scope R_scope.

(** Every state of the grid's box is within 1-norm distance [t] of a grid state. *)
Definition covers (g : grid) (t : R) : Prop :=
  forall x, length x = GridSpec.dims g -> inside g x ->
    exists p, is_vertex g p /\ dist1 x p <= t.

(** Distances for the largest coordinate and the Euclidean one. *)
Definition dist_max (x y : list R) : R := fold_right Rmax 0 (map2 (fun a b => Rabs (a - b)) x y).
Definition dist2 (x y : list R) : R := sqrt (sum (map2 (fun a b => (a - b) ^ 2) x y)).

(** [f] takes vectors of length [n] to vectors of length [m] and has the constant
    [l] for the distance [d]. *)
Definition lipschitz (d : list R -> list R -> R) (n m : nat) (l : R) (f : list R -> list R) : Prop :=
  (forall x, length x = n -> length (f x) = m) /\
  forall x y, length x = n -> length y = n -> d (f x) (f y) <= l * d x y.

(** A matrix of shape (n, m). *)
Definition shape (n m : nat) (t : tensor) : Prop := rows t = n /\ cols t = m.

(** A symmetric matrix with x' P x >= mu |x|^2. *)
Definition symmetric (n : nat) (P : tensor) : Prop :=
  forall i j, (i < n)%nat -> (j < n)%nat -> entry P i j = entry P j i.
Definition form_at_least (n : nat) (mu : R) (P : tensor) : Prop :=
  forall v : nat -> R, mu * dot n v v <= form n (entry P) v.

(** Larger constants for the Lyapunov function. *)
Definition times (k : R) (l : lip_lyapunov) : lip_lyapunov :=
  match l with
  | LvConst c => LvConst (k * c)
  | LvFun f => LvFun (fun x => map (Rmult k) (f x))
  end.
