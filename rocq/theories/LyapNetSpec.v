(** Vocabulary for the properties of [LyapunovNetwork]. *)
From Coq Require Import Reals List Bool Arith.
From Verif Require Import Prelude FunModel QuadModel.
Import ListNotations.
Local Open Scope R_scope.

(** Squared Euclidean norm of a vector of length n. *)
Definition norm2 (n : nat) (x : nat -> R) : R := rsum n (fun i => Rsqr (x i)).

(** The shapes of the trainable variables for an input of dimension d: for every
    layer a square root of the regularised part, and the remaining rows if the
    layer increases the dimension. *)
Definition shaped (r c : nat) (t : tensor) : Prop := rows t = r /\ cols t = c.
Fixpoint variable_shapes (d : nat) (dims : list nat) : list (nat * nat) :=
  match dims with
  | [] => []
  | d' :: dims' =>
      (Nat.div (d + 2) 2, d) :: (if Nat.ltb d d' then [((d' - d)%nat, d)] else []) ++ variable_shapes d' dims'
  end.
