(** Vocabulary for the derivatives of Lyapunov networks. *)
From Coq Require Import Reals List Bool Arith.
From Verif Require Import Prelude FunModel QuadModel.
Import ListNotations.
Local Open Scope R_scope.

(** The sum of the products of the entries, of tensors and of lists of tensors. *)
Definition tdot (a b : tensor) : R := rsum (rows a) (fun i => rsum (cols a) (fun j => entry a i j * entry b i j)).
Definition tdots (l m : list tensor) : R := fold_right Rplus 0 (map (fun ab => tdot (fst ab) (snd ab)) (combine l m)).

(** The tensor a moved by t times the tensor b. *)
Definition moved (t : R) (a b : tensor) : tensor :=
  {| rows := rows a; cols := cols a; entry := fun i j => entry a i j + t * entry b i j |}.
Definition moved_all (t : R) (l m : list tensor) : list tensor := map (fun ab => moved t (fst ab) (snd ab)) (combine l m).

Definition same_shape (a b : tensor) : Prop := rows a = rows b /\ cols a = cols b.

(** An array with one point. *)
Definition one_point (n : nat) (p : nat -> R) : tensor := {| rows := 1; cols := n; entry := fun _ k => p k |}.
