(** Vocabulary for initial sets that are given as indices. *)
From Coq Require Import Reals List Bool Arith ZArith.
From Verif Require Import Prelude SafeModel InitialModel.
Import ListNotations.

(** The indices [l] fit to [n] states; state [x] is one of those meant. *)
Definition in_range (n : nat) (l : list Z) : Prop :=
  forall z, In z l -> (- Z.of_nat n <= z < Z.of_nat n)%Z.
Definition meant (n : nat) (l : list Z) (x : nat) : Prop :=
  In (Z.of_nat x) l \/ In (Z.of_nat x - Z.of_nat n)%Z l.

(** [m] is the boolean mask of these states. *)
Definition mask_of (n : nat) (l : list Z) (m : list bool) : Prop :=
  length m = n /\ forall x, x < n -> (nth x m false = true <-> meant n l x).

(** The object of [SafeModel] with a mask as initial set. *)
Definition with_mask (m : option (list bool)) (L : lyap) : lyap :=
  {| l_init := m; l_adaptive := l_adaptive L; l_vals := l_vals L;
     l_safe := l_safe L; l_ref := l_ref L; l_cmax := l_cmax L |}.

(** State [x] counts as safe at the start of a call. *)
Definition starts_safe (n : nat) (l : list Z) (L : lyap) (can_shrink : bool) (x : nat) : Prop :=
  if can_shrink then meant n l x else nth x (l_safe L) false = true.
