(** Vocabulary for the statements about the safe set. *)
From Coq Require Import Reals List Bool Arith ZArith Permutation.
From Verif Require Import Prelude SafeModel.
Import ListNotations.

(** Number of grid states. *)
Definition size (L : lyap) : nat := length (l_vals L).

(** The Lyapunov value of grid state [x]. *)
Definition value (L : lyap) (x : nat) : R := nth x (l_vals L) 0%R.

(** State [x] is in the safe set, in the initial set; recorded refinement. *)
Definition safe (L : lyap) (x : nat) : Prop := nth x (l_safe L) false = true.
Definition initially_safe (L : lyap) (x : nat) : Prop :=
  exists m, l_init L = Some m /\ nth x m false = true.
Definition refinement (L : lyap) (x : nat) : Z := nth x (l_ref L) 0%Z.

(** All arrays of the object have one entry per grid state. *)
Record consistent (L : lyap) : Prop := {
  cons_safe : length (l_safe L) = size L;
  cons_ref : length (l_ref L) = size L;
  cons_init : forall m, l_init L = Some m -> length m = size L
}.

(** [order] is a possible result of [np.argsort(values)]. *)
Definition sorts (vals : list R) (order : list nat) : Prop :=
  Permutation order (seq 0 (length vals)) /\
  forall p q, p < q -> q < length vals ->
    (nth (nth p order 0%nat) vals 0 <= nth (nth q order 0%nat) vals 0)%R.

(** [x] occurs at position [p] of the order. *)
Definition at_position (order : list nat) (p x : nat) : Prop :=
  p < length order /\ nth p order 0 = x.

(** Calls whose arguments fit to a grid with [n] states: value arrays have one
    value per state and the order is a result of sorting the current values. *)
Definition call_fits (L : lyap) (c : call) : Prop :=
  match c with
  | CallValues vals => length vals = size L
  | CallSafe _ _ _ _ order => sorts (l_vals L) order
  end.

(** Every call of a history fits at the time at which it is made. *)
Fixpoint history (L : lyap) (cs : list call) : Prop :=
  match cs with
  | [] => True
  | c :: cs' => call_fits L c /\ history (fst (exec L c)) cs'
  end.
