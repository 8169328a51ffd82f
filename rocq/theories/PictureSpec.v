(** What a reader takes from the pictures of the examples. *)
From Coq Require Import List ZArith Reals Permutation.
Import ListNotations.
From Verif Require Import Prelude GridModel GridSpec PictureModel.
Open Scope R_scope.

(** The point (x, y) lies in the rectangle (its border included). *)
Definition covers (c : rect) (x y : R) : Prop :=
  left c <= x <= right c /\ bottom c <= y <= top c.

(** A picture of coloured rectangles that shows every grid state with its own
    value: one rectangle per state, coloured by the state's value, which
    contains the state's position and the position of no other state. *)
Definition shows_states {A} (g : grid) (s0 s1 : R) (values : list A) (picture : list (rect * A)) : Prop :=
  exists cells : list rect,
    length cells = length (all_points g) /\
    Permutation picture (combine cells values) /\
    forall k k', (k < length (all_points g))%nat -> (k' < length (all_points g))%nat ->
      (covers (nth k cells (Rect 0 0 0 0))
         (s0 * coordinate (nth k' (all_points g) []) 0)
         (s1 * coordinate (nth k' (all_points g) []) 1) <-> k = k').

(** A surface is the graph of [f] when every vertex lies on the graph. *)
Definition graph_of (f : R -> R -> R) (s0 s1 : R) (vertices : list (R * R * R)) : Prop :=
  Forall (fun v => exists x y, v = (s0 * x, s1 * y, f x y)) vertices.

(** The legend of the comparison: green is the region of attraction of the
    old policy, red the one of the new policy (drawn on top). *)
Definition legend (in_old in_new : bool) : colour :=
  if in_new then Red else if in_old then Green else Transparent.
