(** Vocabulary for the boundary and region properties. *)
From Coq Require Import Reals List Bool Arith ZArith.
From Verif Require Import Prelude GridModel GridSpec.
Import ListNotations.
Local Open Scope nat_scope.

(** A vertex on the boundary of the grid. *)
Definition on_boundary (g : grid) (p : list R) : Prop :=
  is_vertex g p /\
  exists j, j < dims g /\ (coordinate p j = lower g j \/ coordinate p j = upper g j).

(** Nodes are multi-indices; their states, interior nodes, neighbours. *)
Definition is_node (g : grid) (ks : list Z) : Prop :=
  length ks = dims g /\ forall j, j < dims g -> (0 <= nth j ks 0 < npts g j)%Z.
Definition is_interior (g : grid) (ks : list Z) : Prop :=
  length ks = dims g /\ forall j, j < dims g -> (0 < nth j ks 0 < npts g j - 1)%Z.
Definition state_at (g : grid) (ks : list Z) : list R :=
  map (fun j => lower g j + IZR (nth j ks 0%Z) * spacing g j)%R (seq 0 (dims g)).
Definition neighbours (a b : list Z) : Prop :=
  length a = length b /\ a <> b /\
  forall j, j < length a -> (Z.abs (nth j a 0 - nth j b 0) <= 1)%Z.

(** Nodes that can be reached from [a] through neighbours satisfying [P]. *)
Inductive reach (P : list Z -> Prop) (a : list Z) : list Z -> Prop :=
| reach_start : P a -> reach P a a
| reach_next : forall b c, reach P a b -> neighbours b c -> P c -> reach P a c.
