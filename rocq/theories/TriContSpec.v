(** Vocabulary for the continuity of triangulations: how simplices of one cell and
    of neighbouring cells fit together. *)
From Coq Require Import List ZArith Reals.
Import ListNotations.
From Verif Require Import Prelude GridModel GridSpec TriModel TriSpec.
Open Scope R_scope.

(** The corner points of a simplex given by positions. *)
Definition corner_points (D : delaunay) (s : list nat) : list vec :=
  map (fun k => nth k (dl_points D) []) s.

(** [v] moved by [e j] cells of width [u j] along each axis [j]. *)
Definition translate (u : vec) (e : nat -> Z) (v : vec) : vec :=
  map (fun j => coordinate v j + IZR (e j) * coordinate u j) (seq 0 (length u)).

(** A point of two simplices lies on a face that belongs to both. *)
Definition share_faces (d : nat) (vs vs' : list vec) : Prop :=
  forall p, length p = d -> convex_hull d vs p -> convex_hull d vs' p ->
  exists c, incl c vs /\ incl c vs' /\ convex_hull d c p.

(** The simplices of a cell of size [u] form a triangulation of that cell. *)
Definition face_to_face (u : vec) (D : delaunay) : Prop :=
  forall s s', In s (dl_simplices D) -> In s' (dl_simplices D) ->
    share_faces (length u) (corner_points D s) (corner_points D s').

(** The copies of the cell fit together as well: simplices of different cells
    also meet in common faces. *)
Definition matching (u : vec) (D : delaunay) : Prop :=
  forall s s' e, In s (dl_simplices D) -> In s' (dl_simplices D) ->
    share_faces (length u) (corner_points D s) (map (translate u e) (corner_points D s')).

(** [r] bounds the distance of two points in every coordinate. *)
Definition within (d : nat) (r : R) (x y : vec) : Prop :=
  forall j, (j < d)%nat -> Rabs (coordinate x j - coordinate y j) <= r.

(** [L] bounds the 1-norm of the gradients of output [o] reported at points inside
    the limits. *)
Definition gradients_bounded (t : tri) (o : nat) (L : R) : Prop :=
  forall x M, length x = dims (t_grid t) -> inside (t_grid t) x -> gradient t [x] = Ok [M] ->
    sumn (dims (t_grid t)) (fun j => Rabs (entry M o j)) <= L.
