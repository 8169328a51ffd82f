(** Vocabulary for the triangulation claims, independent of the model:
    finite sums, inverse matrices, convex combinations, and the contracts of
    the two external routines (np.linalg.inv, scipy.spatial.Delaunay). *)
From Coq Require Import List ZArith Reals.
Import ListNotations.
From Verif Require Import Prelude GridModel GridSpec TriModel.
Open Scope R_scope.

(** sum_{i<n} f i *)
Fixpoint sumn (n : nat) (f : nat -> R) : R :=
  match n with O => 0 | S m => sumn m f + f m end.

Definition entry (M : list (list R)) (i j : nat) : R := nth j (nth i M []) 0.
Definition delta (i j : nat) : R := if Nat.eqb i j then 1 else 0.

(** [M] has [d] rows of length [d]. *)
Definition square (d : nat) (M : mat) : Prop :=
  length M = d /\ Forall (fun r => length r = d) M.

(** [H] is a two-sided inverse of [M]. *)
Definition inverse (d : nat) (M H : mat) : Prop :=
  square d M /\ square d H /\
  (forall i k, (i < d)%nat -> (k < d)%nat ->
     sumn d (fun j => entry M i j * entry H j k) = delta i k /\
     sumn d (fun j => entry H i j * entry M j k) = delta i k).

(** Contract of np.linalg.inv on d x d matrices: invertible matrices are
    inverted (nothing is assumed about singular ones). *)
Definition good_inv (d : nat) (inv : mat -> res mat) : Prop :=
  forall M, square d M -> (exists H, inverse d M H) -> exists H, inv M = Ok H /\ inverse d M H.

Definition in_box (u p : vec) : Prop :=
  length p = length u /\ forall j, (j < length u)%nat -> 0 <= coordinate p j <= coordinate u j.

(** [p] is in the convex hull of the points [vs]. *)
Definition convex_hull (d : nat) (vs : list vec) (p : vec) : Prop :=
  exists lam : nat -> R,
    (forall k, (k < length vs)%nat -> 0 <= lam k) /\
    sumn (length vs) lam = 1 /\
    forall j, (j < d)%nat -> coordinate p j = sumn (length vs) (fun k => lam k * entry vs k j).

(** The simplex spanned by [vs] is not degenerate. *)
Definition edges (vs : list vec) : mat :=
  match vs with [] => [] | v0 :: t => map (fun v => vsub v v0) t end.
Definition nondegenerate (d : nat) (vs : list vec) : Prop := exists H, inverse d (edges vs) H.

(** Contract of a Delaunay object for the cell [0,u]: its simplices are
    non-degenerate, use the given points, and [find_simplex] returns one that
    contains the query. *)
Definition good_delaunay (u : vec) (pts : list vec) (D : delaunay) : Prop :=
  dl_points D = pts /\
  Forall (fun s => length s = S (length u) /\ Forall (fun k => (k < length pts)%nat) s /\
                   nondegenerate (length u) (map (fun k => nth k pts []) s)) (dl_simplices D) /\
  forall p, in_box u p -> exists id s,
    dl_find D p = Z.of_nat id /\ nth_error (dl_simplices D) id = Some s /\
    convex_hull (length u) (map (fun k => nth k pts []) s) p.

(** The contract as needed for a grid: scipy is only used for 2 and more axes. *)
Definition good_dl (g : grid) (dl : list vec -> delaunay) : Prop :=
  dims g <> 1%nat -> good_delaunay (unit_maxes g) (rectangle_corners g) (dl (rectangle_corners g)).

(** Cells are wider than the safety margin 2*eps used by the code. *)
Definition coarse (g : grid) : Prop := forall j, (j < dims g)%nat -> 2 * EPS < spacing g j.

(** [x] keeps a distance of 2*eps from the border. *)
Definition well_inside (g : grid) (x : vec) : Prop :=
  forall j, (j < dims g)%nat -> lower g j + 2 * EPS <= coordinate x j <= upper g j - 2 * EPS.

(** The point used when [project] is set: the projection onto the limits. *)
Definition is_projection (g : grid) (x y : vec) : Prop :=
  length y = dims g /\ forall j, (j < dims g)%nat ->
    coordinate y j = Rmin (Rmax (coordinate x j) (lower g j)) (upper g j).

(** [rows] is a matrix with [m] columns. *)
Definition columns (m : nat) (rows : mat) : Prop := Forall (fun r => length r = m) rows.

(** Stored value of output [o] at grid index [i]. *)
Definition value_at (values : mat) (o : nat) (i : Z) : R := nth o (nth (Z.to_nat i) values []) 0.

(** Weighted sum over the vertices [verts] with weights [w]. *)
Definition combine_at (w : vec) (f : Z -> R) (verts : list Z) : R :=
  sumn (length verts) (fun k => coordinate w k * f (nth k verts 0%Z)).

(** The affine function x |-> b + a.x *)
Definition affine (d : nat) (a : vec) (b : R) (x : vec) : R :=
  b + sumn d (fun j => coordinate a j * coordinate x j).

(** The point the value is taken at. *)
Definition query (g : grid) (project : bool) (x y : vec) : Prop :=
  if project then is_projection g x y else y = x.

(** A triangulation object built on a usable grid with [m] outputs, with inv
    and Delaunay meeting their contracts. *)
Record setup (dl : list vec -> delaunay) (inv : mat -> res mat) (g : grid)
    (values : mat) (m : nat) (project : bool) (t : tri) : Prop := {
  su_grid : valid_grid g;
  su_coarse : coarse g;
  su_dl : good_dl g dl;
  su_inv : good_inv (dims g) inv;
  su_values : columns m values;
  su_made : make_tri dl inv g values project = Ok t
}.
