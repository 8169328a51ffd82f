(** Reading aids for the double precision properties. *)
From Coq Require Import List ZArith Reals Bool.
From Flocq Require Import Core.
From Verif Require Import Prelude NumModel GridModel GridSpec TriModel.
Import ListNotations.
Local Open Scope R_scope.

(** A binary64 number (no overflow). *)
Definition is_f64 (x : R) : Prop := generic_format radix2 (FLT_exp (-1074) 53) x.

(** An axis on which double precision resolves the grid: the limits are at most
    2^40 spacings away from the origin, the spacing is not extremely small or
    large and the indices are 32-bit integers. *)
Definition resolved (l : R * R) (n : Z) : Prop :=
  let gap := (snd l - fst l) / IZR (n - 1) in
  (2 <= n <= 2 ^ 31)%Z /\
  is_f64 (fst l) /\ is_f64 (snd l) /\
  / 2 ^ 40 <= gap <= 2 ^ 400 /\
  Rabs (fst l) <= 2 ^ 40 * gap /\
  Rabs (snd l) <= 2 ^ 40 * gap.

Definition resolved_grid (g : grid) : Prop := Forall2 resolved (limits g) (num_points g).

(** Five points on [2^54, 2^54 + 4]: not resolved. *)
Definition gfar : grid := Grid [(18014398509481984, 18014398509481988)] [5%Z].

(** 7 x 7 points on [-1, 1] x [-1, 1], and values which are 1 at the grid point
    number 40 = 5 * 7 + 5 and 0 elsewhere. *)
Definition g77 : grid := Grid [(-1, 1); (-1, 1)] [7; 7]%Z.
Definition hat40 : list (list R) := map (fun i => [if Nat.eqb i 40 then 1 else 0]) (seq 0 49).

(** The two triangles into which scipy splits a cell with the corners (u, 0), (u, u),
    (0, 0), (0, u) in this order: the repository's test_find_simplex expects
    the simplices [0, 1, 7] and [1, 7, 8] on a grid with 7 columns. *)
Definition split_cell (points : list (list R)) (find : list R -> Z) : delaunay :=
  Delaunay points [[2; 3; 0]; [3; 0; 1]]%nat find.
