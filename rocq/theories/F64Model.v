(** Double precision versions of [GridWorld] and of the numpy [_Triangulation]
    (safe_learning/functions.py, lines 591-776 and 1002-1226), for the questions
    which the models in exact arithmetic cannot answer.

    Every operation is the exact one followed by rounding to the nearest binary64
    number, ties to even ([rnd], Flocq).  Simplifications: overflow, NaN and signed
    zeros are not modelled (a rounded value is a real number); rows of states
    have the right length; [np.sum] adds from left to right. *)
From Coq Require Import List ZArith Reals Bool.
From Flocq Require Import Core.
From Verif Require Import Prelude NumModel GridModel TriModel.
Import ListNotations.
Local Open Scope R_scope.

Definition rnd (x : R) : R := round radix2 (FLT_exp (-1074) 53) ZnearestE x.

(** functions.py:605-606; one axis of [unit_maxes]. *)
Definition f_unit (l : R * R) (n : Z) : R := rnd (rnd (snd l - fst l) / IZR (n - 1)).
(** functions.py:612-614: numpy's [linspace]. *)
Definition f_linspace (l : R * R) (n : Z) : list R :=
  let step := rnd (rnd (snd l - fst l) / IZR (n - 1)) in
  map (fun k => if (Z.of_nat k =? n - 1)%Z then snd l
                else rnd (rnd (IZR (Z.of_nat k) * step) + fst l))
      (seq 0 (Z.to_nat n)).

(** functions.py:605-606 *)
Definition f_unit_maxes (g : grid) : list R := map2 f_unit (limits g) (num_points g).

(** functions.py:612-614, 622-638 *)
Definition f_all_points (g : grid) : list (list R) :=
  meshgrid_ij (map2 f_linspace (limits g) (num_points g)).

(** functions.py:714-731 *)
Definition f_index_to_state (g : grid) (idx : Z) : res (list R) :=
  do ijk <- np_unravel_index idx (num_points g);
  Ok (map3 (fun k u o => rnd (rnd (IZR k * u) + o)) ijk (f_unit_maxes g) (offset g)).

(** functions.py:733-752; the int32 cast is exact for indices below 2^31. *)
Definition f_state_to_index (g : grid) (state : list R) : res Z :=
  do _ <- check_dimensions g state;
  let s := map2 (fun x l => clipR x (fst l) (snd l)) state (limits g) in
  let s := map3 (fun x o u => rnd (rnd (x - o) * rnd (1 / u))) s (offset g) (f_unit_maxes g) in
  np_ravel_multi_index (map rint s) (num_points g).

(** functions.py:754-776 *)
Definition f_state_to_rectangle (g : grid) (state : list R) : res Z :=
  do ind <- rect_indices state (map2 f_linspace (limits g) (num_points g)) (num_points g);
  np_ravel_multi_index ind (map (fun n => n - 1)%Z (num_points g)).

(** functions.py:607-609, 691-712 with clip=True; [_EPS] (line 28) is 2^-52. *)
Definition f_eps : R := bpow radix2 (-52).
Definition f_center (g : grid) (state : list R) : list R :=
  map2 (fun x l => clipR (rnd (x - fst l)) (rnd (0 + rnd (2 * f_eps)))
                         (rnd (rnd (snd l - fst l) - rnd (2 * f_eps))))
       state (limits g).

(** functions.py:1015-1021 *)
Definition f_corners (g : grid) : list vec :=
  match limits g with
  | [_] => [[0]; f_unit_maxes g]
  | _ => meshgrid_ij (diag (f_unit_maxes g))
  end.
(** functions.py:1064-1088 *)
Definition f_simplex_indices (g : grid) (D : delaunay) : res (list (list Z)) :=
  do mapping <- mapM (fun p => f_state_to_index g (map2 (fun x o => rnd (x + o)) p (offset g)))
                     (dl_points D);
  Ok (map (map (fun k => nth k mapping 0%Z)) (dl_simplices D)).
(** functions.py:1090-1101; [inv] is np.linalg.inv. *)
Definition f_hyperplane (inv : mat -> res mat) (g : grid) (simplex : list Z) : res mat :=
  do pts <- mapM (f_index_to_state g) simplex;
  match pts with
  | [] => Err IndexError
  | p0 :: ps => inv (map (fun p => map2 (fun a b => rnd (a - b)) p p0) ps)
  end.
(** functions.py:1002-1032 *)
Definition f_make_tri (dl : list vec -> delaunay) (inv : mat -> res mat)
    (g : grid) (values : list (list R)) (project : bool) : res tri :=
  if (Z.of_nat (length values) =? nindex g)%Z then
    do D <- (match limits g with
             | [_] => delaunay1d (f_corners g)
             | _ => Ok (dl (f_corners g))
             end);
    do us <- f_simplex_indices g D;
    do hs <- mapM (f_hyperplane inv g) us;
    Ok (Tri g values project D us hs)
  else Err ValueError.

(** functions.py:1103-1130; [%] of non-negative numbers is exact. *)
Definition f_find_simplex (t : tri) (p : vec) : res Z :=
  let g := t_grid t in
  do rect <- f_state_to_rectangle g p;
  let unit_coordinates := map2 modR (f_center g p) (f_unit_maxes g) in
  Ok (dl_find (t_dl t) unit_coordinates + rect * dl_nsimplex (t_dl t))%Z.

(** Sums from left to right. *)
Definition f_sum (l : list R) : R := fold_left (fun s x => rnd (s + x)) l 0.

(** functions.py:1160-1202; [simplices] computes with integers only. *)
Definition f_get_weights (t : tri) (p : vec) : res (vec * list Z) :=
  let g := t_grid t in
  do id <- f_find_simplex t p;
  do simp <- simplices t id;
  do o <- py_nth simp 0;
  do origin <- f_index_to_state g o;
  do H <- py_nth (t_hyper t) (id mod dl_nsimplex (t_dl t))%Z;
  let p' := if t_project t then project_point g p else p in
  let off := map2 (fun a b => rnd (a - b)) p' origin in
  let w := map (fun j => f_sum (map2 (fun x row => rnd (x * nth j row 0)) off H)) (seq 0 (ndim g)) in
  Ok (rnd (1 - f_sum w) :: w, simp).
(** functions.py:1204-1226 *)
Definition f_eval (t : tri) (p : vec) : res (list R) :=
  do ws <- f_get_weights t p;
  do rows <- mapM (py_nth (t_params t)) (snd ws);
  Ok (map (fun j => f_sum (map2 (fun w row => rnd (w * nth j row 0)) (fst ws) rows))
          (seq 0 (output_dim t))).
