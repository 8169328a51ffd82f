(** Model of [_Delaunay1D], [_Triangulation] and the TensorFlow wrapper
    [Triangulation] (safe_learning/functions.py:935-1510), exact arithmetic. *)
From Coq Require Import List ZArith Reals Bool.
Import ListNotations.
From Verif Require Import Prelude NumModel GridModel.
Open Scope R_scope.

Notation vec := (list R) (only parsing).
Notation mat := (list (list R)) (only parsing).  (* rows *)

Definition vadd (a b : vec) : vec := map2 Rplus a b.
Definition vsub (a b : vec) : vec := map2 Rminus a b.
Definition vscale (c : R) (a : vec) : vec := map (Rmult c) a.
Definition vsum (a : vec) : R := fold_right Rplus 0 a.
(** [sum_i v_i * rows_i], a row of length [m]. *)
Definition vecmat (m : nat) (v : vec) (rows : mat) : vec :=
  fold_right vadd (repeat 0 m) (map2 vscale v rows).

(** What is used of a [scipy.spatial.Delaunay] object (or [_Delaunay1D]). *)
Record delaunay : Type := Delaunay {
  dl_points : list vec;
  dl_simplices : list (list nat);   (* positions in [dl_points] *)
  dl_find : vec -> Z                (* find_simplex, -1 if outside *)
}.
Definition dl_nsimplex (D : delaunay) : Z := Z.of_nat (length (dl_simplices D)).

(** functions.py:945-978 (class _Delaunay1D).  [points] has shape (2, 1);
    the errors of lines 947-950 are included. *)
Definition delaunay1d (points : list vec) : res delaunay :=
  if existsb (fun p => Nat.ltb 1 (length p)) points then Err AttributeError
  else if Nat.ltb 2 (length points) then Err AttributeError
  else
    let xs := concat points in
    let mn := fold_right Rmin (nth 0 xs 0) xs in
    let mx := fold_right Rmax (nth 0 xs 0) xs in
    Ok (Delaunay points [[0%nat; 1%nat]]
          (fun p => let x := nth 0 p 0 in
                    if Rlt_dec mx x then (-1)%Z
                    else if Rlt_dec x mn then (-1)%Z else 0%Z)).

(** functions.py:1019-1021 [np.diag(unit_maxes)] and
    [itertools.product( *rows)] (last factor fastest). *)
Definition diag (u : vec) : mat :=
  map (fun i => map (fun j => if Nat.eqb i j then nth j u 0 else 0) (seq 0 (length u)))
      (seq 0 (length u)).
Definition rectangle_corners (g : grid) : list vec :=
  match limits g with
  | [_] => [[0]; unit_maxes g]               (* functions.py:1016 *)
  | _ => meshgrid_ij (diag (unit_maxes g))   (* functions.py:1019-1021 *)
  end.

Record tri : Type := Tri {
  t_grid : grid;
  t_params : list (list R);      (* (nindex, outputs) *)
  t_project : bool;
  t_dl : delaunay;
  t_unit : list (list Z);        (* unit_simplices *)
  t_hyper : list mat             (* hyperplanes *)
}.

(** functions.py:1064-1088.  [np.empty_like] entries that match no point
    number are modelled as 0 (they do not occur for valid simplices). *)
Definition simplex_indices (g : grid) (D : delaunay) : res (list (list Z)) :=
  do mapping <- mapM (fun p => state_to_index g (vadd p (offset g))) (dl_points D);
  Ok (map (map (fun k => nth k mapping 0%Z)) (dl_simplices D)).

(** functions.py:1090-1101; [inv] is np.linalg.inv. *)
Definition hyperplane (inv : mat -> res mat) (g : grid) (simplex : list Z) : res mat :=
  do pts <- mapM (index_to_state g) simplex;
  match pts with
  | [] => Err IndexError
  | p0 :: ps => inv (map (fun p => vsub p p0) ps)
  end.

(** functions.py:1002-1032.  [dl] is scipy.spatial.Delaunay (used for 2 and
    more dimensions). *)
Definition make_tri (dl : list vec -> delaunay) (inv : mat -> res mat)
    (g : grid) (values : list (list R)) (project : bool) : res tri :=
  if (Z.of_nat (length values) =? nindex g)%Z then
    do D <- (match limits g with
             | [_] => delaunay1d (rectangle_corners g)
             | _ => Ok (dl (rectangle_corners g))
             end);
    do us <- simplex_indices g D;
    do hs <- mapM (hyperplane inv g) us;
    Ok (Tri g values project D us hs)
  else Err ValueError.

(** functions.py:1026 *)
Definition nsimplex (t : tri) : Z := (dl_nsimplex (t_dl t) * nrectangles (t_grid t))%Z.

(** functions.py:1103-1130, one point.  Shape mismatches are reported as
    ValueError (numpy broadcasting of odd shapes is not modelled). *)
Definition find_simplex (t : tri) (p : vec) : res Z :=
  let g := t_grid t in
  do rect <- state_to_rectangle g p;
  if Nat.eqb (length p) (ndim g) then
    let centered := center_states g true p in
    let unit_coordinates := map2 modR centered (unit_maxes g) in
    let id := dl_find (t_dl t) unit_coordinates in
    Ok (id + rect * dl_nsimplex (t_dl t))%Z
  else Err ValueError.

(** functions.py:1132-1158, one simplex index. *)
Definition simplices (t : tri) (id : Z) : res (list Z) :=
  let ns := dl_nsimplex (t_dl t) in
  do unit <- py_nth (t_unit t) (id mod ns)%Z;
  do corner <- rectangle_corner_index (t_grid t) (id / ns)%Z;
  Ok (map (fun k => k + corner)%Z unit).

(** functions.py:1190-1191 [np.clip(points, limits[:, 0], limits[:, 1])] *)
Definition project_point (g : grid) (p : vec) : vec :=
  map2 (fun x l => clipR x (fst l) (snd l)) p (limits g).

(** functions.py:1160-1202, one point: weights and simplex. *)
Definition get_weights (t : tri) (p : vec) : res (vec * list Z) :=
  let g := t_grid t in
  do id <- find_simplex t p;
  do simp <- simplices t id;
  do o <- py_nth simp 0;
  do origin <- index_to_state g o;
  do H <- py_nth (t_hyper t) (id mod dl_nsimplex (t_dl t))%Z;
  let p' := if t_project t then project_point g p else p in
  let w := vecmat (ndim g) (vsub p' origin) H in
  Ok ((1 - vsum w) :: w, simp).

(** Number of outputs (columns of the parameter matrix), functions.py:1034-1038. *)
Definition output_dim (t : tri) : nat := length (nth 0 (t_params t) []).

(** functions.py:1204-1226, one point. *)
Definition tri_eval1 (t : tri) (p : vec) : res vec :=
  do ws <- get_weights t p;
  do rows <- mapM (py_nth (t_params t)) (snd ws);
  Ok (vecmat (output_dim t) (fst ws) rows).
Definition tri_eval (t : tri) (points : list vec) : res (list vec) := mapM (tri_eval1 t) points.

(** [np.repeat(np.arange(n), m)] *)
Definition repeat_arange (n m : nat) : list Z :=
  flat_map (fun i => repeat (Z.of_nat i) m) (seq 0 n).

(** functions.py:1228-1259 *)
Definition parameter_derivative (t : tri) (points : list vec) : res coo :=
  do ws <- mapM (get_weights t) points;
  let nsimp := S (ndim (t_grid t)) in
  let rows := repeat_arange (length points) nsimp in
  let cols := concat (map snd ws) in
  let data := concat (map fst ws) in
  Ok (Coo (Z.of_nat (length ws)) (nindex (t_grid t)) (map3 (fun v r c => (v, (r, c))) data rows cols)).

(** functions.py:1285-1300 for one simplex id: gradient weights (ndim rows of
    ndim+1 weights) and the simplex. *)
Definition weights_gradient1 (t : tri) (id : Z) : res (mat * list Z) :=
  do simp <- simplices t id;
  do H <- py_nth (t_hyper t) (id mod dl_nsimplex (t_dl t))%Z;
  Ok (map (fun row => (- vsum row) :: row) H, simp).

(** functions.py:1261-1300.  The result also carries the caller's [indices]
    array after the call: [simplex_ids %= nsimplex] (line 1288) works in place
    on it ([np.atleast_1d] does not copy). *)
Inductive tri_args : Type :=
| ByPoints (points : list vec)
| ByIndices (indices : list Z)
| ByBoth (points : list vec) (indices : list Z)
| ByNone.
Definition get_weights_gradient (t : tri) (a : tri_args)
    : res (list (mat * list Z) * list Z) :=
  match a with
  | ByPoints points =>
      do ids <- mapM (find_simplex t) points;
      do ws <- mapM (weights_gradient1 t) ids;
      Ok (ws, [])
  | ByIndices indices =>
      do ws <- mapM (weights_gradient1 t) indices;
      Ok (ws, map (fun id => id mod dl_nsimplex (t_dl t))%Z indices)
  | ByBoth _ _ => Err TypeError
  | ByNone => Err TypeError          (* np.remainder(None, n) *)
  end.

(** functions.py:1302-1326: entry [l][j] is the derivative of output l along
    axis j (before squeezing a single output). *)
Definition gradient_of (t : tri) (ws : mat * list Z) : res mat :=
  do rows <- mapM (py_nth (t_params t)) (snd ws);
  Ok (map (fun l => map (fun wrow => vsum (map2 (fun w row => w * nth l row 0) wrow rows)) (fst ws))
          (seq 0 (output_dim t))).
Definition gradient (t : tri) (points : list vec) : res (list mat) :=
  do r <- get_weights_gradient t (ByPoints points);
  mapM (gradient_of t) (fst r).

(** functions.py:1328-1369 *)
Definition gradient_parameter_derivative (t : tri) (a : tri_args) : res (coo * list Z) :=
  do r <- get_weights_gradient t a;
  let ws := fst r in
  let d := ndim (t_grid t) in
  let npoints := length ws in
  let rows := repeat_arange (npoints * d) (S d) in
  let cols := concat (map (fun w => concat (repeat (snd w) d)) ws) in
  let data := concat (map (fun w => concat (fst w)) ws) in
  Ok (Coo (Z.of_nat (d * npoints)) (nindex (t_grid t))
          (map3 (fun v r c => (v, (r, c))) data rows cols), snd r).

(** ** TensorFlow wrapper, functions.py:1372-1510 *)

(** functions.py:1442-1471 *)
Definition tf_get_hyperplanes (t : tri) (p : vec) : res (vec * mat * list Z) :=
  do id <- find_simplex t p;
  do simp <- simplices t id;
  do o <- py_nth simp 0;
  do origin <- index_to_state (t_grid t) o;
  do H <- py_nth (t_hyper t) (id mod dl_nsimplex (t_dl t))%Z;
  Ok (origin, H, simp).

(** State of the wrapper: the TensorFlow variable with the vertex values and
    the wrapped numpy object (which has its own [parameters]). *)
Record tf_tri : Type := TfTri { tf_var : list (list R); tf_inner : tri }.

(** functions.py:1473-1499, one point; values are gathered from the variable. *)
Definition tf_eval1 (T : tf_tri) (p : vec) : res vec :=
  let t := tf_inner T in
  let g := t_grid t in
  do ohs <- tf_get_hyperplanes t p;
  let '(origin, H, simp) := ohs in
  let p' := if t_project t
            then map2 (fun x l => Rmin (Rmax x (fst l)) (snd l)) p (limits g) else p in
  let w1 := vecmat (ndim g) (vsub p' origin) H in
  let w0 := 1 - vsum w1 in
  do rows <- mapM (py_nth (tf_var T)) simp;
  Ok (vecmat (length (nth 0 (tf_var T) [])) (w0 :: w1) rows).
Definition tf_eval (T : tf_tri) (points : list vec) : res (list vec) := mapM (tf_eval1 T) points.

(** functions.py:1501-1510: the gradient call writes the current variable into
    the wrapped object ([self.tri.parameters = parameters]) and uses it. *)
Definition with_params (t : tri) (v : list (list R)) : tri :=
  Tri (t_grid t) v (t_project t) (t_dl t) (t_unit t) (t_hyper t).
Definition tf_gradient (T : tf_tri) (points : list vec) : res (list mat) * tf_tri :=
  let t' := with_params (tf_inner T) (tf_var T) in
  (gradient t' points, TfTri (tf_var T) t').

(** functions.py:1397-1420: constructing the wrapper stores the (reshaped)
    values in the wrapped object and in the variable. *)
Definition make_tf_tri dl inv g values project : res tf_tri :=
  do t <- make_tri dl inv g values project; Ok (TfTri values t).
(** Assigning the variable (tf.assign on parameters[0]) and setting the
    [project] attribute (functions.py:1427-1430). *)
Definition tf_assign (T : tf_tri) (v : list (list R)) : tf_tri := TfTri v (tf_inner T).
Definition tf_set_project (T : tf_tri) (b : bool) : tf_tri :=
  let t := tf_inner T in
  TfTri (tf_var T) (Tri (t_grid t) (t_params t) b (t_dl t) (t_unit t) (t_hyper t)).
