(** Model of [tf.gradients] of an evaluated [Triangulation]: the operations of
    [build_evaluation] (safe_learning/functions.py, lines 1473-1499) differentiated
    backwards.  This is what optimizers use for value functions and policies that
    are triangulations (safe_learning/tests/test_functions.py lines 703-761,
    safe_learning/tests/test_rl.py lines 59-62, and the examples).

    Simplifications.  Exact arithmetic; shapes fit.  The result of
    [_get_hyperplanes] is that of a [tf.py_func] without a registered gradient:
    nothing is propagated into it.  [tf.gather] returns its derivative as
    [IndexedSlices]: pairs of an index and a row, in which an index may occur more
    than once and the rows are meant to be added. *)
From Coq Require Import List ZArith Reals Bool.
From Verif Require Import Prelude NumModel GridModel TriModel.
Import ListNotations.
Local Open Scope R_scope.

Definition slices : Type := list (Z * vec).

(** The derivatives of [tf.maximum(x, y)] and [tf.minimum(x, y)] with respect to
    [x]: ties count for [x]. *)
Definition maximum_grad (x y dz : R) : R := if Rle_dec y x then dz else 0.
Definition minimum_grad (x y dz : R) : R := if Rle_dec x y then dz else 0.

(** One row of points and the derivatives [dy] of what is differentiated with respect to the row
    of values: the derivatives with respect to the point and to the variable. *)
Definition tf_backprop1 (T : tf_tri) (p dy : vec) : res (vec * slices) :=
  let t := tf_inner T in
  let g := t_grid t in
  do ohs <- tf_get_hyperplanes t p;
  let '(origin, H, simp) := ohs in
  let p' := if t_project t
            then map2 (fun x l => Rmin (Rmax x (fst l)) (snd l)) p (limits g) else p in
  let w1 := vecmat (ndim g) (vsub p' origin) H in
  let w0 := 1 - vsum w1 in
  do rows <- mapM (py_nth (tf_var T)) simp;
  (* lines 1498-1499: reduce_sum(weights[:, :, None] * parameter_vector, axis=1) *)
  let dweights := map (fun row => vsum (map2 Rmult row dy)) rows in
  let dparameter_vector := map (fun w => vscale w dy) (w0 :: w1) in
  (* lines 1490-1491: w0 = 1 - reduce_sum(w1), concat((w0, w1)) *)
  let dw0 := nth 0 dweights 0 in
  let dw1 := map (fun dw => dw + - dw0) (tl dweights) in
  (* lines 1488-1489: offset = points - origins, reduce_sum(offset[:, :, None] * hyperplanes) *)
  let doffset := map (fun row => vsum (map2 Rmult row dw1)) H in
  (* lines 1479-1485 *)
  let dpoint := if t_project t
                then map3 (fun d x l => maximum_grad x (fst l) (minimum_grad (Rmax x (fst l)) (snd l) d))
                          doffset p (limits g)
                else doffset in
  Ok (dpoint, combine simp dparameter_vector).

(** [tf.gradients(tri(points), [points, tri.parameters[0]], grad_ys=dys)] *)
Definition tf_gradients (T : tf_tri) (points dys : list vec) : res (list vec * slices) :=
  do r <- mapM (fun pd => tf_backprop1 T (fst pd) (snd pd)) (combine points dys);
  Ok (map fst r, concat (map snd r)).
