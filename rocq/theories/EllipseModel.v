(** Model of [ellipse_bounds] in [safe_learning/utilities.py], lines 360-408.

    Simplifications: float64 arrays are lists of real numbers; the matrix is 2 x 2;
    [np.linalg.eig] is an argument (constrained by [eigen] in [EllipseSpec]); zeros
    have no sign, so that a positive number divided by zero is +inf. *)
From Coq Require Import Reals List ZArith.
From Verif Require Import Prelude UtilModel.
Import ListNotations.
Local Open Scope R_scope.

(** A 2 x 2 array and the result [(eigval, eigvec)] of [np.linalg.eig]; column [j]
    of [eigvec] belongs to [eigval[j]]. *)
Record mat2 := Mat2 { m00 : R; m01 : R; m10 : R; m11 : R }.
Record eig := Eig { eigval0 : R; eigval1 : R; eigvec : mat2 }.

(** [eigvec *= np.sqrt(level / eigval)], line 394: column [j] is multiplied. *)
Definition scaled (level : R) (e : eig) : mat2 :=
  let s0 := sqrt (level / eigval0 e) in
  let s1 := sqrt (level / eigval1 e) in
  Mat2 (m00 (eigvec e) * s0) (m01 (eigvec e) * s1)
       (m10 (eigvec e) * s0) (m11 (eigvec e) * s1).

(** [np.arctan(a / b)], line 398; [None] is nan. *)
Definition arctan_quotient (a b : R) : option R :=
  if Req_EM_T b 0
  then if Rlt_dec 0 a then Some (PI / 2)
       else if Rlt_dec a 0 then Some (- (PI / 2)) else None
  else Some (atan (a / b)).

(** [np.linspace(0, 2 * np.pi, n)], line 397. *)
Definition angles (n : nat) : list R :=
  map (fun k => INR k * (2 * PI / INR (n - 1))) (seq 0 n).

(** [pos], line 401: one row per angle. *)
Definition positions (v : mat2) (a : list R) : list (R * R) :=
  map (fun t => (cos t * m00 v + sin t * m01 v, cos t * m10 v + sin t * m11 v)) a.

(** [ellipse_bounds], lines 390-408.  [float_slices] says whether numpy accepts
    floats in slices: before version 1.12 it does, with a warning; line 404 turns
    [n] into a float.  A nan for the angle makes all positions nan; this is
    [Err ValueError] here.  A negative number of points is a ValueError of numpy. *)
Definition ellipse_bounds (float_slices : bool) (level : R) (e : eig) (n : Z)
    : res (list R * list R * list R) :=
  let n := (n + n mod 2)%Z in
  let v := scaled level e in
  if (n <? 0)%Z then Err ValueError
  else match arctan_quotient (m01 v) (m00 v) with
  | None => Err ValueError
  | Some t0 =>
    let pos := positions v (map (fun t => t + t0) (angles (Z.to_nat n))) in
    if float_slices
    then let h := Z.to_nat (n / 2) in
         Ok (map fst (firstn h pos), map snd (firstn h pos), map snd (rev (skipn h pos)))
    else Err TypeError
  end.
