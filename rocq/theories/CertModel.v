(** Model of the Lyapunov certificate of [safe_learning/lyapunov.py]:
    [lipschitz_dynamics], [lipschitz_lyapunov], [threshold] (lines 227-288),
    [v_decrease_confidence], [v_decrease_bound] (lines 324-376), the graph that
    [update_safe_set] builds (lines 431-487) and [is_safe] (lines 290-303).

    Simplifications.
    - Tensors are the real numbers they evaluate to; a batch of states is
      treated row by row (all operations in these lines are row-wise).
    - [_lipschitz_dynamics] is a number or a callable returning one number per
      state; [_lipschitz_lyapunov] is a number or a callable returning a row of
      numbers per state (one column, or one column per state dimension).
    - [tau / n_req] is the real quotient; [TauModel] has the conversion of tau to
      an integer that comes first. *)
From Coq Require Import Reals List Bool Arith ZArith Lia Lra.
From Verif Require Import Prelude NumModel GridModel SafeModel.
Import ListNotations.
Local Open Scope R_scope.

Inductive lip_lyapunov := LvConst (c : R) | LvFun (f : list R -> list R).
Inductive lip_dynamics := LfConst (c : R) | LfFun (f : list R -> R).

(** Result of the dynamics: a tensor, or a tuple (mean, error bounds). *)
Inductive prediction := Exact (y : list R) | Uncertain (mean err : list R).

Record setup := {
  lyapunov_function : list R -> R;
  policy : list R -> list R;
  dynamics : list R -> list R -> prediction;
  lip_v : lip_lyapunov;
  lip_f : lip_dynamics;
  tau : R
}.

Definition sum (l : list R) : R := fold_right Rplus 0 l.

(** [tf.norm(lv, ord=1, axis=1)]. *)
Definition norm1 (l : list R) : R := sum (map Rabs l).

(** The factor [lv] in [threshold], lines 284-286: a callable with more than one
    column is reduced to its 1-norm. *)
Definition lv_scalar (S : setup) (x : list R) : R :=
  match lip_v S with
  | LvConst c => c
  | LvFun f => let r := f x in if (1 <? length r)%nat then norm1 r else nth 0 r 0
  end.

(** [lipschitz_dynamics], lines 227-244. *)
Definition lf_scalar (S : setup) (x : list R) : R :=
  match lip_f S with LfConst c => c | LfFun f => f x end.

(** [threshold(states, tau)], lines 265-288. *)
Definition threshold (S : setup) (x : list R) (t : R) : R :=
  - lv_scalar S x * (1 + lf_scalar S x) * t.

(** [tf.reduce_sum(lv * error_bounds, axis=1)], lines 346-347: a scalar or a
    single column is broadcast over the columns of the error bounds. *)
Definition weighted_error (S : setup) (mean err : list R) : R :=
  match lip_v S with
  | LvConst c => sum (map (fun e => c * e) err)
  | LvFun f =>
    match f mean with
    | [c] => sum (map (fun e => c * e) err)
    | r => sum (map2 Rmult r err)
    end
  end.

(** [v_decrease_confidence] and [v_decrease_bound], lines 324-376. *)
Definition v_decrease_confidence (S : setup) (x : list R) (p : prediction)
    : R * R :=
  match p with
  | Uncertain mean err =>
    (lyapunov_function S mean - lyapunov_function S x, weighted_error S mean err)
  | Exact y => (lyapunov_function S y - lyapunov_function S x, 0)
  end.
Definition v_decrease_bound (S : setup) (x : list R) (p : prediction) : R :=
  let '(v_dot, v_dot_error) := v_decrease_confidence S x p in v_dot + v_dot_error.

(** The tensor [decrease] of lines 436-439. *)
Definition decrease (S : setup) (x : list R) : R :=
  v_decrease_bound S x (dynamics S x (policy S x)).

Definition Rltb (a b : R) : bool := if Rlt_dec a b then true else false.

(** [tf.ceil]. *)
Definition ceilR (x : R) : Z := (- Int_part (- x))%Z.

(** [tf_n_req] of lines 447-454.  For [decrease = 0] the quotient is nan (if the
    threshold is 0) or -inf (if it is negative); both end up as 0. *)
Definition n_req (S : setup) (safety_factor : R) (x : list R) : Z :=
  let dv := decrease S x in
  if Req_EM_T dv 0 then 0%Z
  else ceilR (Rmax (Rmax safety_factor 1 * threshold S x (tau S) / dv) 0).

(** The certificate evaluated by [update_safe_set] for the grid states [pt 0],
    [pt 1], ...: lines 441, 447-454 and 459-478.  In [refined_safety_check] the
    refined points are built (lines 464-472) but not used: [decrease] is the
    tensor for the fed states. *)
Definition certificate (S : setup) (safety_factor : R) (pt : nat -> list R) : cert :=
  {| neg := fun x => Rltb (decrease S (pt x)) (threshold S (pt x) (tau S));
     nreq := fun x => n_req S safety_factor (pt x);
     passes := fun j k n =>
       Rltb (decrease S (pt j)) (threshold S (pt k) (tau S / IZR n)) |}.

(** The coordinates of the refined points around a centre along one axis, lines
    464-472: [center + 0.5 * (1 - 1 / n) * length * linspace(-1, 1, n)]; the
    refined points are all combinations.  This tensor is never used. *)
Definition refined_axis (center len : R) (n : Z) : list R :=
  map (fun s => center + 0.5 * (1 - 1 / IZR n) * len * s) (linspace (-1) 1 n).
Definition refined_points (g : grid) (center : list R) (n : Z) : list (list R) :=
  meshgrid_ij (map2 (fun c l => refined_axis c l n) center (unit_maxes g)).

(** Grid state number [k], as [index_to_state] in line 520. *)
Definition grid_point (g : grid) (k : nat) : list R :=
  match index_to_state g (Z.of_nat k) with Ok s => s | Err _ => [] end.

(** [is_safe], lines 290-303, for a single state. *)
Definition is_safe (g : grid) (L : lyap) (state : list R) : res bool :=
  do i <- state_to_index g state;
  py_nth (l_safe L) i.
