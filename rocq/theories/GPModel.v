(** Model of the predictions of [GPRCached] (safe_learning/functions.py, lines
    357-458) and of [GaussianProcess.build_evaluation] (lines 507-515), in exact
    arithmetic over a real field.

    Simplifications.  The kernel is a function of two points with a separate
    function for [Kdiag]; the mean function gives a row per point.
    [tf.cholesky] is an argument that may fail; triangular solves are exact and
    fail on singular matrices.  [tf.sqrt] is an argument. *)
From mathcomp Require Import all_ssreflect all_algebra.
From Verif Require Import Prelude.
Set Implicit Arguments.
Unset Strict Implicit.
Unset Printing Implicit Defensive.
Import GRing.Theory Num.Theory.
Local Open Scope ring_scope.

Section Model.
Variable F : realFieldType.
Variable T : Type.             (* points *)
Variable D : nat.              (* outputs *)

(** What a model is made of: [kern.K], [kern.Kdiag], [mean_function],
    [likelihood.variance], [_scale]. *)
Record gp_params := {
  kern : T -> T -> F; kdiag : T -> F; mean : T -> 'rV[F]_D;
  noise : F; scale : F
}.
Variable g : gp_params.

(** [kern.K(X, Z)] and the mean at points. *)
Definition gram n m (X : 'I_n -> T) (Z : 'I_m -> T) : 'M[F]_(n, m) :=
  \matrix_(i, j) kern g (X i) (Z j).
Definition means n (X : 'I_n -> T) : 'M[F]_(n, D) := \matrix_(i, j) mean g (X i) 0 j.

(** [tf.matrix_triangular_solve]: only the lower triangle of L is read. *)
Definition lower n (L : 'M[F]_n) : 'M[F]_n := \matrix_(i, j) (if (j <= i)%N then L i j else 0).
Definition tri_solve n m (L : 'M[F]_n) (B : 'M[F]_(n, m)) : res 'M[F]_(n, m) :=
  if lower L \in unitmx then Ok (invmx (lower L) *m B) else Err OtherError.

(** [_compute_cache], lines 395-411. *)
Definition compute_cache n (cholesky : 'M[F]_n -> res 'M[F]_n) (X : 'I_n -> T) (Y : 'M[F]_(n, D))
    : res ('M[F]_n * 'M[F]_(n, D)) :=
  let kernel := gram X X + noise g *: 1%:M in
  let kernel := scale g ^+ 2 *: kernel in
  let target := scale g *: (Y - means X) in
  do L <- cholesky kernel;
  do alpha <- tri_solve L target;
  Ok (L, alpha).

(** [build_predict], lines 417-458: mean, and the full covariance (a matrix for
    each output) or the variances (a row per point, a column per output). *)
Definition predict_mean n (cache : 'M[F]_n * 'M[F]_(n, D)) (X : 'I_n -> T) m (Xnew : 'I_m -> T)
    : res 'M[F]_(m, D) :=
  let Kx := scale g ^+ 2 *: gram X Xnew in
  let mx := scale g *: means Xnew in
  do a <- tri_solve cache.1 Kx;
  Ok ((scale g)^-1 *: (a^T *m cache.2 + mx)).

Definition predict_full n (cache : 'M[F]_n * 'M[F]_(n, D)) (X : 'I_n -> T) m (Xnew : 'I_m -> T)
    : res ('I_D -> 'M[F]_m) :=
  let Kx := scale g ^+ 2 *: gram X Xnew in
  do a <- tri_solve cache.1 Kx;
  let Knew := scale g ^+ 2 *: gram Xnew Xnew in
  let fvar := Knew - a^T *m a in
  Ok (fun _ => (scale g ^+ 2)^-1 *: fvar).

Definition predict_diag n (cache : 'M[F]_n * 'M[F]_(n, D)) (X : 'I_n -> T) m (Xnew : 'I_m -> T)
    : res 'M[F]_(m, D) :=
  let Kx := scale g ^+ 2 *: gram X Xnew in
  do a <- tri_solve cache.1 Kx;
  let Knew := fun i => scale g ^+ 2 * kdiag g (Xnew i) in
  let fvar := fun i => Knew i - \sum_k a k i ^+ 2 in
  Ok (\matrix_(i, j) ((scale g ^+ 2)^-1 * fvar i)).

(** [GaussianProcess.build_evaluation], lines 507-515. *)
Definition evaluate (sqrt : F -> F) (beta : F) n (cache : 'M[F]_n * 'M[F]_(n, D)) (X : 'I_n -> T)
    m (points : 'I_m -> T) : res ('M[F]_(m, D) * 'M[F]_(m, D)) :=
  do mean <- predict_mean cache X points;
  do var <- predict_diag cache X points;
  Ok (mean, \matrix_(i, j) (beta * sqrt (var i j))).
End Model.
