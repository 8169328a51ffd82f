(** Model of [sample_gp_function] (safe_learning/functions.py, lines 1586-1662), on
    top of the predictions of [GPModel].

    Simplifications.  Exact arithmetic; the random numbers are arguments: [draw]
    gives the samples for a mean and a covariance, [normal] the measurement noise.
    The Cholesky factorisation is an argument that may fail. *)
From mathcomp Require Import all_ssreflect all_algebra.
From Verif Require Import Prelude GPModel.
Set Implicit Arguments.
Unset Strict Implicit.
Unset Printing Implicit Defensive.
Import GRing.Theory Num.Theory.
Local Open Scope ring_scope.

Section Model.
Variable F : realFieldType.
Variable T : Type.
Variable D : nat.
Variable g : gp_params F T D.

(** [squeeze(-1)]: the last axis must have length one. *)
Definition squeeze A (f : 'I_D -> A) : res A :=
  if D == 1%N then if insub 0%N is Some d then Ok (f d) else Err ValueError
  else Err ValueError.

(** [1E-8] *)
Definition jitter : F := 10%:R ^- 8.

(** Lines 1613-1639 and 1651-1662: the drawn samples and the coefficients of the
    returned functions. *)
Definition sample_gp n (cache : 'M[F]_n * 'M[F]_(n, D)) (X : 'I_n -> T) m (discretization : 'I_m -> T)
    (draw : 'cV[F]_m -> 'M[F]_m -> seq 'cV[F]_m) (cho_factor : 'M[F]_m -> res 'M[F]_m)
    : res (seq 'cV[F]_m * seq 'cV[F]_m) :=
  do mean <- predict_mean g cache X discretization;
  do cov <- predict_full g cache X discretization;
  do mean <- squeeze (fun d => col d mean);
  do cov <- squeeze cov;
  let cov := cov + jitter *: 1%:M in
  let output := draw mean cov in
  do L <- cho_factor cov;
  Ok (output, [seq invmx (L *m L^T) *m y | y <- output]).

(** [gp_sample], lines 1641-1649, at one point (row of the result). *)
Definition gp_sample m (discretization : 'I_m -> T) (alpha : 'cV[F]_m) (x : T)
    (noisy : option ((F -> F) * F)) : 'rV[F]_D :=
  let k : 'rV[F]_m := \row_j kern g x (discretization j) in
  let y := mean g x + const_mx ((k *m alpha) 0 0) in
  match noisy with
  | None => y
  | Some (sqrt, normal) => y + const_mx (sqrt (noise g) * normal)
  end.
End Model.
