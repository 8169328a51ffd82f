(** Sampled functions: proofs. *)
From mathcomp Require Import all_ssreflect all_algebra.
From Verif Require Import Prelude MxRing LqrSpec LqrProofs GPModel GPSpec GPProofs SampleGPModel.
Set Implicit Arguments.
Unset Strict Implicit.
Unset Printing Implicit Defensive.
Import Order.Theory GRing.Theory Num.Theory.
Local Open Scope ring_scope.

Section Proofs.
Variable F : realFieldType.
Variable T : Type.
Variable g : gp_params F T 1.
Hypothesis pk : psd_kernel g.
Hypothesis np : 0 < noise g.
Add Ring Fr : (F_ring F).
Ltac fring := fold_ring F; ring.

Lemma jitter_gt0 : 0 < jitter F.
Proof. by rewrite /jitter invr_gt0 exprn_gt0 // ltr0n. Qed.

Lemma squeeze1 A (f : 'I_1 -> A) : squeeze f = Ok (f 0).
Proof.
  rewrite /squeeze eqxx; case: insubP => [d _ _|] //; by rewrite [d]ord1.
Qed.

Section Cache.
Variables (n : nat) (chol : 'M[F]_n -> res 'M[F]_n) (X : 'I_n -> T) (Y : 'M[F]_(n, 1)).
Variables (L : 'M[F]_n) (alpha : 'M[F]_(n, 1)) (S : 'M[F]_n).
Hypothesis fac : factors chol.
Hypothesis ok : compute_cache g chol X Y = Ok (L, alpha).
Hypothesis sc : scale g != 0.
Hypothesis inv : S *m data_cov g X = 1%:M.
Variables (m : nat) (Z : 'I_m -> T).
Notation cov := (pcov g X Z S + jitter F *: 1%:M).

Lemma cov_posdef : posdef cov.
Proof.
  move=> x nx; rewrite quad_D quad_Z; apply: ltr_paddl; first exact: pcov_psd.
  by rewrite mulr_gt0 ?jitter_gt0 ?sq_pos.
Qed.
Lemma cov_sym : symmetric cov.
Proof.
  rewrite /symmetric linearD /= linearZ /= trmx1 /pcov linearB /= gram_T // !trmx_mul trmxK.
  have -> : S^T = S; last by rewrite mulmxA.
  have [u ->] := left_unit inv; by rewrite trmx_inv (data_sym pk X).
Qed.

Lemma sample_inv draw cho r : factors cho ->
  sample_gp g (L, alpha) X Z draw cho = Ok r ->
  r = (draw (col 0 (means g Z + (gram g X Z)^T *m S *m (Y - means g X))) cov,
       [seq invmx cov *m y | y <- draw (col 0 (means g Z + (gram g X Z)^T *m S *m (Y - means g X))) cov]).
Proof.
  move=> fc; rewrite /sample_gp (mean_ok fac ok sc inv Z) /=.
  have [C [-> Ce]] := full_ok fac ok sc inv Z; rewrite /= !squeeze1 /= Ce.
  case E: (cho _) => [M|] //= [<-].
  by have [-> _] := fc _ _ E.
Qed.

Lemma sample_total draw cho : factors_all cho ->
  exists r, sample_gp g (L, alpha) X Z draw cho = Ok r.
Proof.
  move=> [fc fa]; rewrite /sample_gp (mean_ok fac ok sc inv Z) /=.
  have [C [-> Ce]] := full_ok fac ok sc inv Z; rewrite /= !squeeze1 /= Ce.
  have [M ->] := fa _ cov_sym cov_posdef.
  by eexists.
Qed.

Lemma coefficients (y : 'cV[F]_m) : cov *m (invmx cov *m y) = y.
Proof. by rewrite mulmxA mulmxV ?mul1mx // posdef_unit //; apply: cov_posdef. Qed.
End Cache.

(** Small error when there are no data. *)
Lemma ridge m (K : 'M[F]_m) lam eps (y a : 'cV[F]_m) : 0 <= lam -> 0 < eps ->
  (forall v, lam * quad 1%:M v <= quad K v) -> (K + eps *: 1%:M) *m a = y ->
  (lam + eps) ^+ 2 * quad 1%:M (eps *: a) <= eps ^+ 2 * quad 1%:M y.
Proof.
  move=> l0 e0 lb E.
  have le0 : 0 < lam + eps by rewrite ltr_paddl.
  (* a'y >= (lam + eps) |a|^2 *)
  have h1 : (lam + eps) * quad 1%:M a <= bil 1%:M a y.
    rewrite -E bil_mulr mul1mx bil_DA mulrDl -!quadE quad_Z ler_add2r; exact: lb.
  have h2 : 0 <= quad 1%:M ((lam + eps) *: a - y).
    have [->|ne] := eqVneq ((lam + eps) *: a - y) 0; first by rewrite quad0.
    by apply: ltW; apply: sq_pos.
  have sZ c (v : 'cV[F]_m) : quad 1%:M (c *: v) = c ^+ 2 * quad 1%:M v.
    by rewrite /quad -scalemxAr [(c *: v)^T]linearZ /= -!scalemxAl [in LHS]mxE [in LHS]mxE mulrA expr2.
  have bZ c : bil 1%:M (c *: a) y = c * bil 1%:M a y.
    by rewrite /bil [(c *: a)^T]linearZ /= -!scalemxAl [in LHS]mxE.
  have ex : quad 1%:M ((lam + eps) *: a - y) =
      (lam + eps) ^+ 2 * quad 1%:M a - 2%:R * (lam + eps) * bil 1%:M a y + quad 1%:M y.
    rewrite quadE bil_Dl !bil_Dr !bil_Nl !bil_Nr opprK -!quadE sZ bZ.
    rewrite [bil 1%:M y _]bil_T trmx1 bZ.
    set u := quad _ _; set v := quad _ _; set w := bil _ _ _.
    rewrite -[2%:R * _ * w]mulrA mulr_natl mulr2n; set q := _ ^+ 2 * u; fring.
  rewrite sZ mulrCA ler_wpmul2l ?sqr_ge0 //.
  rewrite ex in h2.
  set u := quad _ a in h1 h2 *; set v := quad _ y in h2 *; set w := bil _ _ _ in h1 h2.
  set s := lam + eps in le0 h1 h2 *.
  have h3 : 2%:R * s * (s * u) <= 2%:R * s * w by rewrite ler_wpmul2l // mulr_ge0 ?ler0n // ltW.
  have -> : s ^+ 2 * u = 2%:R * s * (s * u) - s ^+ 2 * u.
    rewrite -[2%:R * s * _]mulrA mulr_natl mulr2n expr2; fring.
  rewrite ler_subl_addr; apply: le_trans h3 _.
  by move: h2; rewrite addrAC subr_ge0 [v + _]addrC.
Qed.
End Proofs.
