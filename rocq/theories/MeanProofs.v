(** The mean predictions of Gaussian processes as combinations of the kernel. *)
From Coq Require Import Reals List Lra Lia.
From mathcomp Require Import all_ssreflect all_algebra.
From Verif Require Import Prelude MxRing CertModel GPModel GPSpec ConfSpec LqrSpec LqrProofs GPProofs RField GPLoopModel GPLoopSpec GPLoopProofs SpreadSpec SpreadProofs.
From Verif Require Import Properties.GPProps Properties.ConfProps.
Set Implicit Arguments.
Unset Strict Implicit.
Unset Printing Implicit Defensive.
Import Order.Theory GRing.Theory Num.Theory.
Local Open Scope ring_scope.

Lemma mean_norm (p q A N a b c : R) : (0 <= A)%coqR -> (0 <= N)%coqR -> (0 <= a)%coqR -> (0 <= b)%coqR ->
  (p ^ 2 <= a * A)%coqR -> (q ^ 2 <= b * N)%coqR -> (A + N = p + q)%coqR -> (a + b <= c)%coqR -> (A <= c)%coqR.
Proof.
  move=> A0 N0 a0 b0 hp hq E ab.
  have h : ((p + q) ^ 2 <= (a + b) * (A + N))%coqR.
    have k0 : (0 <= a * N + b * A)%coqR by apply: Rplus_le_le_0_compat; apply: Rmult_le_pos.
    have k : (2 * (p * q) <= a * N + b * A)%coqR.
      apply: Rle_trans (Rle_abs _) _; apply: Rsqr_incr_0_var => //; rewrite -Rsqr_abs /Rsqr.
      apply: Rle_trans (_ : (4 * ((a * A) * (b * N)) <= _)%coqR).
        have := Rmult_le_compat _ _ _ _ (pow2_ge_0 p) (pow2_ge_0 q) hp hq; lra.
      have := pow2_ge_0 (a * N - b * A); lra.
    lra.
  rewrite -E in h.
  case: (Rle_lt_or_eq_dec 0 (A + N)) => [|s|s]; first by lra.
    have h2 : (A + N <= a + b)%coqR by apply: (Rmult_le_reg_r (A + N)) => //; lra.
    lra.
  lra.
Qed.

Lemma mean_combination k me w h : sensible me -> covers me k h w ->
  exists P : list (R * list R), (energy (me_kern me) P <= me_beta me ^ 2)%coqR /\
  forall x, ((member_eval k me w x).1 = me_mean me x + combination (fun y => me_kern me y x) P)%coqR.
Proof.
  move=> se [B [nb bb]]; have [ker kd nz sc bp ch] := se.
  have pk := kernel_psd ker.
  have scn : scale (params me) != 0 by apply/eqP.
  have np' : 0 < noise (params me) by apply/RltP.
  have [[L alpha] ok] := C49_cache_succeeds (@inputs w) (outputs k w) (ch _) scn pk np'.
  have [S inv] := C49_posterior_exists (proj1 (ch _)) scn ok.
  pose y := outputs k w - means (params me) (@inputs w).
  pose a := S *m y.
  exists (expand (@inputs w) (fun i => a i 0)); split; last first.
    move=> x; rewrite combination_expand.
    have [V [VE Ve]] := diag_ok_any (proj1 (ch _)) ok scn inv (fun _ : 'I_1 => x).
    have ME := mean_ok (proj1 (ch _)) ok scn inv (fun _ : 'I_1 => x).
    rewrite -mulmxA -/y -/a in ME.
    have G : ((gram (params me) (@inputs w) (fun _ : 'I_1 => x))^T *m a) 0 0 = \sum_i a i 0 * me_kern me (inputs i) x.
      by rewrite mxE; apply: eq_bigr => i _; rewrite [_^T _ _]mxE [gram _ _ _ _ _]mxE mulrC.
    by rewrite /member_eval ok /evaluate ME VE /= [X in X = _]mxE G [means _ _ _ _]mxE /= mxE.
  have cov : data_cov (params me) (@inputs w) *m a = y.
    by rewrite /a mulmxA (mulmx1C inv) mul1mx.
  pose N := noise (params me) * \sum_i a i 0 ^+ 2.
  pose p := \sum_i a i 0 * (h (inputs i) - me_mean me (inputs i)).
  pose q := \sum_i a i 0 * (outputs k w i 0 - h (inputs i)).
  have N0 : 0 <= N by apply: mulr_ge0; [exact: ltW|apply: sumr_ge0 => i _; exact: sqr_ge0].
  have E : energy (me_kern me) (expand (@inputs w) (fun i => a i 0)) + N = p + q.
    rewrite energy_expand /N /p /q mulr_sumr -!big_split /=; apply: eq_bigr => i _.
    have yi : y i 0 = \sum_j (me_kern me (inputs i) (inputs j) + me_noise me *+ (i == j)) * a j 0.
      by rewrite -cov mxE; apply: eq_bigr => j _; rewrite !mxE.
    have yE : y i 0 = outputs k w i 0 - me_mean me (inputs i) by rewrite /y !mxE.
    transitivity (a i 0 * y i 0); last by rewrite yE -mulrDr [X in _ = _ * X]addrC addrA subrK.
    rewrite yi mulr_sumr.
    have -> : noise (params me) * a i 0 ^+ 2 = \sum_j a i 0 * (me_noise me *+ (i == j)) * a j 0.
      rewrite (bigD1 i) //= eqxx mulr1n big1 ?addr0 => [|j ji]; last by rewrite eq_sym (negbTE ji) mulr0 mul0r.
      by rewrite expr2 mulrA [a i 0 * me_noise me]mulrC.
    rewrite -big_split /=; apply: eq_bigr => j _; by rewrite mulrDl mulrDr !mulrA.
  pose b := (\sum_i (outputs k w i 0 - h (inputs i)) ^+ 2) / noise (params me).
  have b0 : 0 <= b by apply: divr_ge0; [apply: sumr_ge0 => i _; exact: sqr_ge0|exact: ltW].
  apply: (@mean_norm p q _ N (B ^ 2)%coqR b).
  - exact: (proj2 ker).
  - exact/RleP.
  - exact: pow2_ge_0.
  - exact/RleP.
  - have := nb (expand (@inputs w) (fun i => a i 0)); by rewrite combination_expand.
  - rewrite powE; apply/RleP; apply: le_trans (cauchy _ _) _.
    have bN : b * N = (\sum_i (outputs k w i 0 - h (inputs i)) ^+ 2) * (\sum_i a i 0 ^+ 2).
      by rewrite /b /N mulrA divfK //; exact: lt0r_neq0.
    by rewrite -[X in _ <= X]/(b * N) bN mulrC.
  - exact: E.
  - apply: Rle_trans bb; apply: Req_le; congr (_ + _)%coqR.
    have n0 : me_noise me <> R0 by apply/eqP; exact: lt0r_neq0 np'.
    rewrite divE // /b; congr (_ / _); rewrite (sum_index _ (nil, nil)); apply: eq_bigr => i _.
    by rewrite powE !mxE.
Qed.
