(** Predictions of Gaussian processes at points that were measured repeatedly. *)
From Coq Require Import Reals List Lra Lia.
From mathcomp Require Import all_ssreflect all_algebra.
From Verif Require Import Prelude MxRing CertModel GPModel GPSpec LqrSpec LqrProofs GPProofs RField GPLoopModel GPLoopSpec GPLoopProofs ExploreSpec.
From Verif Require Import Properties.GPProps.
Set Implicit Arguments.
Unset Strict Implicit.
Unset Printing Implicit Defensive.
Import Order.Theory GRing.Theory Num.Theory.
Local Open Scope ring_scope.

Section Repeated.
Variables (F : realFieldType) (T : eqType) (g : gp_params F T 1).
Hypothesis pk : psd_kernel g.
Hypothesis np : 0 < noise g.

Lemma pcov_repeated n (X : 'I_n -> T) S (x : T) (c : nat) : S *m data_cov g X = 1%:M ->
  (\sum_i (X i == x))%N = c.+1 ->
  quad (pcov g X (fun _ : 'I_1 => x) S) 1%:M <= noise g / c.+1%:R.
Proof.
  move=> inv cE; have c0 : c.+1%:R != 0 :> F by rewrite pnatr_eq0.
  pose a i : F := (X i == x)%:R / c.+1%:R.
  have sa : \sum_i a i = 1 by rewrite -mulr_suml -natr_sum cE divff.
  have at_x (h : T -> F) i : a i * h (X i) = a i * h x.
    by rewrite /a; case: (X i =P x) => [->|] //; rewrite !mul0r.
  apply: le_trans (pcov_upper pk np (fun _ : 'I_1 => x) inv 1%:M (\col_i a i)) _.
  have E1 : quad (gram g (fun _ : 'I_1 => x) (fun _ : 'I_1 => x)) 1%:M = kern g x x.
    by rewrite quad_sum !big_ord1 !mxE /= mul1r mulr1.
  have E2 : quad (data_cov g X) (\col_i a i) = kern g x x + noise g / c.+1%:R.
    rewrite data_covE quad_D quad_Z; congr (_ + _ * _).
      rewrite quad_sum; transitivity (\sum_i \sum_j a i * kern g x x * a j).
        apply: eq_bigr => i _; apply: eq_bigr => j _; rewrite !mxE.
        by rewrite (at_x (fun z => kern g z (X j))) -mulrA [_ * a j]mulrC (at_x (kern g x)) mulrA mulrAC.
      under eq_bigr do rewrite -mulr_sumr sa mulr1.
      by rewrite -mulr_suml sa mul1r.
    rewrite /quad mulmx1 mxE; transitivity (\sum_i a i / c.+1%:R).
      apply: eq_bigr => i _; rewrite !mxE /a; case: (X i == x); last by rewrite !mul0r.
      by rewrite mul1r.
    by rewrite -mulr_suml sa mul1r.
  have E3 : ((gram g X (fun _ : 'I_1 => x) *m 1%:M)^T *m (\col_i a i)) 0 0 = kern g x x.
    rewrite mulmx1 mxE; transitivity (\sum_i a i * kern g x x).
      by apply: eq_bigr => i _; rewrite !mxE mulrC (at_x (fun z => kern g z x)).
    by rewrite -mulr_suml sa mul1r.
  rewrite E1 E2 E3 mulr_natl mulr2n; set k := kern g x x; set r := noise g / _.
  by rewrite opprD [k + r]addrC -!addrA [k + (- k + _)]addrA subrr add0r [r - k]addrC addrA subrr add0r.
Qed.
End Repeated.

Lemma INR_nat n : INR n = n%:R :> R.
Proof. by elim: n => [|n IH] //; rewrite S_INR IH -addn1 natrD. Qed.

Lemma times_sum (w : dataset) x : times_measured w x = (\sum_(i < length w) (inputs i == x))%N.
Proof.
  rewrite /times_measured /inputs; elim: w => [|p w IH] /=; first by rewrite big_ord0.
  rewrite big_ord_recl /= -IH /measurement /=.
  case: List.list_eq_dec => [->|ne]; first by rewrite eqxx add1n.
  by have -> : (p.1 == x) = false by apply/eqP.
Qed.

(** The error bound after [n] measurements at the point. *)
Lemma repeated_bound k me w x n : sensible me -> me_kdiag me x = me_kern me x x ->
  (0 < n)%coq_nat -> (n <= times_measured w x)%coq_nat ->
  ((member_eval k me w x).2 <= me_beta me * R_sqrt.sqrt (me_noise me / INR n))%coqR.
Proof.
  move=> se kdx n0 nt; have [ker kd nz sc bp ch] := se.
  have pk := kernel_psd ker.
  have scn : scale (params me) != 0 by apply/eqP.
  have np' : 0 < noise (params me) by apply/RltP.
  have [[L alpha] ok] := C49_cache_succeeds (@inputs w) (outputs k w) (ch _) scn pk np'.
  have [S inv] := C49_posterior_exists (proj1 (ch _)) scn ok.
  have [V [VE Ve]] := diag_ok_any (proj1 (ch _)) ok scn inv (fun _ : 'I_1 => x).
  have ME := mean_ok (proj1 (ch _)) ok scn inv (fun _ : 'I_1 => x).
  rewrite /member_eval ok /evaluate ME VE /= mxE.
  apply: Rmult_le_compat_l => //; apply: sqrt_le_1_alt.
  case cE: (times_measured w x) nt => [|c] nt; first by lia.
  have := cE; rewrite times_sum => cE'.
  have h := pcov_repeated pk np' inv cE'.
  have E : V 0 0 = quad (pcov (params me) (@inputs w) (fun _ : 'I_1 => x) S) 1%:M.
    rewrite Ve /= kdx subrr addr0 quad_sum !big_ord1 /pcov [(1%:M : 'M_1) _ _]mxE mul1r mulr1.
    done.
  rewrite E; apply: Rle_trans (_ : (me_noise me / INR c.+1)%coqR <= _)%coqR.
    rewrite divE; last by apply: not_0_INR.
    rewrite INR_nat; exact/RleP.
  apply: Rmult_le_compat_l; first exact: Rlt_le.
  apply: Rinv_le_contravar; first exact: lt_0_INR.
  exact: le_INR.
Qed.
