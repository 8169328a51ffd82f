(** Predictions of Gaussian processes at neighbouring points. *)
From Coq Require Import Reals List Lra Lia.
From mathcomp Require Import all_ssreflect all_algebra.
From Verif Require Import Prelude MxRing CertModel GPModel GPSpec LqrSpec LqrProofs GPProofs RField GPLoopModel GPLoopSpec GPLoopProofs SpreadSpec.
From Verif Require Import Properties.GPProps.
Set Implicit Arguments.
Unset Strict Implicit.
Unset Printing Implicit Defensive.
Import Order.Theory GRing.Theory Num.Theory.
Local Open Scope ring_scope.

Section Two.
Variables (F : realFieldType) (T : Type) (g : gp_params F T 1).
Hypothesis pk : psd_kernel g.
Hypothesis np : 0 < noise g.
Variables (n : nat) (X : 'I_n -> T) (S : 'M[F]_n).
Hypothesis inv : S *m data_cov g X = 1%:M.

Definition pc (x z : T) : F :=
  kern g x z - \sum_j (\sum_i kern g (X i) x * S i j) * kern g (X j) z.
Lemma pcovE m (Z : 'I_m -> T) i j : pcov g X Z S i j = pc (Z i) (Z j).
Proof.
  rewrite /pcov /pc !mxE; congr (_ - _); apply: eq_bigr => l _; rewrite !mxE; congr (_ * _).
  by apply: eq_bigr => l' _; rewrite !mxE.
Qed.

Definition two (x z : T) (i : 'I_2) : T := if i == ord0 then x else z.
Definition col2 (a b : F) : 'cV[F]_2 := \col_i (if i == ord0 then a else b).
Lemma quad2 M (a b : F) : quad M (col2 a b) =
  a * M ord0 ord0 * a + a * M ord0 (lift ord0 ord0) * b + (b * M (lift ord0 ord0) ord0 * a + b * M (lift ord0 ord0) (lift ord0 ord0) * b).
Proof. by rewrite quad_sum !big_ord_recl !big_ord0 /= !mxE /= !addr0. Qed.

Lemma pc_psd x z a b : 0 <= a * pc x x * a + a * pc x z * b + (b * pc z x * a + b * pc z z * b).
Proof. by have := pcov_psd pk np (two x z) inv (col2 a b); rewrite quad2 !pcovE. Qed.
Lemma pc_prior x z : pc x x - pc x z - pc z x + pc z z <= kern g x x - kern g x z - kern g z x + kern g z z.
Proof.
  have := pcov_prior pk np (two x z) inv (col2 1 (- 1)); rewrite !quad2 !pcovE !mxE /=.
  by rewrite !mul1r !mulN1r !mulr1 !mulrN1 !opprK !addrA.
Qed.
End Two.

(** The square root of a quadratic form is a seminorm. *)
Lemma seminorm (A B C D c : R) : (0 <= A)%coqR -> (0 <= C)%coqR -> (0 <= c)%coqR ->
  (forall a b : R, 0 <= a * a * A + a * b * B + b * b * C)%coqR ->
  (A - B + C <= D)%coqR ->
  (R_sqrt.sqrt (A + c) <= R_sqrt.sqrt (C + c) + R_sqrt.sqrt D)%coqR.
Proof.
  move=> A0 C0 c0 psd AD.
  have sA := sqrt_sqrt A A0; have sC := sqrt_sqrt C C0; have pA := sqrt_pos A; have pC := sqrt_pos C.
  set p := R_sqrt.sqrt A in sA pA *; set q := R_sqrt.sqrt C in sC pC *.
  have B1 : (B <= 2 * (p * q))%coqR.
    case: (Rle_lt_or_eq_dec 0 (p * q)) => [|pq|pq]; first exact: Rmult_le_pos.
      have := psd q (- p)%coqR; rewrite -sA -sC => h.
      have h' : (0 <= (p * q) * (2 * (p * q) - B))%coqR by lra.
      apply: Rnot_lt_le => lt.
      have : (0 < (p * q) * (B - 2 * (p * q)))%coqR by apply: Rmult_lt_0_compat => //; lra.
      lra.
    rewrite -pq Rmult_0_r; apply: Rnot_lt_le => lt.
    have Bn : B <> R0 by lra.
    have [p0|q0] : p = R0 \/ q = R0 by apply: Rmult_integral; rewrite -pq.
      have A00 : A = R0 by rewrite -sA p0 Rmult_0_l.
      have := psd (- (C + 1) / B)%coqR R1; rewrite A00.
      have -> : (- (C + 1) / B * (- (C + 1) / B) * 0 + - (C + 1) / B * 1 * B + 1 * 1 * C = - 1)%coqR by field.
      lra.
    have C00 : C = R0 by rewrite -sC q0 Rmult_0_l.
    have := psd R1 (- (A + 1) / B)%coqR; rewrite C00.
    have -> : (1 * 1 * A + 1 * (- (A + 1) / B) * B + - (A + 1) / B * (- (A + 1) / B) * 0 = - 1)%coqR by field.
    lra.
  have D0 : (0 <= D)%coqR.
    apply: Rle_trans AD; have := psd R1 (- 1)%coqR; lra.
  have sD := sqrt_sqrt D D0; have pD := sqrt_pos D; set d := R_sqrt.sqrt D in sD pD *.
  have pqd : (p <= q + d)%coqR.
    apply: Rnot_lt_le => lt.
    have : (d * d < (p - q) * (p - q))%coqR by apply: Rmult_le_0_lt_compat; lra.
    rewrite sD => h; lra.
  have Cc : (0 <= C + c)%coqR by lra.
  have sCc := sqrt_sqrt _ Cc; have pCc := sqrt_pos (C + c).
  have qr : (q <= R_sqrt.sqrt (C + c))%coqR by apply: sqrt_le_1_alt; lra.
  set r := R_sqrt.sqrt (C + c) in sCc pCc qr *.
  rewrite -(sqrt_square (r + d)); last by lra.
  apply: sqrt_le_1_alt.
  have : (p * p <= (q + d) * (q + d))%coqR by apply: Rmult_le_compat; lra.
  have : (d * q <= d * r)%coqR by apply: Rmult_le_compat_l.
  rewrite sA; lra.
Qed.

Lemma member_spread k me w x z : sensible me ->
  (me_kdiag me x - me_kern me x x = me_kdiag me z - me_kern me z z)%coqR ->
  ((member_eval k me w x).2 <= (member_eval k me w z).2 + me_beta me * kernel_distance (me_kern me) x z)%coqR.
Proof.
  move=> se same; have [ker kd nz sc bp ch] := se.
  have pk := kernel_psd ker; have [sym _] := ker.
  have scn : scale (params me) != 0 by apply/eqP.
  have np' : 0 < noise (params me) by apply/RltP.
  have [[L alpha] ok] := C49_cache_succeeds (@inputs w) (outputs k w) (ch _) scn pk np'.
  have [S inv] := C49_posterior_exists (proj1 (ch _)) scn ok.
  have ev y : (member_eval k me w y).2 =
      (me_beta me * R_sqrt.sqrt (pc (params me) (@inputs w) S y y + (me_kdiag me y - me_kern me y y)))%coqR.
    have [V [VE Ve]] := diag_ok_any (proj1 (ch _)) ok scn inv (fun _ : 'I_1 => y).
    have ME := mean_ok (proj1 (ch _)) ok scn inv (fun _ : 'I_1 => y).
    rewrite /member_eval ok /evaluate ME VE /= mxE Ve -[_ - _ *m _]/(pcov (params me) (@inputs w) (fun _ : 'I_1 => y) S).
    by rewrite pcovE.
  rewrite !ev -Rmult_plus_distr_l; apply: Rmult_le_compat_l => //; rewrite same.
  have ps := pc_psd pk np' inv x z; have pr := pc_prior pk np' inv x z.
  have d1 := pc_psd pk np' inv x x 1 0; have d2 := pc_psd pk np' inv z z 1 0.
  rewrite !mul1r !mulr1 !mulr0 !mul0r !addr0 in d1 d2.
  set P := pc _ _ _ in ps pr d1 d2 *.
  apply: (@seminorm (P x x) (P x z + P z x)%coqR (P z z)).
  - exact/RleP.
  - exact/RleP.
  - have := kd z; lra.
  - move=> a b; have /RleP := ps a b => h; apply: Rle_trans h _; apply: Req_le.
    rewrite /GRing.mul /GRing.add /=; ring.
  - have /RleP := pr => h.
    have E : (P x x - (P x z + P z x) + P z z)%coqR = P x x - P x z - P z x + P z z.
      rewrite /GRing.add /GRing.opp /=; ring.
    rewrite E; apply: Rle_trans h _; apply: Req_le; rewrite /= -(sym x z).
    rewrite /GRing.add /GRing.opp /=; ring.
Qed.
