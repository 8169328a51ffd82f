(** Property C89: what the error bounds of [GaussianProcess] guarantee. *)
From mathcomp Require Import all_ssreflect all_algebra.
From Verif Require Import Prelude MxRing LqrSpec LqrProofs GPModel GPSpec GPProofs ConfSpec.
From Verif Require Import Properties.GPProps.
Set Implicit Arguments.
Unset Strict Implicit.
Unset Printing Implicit Defensive.
Import Order.Theory GRing.Theory Num.Theory.
Local Open Scope ring_scope.

Section Lemmas.
Variable F : realFieldType.
Add Ring Fr : (F_ring F).
Ltac fring := fold_ring F; ring.

(** (a - b)^2 <= (A + E) (q + v) if a^2 <= A q and b^2 <= E v. *)
Lemma two_terms (a b A E q v : F) : 0 <= A -> 0 <= E -> 0 <= q -> 0 <= v ->
  a ^+ 2 <= A * q -> b ^+ 2 <= E * v -> (a - b) ^+ 2 <= (A + E) * (q + v).
Proof.
  move=> A0 E0 q0 v0 h1 h2.
  have h3 : `|2%:R * (a * b)| <= A * v + E * q.
    rewrite -(@ler_pexpn2r _ 2) ?nnegrE ?addr_ge0 ?mulr_ge0 //.
    rewrite -normrX ger0_norm ?sqr_ge0 // exprMn.
    have h4 : (a * b) ^+ 2 <= (A * q) * (E * v) by rewrite exprMn ler_pmul // sqr_ge0.
    apply: (@le_trans _ _ (2%:R ^+ 2 * ((A * q) * (E * v)))).
      by rewrite ler_wpmul2l // sqr_ge0.
    rewrite -subr_ge0.
    have -> : (A * v + E * q) ^+ 2 - 2%:R ^+ 2 * (A * q * (E * v)) = (A * v - E * q) ^+ 2.
      by rewrite !expr2 !mulr2n; fring.
    exact: sqr_ge0.
  have -> : (a - b) ^+ 2 = a ^+ 2 + b ^+ 2 - 2%:R * (a * b) by rewrite !expr2 !mulr2n; fring.
  have -> : (A + E) * (q + v) = A * q + E * v + (A * v + E * q) by fring.
  apply: ler_add; first exact: ler_add.
  by apply: le_trans h3; rewrite -normrN ler_norm.
Qed.

(** Cauchy-Schwarz for sums. *)
Lemma cauchy n (w e : 'I_n -> F) : (\sum_i w i * e i) ^+ 2 <= (\sum_i w i ^+ 2) * (\sum_i e i ^+ 2).
Proof.
  set W := \sum_i w i ^+ 2; set E := \sum_i e i ^+ 2; set P := \sum_i w i * e i.
  have W0 : 0 <= W by apply: sumr_ge0 => i _; apply: sqr_ge0.
  have H : 0 <= W * (W * E - P ^+ 2).
    have -> : W * (W * E - P ^+ 2) = \sum_i (W * e i - P * w i) ^+ 2.
      transitivity (\sum_i (W ^+ 2 * e i ^+ 2 + (P ^+ 2 * w i ^+ 2 - 2%:R * W * P * (w i * e i)))).
        rewrite big_split /= sumrB -!mulr_sumr -/W -/E -/P !expr2 !mulr2n; fring.
      by apply: eq_bigr => i _; rewrite !expr2 !mulr2n; fring.
    by apply: sumr_ge0 => i _; apply: sqr_ge0.
  have [W1|W1] := eqVneq W 0.
    have z i : w i = 0.
      have := psumr_eq0P (fun i _ => sqr_ge0 (w i)) W1 (i := i) isT.
      by move/eqP; rewrite sqrf_eq0 => /eqP.
    have -> : P = 0 by rewrite /P big1 // => i _; rewrite z mul0r.
    by rewrite W1 mul0r expr0n.
  have Wp : 0 < W by rewrite lt_def W1.
  by move: H; rewrite pmulr_rge0 // subr_ge0.
Qed.

(** A quadratic polynomial without negative values. *)
Lemma discriminant (a b c : F) : 0 <= a -> (forall t, 0 <= a * t ^+ 2 + 2%:R * b * t + c) -> b ^+ 2 <= a * c.
Proof.
  move=> ap H; have [a0|a0] := eqVneq a 0.
    have [->|b0] := eqVneq b 0; first by rewrite a0 mul0r expr0n.
    have := H (- ((c + 1) / (2%:R * b))); rewrite a0 mul0r add0r mulrN mulrC mulfVK.
      by rewrite opprD addrAC addNr add0r oppr_ge0 ler10.
    by rewrite mulf_neq0 // pnatr_eq0.
  have a1 : 0 < a by rewrite lt_def a0.
  have := H (- (b / a)).
  have -> : a * (- (b / a)) ^+ 2 + 2%:R * b * - (b / a) + c = c - b ^+ 2 / a.
    have E : a * (- (b / a)) ^+ 2 = b ^+ 2 / a.
      by rewrite sqrrN exprMn mulrCA; congr (_ * _); rewrite expr2 mulVKf.
    rewrite E !mulrN mulrA !expr2 mulr2n; set i := a^-1; fring.
  by rewrite subr_ge0 ler_pdivr_mulr // mulrC.
Qed.
End Lemmas.

Section Contains.
Variable F : realFieldType.
Variable T : Type.
Variable D : nat.
Variable g : gp_params F T D.
Add Ring Fr2 : (F_ring F).
Ltac fring := fold_ring F; ring.

Lemma norm_quad B h n (X : 'I_n -> T) (u : 'cV[F]_n) : norm_at_most (kern g) B h ->
  (\sum_i u i 0 * h (X i)) ^+ 2 <= B ^+ 2 * quad (gram g X X) u.
Proof.
  move=> nb; apply: le_trans (nb n X (fun i => u i 0)) _.
  rewrite quad_sum le_eqVlt; apply/orP; left; apply/eqP; congr (_ * _).
  by do 2!apply: eq_bigr => ? _; rewrite mxE.
Qed.

Section Point.
Hypothesis pk : psd_kernel g.
Hypothesis np : 0 < noise g.
Variables (n m : nat) (X : 'I_n -> T) (Z : 'I_m -> T) (S : 'M[F]_n).
Hypothesis inv : S *m data_cov g X = 1%:M.
Variable i : 'I_m.
Definition kx : 'cV[F]_n := gram g X Z *m delta_mx i 0.
Definition wx : 'cV[F]_n := S *m kx.
Definition qx : F := quad (gram g Z Z) (delta_mx i 0) + (quad (gram g X X) wx - 2%:R * (kx^T *m wx) 0 0).

Lemma var_split : pcov g X Z S i i = qx + noise g * \sum_j wx j 0 ^+ 2.
Proof.
  rewrite -quad_delta quad_pcov.
  have [_ /(_ erefl) ->] := lower_bound kx wx (data_sym pk X) (posdef_psd (data_posdef pk np X)) inv.
  rewrite data_covE quad_D quad_Z.
  have -> : quad 1%:M wx = \sum_j wx j 0 ^+ 2.
    by rewrite /quad mulmx1 mxE; apply: eq_bigr => j _; rewrite mxE expr2.
  by rewrite /qx; set c1 := quad _ (delta_mx _ _); set c2 := quad _ wx; set c3 := _ * _; set c4 := _ * _; fring.
Qed.
Lemma joint_quad : quad (gram g (join X Z) (join X Z)) (col_mx (- wx) (delta_mx i 0)) = qx.
Proof.
  rewrite (gram_block pk) quad_block.
  have -> : quad (gram g X X) (- wx) = quad (gram g X X) wx.
    by rewrite !quadE bil_Nl bil_Nr opprK.
  rewrite bil_Nr bil_Nl [bil (gram g X Z) wx _]bil_T (gram_T pk).
  have E : (kx^T *m wx) 0 0 = bil (gram g Z X) (delta_mx i 0) wx.
    by rewrite /bil /kx trmx_mul (gram_T pk).
  rewrite /qx E; set c1 := quad _ wx; set c2 := bil _ _ _; set c3 := quad _ (delta_mx _ _).
  by rewrite mulr_natl mulr2n; fring.
Qed.
Lemma q_ge0 : 0 <= qx.
Proof. by rewrite -joint_quad; apply: (gram_psd pk). Qed.
Lemma mean_split (Y : 'M[F]_(n, D)) d :
  (means g Z + (gram g X Z)^T *m S *m (Y - means g X)) i d
  = mean g (Z i) 0 d + \sum_j wx j 0 * (Y j d - mean g (X j) 0 d).
Proof.
  rewrite !mxE; congr (_ + _); apply: eq_bigr => j _; rewrite !mxE; congr (_ * _).
  have [_ SE] := left_unit inv.
  have sS : S^T = S by rewrite SE trmx_inv (data_sym pk).
  apply: eq_bigr => l _; rewrite !mxE -[in LHS]sS mxE mulrC; congr (_ * _).
  rewrite (bigD1 i) //= big1 => [|l' /negPf nl]; last by rewrite !mxE nl mulr0.
  by rewrite !mxE !eqxx mulr1 addr0.
Qed.
Lemma deviation B (h : T -> F) (e : 'I_n -> F) : norm_at_most (kern g) B h ->
  (h (Z i) - \sum_j wx j 0 * (h (X j) + e j)) ^+ 2
  <= (B ^+ 2 + (\sum_j e j ^+ 2) / noise g) * pcov g X Z S i i.
Proof.
  move=> nb; rewrite var_split.
  have -> : h (Z i) - \sum_j wx j 0 * (h (X j) + e j)
    = (h (Z i) - \sum_j wx j 0 * h (X j)) - \sum_j wx j 0 * e j.
    rewrite -addrA -opprD; congr (_ - _); rewrite -big_split /=.
    by apply: eq_bigr => j _; rewrite mulrDr.
  apply: two_terms.
  - exact: sqr_ge0.
  - by rewrite divr_ge0 ?(ltW np) // sumr_ge0 // => j _; apply: sqr_ge0.
  - exact: q_ge0.
  - by rewrite mulr_ge0 ?(ltW np) // sumr_ge0 // => j _; apply: sqr_ge0.
  - have := norm_quad (join X Z) (col_mx (- wx) (delta_mx i 0)) nb; rewrite joint_quad.
    congr (_ ^+ 2 <= _); rewrite big_split_ord /= addrC; congr (_ + _).
      rewrite (bigD1 i) //= big1 => [|l /negPf nl].
        by rewrite col_mxEd mxE !eqxx mul1r addr0 GPProofs.join_r.
      by rewrite col_mxEd mxE nl mul0r.
    by rewrite -sumrN; apply: eq_bigr => j _; rewrite col_mxEu mxE GPProofs.join_l mulNr.
  - apply: le_trans (cauchy _ _) _.
    rewrite mulrC le_eqVlt; apply/orP; left; apply/eqP.
    by rewrite mulrA mulfVK ?lt0r_neq0.
Qed.
End Point.

(** Cauchy-Schwarz for kernels: sums of kernel functions have a norm. *)
Lemma expansion_norm (pk : psd_kernel g) n (P : 'I_n -> T) (c : 'I_n -> F) B :
  \sum_i \sum_j c i * kern g (P i) (P j) * c j <= B ^+ 2 ->
  norm_at_most (kern g) B (fun x => \sum_l c l * kern g (P l) x).
Proof.
  move=> cB m X w.
  set cc := \col_l c l; set ww := \col_l w l.
  have Ec : \sum_i \sum_j c i * kern g (P i) (P j) * c j = quad (gram g P P) cc.
    by rewrite quad_sum; do 2!apply: eq_bigr => ? _; rewrite !mxE.
  have Ew : \sum_i \sum_j w i * kern g (X i) (X j) * w j = quad (gram g X X) ww.
    by rewrite quad_sum; do 2!apply: eq_bigr => ? _; rewrite !mxE.
  have Eb : \sum_i w i * (\sum_l c l * kern g (P l) (X i)) = bil (gram g P X) cc ww.
    rewrite /bil mxE; apply: eq_bigr => i _; rewrite !mxE mulrC; congr (_ * _).
    by apply: eq_bigr => l _; rewrite !mxE.
  rewrite Ew Eb; apply: (@le_trans _ _ (quad (gram g X X) ww * quad (gram g P P) cc)); last first.
    by rewrite mulrC ler_wpmul2r ?(gram_psd pk) // -Ec.
  apply: discriminant; first exact: (gram_psd pk).
  move=> t; have := gram_psd pk (join P X) (col_mx cc (t *: ww)).
  rewrite (gram_block pk) quad_block.
  have -> : quad (gram g X X) (t *: ww) = t ^+ 2 * quad (gram g X X) ww.
    have tE : (t *: ww)^T = t *: ww^T by rewrite linearZ.
    by rewrite /quad tE -!scalemxAr -!scalemxAl !mxE expr2 mulrA.
  have -> : bil (gram g X P) (t *: ww) cc = t * bil (gram g P X) cc ww.
    by rewrite bil_T (gram_T pk) /bil -scalemxAr mxE.
  have -> : bil (gram g P X) cc (t *: ww) = t * bil (gram g P X) cc ww.
    by rewrite /bil -scalemxAr mxE.
  congr (0 <= _); set a := quad _ ww; set b := bil _ _ _; set d := quad _ cc.
  by rewrite mulr2n expr2; fring.
Qed.
End Contains.

(** Any square root will do. *)
Definition square_root (F : realFieldType) (sqrt : F -> F) : Prop :=
  forall x, 0 <= x -> 0 <= sqrt x /\ sqrt x ^+ 2 = x.

Lemma interval_contains (F : realFieldType) T D (g : gp_params F T D) sqrt beta B n
    (chol : 'M[F]_n -> res 'M[F]_n) (X : 'I_n -> T) (Y e : 'M[F]_(n, D)) cache
    m (Z : 'I_m -> T) (f : T -> 'rV[F]_D) d :
  square_root sqrt -> factors chol -> scale g != 0 -> (forall x, kern g x x <= kdiag g x) ->
  psd_kernel g -> 0 < noise g -> 0 <= beta ->
  compute_cache g chol X Y = Ok cache ->
  (forall i, Y i d = f (X i) 0 d + e i d) ->
  norm_at_most (kern g) B (fun x => f x 0 d - mean g x 0 d) ->
  B ^+ 2 + (\sum_i e i d ^+ 2) / noise g <= beta ^+ 2 ->
  exists out, evaluate g sqrt beta cache X Z = Ok out /\ contains out Z f d.
Proof.
  case: cache => L alpha sq fac sc kd pk np bp ok data nb bb.
  have [S inv] := C49_posterior_exists fac sc ok.
  have [V [VE Ve]] := diag_ok_any fac ok sc inv Z.
  have ME := mean_ok fac ok sc inv Z.
  rewrite /evaluate ME VE /=; eexists; split; first reflexivity.
  move=> i /=; rewrite (mean_split pk Z inv i) [X in _ <= X]mxE Ve.
  set h := fun x => f x 0 d - mean g x 0 d.
  have dev := deviation pk np Z inv i (fun j => e j d) nb.
  have -> : f (Z i) 0 d - (mean g (Z i) 0 d + \sum_j wx g X Z S i j 0 * (Y j d - mean g (X j) 0 d))
    = h (Z i) - \sum_j wx g X Z S i j 0 * (h (X j) + e j d).
    rewrite opprD addrA; congr (_ - _); apply: eq_bigr => j _.
    by rewrite data /h addrAC.
  have v0 : 0 <= pcov g X Z S i i by rewrite -quad_delta; apply: pcov_psd.
  have v1 : pcov g X Z S i i <= pcov g X Z S i i + (kdiag g (Z i) - kern g (Z i) (Z i)).
    by rewrite ler_addl subr_ge0.
  have [s0 sE] := sq _ (le_trans v0 v1).
  rewrite -(@ler_pexpn2r _ 2) ?nnegrE ?mulr_ge0 //.
  rewrite -normrX ger0_norm ?sqr_ge0 // exprMn sE.
  apply: le_trans dev _; apply: le_trans (ler_wpmul2r v0 bb) _.
  by rewrite ler_wpmul2l ?sqr_ge0.
Qed.

Section C89.
Variable F : rcfType.
Variable T : Type.
Variable D : nat.
Variable g : gp_params F T D.

(** If the measurements are those of [f] up to errors [e], the norm of [f] minus the
    mean function is at most [B], and B^2 plus the sum of the squared errors divided
    by the noise variance of the model is at most beta^2, all intervals contain [f]. *)
Theorem C89_contains beta B n (chol : 'M[F]_n -> res 'M[F]_n) (X : 'I_n -> T) (Y e : 'M[F]_(n, D)) cache
    m (Z : 'I_m -> T) (f : T -> 'rV[F]_D) d :
  factors chol -> scale g != 0 -> (forall x, kern g x x <= kdiag g x) ->
  psd_kernel g -> 0 < noise g -> 0 <= beta ->
  compute_cache g chol X Y = Ok cache ->
  (forall i, Y i d = f (X i) 0 d + e i d) ->
  norm_at_most (kern g) B (fun x => f x 0 d - mean g x 0 d) ->
  B ^+ 2 + (\sum_i e i d ^+ 2) / noise g <= beta ^+ 2 ->
  exists out, evaluate g (@Num.sqrt F) beta cache X Z = Ok out /\ contains out Z f d.
Proof.
  apply: interval_contains => x x0; by rewrite sqrtr_ge0 sqr_sqrtr.
Qed.
End C89.

(** Mean function plus sums of kernel functions satisfy the premise. *)
Theorem C89_kernel_expansions (F : realFieldType) T D (g : gp_params F T D) n (P : 'I_n -> T) (c : 'I_n -> F)
    (f : T -> 'rV[F]_D) d B :
  psd_kernel g -> (forall x, f x 0 d = mean g x 0 d + \sum_l c l * kern g (P l) x) ->
  \sum_i \sum_j c i * kern g (P i) (P j) * c j <= B ^+ 2 ->
  norm_at_most (kern g) B (fun x => f x 0 d - mean g x 0 d).
Proof.
  move=> pk fE cB m X w; have := expansion_norm pk cB X w.
  congr (_ ^+ 2 <= _); apply: eq_bigr => i _; by rewrite fE addrAC subrr add0r.
Qed.

Section Example.
Variable F : rcfType.
(** The linear kernel: f(x) = 3 x has norm 3. *)
Lemma slope_norm (s : F) : norm_at_most (kern (lin F)) s (fun x => s * x).
Proof.
  move=> n X w; rewrite le_eqVlt; apply/orP; left; apply/eqP.
  transitivity ((s * \sum_i w i * X i) ^+ 2).
    by congr (_ ^+ 2); rewrite mulr_sumr; apply: eq_bigr => i _; rewrite mulrCA.
  rewrite exprMn; congr (_ * _); rewrite expr2 big_distrl /=; apply: eq_bigr => i _.
  rewrite big_distrr /=; apply: eq_bigr => j _.
  by rewrite !mulrA -[_ * X j * w j]mulrA [X j * _]mulrC !mulrA.
Qed.

(** beta = 3 for the function 3 x and one exact measurement 3 at 1: the interval at
    2 is 3 +- 3 sqrt 2 and contains 6 (the premises of C89_contains hold). *)
Example C89_ex : exists cache out,
  compute_cache (lin F) (@chol1 F) (fun _ => 1) (3%:R)%:M = Ok cache /\
  evaluate (lin F) (@Num.sqrt F) 3%:R cache (fun _ => 1) (fun _ : 'I_1 => 2%:R) = Ok out /\
  contains out (fun _ => 2%:R) (fun x => (3%:R * x)%:M) 0.
Proof.
  have s0 : scale (lin F) != 0 by rewrite pnatr_eq0.
  have [cache ok] := C49_cache_succeeds (fun _ : 'I_1 => 1) (3%:R)%:M (@chol1_ok F) s0 (@lin_psd F) ltr01.
  exists cache.
  have h1 i : ((3%:R)%:M : 'M[F]_1) i 0 = ((3%:R * 1)%:M : 'M[F]_1) 0 0 + (0 : 'M[F]_1) i 0.
    by rewrite !mxE ord1 eqxx mulr1n mulr1 addr0.
  have h2 : norm_at_most (kern (lin F)) 3%:R (fun x => ((3%:R * x)%:M : 'M[F]_1) 0 0 - mean (lin F) x 0 0).
    move=> n X w; have := slope_norm 3%:R X w; congr (_ ^+ 2 <= _).
    by apply: eq_bigr => i _; rewrite !mxE eqxx mulr1n subr0.
  have h3 : (3%:R : F) ^+ 2 + (\sum_(i < 1) (0 : 'M[F]_1) i 0 ^+ 2) / noise (lin F) <= 3%:R ^+ 2.
    by rewrite big_ord1 !mxE expr0n mul0r addr0.
  have [out [E H]] := C89_contains (g := lin F) (fun _ : 'I_1 => 2%:R) (f := fun x => (3%:R * x)%:M) (d := 0)
    (@chol1_ok F).1 s0 (fun _ => lexx _) (@lin_psd F) ltr01 (ler0n _ 3) ok h1 h2 h3.
  by exists out.
Qed.

(** Without a bound on the norm nothing is guaranteed: beta = 2 and f(x) = 3 x, no
    data. *)
Theorem C89_any_function_refuted : exists cache out,
  compute_cache (lin F) (@chol0 F) (@x0 F) (@y0 F) = Ok cache /\
  evaluate (lin F) (@Num.sqrt F) 2%:R cache (@x0 F) (@x1 F) = Ok out /\
  ~ contains out (@x1 F) (fun x => (3%:R * x)%:M) 0.
Proof.
  have s0 : scale (lin F) != 0 by rewrite pnatr_eq0.
  have [cache ok] : exists c, compute_cache (lin F) (@chol0 F) (@x0 F) (@y0 F) = Ok c.
    rewrite /compute_cache /= /tri_solve.
    have -> : forall A : 'M[F]_0, A \in unitmx by move=> A; rewrite unitmxE det_mx00 unitr1.
    by eexists.
  have inv0 : (0 : 'M[F]_0) *m data_cov (lin F) (@x0 F) = 1%:M by apply/matrixP => -[].
  have [M [C [V [ME [_ [VE e]]]]]] := C49_posterior (@x1 F) (@chol0_ok F) s0 ok inv0.
  exists cache; rewrite /evaluate ME VE /=; eexists; split; first exact: ok.
  split; first reflexivity.
  move=> /(_ 0) /=; rewrite !mxE eqxx mulr1n mulr1.
  have [-> [_ ->]] := e 0 0 0; rewrite /posterior_mean /posterior_cov !mxE /= !big_ord0 subrr !addr0 !subr0 mulr1 sqrtr1 mulr1.
  by rewrite normr_nat ler_nat.
Qed.

(** A function of norm 0, beta = 2, and a measurement error of 100: the interval at 2
    is 100 +- 2 sqrt 2. *)
Theorem C89_measurement_errors_refuted : exists cache out,
  norm_at_most (kern (lin F)) 0 (fun _ : F => 0) /\
  compute_cache (lin F) (@chol1 F) (fun _ => 1) (100%:R)%:M = Ok cache /\
  evaluate (lin F) (@Num.sqrt F) 2%:R cache (fun _ => 1) (fun _ : 'I_1 => 2%:R) = Ok out /\
  ~ contains out (fun _ => 2%:R : F) (fun _ => 0) 0.
Proof.
  have [cache [M [V [ok [ME [VE [m v]]]]]]] := C49_ex F.
  exists cache; rewrite /evaluate ME VE /=; eexists; split; last split; first last.
  - split; first reflexivity.
    move=> /(_ 0) /=; rewrite !mxE m v sub0r normrN normr_nat => h.
    have s2 : Num.sqrt 2%:R <= 2%:R :> F.
      rewrite -(@ler_pexpn2r _ 2) ?nnegrE ?sqrtr_ge0 ?ler0n // sqr_sqrtr ?ler0n //.
      by rewrite -natrX ler_nat.
    have : 100%:R <= 2%:R * 2%:R :> F by apply: (le_trans h); rewrite ler_wpmul2l ?ler0n.
    by rewrite -natrM ler_nat.
  - exact: ok.
  - move=> n X w; rewrite expr0n mul0r big1 ?expr0n // => i _; by rewrite mulr0.
Qed.
End Example.

Print Assumptions C89_contains.
Print Assumptions C89_kernel_expansions.
Print Assumptions C89_measurement_errors_refuted.
