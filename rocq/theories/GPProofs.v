(** Gaussian process predictions: proofs. *)
From mathcomp Require Import all_ssreflect all_algebra.
From Verif Require Import Prelude MxRing LqrSpec LqrProofs GPModel GPSpec.
Set Implicit Arguments.
Unset Strict Implicit.
Unset Printing Implicit Defensive.
Import Order.Theory GRing.Theory Num.Theory.
Local Open Scope ring_scope.

Section Proofs.
Variable F : realFieldType.
Variable T : Type.
Variable D : nat.
Variable g : gp_params F T D.
Add Ring Fr : (F_ring F).
Ltac fring := fold_ring F; ring.

Lemma data_covE n (X : 'I_n -> T) : data_cov g X = gram g X X + noise g *: 1%:M.
Proof. by apply/matrixP => i j; rewrite !mxE mulr_natr. Qed.

Lemma posterior_covE n (S : 'M[F]_n) (X : 'I_n -> T) m (Z : 'I_m -> T) i j :
  (gram g Z Z - (gram g X Z)^T *m S *m gram g X Z) i j = posterior_cov g S X (Z i) (Z j).
Proof.
  rewrite !mxE /posterior_cov; congr (_ - _).
  transitivity (\sum_k \sum_l kern g (X l) (Z i) * S l k * kern g (X k) (Z j)).
    apply: eq_bigr => k _; rewrite !mxE big_distrl /=; apply: eq_bigr => l _.
    by rewrite !mxE.
  by rewrite exchange_big.
Qed.

Lemma posterior_meanE n (S : 'M[F]_n) (X : 'I_n -> T) (Y : 'M[F]_(n, D)) m (Z : 'I_m -> T) i d :
  (means g Z + (gram g X Z)^T *m S *m (Y - means g X)) i d = posterior_mean g S X Y (Z i) 0 d.
Proof.
  rewrite !mxE; congr (_ + _).
  transitivity (\sum_k \sum_l kern g (X l) (Z i) * S l k * (Y k d - mean g (X k) 0 d)).
    apply: eq_bigr => k _; rewrite !mxE big_distrl /=; apply: eq_bigr => l _.
    by rewrite !mxE.
  by rewrite exchange_big.
Qed.

Lemma lower_id n (M : 'M[F]_n) : (forall i j : 'I_n, (i < j)%N -> M i j = 0) -> lower M = M.
Proof.
  move=> t; apply/matrixP => i j; rewrite mxE; case: leqP => // l; by rewrite t.
Qed.

Section Cache.
Variables (n : nat) (chol : 'M[F]_n -> res 'M[F]_n) (X : 'I_n -> T) (Y : 'M[F]_(n, D)).
Variables (L : 'M[F]_n) (alpha : 'M[F]_(n, D)) (S : 'M[F]_n).
Hypothesis fac : factors chol.
Hypothesis ok : compute_cache g chol X Y = Ok (L, alpha).
Hypothesis sc : scale g != 0.
Hypothesis inv : S *m data_cov g X = 1%:M.

Lemma cache_inv : [/\ lower L = L, L \in unitmx, L *m L^T = scale g ^+ 2 *: data_cov g X &
  alpha = invmx L *m (scale g *: (Y - means g X))].
Proof.
  move: ok; rewrite /compute_cache /bind; case E: (chol _) => [L'|] //.
  rewrite /tri_solve; case: ifP => // u [LE aE]; subst L'.
  have [f t] := fac E; have lo := lower_id t; rewrite lo in u aE.
  by split=> //; rewrite data_covE.
Qed.

(** (L L')^-1 *)
Lemma inverse : (invmx L)^T *m invmx L = (scale g ^+ 2)^-1 *: S.
Proof.
  have [lo u LL _] := cache_inv.
  have s2 : scale g ^+ 2 != 0 by rewrite expf_eq0.
  have H : ((scale g ^+ 2)^-1 *: S) *m (L *m L^T) = 1%:M.
    by rewrite LL -scalemxAl -scalemxAr scalerA mulVf // scale1r inv.
  rewrite -[RHS]mulmx1 -(_ : (L *m L^T) *m ((invmx L)^T *m invmx L) = 1%:M).
    by rewrite mulmxA H mul1mx.
  by rewrite -mulmxA [L^T *m _]mulmxA -trmx_mul mulVmx // trmx1 mul1mx mulmxV.
Qed.

Lemma mean_ok m (Z : 'I_m -> T) : predict_mean g (L, alpha) X Z =
  Ok (means g Z + (gram g X Z)^T *m S *m (Y - means g X)).
Proof.
  have [lo u LL aE] := cache_inv.
  rewrite /predict_mean /tri_solve lo u /=; congr (Ok _); rewrite aE.
  rewrite linearZ /= -!scalemxAr linearZ /= -scalemxAl trmx_mul.
  rewrite -[_ *m (invmx L)^T *m _]mulmxA [(invmx L)^T *m _]mulmxA inverse.
  rewrite -!(scalemxAl, scalemxAr) !mulmxA scalerDr !scalerA.
  rewrite addrC; congr (_ + _); first by rewrite mulVf ?scale1r.
  have s2 : scale g ^+ 2 != 0 by rewrite expf_eq0.
  by rewrite mulKf // mulfV // scale1r.
Qed.

Lemma cov_ok m (Z : 'I_m -> T) (a : 'M[F]_(n, m)) : tri_solve L (scale g ^+ 2 *: gram g X Z) = Ok a ->
  a^T *m a = scale g ^+ 2 *: ((gram g X Z)^T *m S *m gram g X Z).
Proof.
  have [lo u _ _] := cache_inv.
  rewrite /tri_solve lo u => -[<-].
  rewrite -!scalemxAr linearZ /= -scalemxAl trmx_mul.
  rewrite -[_ *m (invmx L)^T *m _]mulmxA [(invmx L)^T *m _]mulmxA inverse.
  rewrite -!(scalemxAl, scalemxAr) !mulmxA !scalerA.
  have s2 : scale g ^+ 2 != 0 by rewrite expf_eq0.
  by rewrite mulfK.
Qed.

Lemma full_ok m (Z : 'I_m -> T) : exists v, predict_full g (L, alpha) X Z = Ok v /\
  forall d, v d = gram g Z Z - (gram g X Z)^T *m S *m gram g X Z.
Proof.
  have s2 : scale g ^+ 2 != 0 by rewrite expf_eq0.
  rewrite /predict_full /=; case E: (tri_solve _ _) => [a|e] /=; last first.
    by have [lo u _ _] := cache_inv; rewrite /tri_solve lo u in E.
  eexists; split; first reflexivity.
  by move=> d; rewrite (cov_ok E) -scalerBr scalerA mulVf // scale1r.
Qed.

Lemma diag_ok_any m (Z : 'I_m -> T) :
  exists v, predict_diag g (L, alpha) X Z = Ok v /\
  forall i d, v i d = (gram g Z Z - (gram g X Z)^T *m S *m gram g X Z) i i + (kdiag g (Z i) - kern g (Z i) (Z i)).
Proof.
  have s2 : scale g ^+ 2 != 0 by rewrite expf_eq0.
  rewrite /predict_diag /=; case E: (tri_solve _ _) => [a|e] /=; last first.
    by have [lo u _ _] := cache_inv; rewrite /tri_solve lo u in E.
  eexists; split; first reflexivity.
  move=> i d; rewrite mxE.
  have -> : \sum_k a k i ^+ 2 = (a^T *m a) i i.
    by rewrite mxE; apply: eq_bigr => k _; rewrite mxE expr2.
  rewrite (cov_ok E) mxE -mulrBr mulrA mulVf // mul1r.
  rewrite [X in _ = X + _]mxE [X in _ = (X + _) + _]mxE [X in _ = (_ + X) + _]mxE.
  by rewrite [RHS]addrC addrA subrK.
Qed.
Lemma diag_ok m (Z : 'I_m -> T) : (forall x, kdiag g x = kern g x x) ->
  exists v, predict_diag g (L, alpha) X Z = Ok v /\
  forall i d, v i d = (gram g Z Z - (gram g X Z)^T *m S *m gram g X Z) i i.
Proof.
  move=> kd; have [v [vE ve]] := diag_ok_any Z; exists v; split=> // i d.
  by rewrite ve kd subrr addr0.
Qed.
Lemma data_unit : data_cov g X \in unitmx.
Proof.
  have [lo u LL _] := cache_inv.
  have s2 : scale g ^+ 2 != 0 by rewrite expf_eq0.
  have U : scale g ^+ 2 *: data_cov g X \in unitmx by rewrite -LL unitmx_mul u unitmx_tr u.
  by rewrite unitmxZ ?unitfE in U.
Qed.
End Cache.

(** ** The posterior covariance *)
Section Cov.
Hypothesis pk : psd_kernel g.
Hypothesis np : 0 < noise g.

Lemma gram_T n m (X : 'I_n -> T) (Z : 'I_m -> T) : (gram g X Z)^T = gram g Z X.
Proof. by apply/matrixP => i j; rewrite !mxE; apply: (proj1 pk). Qed.

Lemma quad_sum n (A : 'M[F]_n) w : quad A w = \sum_i \sum_j w i 0 * A i j * w j 0.
Proof.
  rewrite /quad mxE.
  transitivity (\sum_j \sum_i w i 0 * A i j * w j 0).
    by apply: eq_bigr => j _; rewrite mxE big_distrl /=; apply: eq_bigr => i _; rewrite mxE.
  exact: exchange_big.
Qed.

Lemma gram_psd n (X : 'I_n -> T) : psd (gram g X X).
Proof.
  move=> w; rewrite quad_sum; have := proj2 pk n X (fun i => w i 0).
  by congr (0 <= _); do 2!apply: eq_bigr => ? _; rewrite mxE.
Qed.

Lemma sq_pos n (w : 'cV[F]_n) : w != 0 -> 0 < quad 1%:M w.
Proof.
  move=> w0; have E : quad 1%:M w = \sum_i w i 0 ^+ 2.
    by rewrite /quad mulmx1 mxE; apply: eq_bigr => i _; rewrite mxE expr2.
  rewrite E lt_def sumr_ge0 ?andbT => [|i _]; last exact: sqr_ge0.
  apply: contraNneq w0 => s0; apply/eqP/matrixP => i j; rewrite ord1 mxE.
  have := psumr_eq0P (fun i _ => sqr_ge0 (w i 0)) s0 (i := i) isT.
  by move/eqP; rewrite sqrf_eq0 => /eqP.
Qed.

Lemma quad_Z n (A : 'M[F]_n) c w : quad (c *: A) w = c * quad A w.
Proof. by rewrite /quad -scalemxAr -scalemxAl mxE. Qed.

Lemma data_posdef n (X : 'I_n -> T) : posdef (data_cov g X).
Proof.
  move=> w w0; rewrite data_covE quad_D quad_Z; apply: ltr_paddl; first exact: gram_psd.
  by rewrite mulr_gt0 // sq_pos.
Qed.
Lemma data_sym n (X : 'I_n -> T) : symmetric (data_cov g X).
Proof. by rewrite /symmetric data_covE linearD /= linearZ /= trmx1 gram_T. Qed.

(** Completing the square. *)
Lemma lower_bound n (A S : 'M[F]_n) (c w : 'cV[F]_n) : symmetric A -> psd A -> S *m A = 1%:M ->
  - quad S c <= quad A w - 2%:R * (c^T *m w) 0 0 /\
  (w = S *m c -> - quad S c = quad A w - 2%:R * (c^T *m w) 0 0).
Proof.
  move=> sA pA SA; have [u SE] := left_unit SA.
  have AS : A *m S = 1%:M by rewrite SE mulmxV.
  have sS : S^T = S by rewrite SE trmx_inv sA.
  have E : quad A (w - S *m c) = quad A w - 2%:R * (c^T *m w) 0 0 + quad S c.
    rewrite !quadE !(bil_Dl, bil_Dr, bil_Nl, bil_Nr) !bil_mulr !bil_mull sS !SA !AS.
    have -> : bil 1%:M w c = (c^T *m w) 0 0 by rewrite bil_T /bil trmx1 mulmx1.
    have -> : bil 1%:M c w = (c^T *m w) 0 0 by rewrite /bil mulmx1.
    rewrite mulmx1.
    set c1 := bil A w w; set c2 := (c^T *m w) 0 0; set c3 := bil S c c.
    rewrite mulr_natl mulr2n; fring.
  split.
    by rewrite -subr_ge0 opprK -E; apply: pA.
  move=> W; move: E; rewrite {1}W subrr quad0 => E.
  by apply/eqP; rewrite eq_sym -subr_eq0 opprK -E.
Qed.

Lemma join_l n m (X : 'I_n -> T) (Z : 'I_m -> T) i : join X Z (lshift m i) = X i.
Proof. by rewrite /join (unsplitK (inl i)). Qed.
Lemma join_r n m (X : 'I_n -> T) (Z : 'I_m -> T) i : join X Z (rshift n i) = Z i.
Proof. by rewrite /join (unsplitK (inr i)). Qed.

Lemma gram_col n m p (X : 'I_n -> T) (Z : 'I_m -> T) (P : 'I_p -> T) :
  gram g (join X Z) P = col_mx (gram g X P) (gram g Z P).
Proof.
  apply/matrixP => i j; rewrite -[i]splitK; case: (split i) => k /=.
    by rewrite col_mxEu !mxE join_l.
  by rewrite col_mxEd !mxE join_r.
Qed.
Lemma gram_row n m p (X : 'I_n -> T) (Z : 'I_m -> T) (P : 'I_p -> T) :
  gram g P (join X Z) = row_mx (gram g P X) (gram g P Z).
Proof. by rewrite -gram_T gram_col tr_col_mx !gram_T. Qed.
Lemma gram_block n m (X : 'I_n -> T) (Z : 'I_m -> T) :
  gram g (join X Z) (join X Z) = block_mx (gram g X X) (gram g X Z) (gram g Z X) (gram g Z Z).
Proof. by rewrite gram_col !gram_row. Qed.
Lemma data_block n m (X : 'I_n -> T) (Z : 'I_m -> T) :
  data_cov g (join X Z) = block_mx (data_cov g X) (gram g X Z) (gram g Z X) (data_cov g Z).
Proof.
  by rewrite !data_covE gram_block scalar_mx_block scale_block_mx add_block_mx !scaler0 !addr0.
Qed.

Lemma quad_block n m (A : 'M[F]_n) (B : 'M[F]_(n, m)) (Cm : 'M[F]_(m, n)) (E : 'M[F]_m) x y :
  quad (block_mx A B Cm E) (col_mx x y) = quad A x + bil Cm y x + (bil B x y + quad E y).
Proof.
  by rewrite /quad /bil tr_col_mx mul_row_block mul_row_col !mulmxDl !mxE.
Qed.

Section Posterior.
Variables (n m : nat) (X : 'I_n -> T) (Z : 'I_m -> T) (S : 'M[F]_n).
Hypothesis inv : S *m data_cov g X = 1%:M.
Definition pcov := gram g Z Z - (gram g X Z)^T *m S *m gram g X Z.

Lemma quad_pcov v : quad pcov v = quad (gram g Z Z) v - quad S (gram g X Z *m v).
Proof. by rewrite /pcov quad_D -quad_conj !quadE bil_NA. Qed.

Lemma pcov_upper v w :
  quad pcov v <= quad (gram g Z Z) v + (quad (data_cov g X) w - 2%:R * ((gram g X Z *m v)^T *m w) 0 0).
Proof.
  rewrite quad_pcov ler_add2l.
  have [h _] := lower_bound (gram g X Z *m v) w (data_sym X) (posdef_psd (data_posdef X)) inv.
  exact: h.
Qed.
Lemma pcov_attained v : exists w,
  quad pcov v = quad (gram g Z Z) v + (quad (data_cov g X) w - 2%:R * ((gram g X Z *m v)^T *m w) 0 0).
Proof.
  exists (S *m (gram g X Z *m v)); rewrite quad_pcov; congr (_ + _).
  have [_ h] := lower_bound (gram g X Z *m v) (S *m (gram g X Z *m v)) (data_sym X)
    (posdef_psd (data_posdef X)) inv.
  exact: h.
Qed.

Lemma pcov_prior v : quad pcov v <= quad (gram g Z Z) v.
Proof.
  have := pcov_upper v 0; by rewrite quad0 mulmx0 [X in _ - _ * X]mxE mulr0 subr0 addr0.
Qed.

Lemma pcov_psd : psd pcov.
Proof.
  move=> v; have [w ->] := pcov_attained v.
  rewrite data_covE quad_D quad_Z.
  have J : 0 <= quad (gram g Z Z) v + (quad (gram g X X) w - 2%:R * ((gram g X Z *m v)^T *m w) 0 0).
    have := gram_psd (join X Z) (col_mx (- w) v); rewrite gram_block quad_block.
    have -> : quad (gram g X X) (- w) = quad (gram g X X) w.
      by rewrite !quadE bil_Nl bil_Nr opprK.
    rewrite bil_Nr bil_Nl [bil (gram g X Z) w v]bil_T gram_T.
    have -> : ((gram g X Z *m v)^T *m w) 0 0 = bil (gram g Z X) v w.
      by rewrite /bil trmx_mul gram_T.
    congr (0 <= _); set c1 := quad _ w; set c2 := bil _ _ _; set c3 := quad _ v.
    by rewrite mulr_natl mulr2n; fring.
  set a := quad (gram g Z Z) v in J *; set b := quad (gram g X X) w in J *; set c := _ * _ in J *.
  have -> : a + (b + noise g * quad 1%:M w - c) = (a + (b - c)) + noise g * quad 1%:M w by fring.
  apply: addr_ge0 => //; apply: mulr_ge0; first exact: ltW.
  have [->|wn] := eqVneq w 0; first by rewrite quad0.
  by apply: ltW; apply: sq_pos.
Qed.
End Posterior.

Lemma pcov_more n m k (X : 'I_n -> T) (Z : 'I_m -> T) (P : 'I_k -> T) S S' v :
  S *m data_cov g X = 1%:M -> S' *m data_cov g (join X Z) = 1%:M ->
  quad (pcov (join X Z) P S') v <= quad (pcov X P S) v.
Proof.
  move=> i1 i2; have [w ->] := pcov_attained P i1 v.
  apply: le_trans (pcov_upper P i2 v (col_mx w 0)) _.
  rewrite data_block quad_block quad0 /bil trmx0 !(mul0mx, mulmx0) ![(0 : 'M[F]_1) _ _]mxE !addr0.
  by rewrite gram_col mul_col_mx tr_col_mx mul_row_col mulmx0 addr0.
Qed.

Lemma quad_delta k (A : 'M[F]_k) i : quad A (delta_mx i 0) = A i i.
Proof.
  by rewrite /quad trmx_delta -rowE -colE !mxE.
Qed.

Lemma cache_total n (chol : 'M[F]_n -> res 'M[F]_n) (X : 'I_n -> T) (Y : 'M[F]_(n, D)) :
  factors_all chol -> scale g != 0 -> exists c, compute_cache g chol X Y = Ok c.
Proof.
  move=> [fac all] sc; have s2 : 0 < scale g ^+ 2 by rewrite exprn_even_gt0.
  have [L E] : exists L, chol (scale g ^+ 2 *: data_cov g X) = Ok L.
    apply: all; first by rewrite /symmetric linearZ /= data_sym.
    by move=> x nx; rewrite quad_Z mulr_gt0 ?data_posdef.
  have [f t] := fac _ _ E.
  have U : L *m L^T \in unitmx.
    by rewrite f unitmxZ ?unitfE ?lt0r_neq0 // posdef_unit // => x; apply: data_posdef.
  rewrite /compute_cache -data_covE E /= /tri_solve lower_id //.
  move: U; rewrite unitmx_mul => /andP[-> _] /=.
  by eexists.
Qed.
End Cov.
End Proofs.
