(** Properties C49 and C50: predictions of [GPRCached] and [GaussianProcess]. *)
From mathcomp Require Import all_ssreflect all_algebra.
From Verif Require Import Prelude MxRing LqrSpec LqrProofs GPModel GPSpec GPProofs.
Set Implicit Arguments.
Unset Strict Implicit.
Unset Printing Implicit Defensive.
Import Order.Theory GRing.Theory Num.Theory.
Local Open Scope ring_scope.

Section C49.
Variable F : realFieldType.
Variable T : Type.
Variable D : nat.

(** The predictions are the textbook posterior, whatever the scale and whichever
    triangular factor the Cholesky decomposition returns; the variances are the
    diagonal of the full covariance, if [Kdiag] is the diagonal of [K]. *)
Theorem C49_posterior (g : gp_params F T D) n (chol : 'M[F]_n -> res 'M[F]_n) (X : 'I_n -> T)
    (Y : 'M[F]_(n, D)) cache S m (Z : 'I_m -> T) :
  factors chol -> scale g != 0 ->
  compute_cache g chol X Y = Ok cache ->
  S *m data_cov g X = 1%:M ->
  exists M C V,
    predict_mean g cache X Z = Ok M /\ predict_full g cache X Z = Ok C /\
    predict_diag g cache X Z = Ok V /\
    forall i j d, M i d = posterior_mean g S X Y (Z i) 0 d /\
                  C d i j = posterior_cov g S X (Z i) (Z j) /\
                  V i d = posterior_cov g S X (Z i) (Z i) + (kdiag g (Z i) - kern g (Z i) (Z i)).
Proof.
  case: cache => L alpha fac sc ok inv.
  have [C [CE Ce]] := full_ok fac ok sc inv Z.
  have [V [VE Ve]] := diag_ok_any fac ok sc inv Z.
  exists (means g Z + (gram g X Z)^T *m S *m (Y - means g X)), C, V.
  split; first exact: (mean_ok fac ok sc inv Z).
  split=> //; split=> // i j d; split; [|split].
  - exact: posterior_meanE.
  - by rewrite Ce posterior_covE.
  - by rewrite Ve posterior_covE.
Qed.

(** Once the cache has been computed, the matrix to invert is invertible. *)
Theorem C49_posterior_exists (g : gp_params F T D) n (chol : 'M[F]_n -> res 'M[F]_n) (X : 'I_n -> T)
    (Y : 'M[F]_(n, D)) cache :
  factors chol -> scale g != 0 -> compute_cache g chol X Y = Ok cache ->
  exists S, S *m data_cov g X = 1%:M.
Proof.
  case: cache => L alpha fac sc ok; exists (invmx (data_cov g X)).
  by rewrite mulVmx // (data_unit fac ok sc).
Qed.

(** Neither the internal scale nor the choice of factor can be observed. *)
Theorem C49_scale_and_factor_irrelevant (g : gp_params F T D) s s' n
    (chol chol' : 'M[F]_n -> res 'M[F]_n) (X : 'I_n -> T) (Y : 'M[F]_(n, D)) cache cache'
    m (Z : 'I_m -> T) :
  factors chol -> factors chol' -> s != 0 -> s' != 0 ->
  compute_cache (rescaled g s) chol X Y = Ok cache ->
  compute_cache (rescaled g s') chol' X Y = Ok cache' ->
  predict_mean (rescaled g s) cache X Z = predict_mean (rescaled g s') cache' X Z /\
  predict_diag (rescaled g s) cache X Z = predict_diag (rescaled g s') cache' X Z /\
  exists C C', predict_full (rescaled g s) cache X Z = Ok C /\
               predict_full (rescaled g s') cache' X Z = Ok C' /\ forall d, C d = C' d.
Proof.
  move=> f f' ns ns' ok ok'.
  have [S inv] := C49_posterior_exists f (g := rescaled g s) ns ok.
  have [M [C [V [ME [CE [VE e]]]]]] := C49_posterior (g := rescaled g s) Z f ns ok inv.
  have [M' [C' [V' [ME' [CE' [VE' e']]]]]] := C49_posterior (g := rescaled g s') (S := S) Z f' ns' ok' inv.
  split; [|split].
  - rewrite ME ME'; congr Ok; apply/matrixP => i d.
    by have [-> _] := e i i d; have [-> _] := e' i i d.
  - rewrite VE VE'; congr Ok; apply/matrixP => i d.
    by have [_ [_ ->]] := e i i d; have [_ [_ ->]] := e' i i d.
  - exists C, C'; split=> //; split=> // d; apply/matrixP => i j.
    by have [_ [-> _]] := e i j d; have [_ [-> _]] := e' i j d.
Qed.

(** With a positive semi-definite kernel and positive noise the cache is always
    computed: no data set, repeated points included, makes it fail. *)
Theorem C49_cache_succeeds (g : gp_params F T D) n (chol : 'M[F]_n -> res 'M[F]_n) (X : 'I_n -> T)
    (Y : 'M[F]_(n, D)) :
  factors_all chol -> scale g != 0 -> psd_kernel g -> 0 < noise g ->
  exists cache, compute_cache g chol X Y = Ok cache.
Proof. by move=> fa sc pk np; apply: cache_total. Qed.
End C49.

Section C50.
Variable F : realFieldType.
Variable T : Type.
Variable D : nat.
Variable g : gp_params F T D.

(** Variances lie between zero and the prior variance, if [Kdiag] is the diagonal of
    [K]; otherwise the difference is the lower bound. Full covariances are positive
    semi-definite. *)
Theorem C50_variance_bounds n (chol : 'M[F]_n -> res 'M[F]_n) (X : 'I_n -> T)
    (Y : 'M[F]_(n, D)) cache m (Z : 'I_m -> T) :
  factors chol -> scale g != 0 ->
  psd_kernel g -> 0 < noise g ->
  compute_cache g chol X Y = Ok cache ->
  exists C V, predict_full g cache X Z = Ok C /\ predict_diag g cache X Z = Ok V /\
    (forall i d, kdiag g (Z i) - kern g (Z i) (Z i) <= V i d <= kdiag g (Z i)) /\
    forall d (w : 'I_m -> F), 0 <= \sum_i \sum_j w i * C d i j * w j.
Proof.
  case: cache => L alpha fac sc pk np ok.
  have [S inv] := C49_posterior_exists fac sc ok.
  have [C [CE Ce]] := full_ok fac ok sc inv Z.
  have [V [VE Ve]] := diag_ok_any fac ok sc inv Z.
  exists C, V; split=> //; split=> //; split.
    move=> i d; rewrite Ve -quad_delta; apply/andP; split.
      by rewrite -[X in X <= _]add0r ler_add2r; exact: pcov_psd.
    have := pcov_prior pk np Z inv (delta_mx i 0).
    rewrite [X in _ <= X -> _]quad_delta [X in _ <= X -> _]mxE => h.
    by rewrite -[X in _ <= X](subrK (kern g (Z i) (Z i))) addrC ler_add2l.
  move=> d w; have := pcov_psd pk np Z inv (\col_i w i).
  congr (0 <= _); rewrite quad_sum Ce; apply: eq_bigr => i _; apply: eq_bigr => j _.
  by rewrite [(\col_k w k) i 0]mxE [(\col_k w k) j 0]mxE.
Qed.

(** More data never increase a variance. *)
Theorem C50_more_data n k (chol : 'M[F]_n -> res 'M[F]_n) (chol' : 'M[F]_(n + k) -> res 'M[F]_(n + k))
    (X : 'I_n -> T) (Y : 'M[F]_(n, D)) (X2 : 'I_k -> T) (Y2 : 'M[F]_(k, D)) cache cache'
    m (Z : 'I_m -> T) :
  factors chol -> factors chol' -> scale g != 0 ->
  psd_kernel g -> 0 < noise g ->
  compute_cache g chol X Y = Ok cache ->
  compute_cache g chol' (join X X2) (col_mx Y Y2) = Ok cache' ->
  exists V V', predict_diag g cache X Z = Ok V /\
    predict_diag g cache' (join X X2) Z = Ok V' /\ forall i d, V' i d <= V i d.
Proof.
  case: cache cache' => L alpha [L' alpha'] fac fac' sc pk np ok ok'.
  have [S inv] := C49_posterior_exists fac sc ok.
  have [S' inv'] := C49_posterior_exists fac' sc ok'.
  have [V [VE Ve]] := diag_ok_any fac ok sc inv Z.
  have [V' [VE' Ve']] := diag_ok_any fac' ok' sc inv' Z.
  exists V, V'; split=> //; split=> // i d; rewrite Ve Ve' ler_add2r -!quad_delta.
  exact: pcov_more.
Qed.
End C50.

Section C50_bounds.
Variable F : rcfType.
Variable T : Type.
Variable D : nat.

(** The error bounds of [GaussianProcess] are non-negative and never grow. *)
Theorem C50_error_bounds_shrink (g : gp_params F T D) beta n k (chol : 'M[F]_n -> res 'M[F]_n)
    (chol' : 'M[F]_(n + k) -> res 'M[F]_(n + k))
    (X : 'I_n -> T) (Y : 'M[F]_(n, D)) (X2 : 'I_k -> T) (Y2 : 'M[F]_(k, D)) cache cache'
    m (Z : 'I_m -> T) :
  factors chol -> factors chol' -> scale g != 0 ->
  psd_kernel g -> 0 < noise g -> 0 <= beta ->
  compute_cache g chol X Y = Ok cache ->
  compute_cache g chol' (join X X2) (col_mx Y Y2) = Ok cache' ->
  exists M B M' B', evaluate g (@Num.sqrt F) beta cache X Z = Ok (M, B) /\
    evaluate g (@Num.sqrt F) beta cache' (join X X2) Z = Ok (M', B') /\
    forall i d, 0 <= B' i d <= B i d /\ B i d <= beta * Num.sqrt (kdiag g (Z i)).
Proof.
  move=> fac fac' sc pk np bp ok ok'.
  have [V [V' [VE [VE' mono]]]] := C50_more_data Z fac fac' sc pk np ok ok'.
  have [C [V1 [_ [VE1 [b _]]]]] := C50_variance_bounds Z fac sc pk np ok.
  have [S inv] := C49_posterior_exists fac sc ok.
  have [S' inv'] := C49_posterior_exists fac' sc ok'.
  have [M [_ [_ [ME _]]]] := C49_posterior Z fac sc ok inv.
  have [M' [_ [_ [ME' _]]]] := C49_posterior Z fac' sc ok' inv'.
  have E : V1 = V by move: VE1; rewrite VE => -[].
  rewrite E in b.
  exists M, (\matrix_(i, j) (beta * Num.sqrt (V i j))), M', (\matrix_(i, j) (beta * Num.sqrt (V' i j))).
  rewrite /evaluate ME ME' VE VE' /=; split=> //; split=> // i d; rewrite !mxE; split.
    apply/andP; split; first by rewrite mulr_ge0 // sqrtr_ge0.
    by rewrite ler_wpmul2l // ler_wsqrtr.
  by rewrite ler_wpmul2l // ler_wsqrtr //; have /andP[] := b i d.
Qed.
End C50_bounds.

(** * A concrete model: linear kernel x z on F, noise 1, scale 3, one output. *)
Section Example.
Variable F : rcfType.
Definition lin : gp_params F F 1 :=
  {| kern := fun x z => x * z; kdiag := fun x => x * x; mean := fun _ => 0;
     noise := 1; scale := 3%:R |}.
Definition chol1 : 'M[F]_1 -> res 'M[F]_1 :=
  fun M => if 0 < M 0 0 then Ok (Num.sqrt (M 0 0))%:M else Err OtherError.
Definition chol0 : 'M[F]_0 -> res 'M[F]_0 := fun M => Ok M.

Lemma lin_psd : psd_kernel lin.
Proof.
  split=> [x z|n X w] /=; first by rewrite mulrC.
  have -> : \sum_i \sum_j w i * (X i * X j) * w j = (\sum_i w i * X i) ^+ 2.
    rewrite expr2 big_distrl /=; apply: eq_bigr => i _; rewrite big_distrr /=.
    by apply: eq_bigr => j _; rewrite !mulrA -[_ * X j * w j]mulrA [X j * _]mulrC !mulrA.
  exact: sqr_ge0.
Qed.

Lemma chol1_ok : factors_all chol1.
Proof.
  split.
    move=> M L; rewrite /chol1; case: ifP => // p [<-]; split.
      rewrite tr_scalar_mx -scalar_mxM -expr2 sqr_sqrtr ?ltW //.
      by rewrite [RHS]mx11_scalar.
    by move=> i j; rewrite !ord1.
  move=> M _ pd; rewrite /chol1.
  have := pd (delta_mx 0 0); rewrite quad_delta => -> //; first by eexists.
  by apply/eqP => /matrixP /(_ 0 0) /eqP; rewrite !mxE eqxx oner_eq0.
Qed.
Lemma chol0_ok : factors chol0.
Proof. by move=> M L [<-]; split=> [|[]//]; apply/matrixP => -[]. Qed.

(** One measurement 100 at 1: the mean at 2 becomes 100, the variance 2. *)
Example C49_ex : exists cache M V,
  compute_cache lin chol1 (fun _ => 1) (100%:R)%:M = Ok cache /\
  predict_mean lin cache (fun _ => 1) (fun _ : 'I_1 => 2%:R) = Ok M /\
  predict_diag lin cache (fun _ => 1) (fun _ : 'I_1 => 2%:R) = Ok V /\
  M 0 0 = 100%:R /\ V 0 0 = 2%:R.
Proof.
  have s0 : scale lin != 0 by rewrite pnatr_eq0.
  have [cache ok] := C49_cache_succeeds (fun _ : 'I_1 => 1) (100%:R)%:M chol1_ok s0 lin_psd ltr01.
  have inv : (2%:R^-1)%:M *m data_cov lin (fun _ : 'I_1 => 1) = 1%:M.
    have -> : data_cov lin (fun _ : 'I_1 => 1) = 2%:R%:M.
      by apply/matrixP => i j; rewrite !ord1 !mxE /= ?eqxx ?mulr1n mulr1 -?mulr2n.
    by rewrite -scalar_mxM mulVf // pnatr_eq0.
  have [M [C [V [ME [_ [VE e]]]]]] := C49_posterior (fun _ : 'I_1 => 2%:R) chol1_ok.1 s0 ok inv.
  exists cache, M, V; split=> //; split=> //; split=> //.
  have [-> [_ ->]] := e 0 0 0; rewrite /posterior_mean /posterior_cov !mxE /= !big_ord1 !mxE /=.
  have n2 : 2%:R != 0 :> F by rewrite pnatr_eq0.
  by rewrite ?eqxx !mulr1n !mul1r subrr addr0 !subr0 add0r mulfV // !mul1r; split=> //; rewrite mulr_natl mulr2n addrK.
Qed.

Definition x0 : 'I_0 -> F := fun _ => 0.
Definition x1 : 'I_1 -> F := fun _ => 1.
Definition y0 : 'M[F]_(0, 1) := 0.
Definition y1 : 'M[F]_(1, 1) := (100%:R)%:M.
Definition chol01 : 'M[F]_(0 + 1) -> res 'M[F]_(0 + 1) := chol1.

Lemma join01 i : join x0 x1 i = 1.
Proof. by rewrite /join; case: (split i) => [[]|]. Qed.
Lemma y01 i j : col_mx y0 y1 i j = 100%:R.
Proof. by rewrite mxE; case: (split i) => [[]//|k]; rewrite !ord1 mxE. Qed.

(** The widths shrink, but the intervals are not nested: the same measurement
    moves the interval of the model without data at 1, [-2, 2], to one around 50. *)
Theorem C50_nested_intervals_refuted : exists cache cache' M B M' B',
  compute_cache lin chol0 x0 y0 = Ok cache /\
  compute_cache lin chol01 (join x0 x1) (col_mx y0 y1) = Ok cache' /\
  evaluate lin (@Num.sqrt F) 2%:R cache x0 x1 = Ok (M, B) /\
  evaluate lin (@Num.sqrt F) 2%:R cache' (join x0 x1)
    x1 = Ok (M', B') /\
  ~ (M' 0 0 + B' 0 0 <= M 0 0 + B 0 0) /\ ~ (M' 0 0 - B' 0 0 <= M 0 0 + B 0 0).
Proof.
  have s0 : scale lin != 0 by rewrite pnatr_eq0.
  have [cache ok] : exists c, compute_cache lin chol0 x0 y0 = Ok c.
    rewrite /compute_cache /= /tri_solve.
    have -> : forall A : 'M[F]_0, A \in unitmx by move=> A; rewrite unitmxE det_mx00 unitr1.
    by eexists.
  have [cache' ok'] := C49_cache_succeeds (join x0 x1)
    (col_mx y0 y1) (chol1_ok : factors_all chol01) s0 lin_psd ltr01.
  have inv : (2%:R^-1)%:M *m data_cov lin (join x0 x1) = 1%:M.
    have -> : data_cov lin (join x0 x1) = 2%:R%:M.
      apply/matrixP => i j; rewrite !mxE /= !join01 !ord1.
      by rewrite ?eqxx ?mulr1n mulr1 -?mulr2n.
    by rewrite -scalar_mxM mulVf // pnatr_eq0.
  have [M0 [B0 [M1 [B1 [E0 [E1 b]]]]]] := C50_error_bounds_shrink x1 chol0_ok chol1_ok.1
    s0 lin_psd ltr01 (ler0n _ 2) ok ok'.
  have inv0 : (0 : 'M[F]_0) *m data_cov lin x0 = 1%:M by apply/matrixP => -[].
  have [M [C [V [ME [_ [VE e]]]]]] := C49_posterior x1 chol0_ok s0 ok inv0.
  have [M' [C' [V' [ME' [_ [VE' e']]]]]] := C49_posterior x1 chol1_ok.1 s0 ok' inv.
  have h : M0 0 0 = 0.
    have -> : M0 = M by move: E0; rewrite /evaluate ME VE /= => -[->].
    have [-> _] := e 0 0 0; by rewrite /posterior_mean !mxE big_ord0 addr0.
  have h' : M1 0 0 = 50%:R.
    have -> : M1 = M' by move: E1; rewrite /evaluate ME' VE' /= => -[->].
    have [-> _] := e' 0 0 0.
    rewrite /posterior_mean !mxE /= add0r.
    transitivity (\sum_(i < 0 + 1) \sum_(j < 0 + 1) (1 * 1 * (2%:R^-1 *+ (i == j)) * (100%:R - 0)) : F).
      by apply: eq_bigr => i _; apply: eq_bigr => j _; rewrite !join01 y01 !mxE.
    rewrite !big_ord_recl !big_ord0 /= !addr0 subr0 !mul1r ?eqxx ?mulr1n.
    have -> : 100%:R = 2%:R * 50%:R :> F by rewrite -natrM.
    by rewrite mulKf // pnatr_eq0.
  have [/andP[b1 b2]] := b 0 0; rewrite /= mulr1 sqrtr1 mulr1 => b3.
  exists cache, cache', M0, B0, M1, B1; split=> //; split=> //; split=> //; split=> //.
  have l1 : M0 0 0 + B0 0 0 <= 2%:R by rewrite h add0r.
  have l2 : 48%:R <= M1 0 0 - B1 0 0.
    rewrite h' ler_subr_addr; apply: le_trans (_ : 48%:R + 2%:R <= _).
      by rewrite ler_add2l; apply: le_trans b3.
    by rewrite -natrD.
  have l3 : M1 0 0 - B1 0 0 <= M1 0 0 + B1 0 0.
    rewrite ler_add2l; apply: (le_trans _ b1); by rewrite oppr_le0.
  have k : 48%:R <= 2%:R :> F -> False by rewrite ler_nat.
  split=> a; apply: k; apply: le_trans l2 _; last by apply: le_trans a _.
  by apply: le_trans l3 _; apply: le_trans a _.
Qed.
End Example.

Print Assumptions C49_posterior.
Print Assumptions C50_error_bounds_shrink.
Print Assumptions C50_nested_intervals_refuted.
