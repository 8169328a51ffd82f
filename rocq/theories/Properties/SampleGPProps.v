(** Property C53: functions sampled from a Gaussian process. *)
From mathcomp Require Import all_ssreflect all_algebra.
From Verif Require Import Prelude MxRing LqrSpec LqrProofs GPModel GPSpec GPProofs SampleGPModel SampleGPProofs.
From Verif Require Import Properties.GPProps.
Set Implicit Arguments.
Unset Strict Implicit.
Unset Printing Implicit Defensive.
Import Order.Theory GRing.Theory Num.Theory.
Local Open Scope ring_scope.

Section C53.
Variable F : realFieldType.
Variable T : Type.
Add Ring Fr : (F_ring F).
Ltac fring := fold_ring F; ring.

(** 1e-8, the regularisation named in the claim. *)
Definition eps8 : F := (10%:R^-1) ^+ 8.
Lemma jitterE : jitter F = eps8.
Proof. by rewrite /jitter /eps8 exprVn. Qed.

(** For every drawn sample y there is one function.  It is m(x) + sum_j k(x, Z_j) a_j
    with (posterior covariance + jitter I) a = y, and therefore at the
    discretization points Z it differs from y by the prior mean, by what the data
    have removed from the prior covariance, and by the jitter. *)
Theorem C53_functions (g : gp_params F T 1) n (chol : 'M[F]_n -> res 'M[F]_n) (X : 'I_n -> T)
    (Y : 'M[F]_(n, 1)) cache S m (Z : 'I_m -> T) draw cho ys als :
  factors chol -> factors cho -> scale g != 0 -> psd_kernel g -> 0 < noise g ->
  compute_cache g chol X Y = Ok cache -> S *m data_cov g X = 1%:M ->
  sample_gp g cache X Z draw cho = Ok (ys, als) ->
  size als = size ys /\
  forall i, (i < size ys)%N -> let y := nth 0 ys i in let a := nth 0 als i in
    (forall k, \sum_j posterior_cov g S X (Z k) (Z j) * a j 0 + eps8 * a k 0 = y k 0) /\
    (forall x, gp_sample g Z a x None 0 0 = mean g x 0 0 + \sum_j kern g x (Z j) * a j 0) /\
    (forall k, gp_sample g Z a (Z k) None 0 0 = y k 0 + mean g (Z k) 0 0
       + \sum_j (kern g (Z k) (Z j) - posterior_cov g S X (Z k) (Z j)) * a j 0 - eps8 * a k 0).
Proof.
  rewrite -jitterE.
  case: cache => L alpha fac fc sc pk np ok inv E.
  have [ysE alsE] := sample_inv fac ok sc inv fc E.
  rewrite -ysE in alsE; rewrite alsE size_map; split=> // i Hi; rewrite (nth_map 0) //.
  move: (nth 0 ys i) => y /=.
  set cov := pcov g X Z S + jitter F *: 1%:M.
  have ca : cov *m (invmx cov *m y) = y by apply: coefficients.
  move: (invmx cov *m y) ca => a ca {ysE alsE E}.
  have c1 k : \sum_j posterior_cov g S X (Z k) (Z j) * a j 0 + jitter F * a k 0 = y k 0.
    rewrite -[in RHS]ca mulmxDl -scalemxAl mul1mx [in RHS]mxE; congr (_ + _); last by rewrite mxE.
    by rewrite mxE; apply: eq_bigr => j _; rewrite /pcov posterior_covE.
  have c2 x : gp_sample g Z a x None 0 0 = mean g x 0 0 + \sum_j kern g x (Z j) * a j 0.
    rewrite /gp_sample !mxE; congr (_ + _).
    by apply: eq_bigr => j _; rewrite mxE.
  split=> //; split=> // k; rewrite c2 -c1.
  rewrite (_ : \sum_j kern g (Z k) (Z j) * a j 0 = \sum_j posterior_cov g S X (Z k) (Z j) * a j 0 +
     \sum_j (kern g (Z k) (Z j) - posterior_cov g S X (Z k) (Z j)) * a j 0); last first.
    by rewrite -big_split; apply: eq_bigr => j _ /=; move: (posterior_cov _ _ _ _ _) => p; rewrite mulrBl addrC subrK.
  set u := \sum_j _; set v := \sum_j _; set w := jitter F * _; set q := mean _ _ _ _.
  move: u v w (q : F) => u' v' w' q'; fring.
Qed.

(** The noisy value is the noise-free one plus sqrt(noise) times a normal number. *)
Theorem C53_noise (g : gp_params F T 1) m (Z : 'I_m -> T) a x sqrt e :
  gp_sample g Z a x (Some (sqrt, e)) 0 0 = gp_sample g Z a x None 0 0 + sqrt (noise g) * e.
Proof. by rewrite /gp_sample mxE; congr (_ + _); rewrite mxE. Qed.

(** Sampling always succeeds, ... *)
Theorem C53_total (g : gp_params F T 1) n (chol : 'M[F]_n -> res 'M[F]_n) (X : 'I_n -> T)
    (Y : 'M[F]_(n, 1)) cache m (Z : 'I_m -> T) draw cho :
  factors chol -> factors_all cho -> scale g != 0 -> psd_kernel g -> 0 < noise g ->
  compute_cache g chol X Y = Ok cache -> exists r, sample_gp g cache X Z draw cho = Ok r.
Proof.
  case: cache => L alpha fac fc sc pk np ok.
  have [S inv] := C49_posterior_exists fac sc ok.
  exact: (sample_total pk np fac ok sc inv).
Qed.

(** ... but only for models with one output. *)
Theorem C53_one_output D (g : gp_params F T D) n (cache : 'M[F]_n * 'M[F]_(n, D)) (X : 'I_n -> T)
    m (Z : 'I_m -> T) draw cho r :
  sample_gp g cache X Z draw cho = Ok r -> D = 1%N.
Proof.
  rewrite /sample_gp; case: (predict_mean _ _ _ _) => [M|] //=; case: (predict_full _ _ _ _) => [C|] //=.
  by rewrite {1}/squeeze; case: (D =P 1%N).
Qed.

(** A model without data and with zero mean: the function misses the drawn values
    only by the jitter times its coefficients, and if the smallest eigenvalue of the
    kernel matrix is at least lam, the error is at most jitter / (lam + jitter) times
    the length of the sample. *)
Theorem C53_interpolates_prior_sample (g : gp_params F T 1) (chol : 'M[F]_0 -> res 'M[F]_0)
    (X : 'I_0 -> T) (Y : 'M[F]_(0, 1)) cache m (Z : 'I_m -> T) draw cho ys als (lam : F) :
  factors chol -> factors cho -> scale g != 0 -> psd_kernel g -> 0 < noise g ->
  (forall x, mean g x = 0) ->
  compute_cache g chol X Y = Ok cache ->
  sample_gp g cache X Z draw cho = Ok (ys, als) ->
  0 <= lam ->
  (forall w : 'I_m -> F, lam * (\sum_i w i ^+ 2) <= \sum_i \sum_j w i * kern g (Z i) (Z j) * w j) ->
  forall i, (i < size ys)%N -> let y := nth 0 ys i in let f x := gp_sample g Z (nth 0 als i) x None 0 0 in
    (forall k, f (Z k) = y k 0 - eps8 * nth 0 als i k 0) /\
    (lam + eps8) ^+ 2 * (\sum_k (f (Z k) - y k 0) ^+ 2) <= eps8 ^+ 2 * (\sum_k (y k 0) ^+ 2).
Proof.
  rewrite -jitterE.
  move=> fac fc sc pk np m0 ok E l0 lb i Hi y f.
  have inv : (0 : 'M[F]_0) *m data_cov g X = 1%:M by apply/matrixP => -[].
  have [_ /(_ i Hi) [c1 [_ c3]]] := C53_functions fac fc sc pk np ok inv E.
  rewrite -jitterE in c1 c3.
  move: c1 c3; rewrite -/y; set a := nth 0 als i => c1 c3.
  have pc x z : posterior_cov g (0 : 'M[F]_0) X x z = kern g x z.
    by rewrite /posterior_cov big_ord0 subr0.
  have c k : f (Z k) = y k 0 - jitter F * a k 0.
    rewrite /f c3 m0 mxE addr0 big1 ?addr0 // => j _; by rewrite pc subrr mul0r.
  split=> //.
  have e0 := jitter_gt0 F.
  have K : (gram g Z Z + jitter F *: 1%:M) *m a = y.
    apply/matrixP => k l; rewrite !ord1 -c1 mulmxDl -scalemxAl mul1mx [LHS]mxE; congr (_ + _); last by rewrite mxE.
    by rewrite mxE; apply: eq_bigr => j _; rewrite mxE pc.
  have q1 (v : 'cV[F]_m) : quad 1%:M v = \sum_k (v k 0) ^+ 2.
    rewrite /quad mulmx1 mxE; apply: eq_bigr => k _; by rewrite mxE expr2.
  have lb' v : lam * quad 1%:M v <= quad (gram g Z Z) v.
    rewrite q1 quad_sum; have := lb (fun k => v k 0).
    by congr (_ <= _); apply: eq_bigr => k _; apply: eq_bigr => j _; rewrite mxE.
  have := ridge l0 e0 lb' K; rewrite !q1.
  congr (_ * _ <= _); apply: eq_bigr => k _.
  by rewrite c mxE addrAC subrr add0r sqrrN.
Qed.
End C53.

(** * Concrete models: linear kernel, one discretization point *)
Section Example.
Variable F : rcfType.
Notation e := (eps8 F).
Let one : 'I_1 -> F := fun _ => 1.

(** Draws that return one given sample. *)
Definition give (y : F) : 'cV[F]_1 -> 'M[F]_1 -> seq 'cV[F]_1 := fun _ _ => [:: y%:M].

Lemma e_small : 0 < e /\ e < 1 / 4%:R.
Proof.
  rewrite -jitterE; split; first exact: jitter_gt0.
  rewrite /jitter div1r ltf_pinv ?posrE ?exprn_gt0 ?ltr0n //.
  apply: lt_le_trans (_ : 10%:R <= _); first by rewrite ltr_nat.
  by rewrite -{1}[10%:R]expr1 ler_weexpn2l // ler1n.
Qed.

Lemma one_value (g : gp_params F F 1) n (chol : 'M[F]_n -> res 'M[F]_n) (X : 'I_n -> F)
    (Y : 'M[F]_(n, 1)) cache S y v :
  factors chol -> scale g != 0 -> psd_kernel g -> 0 < noise g -> kern g 1 1 = 1 ->
  compute_cache g chol X Y = Ok cache -> S *m data_cov g X = 1%:M ->
  posterior_cov g S X 1 1 = v -> v + e != 0 ->
  exists ys als, sample_gp g cache X one (give y) (@chol1 F) = Ok (ys, als) /\
    ys = [:: y%:M] /\ gp_sample g one (nth 0 als 0) 1 None 0 0 = mean g 1 0 0 + y / (v + e).
Proof.
  move=> fac sc pk np k1 ok inv pv ne.
  have [[ys als] E] := C53_total one (give y) fac (@chol1_ok F) sc pk np ok.
  exists ys, als; split=> //.
  have ysE : ys = [:: y%:M].
    by case: cache ok E => L al ok E; have [-> _] := sample_inv fac ok sc inv (@chol1_ok F).1 E.
  split=> //; have [_] := C53_functions fac (@chol1_ok F).1 sc pk np ok inv E.
  rewrite ysE => /(_ 0%N isT) /= [c1 [c2 _]]; rewrite c2 /= big_ord1 /one k1 mul1r; congr (_ + _).
  have := c1 0; rewrite big_ord1 /one pv -mulrDl mxE mulr1n => <-.
  by rewrite mulrC mulKf.
Qed.

Lemma no_data_cov (g : gp_params F F 1) (X : 'I_0 -> F) x z : posterior_cov g (0 : 'M[F]_0) X x z = kern g x z.
Proof. by rewrite /posterior_cov big_ord0 subr0. Qed.
Lemma cache0 (g : gp_params F F 1) : exists c, compute_cache g (@chol0 F) (@x0 F) (y0 F) = Ok c.
Proof.
  rewrite /compute_cache /= /tri_solve.
  have -> : forall A : 'M[F]_0, A \in unitmx by move=> A; rewrite unitmxE det_mx00 unitr1.
  by eexists.
Qed.
Lemma s0 : scale (lin F) != 0.
Proof. by rewrite pnatr_eq0. Qed.
Lemma inv0 (g : gp_params F F 1) : (0 : 'M[F]_0) *m data_cov g (@x0 F) = 1%:M.
Proof. by apply/matrixP => -[]. Qed.
Lemma ne1 : 1 + e != 0.
Proof. by apply: lt0r_neq0; rewrite addr_gt0 ?ltr01 //; have [] := e_small. Qed.

(** Zero mean, no data, sample 3 at the point 1: the value at 1 is 3 up to the jitter. *)
Example C53_ex : exists cache ys als,
  compute_cache (lin F) (@chol0 F) (@x0 F) (y0 F) = Ok cache /\
  sample_gp (lin F) cache (@x0 F) one (give 3%:R) (@chol1 F) = Ok (ys, als) /\
  ys = [:: 3%:R%:M] /\ gp_sample (lin F) one (nth 0 als 0) 1 None 0 0 = 3%:R / (1 + e).
Proof.
  have [cache ok] := cache0 (lin F).
  have v1 : posterior_cov (lin F) (0 : 'M[F]_0) (@x0 F) 1 1 = 1 by rewrite no_data_cov /= mulr1.
  have [ys [als [E [ysE f]]]] := one_value 3%:R (@chol0_ok F) s0 (@lin_psd F) ltr01 (mulr1 _) ok
    (inv0 _) v1 ne1.
  by exists cache, ys, als; rewrite f /= mxE add0r.
Qed.

(** The prior mean is counted twice: with mean 5 and the sample 5 at the point 1 the
    function has a value above 9 there. *)
Definition lin5 : gp_params F F 1 :=
  {| kern := fun x z => x * z; kdiag := fun x => x * x; mean := fun _ => const_mx 5%:R;
     noise := 1; scale := 1 |}.
Theorem C53_prior_mean_refuted : exists cache ys als,
  compute_cache lin5 (@chol0 F) (@x0 F) (y0 F) = Ok cache /\
  sample_gp lin5 cache (@x0 F) one (give 5%:R) (@chol1 F) = Ok (ys, als) /\
  ys = [:: 5%:R%:M] /\ 9%:R <= gp_sample lin5 one (nth 0 als 0) 1 None 0 0.
Proof.
  have [cache ok] := cache0 lin5.
  have v1 : posterior_cov lin5 (0 : 'M[F]_0) (@x0 F) 1 1 = 1 by rewrite no_data_cov /= mulr1.
  have [ys [als [E [ysE f]]]] := @one_value lin5 _ _ _ _ _ _ 5%:R _ (@chol0_ok F) (oner_neq0 _) (@lin_psd F) ltr01
    (mulr1 _) ok (inv0 _) v1 ne1.
  exists cache, ys, als; split=> //; split=> //; split=> //; rewrite f /= mxE.
  have [e0 e4] := e_small.
  have p : 0 < 1 + e by rewrite addr_gt0 ?ltr01.
  have -> : 9%:R = 5%:R + 4%:R :> F by rewrite -natrD.
  rewrite ler_add2l ler_pdivl_mulr // mulrDr mulr1 [X in _ <= X](mulrSr 1 4) ler_add2l.
  by rewrite mulrC -ler_pdivl_mulr ?ltr0n //; exact: ltW.
Qed.

(** With data the coefficients are computed from the posterior covariance but used
    with the prior kernel: after one measurement at 1 the sample 1 becomes a value
    above 4/3 there. *)
Theorem C53_data_refuted : exists cache ys als,
  compute_cache (lin F) (@chol1 F) (@x1 F) 0 = Ok cache /\
  sample_gp (lin F) cache (@x1 F) one (give 1) (@chol1 F) = Ok (ys, als) /\
  ys = [:: 1%:M] /\ 4%:R / 3%:R < gp_sample (lin F) one (nth 0 als 0) 1 None 0 0.
Proof.
  have [cache ok] := C49_cache_succeeds (@x1 F) 0 (@chol1_ok F) s0 (@lin_psd F) ltr01.
  have n2 : 2%:R != 0 :> F by rewrite pnatr_eq0.
  have inv : (2%:R^-1)%:M *m data_cov (lin F) (@x1 F) = 1%:M.
    have -> : data_cov (lin F) (@x1 F) = 2%:R%:M.
      by apply/matrixP => i j; rewrite !ord1 !mxE /= /x1 mulr1 ?eqxx ?mulr1n -?mulr2n.
    by rewrite -scalar_mxM mulVf.
  have v1 : posterior_cov (lin F) (2%:R^-1)%:M (@x1 F) 1 1 = 2%:R^-1.
    rewrite /posterior_cov !big_ord1 mxE /= /x1 !mulr1 mul1r mulr1n.
    have h : 1 = 2%:R^-1 + 2%:R^-1 :> F by rewrite -[RHS]mulr2n -[RHS]mulr_natl mulfV.
    by rewrite {1}h addrK.
  have [e0 e4] := e_small.
  have p : 0 < 2%:R^-1 + e by rewrite addr_gt0 // invr_gt0 ltr0n.
  have [ys [als [E [ysE f]]]] := one_value 1 (@chol1_ok F).1 s0 (@lin_psd F) ltr01
    (mulr1 _) ok inv v1 (lt0r_neq0 p).
  exists cache, ys, als; split=> //; split=> //; split=> //; rewrite f /= mxE add0r.
  rewrite ltr_pdivl_mulr // mulrAC ltr_pdivr_mulr ?ltr0n // mul1r mulrDr.
  have -> : 4%:R / 2%:R = 2%:R :> F by rewrite -[4%N]/(2 * 2)%N natrM mulfK.
  by rewrite [X in _ < X](mulrSr 1 2) ltr_add2l mulrC -ltr_pdivl_mulr ?ltr0n.
Qed.
End Example.

Print Assumptions C53_functions.
Print Assumptions C53_data_refuted.
