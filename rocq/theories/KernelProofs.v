(** Proofs about the kernels: they are positive semi-definite. *)
From Coq Require Import Reals List Lra Lia.
From Coquelicot Require Import Coquelicot.
From Verif Require Import Prelude CertModel GPLoopSpec KernelModel KernelSpec MaternProofs.
Import ListNotations.
Local Open Scope R_scope.

Lemma integral_zero a b : is_RInt (fun _ : R => 0) a b 0.
Proof.
  assert (X := @is_RInt_const R_NormedModule a b 0).
  unfold scal in X. simpl in X. unfold mult in X. simpl in X. rewrite Rmult_0_r in X. exact X.
Qed.

(** Sums over weighted points. *)
Section Sums.
Variable T : Type.
Definition comb (h : T -> R) (P : list (R * T)) : R := sum (map (fun p => fst p * h (snd p)) P).
Definition en (k : T -> T -> R) (P : list (R * T)) : R := comb (fun x => comb (fun z => k x z) P) P.

Lemma comb_cons h w x P : comb h ((w, x) :: P) = w * h x + comb h P.
Proof. reflexivity. Qed.
Lemma comb_ext h h' P : (forall x, h x = h' x) -> comb h P = comb h' P.
Proof.
  intros E. induction P as [|[w x] P IH]; [reflexivity|]. rewrite !comb_cons, IH, E. reflexivity.
Qed.
Lemma comb_plus h h' P : comb (fun x => h x + h' x) P = comb h P + comb h' P.
Proof. induction P as [|[w x] P IH]; [unfold comb; simpl; ring|]. rewrite !comb_cons, IH. ring. Qed.
Lemma comb_scal c h P : comb (fun x => c * h x) P = c * comb h P.
Proof. induction P as [|[w x] P IH]; [unfold comb; simpl; ring|]. rewrite !comb_cons, IH. ring. Qed.
Lemma comb_zero P : comb (fun _ => 0) P = 0.
Proof. induction P as [|[w x] P IH]; [reflexivity|]. rewrite !comb_cons, IH. ring. Qed.
Lemma en_ext k k' P : (forall x z, k x z = k' x z) -> en k P = en k' P.
Proof. intros E. apply comb_ext. intros x. apply comb_ext. intros z. apply E. Qed.
Lemma en_plus k k' P : en (fun x z => k x z + k' x z) P = en k P + en k' P.
Proof.
  unfold en. rewrite <- comb_plus. apply comb_ext. intros x. apply comb_plus.
Qed.
Lemma en_scal c k P : en (fun x z => c * k x z) P = c * en k P.
Proof. unfold en. rewrite <- comb_scal. apply comb_ext. intros x. apply comb_scal. Qed.
Lemma en_cons k w x P : (forall x z, k x z = k z x) ->
  en k ((w, x) :: P) = w ^ 2 * k x x + 2 * w * comb (k x) P + en k P.
Proof.
  intros S. unfold en. rewrite comb_cons.
  rewrite (comb_ext _ (fun y => w * k x y + comb (fun z => k y z) P) P)
    by (intros y; rewrite comb_cons, (S y x); reflexivity).
  rewrite comb_plus, comb_scal, comb_cons. change (comb (fun z => k x z) P) with (comb (k x) P). ring.
Qed.
Lemma en_product f P : en (fun x z => f x * f z) P = comb f P ^ 2.
Proof.
  unfold en. rewrite (comb_ext _ (fun x => comb f P * f x)).
  - rewrite comb_scal. ring.
  - intros x. rewrite comb_scal. ring.
Qed.
Definition reweight (f : T -> R) (P : list (R * T)) := map (fun p => (fst p * f (snd p), snd p)) P.
Lemma comb_reweight f h P : comb h (reweight f P) = comb (fun x => f x * h x) P.
Proof.
  induction P as [|[w x] P IH]; [reflexivity|]. cbn [reweight map fst snd]. fold (reweight f P).
  rewrite !comb_cons, IH. ring.
Qed.
Lemma en_reweight f k P : en k (reweight f P) = en (fun x z => f x * k x z * f z) P.
Proof.
  unfold en. rewrite comb_reweight. apply comb_ext. intros x. rewrite comb_reweight, <- comb_scal.
  apply comb_ext. intros z. ring.
Qed.

(** Symmetric positive semi-definite kernels, for points of any type. *)
Definition psdk (k : T -> T -> R) : Prop := (forall x z, k x z = k z x) /\ forall P, 0 <= en k P.

Lemma psdk_ext k k' : (forall x z, k x z = k' x z) -> psdk k -> psdk k'.
Proof.
  intros E [S H]. split; [intros x z; rewrite <- !E; apply S|].
  intros P. rewrite <- (en_ext k k') by assumption. apply H.
Qed.
Lemma psdk_plus k k' : psdk k -> psdk k' -> psdk (fun x z => k x z + k' x z).
Proof.
  intros [S H] [S' H']. split; [intros x z; rewrite S, S'; reflexivity|].
  intros P. rewrite en_plus. specialize (H P). specialize (H' P). lra.
Qed.
Lemma psdk_scal c k : 0 <= c -> psdk k -> psdk (fun x z => c * k x z).
Proof.
  intros C [S H]. split; [intros x z; rewrite S; reflexivity|].
  intros P. rewrite en_scal. apply Rmult_le_pos; auto.
Qed.
Lemma psdk_zero : psdk (fun _ _ => 0).
Proof.
  split; [reflexivity|]. intros P. unfold en. rewrite (comb_ext _ (fun _ => 0)); [rewrite comb_zero; lra|].
  intros x. apply comb_zero.
Qed.
Lemma psdk_product f : psdk (fun x z => f x * f z).
Proof. split; [intros; ring|]. intros P. rewrite en_product. apply pow2_ge_0. Qed.
Lemma psdk_reweight f k : psdk k -> psdk (fun x z => f x * k x z * f z).
Proof.
  intros [S H]. split; [intros x z; rewrite S; ring|]. intros P. rewrite <- en_reweight. apply H.
Qed.
Lemma psdk_sum A (f : A -> T -> T -> R) l : (forall a, In a l -> psdk (f a)) ->
  psdk (fun x z => sum (map (fun a => f a x z) l)).
Proof.
  induction l as [|a l IH]; intros H; [apply psdk_zero|]. cbn [map sum fold_right].
  apply psdk_plus; [apply H; left; reflexivity|]. apply IH. intros b B. apply H. right. exact B.
Qed.
Lemma psdk_limit (f : nat -> T -> T -> R) (k : T -> T -> R) : (forall n, psdk (f n)) ->
  (forall x z, is_lim_seq (fun n => f n x z) (k x z)) -> psdk k.
Proof.
  intros H L. split.
  - intros x z. assert (E : Finite (k x z) = Finite (k z x)); [|congruence].
    rewrite <- (is_lim_seq_unique _ _ (L x z)), <- (is_lim_seq_unique _ _ (L z x)).
    apply Lim_seq_ext. intros n. apply H.
  - intros P.
    assert (CL : forall (h : nat -> T -> R) (l : T -> R), (forall x, is_lim_seq (fun n => h n x) (l x)) ->
      forall Q, is_lim_seq (fun n => comb (h n) Q) (comb l Q)).
    { intros h l hl. induction Q as [|[w x] Q IH]; [apply is_lim_seq_const|].
      rewrite comb_cons. apply is_lim_seq_ext with (fun n => w * h n x + comb (h n) Q); [reflexivity|].
      apply is_lim_seq_plus'; [|exact IH]. apply (is_lim_seq_scal_l _ w (Finite (l x))), hl. }
    assert (EL : is_lim_seq (fun n => en (f n) P) (en k P)).
    { unfold en. apply (CL (fun n x => comb (fun z => f n x z) P)). intros x. apply (CL (fun n z => f n x z)).
      intros z. apply L. }
    apply (is_lim_seq_le (fun _ => 0) (fun n => en (f n) P) 0 (en k P)); [|apply is_lim_seq_const|exact EL].
    intros n. apply H.
Qed.
Lemma psdk_integral (f : R -> T -> T -> R) (k : T -> T -> R) a b : a <= b ->
  (forall u, a < u < b -> psdk (f u)) ->
  (forall x z, is_RInt (fun u => f u x z) a b (k x z)) -> psdk k.
Proof.
  intros AB H I. split.
  - intros x z. rewrite <- (is_RInt_unique _ _ _ _ (I x z)), <- (is_RInt_unique _ _ _ _ (I z x)).
    apply RInt_ext. intros u Hu. rewrite Rmin_left, Rmax_right in Hu by assumption. apply (H u Hu).
  - intros P.
    assert (CI : forall (h : R -> T -> R) (l : T -> R), (forall x, is_RInt (fun u => h u x) a b (l x)) ->
      forall Q, is_RInt (fun u => comb (h u) Q) a b (comb l Q)).
    { intros h l hl. induction Q as [|[w x] Q IH].
      - apply integral_zero.
      - rewrite comb_cons. apply is_RInt_ext with (fun u => plus (scal w (h u x)) (comb (h u) Q)); [reflexivity|].
        apply (@is_RInt_plus R_NormedModule); [|exact IH]. apply (@is_RInt_scal R_NormedModule), hl. }
    assert (EI : is_RInt (fun u => en (f u) P) a b (en k P)).
    { unfold en. apply (CI (fun u x => comb (fun z => f u x z) P)). intros x. apply (CI (fun u z => f u x z)).
      intros z. apply I. }
    apply (is_RInt_le (fun _ => 0) (fun u => en (f u) P) a b 0 (en k P) AB); [|exact EI|].
    + apply integral_zero.
    + intros u Hu. apply (H u Hu).
Qed.

(** Cauchy-Schwarz for two points. *)
Lemma psdk_diag k x : psdk k -> 0 <= k x x.
Proof. intros [S H]. specialize (H [(1, x)]). unfold en, comb in H. simpl in H. lra. Qed.
Lemma psdk_null k x z : psdk k -> k x x = 0 -> k x z = 0.
Proof.
  intros [S H] X. destruct (Req_dec (k x z) 0) as [|N]; [assumption|exfalso].
  assert (C : forall t, 0 <= 2 * t * k x z + k z z).
  { intros t. specialize (H [(t, x); (1, z)]). rewrite en_cons in H by assumption.
    unfold en, comb in H. simpl in H. rewrite X in H. lra. }
  specialize (C (- (k z z + 1) / (2 * k x z))).
  replace (2 * (- (k z z + 1) / (2 * k x z)) * k x z) with (- (k z z + 1)) in C by (field; assumption). lra.
Qed.

(** What remains of a kernel after the part that [x0] explains. *)
Definition remainder (k : T -> T -> R) (x0 : T) : T -> T -> R :=
  fun x z => k x z - k x0 x * k x0 z / k x0 x0.
Lemma remainder_psdk k x0 : psdk k -> 0 < k x0 x0 -> psdk (remainder k x0).
Proof.
  intros [S H] X. split; [intros x z; unfold remainder; rewrite (S x z); field; lra|].
  intros P. specialize (H ((- comb (k x0) P / k x0 x0, x0) :: P)). rewrite en_cons in H by assumption.
  rewrite (en_ext _ (fun x z => k x z + - / k x0 x0 * (k x0 x * k x0 z))) by (intros; unfold remainder; field; lra).
  rewrite en_plus, en_scal, (en_product (k x0)).
  replace (_ ^ 2 * _ + _ + _) with (en k P + - / k x0 x0 * comb (k x0) P ^ 2) in H by (field; lra).
  exact H.
Qed.
(** Schur: the product of two kernels is a kernel. *)
Theorem psdk_mult k k' : psdk k -> psdk k' -> psdk (fun x z => k x z * k' x z).
Proof.
  intros K K'. split; [intros x z; rewrite (proj1 K x z), (proj1 K' x z); reflexivity|].
  intros P. revert k K. induction P as [|[w x0] P IH]; intros k K; [unfold en, comb; simpl; lra|].
  assert (S : forall k, psdk k -> forall x z, k x z * k' x z = k z x * k' z x).
  { intros k1 [S1 _] x z. rewrite S1, (proj1 K' x z). reflexivity. }
  assert (Z : forall k, psdk k -> k x0 x0 = 0 ->
    en (fun x z => k x z * k' x z) ((w, x0) :: P) = en (fun x z => k x z * k' x z) P).
  { intros k1 K1 N. rewrite en_cons by (apply S; assumption).
    rewrite (comb_ext _ (fun _ => 0)); [rewrite comb_zero, N; ring|].
    intros z. rewrite (psdk_null k1 x0 z K1 N). ring. }
  destruct (Req_dec (k x0 x0) 0) as [N|N].
  - rewrite Z by assumption. apply IH, K.
  - assert (N' : 0 < k x0 x0) by (assert (D := psdk_diag k x0 K); lra).
    assert (KR := remainder_psdk k x0 K N').
    rewrite (en_ext _ (fun x z => remainder k x0 x z * k' x z + / k x0 x0 * (k x0 x * k' x z * k x0 z)))
      by (intros; unfold remainder; field; lra).
    rewrite en_plus, en_scal, (Z _ KR); [|unfold remainder; field; lra].
    assert (0 <= en (fun x z => k x0 x * k' x z * k x0 z) ((w, x0) :: P)) by apply (psdk_reweight (k x0) k' K').
    assert (0 < / k x0 x0) by (apply Rinv_0_lt_compat; assumption).
    specialize (IH _ KR). nra.
Qed.

(** Gaussian functions of a difference. *)
Lemma psdk_exp (f : T -> R) c : 0 <= c -> psdk (fun x z => exp (c * (f x * f z))).
Proof.
  intros C. apply psdk_limit with (fun n x z =>
    sum_n (fun i => scal (pow_n (c * (f x * f z)) i) (/ INR (fact i))) n).
  - intros n. induction n as [|n IH].
    + apply psdk_ext with (fun x z => 1 * 1); [|apply (psdk_product (fun _ => 1))].
      intros x z. rewrite sum_O. unfold scal; simpl; unfold mult; simpl. unfold one. simpl. field.
    + apply psdk_ext with (fun x z =>
        sum_n (fun i => scal (pow_n (c * (f x * f z)) i) (/ INR (fact i))) n
        + c ^ S n * / INR (fact (S n)) * (f x ^ S n * f z ^ S n)).
      * intros x z. rewrite sum_Sn. unfold plus. cbv [scal ModuleSpace.scal mult]. cbn -[fact INR pow pow_n sum_n].
        f_equal. rewrite (pow_n_pow (c * (f x * f z)) (S n)), (Rpow_mult_distr c), (Rpow_mult_distr (f x)). ring.
      * apply psdk_plus; [exact IH|]. apply psdk_scal; [|apply psdk_product].
        apply Rmult_le_pos; [apply pow_le; assumption|]. left. apply Rinv_0_lt_compat, INR_fact_lt_0.
  - intros x z. exact (is_exp_Reals (c * (f x * f z))).
Qed.
Lemma psdk_gauss1 (f : T -> R) c : 0 <= c -> psdk (fun x z => exp (- (c * (f x - f z) ^ 2))).
Proof.
  intros C. apply psdk_ext with (fun x z => exp (- (c * f x ^ 2)) * exp (2 * c * (f x * f z)) * exp (- (c * f z ^ 2))).
  - intros x z. rewrite <- !exp_plus. f_equal. ring.
  - apply (psdk_reweight (fun x => exp (- (c * f x ^ 2)))), psdk_exp. lra.
Qed.
Lemma psdk_gauss A (f : A -> T -> R) l c : 0 <= c ->
  psdk (fun x z => exp (- (c * sum (map (fun a => (f a x - f a z) ^ 2) l)))).
Proof.
  intros C. induction l as [|a l IH].
  - apply psdk_ext with (fun x z => 1 * 1); [|apply (psdk_product (fun _ => 1))].
    intros x z. simpl. rewrite Rmult_0_r, Ropp_0, exp_0. ring.
  - apply psdk_ext with (fun x z => exp (- (c * (f a x - f a z) ^ 2))
      * exp (- (c * sum (map (fun a => (f a x - f a z) ^ 2) l)))).
    + intros x z. rewrite <- exp_plus. f_equal. cbn [map sum fold_right]. fold (sum (map (fun a0 => (f a0 x - f a0 z) ^ 2) l)). ring.
    + apply psdk_mult; [apply psdk_gauss1; assumption|exact IH].
Qed.
(** Matern functions of the distance. *)
Lemma psdk_matern A (f : A -> T -> R) l c j : 0 <= c -> 0 <= j ->
  psdk (fun x z => let r := sqrt (c * (sum (map (fun a => (f a x - f a z) ^ 2) l) + j)) in (1 + r) * exp (- r)).
Proof.
  intros C J. destruct mixture_limit as [G [GP GL]].
  set (d := fun x z => sum (map (fun a => (f a x - f a z) ^ 2) l)).
  assert (D : forall x z, 0 <= d x z).
  { intros x z. unfold d. clear. induction l as [|a l IH]; [simpl; lra|].
    cbn [map sum fold_right]. assert (0 <= (f a x - f a z) ^ 2) by apply pow2_ge_0. unfold sum in IH. lra. }
  assert (Q : forall x z, sqrt (c * (d x z + j)) ^ 2 = c * (d x z + j)).
  { intros x z. rewrite <- Rsqr_pow2. apply Rsqr_sqrt. specialize (D x z). nra. }
  apply psdk_ext with (fun x z => / G * (G * (let r := sqrt (c * (d x z + j)) in (1 + r) * exp (- r)))).
  { intros x z. cbv zeta. fold (d x z). field. lra. }
  apply psdk_scal; [left; apply Rinv_0_lt_compat; assumption|].
  apply psdk_limit with (fun n x z => RInt (mixture (c * (d x z + j))) (small n) (large n)).
  - intros n. apply psdk_integral with (f := fun u x z => mixture (c * (d x z + j)) u) (a := small n) (b := large n).
    + apply small_large.
    + intros u [U _]. assert (SP := small_pos n).
      apply psdk_ext with (fun x z => 2 * u ^ 2 * exp (- u ^ 2) * exp (- (c * j / (4 * u ^ 2)))
        * exp (- (c / (4 * u ^ 2) * d x z))).
      * intros x z. unfold mixture. rewrite (Rmult_assoc _ (exp (- (c * j / _)))), <- exp_plus. f_equal. f_equal.
        field. lra.
      * apply psdk_scal.
        -- assert (0 < exp (- u ^ 2)) by apply exp_pos. assert (0 < exp (- (c * j / (4 * u ^ 2)))) by apply exp_pos.
           assert (0 < u ^ 2) by nra. apply Rmult_le_pos; [|lra]. apply Rmult_le_pos; lra.
        -- apply psdk_gauss. apply Rdiv_le_0_compat; [assumption|nra].
    + intros x z. apply (@RInt_correct R_CompleteNormedModule).
      rewrite <- Q. eexists. apply mixture_integral; [apply small_pos|apply small_large].
  - intros x z. cbv zeta. apply is_lim_seq_ext with
      (fun n => RInt (mixture (sqrt (c * (d x z + j)) ^ 2)) (small n) (large n)).
    + intros n. rewrite Q. reflexivity.
    + apply GL, sqrt_pos.
Qed.
End Sums.

(** ** The kernels of the model *)
Lemma psdk_kernel k : psdk (list R) k -> kernel k.
Proof. exact (fun H => H). Qed.
Lemma K_psdk jitter k : 0 <= jitter -> proper k -> psdk (list R) (K jitter k).
Proof.
  intros J. induction k as [v a|s l a|s l a|k IH k' IH'|k IH k' IH']; cbn [proper K].
  - intros [V _]. apply (psdk_sum (list R) (R * nat) (fun p x z => column x (snd p) * fst p * column z (snd p))).
    intros [s j] I. apply psdk_ext with (fun x z => s * (column x j * column z j)); [intros; cbn [fst snd]; ring|].
    apply psdk_scal; [|apply (psdk_product _ (fun x => column x j))].
    apply in_combine_l in I. rewrite Forall_forall in V. apply V, I.
  - intros (V & L & E). apply psdk_scal; [exact V|].
    apply psdk_ext with (fun x z => exp (- (/ 2 * square_dist l a x z))); [intros; f_equal; field|].
    apply (psdk_gauss (list R) (R * nat) (fun p x => column x (snd p) / fst p) (combine l a)). lra.
  - intros (V & L & E).
    apply psdk_ext with (fun x z => s * (let r := sqrt (3 * (square_dist l a x z + jitter)) in (1 + r) * exp (- r))).
    + intros x z. cbv zeta.
      assert (0 <= square_dist l a x z + jitter).
      { unfold square_dist. generalize (combine l a). intros c. induction c as [|p c IH]; [simpl; lra|].
        cbn [map sum fold_right]. unfold sum in IH.
        assert (0 <= (column x (snd p) / fst p - column z (snd p) / fst p) ^ 2) by apply pow2_ge_0. lra. }
      rewrite sqrt_mult by lra. rewrite <- Ropp_mult_distr_l. ring.
    + apply psdk_scal; [exact V|].
      apply (psdk_matern (list R) (R * nat) (fun p x => column x (snd p) / fst p) (combine l a)); lra.
  - intros [H H']. apply psdk_plus; auto.
  - intros [H H']. apply psdk_mult; auto.
Qed.

Lemma matern_at_most_one r : 0 <= r -> (1 + r) * exp (- r) <= 1.
Proof.
  intros H. rewrite exp_Ropp. apply Rmult_le_reg_r with (exp r); [apply exp_pos|].
  rewrite Rmult_assoc, Rinv_l by (apply Rgt_not_eq, exp_pos).
  destruct (Req_dec r 0) as [->|N]; [rewrite exp_0; lra|]. assert (1 + r < exp r) by (apply exp_ineq1; lra). lra.
Qed.
Lemma matern_below_one r : 0 < r -> (1 + r) * exp (- r) < 1.
Proof.
  intros H. rewrite exp_Ropp. apply Rmult_lt_reg_r with (exp r); [apply exp_pos|].
  rewrite Rmult_assoc, Rinv_l by (apply Rgt_not_eq, exp_pos).
  assert (1 + r < exp r) by (apply exp_ineq1; lra). lra.
Qed.
Lemma square_dist_diag l a x : square_dist l a x x = 0.
Proof.
  unfold square_dist. induction (combine l a) as [|p c IH]; [reflexivity|].
  cbn [map sum fold_right]. unfold sum in IH. rewrite IH. unfold Rminus. ring.
Qed.
Lemma K_diag jitter k : 0 <= jitter -> proper k -> forall x,
  0 <= K jitter k x x <= Kdiag k x /\ (jitter = 0 -> K jitter k x x = Kdiag k x).
Proof.
  intros J P x. assert (D : 0 <= K jitter k x x) by (apply (psdk_diag (list R)), K_psdk; assumption).
  revert P D. induction k as [v a|s l a|s l a|k IH k' IH'|k IH k' IH']; cbn [proper K Kdiag].
  - intros _ D.
    assert (E : sum (map (fun p => column x (snd p) * fst p * column x (snd p)) (combine v a))
      = sum (map (fun p => column x (snd p) ^ 2 * fst p) (combine v a))).
    { f_equal. apply map_ext. intros p. ring. }
    rewrite E in *. split; [split; [exact D|apply Rle_refl]|reflexivity].
  - intros (V & _) D. rewrite square_dist_diag in *. unfold Rdiv in *. rewrite Ropp_0, Rmult_0_l, exp_0 in *. lra.
  - intros (V & _) D. rewrite square_dist_diag, Rplus_0_l in *. split; [split; [exact D|]|].
    + rewrite Rmult_assoc, <- Ropp_mult_distr_l.
      assert (H : (1 + sqrt 3 * sqrt jitter) * exp (- (sqrt 3 * sqrt jitter)) <= 1).
      { apply matern_at_most_one, Rmult_le_pos; apply sqrt_pos. }
      apply Rmult_le_compat_l with (r := s) in H; lra.
    + intros ->. rewrite sqrt_0, !Rmult_0_r, exp_0. ring.
  - intros [P P'] D.
    destruct (IH P (psdk_diag _ _ x (K_psdk jitter k J P))) as [[A B] C].
    destruct (IH' P' (psdk_diag _ _ x (K_psdk jitter k' J P'))) as [[A' B'] C'].
    split; [lra|]. intros Z. rewrite C, C' by assumption. reflexivity.
  - intros [P P'] D.
    destruct (IH P (psdk_diag _ _ x (K_psdk jitter k J P))) as [[A B] C].
    destruct (IH' P' (psdk_diag _ _ x (K_psdk jitter k' J P'))) as [[A' B'] C'].
    split; [split; [exact D|apply Rmult_le_compat; assumption]|]. intros Z. rewrite C, C' by assumption. reflexivity.
Qed.

(** ** Linear functions *)
Lemma square_of_sum A (f : A -> R) l : sum (map f l) ^ 2 <= INR (length l) * sum (map (fun a => f a ^ 2) l).
Proof.
  induction l as [|a l IH]; [simpl; lra|].
  change (length (a :: l)) with (S (length l)). rewrite S_INR. cbn [map sum fold_right]. fold (sum (map f l)).
  change (fold_right Rplus 0 (map (fun a => f a ^ 2) l)) with (sum (map (fun a => f a ^ 2) l)).
  set (n := INR (length l)) in *. set (t := sum (map f l)) in *. set (q := sum (map (fun a => f a ^ 2) l)) in *.
  assert (N : 0 <= n) by apply pos_INR.
  destruct (Req_dec n 0) as [Z|Z].
  - assert (t = 0) by (rewrite Z in IH; nra). 
    assert (0 <= q). { unfold q. clear. induction l as [|b l IH]; [simpl; lra|]. cbn [map sum fold_right].
      unfold sum in IH. assert (0 <= f b ^ 2) by apply pow2_ge_0. lra. }
    rewrite H, Z. nra.
  - (* 2 a t <= n a^2 + t^2 / n *)
    assert (2 * f a * t <= n * f a ^ 2 + t ^ 2 / n).
    { apply Rmult_le_reg_l with n; [lra|]. replace (n * (n * f a ^ 2 + t ^ 2 / n)) with (n ^ 2 * f a ^ 2 + t ^ 2) by (field; assumption).
      assert (0 <= (n * f a - t) ^ 2) by apply pow2_ge_0. nra. }
    assert (t ^ 2 / n <= q).
    { apply Rmult_le_reg_l with n; [lra|]. replace (n * (t ^ 2 / n)) with (t ^ 2) by (field; assumption). exact IH. }
    nra.
Qed.
Lemma comb_sum A (f : A -> list R -> R) l P :
  comb (list R) (fun x => sum (map (fun a => f a x) l)) P = sum (map (fun a => comb (list R) (f a) P) l).
Proof.
  induction l as [|a l IH]; [apply comb_zero|]. cbn [map sum fold_right].
  rewrite (comb_plus (list R) (f a) (fun x => sum (map (fun a => f a x) l))), IH. reflexivity.
Qed.
Lemma en_sum A (f : A -> list R -> list R -> R) l P :
  en (list R) (fun x z => sum (map (fun a => f a x z) l)) P = sum (map (fun a => en (list R) (f a) P) l).
Proof.
  induction l as [|a l IH].
  - unfold en. simpl. rewrite (comb_ext _ _ (fun _ => 0)); [apply comb_zero|]. intros; apply comb_zero.
  - cbn [map sum fold_right].
    rewrite (en_plus (list R) (f a) (fun x z => sum (map (fun a => f a x z) l))), IH. reflexivity.
Qed.
Lemma sum_le A (f h : A -> R) l : (forall a, In a l -> f a <= h a) -> sum (map f l) <= sum (map h l).
Proof.
  induction l as [|a l IH]; intros H; [apply Rle_refl|]. cbn [map sum fold_right].
  apply Rplus_le_compat; [apply H; left; reflexivity|apply IH; intros b B; apply H; right; exact B].
Qed.
Lemma sum_scal A c (f : A -> R) l : sum (map (fun a => c * f a) l) = c * sum (map f l).
Proof. induction l as [|a l IH]; [simpl; ring|]. cbn [map sum fold_right]. unfold sum in IH. rewrite IH. ring. Qed.

(** Everything as sums over the columns. *)
Definition cells (k : nat) (m_true m : list R) : list (R * R * nat) :=
  combine (combine m_true m) (seq k (length m)).
Lemma linear_cells x : forall m_true m k, length m_true = length m ->
  sum (map (fun p => fst p * nth (snd p) x 0) (combine m_true (seq k (length m_true))))
  - sum (map (fun p => fst p * nth (snd p) x 0) (combine m (seq k (length m))))
  = sum (map (fun c => (fst (fst c) - snd (fst c)) * column x (snd c)) (cells k m_true m)).
Proof.
  induction m_true as [|a l IH]; intros [|b m] k L; try discriminate; [simpl; ring|].
  injection L as L. specialize (IH m (S k) L). unfold cells in *. cbn [length seq combine map sum fold_right fst snd] in *.
  unfold sum, column in *. lra.
Qed.
Lemma variances_cells floor (f : R -> nat -> R) : forall m_true m k, length m_true = length m ->
  map (fun p => f (fst p) (snd p)) (combine (prior_variances floor m_true m) (seq k (length m)))
  = map (fun c => f (Rmax ((fst (fst c) - snd (fst c)) ^ 2) floor) (snd c)) (cells k m_true m).
Proof.
  unfold prior_variances, cells.
  induction m_true as [|a l IH]; intros [|b m] k L; try discriminate; [reflexivity|].
  injection L as L. cbn [map2 length seq combine map fst snd]. f_equal. apply IH, L.
Qed.
Lemma cells_length m_true m k : length m_true = length m -> length (cells k m_true m) = length m.
Proof. intros L. unfold cells. rewrite !combine_length, seq_length. lia. Qed.

Lemma prior_norm jitter floor m_true m second : 0 <= jitter -> length m_true = length m ->
  (forall k, second = Some k -> proper k) ->
  norm_bound (K jitter (prior_kernel floor m_true m second)) (sqrt (INR (length m)))
    (fun x => linear_output m_true x - linear_output m x).
Proof.
  intros J L PS P. change (combination ?h P) with (comb (list R) h P). change (energy ?h P) with (en (list R) h P).
  set (C := cells 0 m_true m).
  rewrite (comb_ext (list R) _ (fun x => sum (map (fun c => (fst (fst c) - snd (fst c)) * column x (snd c)) C)))
    by (intros x; apply linear_cells, L).
  rewrite (comb_sum (R * R * nat) (fun c x => (fst (fst c) - snd (fst c)) * column x (snd c))).
  set (s := fun c : R * R * nat => comb (list R) (fun x => column x (snd c)) P).
  assert (LE : en (list R) (K jitter (Linear (prior_variances floor m_true m) (all_columns (length m)))) P
    = sum (map (fun c => Rmax ((fst (fst c) - snd (fst c)) ^ 2) floor * s c ^ 2) C)).
  { cbn [K]. unfold all_columns.
    rewrite (en_ext (list R) _ (fun x z => sum (map (fun c : R * R * nat =>
       column x (snd c) * Rmax ((fst (fst c) - snd (fst c)) ^ 2) floor * column z (snd c)) C))).
    - rewrite (en_sum (R * R * nat) (fun c x z =>
       column x (snd c) * Rmax ((fst (fst c) - snd (fst c)) ^ 2) floor * column z (snd c))).
      f_equal. apply map_ext. intros c.
      rewrite (en_ext (list R) _ (fun x z => Rmax ((fst (fst c) - snd (fst c)) ^ 2) floor * (column x (snd c) * column z (snd c))))
        by (intros; ring).
      rewrite en_scal, (en_product (list R) (fun x => column x (snd c))). reflexivity.
    - intros x z. f_equal. apply (variances_cells floor (fun v j => column x j * v * column z j)), L. }
  assert (EE : sum (map (fun c => Rmax ((fst (fst c) - snd (fst c)) ^ 2) floor * s c ^ 2) C)
    <= en (list R) (K jitter (prior_kernel floor m_true m second)) P).
  { rewrite <- LE. unfold prior_kernel. destruct second as [k|]; [|apply Rle_refl].
    cbn [K]. rewrite (en_plus (list R) (fun x z => sum (map (fun p => column x (snd p) * fst p * column z (snd p))
      (combine (prior_variances floor m_true m) (all_columns (length m))))) (K jitter k)).
    assert (H := proj2 (K_psdk jitter k J (PS k eq_refl)) P). cbn [K]. lra. }
  rewrite <- (Rsqr_pow2 (sqrt _)), Rsqr_sqrt by apply pos_INR.
  apply Rle_trans with (INR (length m) * sum (map (fun c => Rmax ((fst (fst c) - snd (fst c)) ^ 2) floor * s c ^ 2) C));
    [|apply Rmult_le_compat_l; [apply pos_INR|exact EE]].
  eapply Rle_trans; [apply square_of_sum|]. unfold C at 1. rewrite cells_length by exact L.
  apply Rmult_le_compat_l; [apply pos_INR|]. apply sum_le. intros c _.
  rewrite (comb_scal (list R) _ (fun x => column x (snd c))). fold (s c).
  rewrite Rpow_mult_distr. apply Rmult_le_compat_r; [apply pow2_ge_0|apply Rmax_l].
Qed.
(** The point at which the prior bound is worst. *)
Definition worst (m_true m : list R) : list R := map2 (fun a b => / (a - b)) m_true m.
Lemma worst_column : forall m_true m k c, length m_true = length m -> In c (cells k m_true m) ->
  column (worst m_true m) (snd c - k) = / (fst (fst c) - snd (fst c)) /\ (k <= snd c)%nat /\
  In (fst (fst c), snd (fst c)) (combine m_true m).
Proof.
  unfold cells, worst.
  induction m_true as [|a l IH]; intros [|b m] k c L I; try discriminate; [destruct I|].
  injection L as L. cbn [length seq combine map2] in *. destruct I as [<-|I].
  - cbn [fst snd]. rewrite Nat.sub_diag. split; [reflexivity|split; [lia|left; reflexivity]].
  - destruct (IH m (S k) c L I) as (E & G & H). replace (snd c - k)%nat with (S (snd c - S k)) by lia.
    split; [exact E|split; [lia|right; exact H]].
Qed.
Lemma sum_ones A (f : A -> R) l : (forall a, In a l -> f a = 1) -> sum (map f l) = INR (length l).
Proof.
  induction l as [|a l IH]; intros H; [reflexivity|]. change (length (a :: l)) with (S (length l)).
  rewrite S_INR. cbn [map sum fold_right]. fold (sum (map f l)). rewrite IH, H; [ring|left; reflexivity|].
  intros b B. apply H. right. exact B.
Qed.
Lemma worst_case floor m_true m : length m_true = length m ->
  (forall a b, In (a, b) (combine m_true m) -> a - b <> 0 /\ floor <= (a - b) ^ 2) ->
  linear_output m_true (worst m_true m) - linear_output m (worst m_true m) = INR (length m) /\
  Kdiag (prior_kernel floor m_true m None) (worst m_true m) = INR (length m).
Proof.
  intros L H. rewrite <- (cells_length m_true m 0 L).
  assert (W : forall c, In c (cells 0 m_true m) ->
    column (worst m_true m) (snd c) = / (fst (fst c) - snd (fst c)) /\ fst (fst c) - snd (fst c) <> 0 /\
    floor <= (fst (fst c) - snd (fst c)) ^ 2).
  { intros c I. destruct (worst_column m_true m 0 c L I) as (E & _ & F). rewrite Nat.sub_0_r in E.
    split; [exact E|apply H, F]. }
  split.
  - unfold linear_output. rewrite (linear_cells (worst m_true m) m_true m 0 L). apply sum_ones.
    intros c I. destruct (W c I) as (E & N & _). rewrite E. field. exact N.
  - cbn [prior_kernel Kdiag]. unfold all_columns.
    rewrite (variances_cells floor (fun v j => column (worst m_true m) j ^ 2 * v) m_true m 0 L).
    apply sum_ones. intros c I. destruct (W c I) as (E & N & F). rewrite E, Rmax_left by exact F. field. exact N.
Qed.
