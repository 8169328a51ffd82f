(** Properties C91 and C92: the kernels of the examples. *)
From Coq Require Import Reals List Lra Lia.
From mathcomp Require Import fintype matrix.
From Verif Require Import Prelude CertModel GPModel GPSpec RField GPLoopModel GPLoopSpec CholProofs GPLoopProofs.
From Verif Require Import KernelModel KernelSpec MaternProofs KernelProofs Properties.GPProps.
Import ListNotations.
Delimit Scope R_scope with coqR.
Local Open Scope R_scope.

(** C91.  What the kernel objects compute are kernels. *)
Theorem C91_kernels : forall jitter k, 0 <= jitter -> proper k ->
  kernel (K jitter k) /\
  forall x, 0 <= K jitter k x x <= Kdiag k x /\ (jitter = 0 -> K jitter k x x = Kdiag k x).
Proof.
  intros jitter k J P. split; [apply psdk_kernel, K_psdk; assumption|apply K_diag; assumption].
Qed.
Print Assumptions C91_kernels.

(** So a model with such a kernel is one that C90 speaks about. *)
Theorem C91_sensible : forall jitter k mean noise scale beta chol,
  0 <= jitter -> proper k -> 0 < noise -> scale <> 0 -> 0 <= beta ->
  (forall n, factors_all (chol n)) ->
  sensible (with_kernel jitter k mean noise scale beta chol).
Proof.
  intros jitter k mean noise scale beta chol J P N S B C. destruct (C91_kernels jitter k J P) as [HK D].
  constructor; auto. intros x. apply D.
Qed.
Print Assumptions C91_sensible.

(** For every data set and every point: the decomposition succeeds, and the error
    bound is [beta] times the root of a variance that is at most the prior one. *)
Theorem C91_predictions : forall jitter k mean noise scale beta chol c w x,
  0 <= jitter -> proper k -> 0 < noise -> scale <> 0 -> 0 <= beta ->
  (forall n, factors_all (chol n)) ->
  let me := with_kernel jitter k mean noise scale beta chol in
  exists cache m v,
    compute_cache (params me) (@me_chol me (length w)) (@inputs w) (outputs c w) = Ok cache /\
    predict_mean (params me) cache (@inputs w) (fun _ : 'I_1 => x) = Ok (const_mx m) /\
    predict_diag (params me) cache (@inputs w) (fun _ : 'I_1 => x) = Ok (const_mx v) /\
    member_eval c me w x = (m, beta * sqrt v) /\
    0 <= Kdiag k x - K jitter k x x <= v /\ v <= Kdiag k x.
Proof.
  intros jitter k mean noise scale beta chol c w x J P N S B C me.
  assert (SE : sensible me) by (apply C91_sensible; assumption).
  destruct (member_predicts c w x SE) as (cache & m & v & H1 & H2 & H3 & H4 & H5 & H6).
  exists cache, m, v. pose proof (proj2 (C91_kernels jitter k J P) x) as [[_ D] _].
  repeat split; try assumption. lra.
Qed.
Print Assumptions C91_predictions.

(** The number that is added under the root of [Matern32] makes [K] of a point with
    itself smaller than [Kdiag]. *)
Theorem C91_diagonal_refuted : forall jitter variance lengthscales active x,
  0 < jitter -> 0 < variance ->
  let k := Matern32 variance lengthscales active in K jitter k x x < Kdiag k x.
Proof.
  intros j v l a x J V k. cbn [k K Kdiag]. rewrite square_dist_diag.
  assert (0 < sqrt 3 * sqrt (0 + j)).
  { apply Rmult_lt_0_compat; apply sqrt_lt_R0; lra. }
  pose proof (matern_below_one _ H). rewrite Rplus_0_l in H0 |- *.
  replace (- sqrt 3 * sqrt j) with (- (sqrt 3 * sqrt j)) by ring.
  rewrite Rmult_assoc. rewrite <- (Rmult_1_r v) at 2. apply Rmult_lt_compat_l; assumption.
Qed.
Print Assumptions C91_diagonal_refuted.

(** The kernels of the examples. *)
Definition kernel_1d : kernel_object :=
  Prod (Matern32 1 [1; 1] [0; 1]%nat) (Linear [1 / 5; 1] [0; 1]%nat).
Definition kernel_region : kernel_object :=
  Prod (Matern32 (4 / 25) [1] [0%nat]) (Linear [1] [0%nat]).
Definition kernel_pendulum (m_true m : list R) : kernel_object :=
  prior_kernel (1 / 100000) m_true m
    (Some (Prod (Matern32 1 [1] [0%nat]) (Linear [nth 1 (prior_variances (1 / 100000) m_true m) 0] [0%nat]))).

Lemma prior_variances_pos floor : forall m_true m, Forall (Rle 0) (prior_variances floor m_true m).
Proof.
  unfold prior_variances. induction m_true as [|a l IH]; intros [|b m]; constructor; auto.
  apply Rle_trans with ((a - b) ^ 2); [apply pow2_ge_0|apply Rmax_l].
Qed.
Lemma prior_proper floor m_true m second : length m_true = length m ->
  (forall k, second = Some k -> proper k) -> proper (prior_kernel floor m_true m second).
Proof.
  intros L H. assert (proper (Linear (prior_variances floor m_true m) (all_columns (length m)))).
  { split; [apply prior_variances_pos|]. unfold all_columns, prior_variances. rewrite seq_length.
    clear H. revert m L. induction m_true as [|a l IH]; intros [|b m] L; try discriminate; [reflexivity|].
    injection L as L. cbn [map2 length]. f_equal. apply IH, L. }
  unfold prior_kernel. destruct second as [k|]; [split; auto|assumption].
Qed.
Example C91_ex : proper kernel_1d /\ proper kernel_region /\
  (forall m_true m, length m_true = length m -> proper (kernel_pendulum m_true m)) /\
  K 0 kernel_1d [2; 3] [2; 3] = 49 / 5.
Proof.
  split; [|split; [|split]].
  - cbn. repeat split; try lra; repeat constructor; lra.
  - cbn. repeat split; try lra; repeat constructor; lra.
  - intros m_true m L. apply prior_proper; [exact L|]. intros k [= <-]. cbn [proper].
    pose proof (prior_variances_pos (1 / 100000) m_true m) as H.
    repeat split; try lra; (apply Forall_cons; [|apply Forall_nil]); try lra.
    destruct (Nat.lt_ge_cases 1 (length (prior_variances (1 / 100000) m_true m))) as [G|G].
    + rewrite Forall_forall in H. apply H, nth_In, G.
    + rewrite nth_overflow by exact G. lra.
  - rewrite (fun P => proj2 (K_diag 0 kernel_1d (Rle_refl 0) P [2; 3]) eq_refl).
    + cbn. lra.
    + cbn. repeat split; try lra; repeat constructor; lra.
Qed.

(** C92.  Linear systems whose difference is the one that the variances are computed
    from, up to a remainder that belongs to the second part of the kernel. *)
Lemma sum_norm jitter floor m_true m second r B : 0 <= jitter -> length m_true = length m ->
  (forall k, second = Some k -> proper k) -> norm_bound (second_kernel jitter second) B r ->
  norm_bound (K jitter (prior_kernel floor m_true m second)) (sqrt (INR (length m) + B ^ 2))
    (fun x => linear_output m_true x + r x - linear_output m x).
Proof.
  intros J L PS HR P. pose proof (pos_INR (length m)) as NP. pose proof (pow2_ge_0 B) as BP.
  rewrite pow2_sqrt by lra.
  pose proof (prior_norm jitter floor m_true m None J L ltac:(discriminate) P) as H1.
  rewrite pow2_sqrt in H1 by assumption. specialize (HR P).
  set (d := fun x => linear_output m_true x - linear_output m x) in H1.
  change (combination ?h P) with (comb (list R) h P) in *. change (energy ?h P) with (en (list R) h P) in *.
  rewrite (comb_ext (list R) _ (fun x => d x + r x)) by (intros x; unfold d; ring).
  rewrite comb_plus.
  assert (E : en (list R) (K jitter (prior_kernel floor m_true m second)) P =
    en (list R) (K jitter (prior_kernel floor m_true m None)) P + en (list R) (second_kernel jitter second) P).
  { rewrite <- en_plus. apply en_ext. intros x z. unfold prior_kernel. destruct second; cbn [K second_kernel]; ring. }
  rewrite E. clear E.
  assert (E1 : 0 <= en (list R) (K jitter (prior_kernel floor m_true m None)) P).
  { apply (K_psdk jitter); [exact J|]. apply prior_proper; [exact L|discriminate]. }
  assert (E2 : 0 <= en (list R) (second_kernel jitter second) P).
  { destruct second as [k|]; cbn [second_kernel]; [apply (K_psdk jitter); auto|apply psdk_zero]. }
  revert H1 HR E1 E2. generalize (en (list R) (K jitter (prior_kernel floor m_true m None)) P).
  generalize (en (list R) (second_kernel jitter second) P). intros e2 e1.
  generalize (comb (list R) d P) (comb (list R) r P). intros a b H1 H2 E1 E2.
  generalize dependent (INR (length m)). generalize dependent (B ^ 2). intros q Q H2 n N H1.
  assert (AB : (a * b) ^ 2 <= (n * e2) * (q * e1)).
  { replace ((a * b) ^ 2) with (a ^ 2 * b ^ 2) by ring.
    replace ((n * e2) * (q * e1)) with ((n * e1) * (q * e2)) by ring.
    apply Rmult_le_compat; auto using pow2_ge_0. }
  assert (U : 0 <= n * e2) by (apply Rmult_le_pos; assumption).
  assert (V : 0 <= q * e1) by (apply Rmult_le_pos; assumption).
  assert (2 * (a * b) <= n * e2 + q * e1).
  { apply Rsqr_incr_0_var; [|lra]. unfold Rsqr.
    pose proof (pow2_ge_0 (n * e2 - q * e1)). nra. }
  nra.
Qed.

Theorem C92_contains : forall jitter floor m_true m second r B noise scale beta chol c w x,
  0 <= jitter -> length m_true = length m -> (forall k, second = Some k -> proper k) ->
  norm_bound (second_kernel jitter second) B r ->
  0 < noise -> scale <> 0 -> 0 <= beta -> (forall n, factors_all (chol n)) ->
  let truth := fun x => linear_output m_true x + r x in
  INR (length m) + B ^ 2 + sum (map (fun p => (nth c (snd p) 0 - truth (fst p)) ^ 2) w) / noise <= beta ^ 2 ->
  let out := member_eval c (with_kernel jitter (prior_kernel floor m_true m second)
    (linear_output m) noise scale beta chol) w x in
  Rabs (truth x - fst out) <= snd out.
Proof.
  intros jitter floor m_true m second r B noise scale beta chol c w x J L PS HR N S HB C truth HS out.
  assert (SE := C91_sensible jitter _ (linear_output m) noise scale beta chol J (prior_proper floor m_true m second L PS) N S HB C).
  refine (member_right (h := truth) x SE _).
  exists (sqrt (INR (length m) + B ^ 2)). split.
  - apply sum_norm; assumption.
  - rewrite pow2_sqrt; [exact HS|]. pose proof (pos_INR (length m)). pose proof (pow2_ge_0 B). lra.
Qed.
Print Assumptions C92_contains.

Lemma zero_norm k : norm_bound k 0 (fun _ => 0).
Proof.
  intros P. change (combination ?h P) with (comb (list R) h P). rewrite comb_zero. lra.
Qed.
Lemma exact_errors c (h : list R -> R) w : (forall p, In p w -> nth c (snd p) 0 = h (fst p)) ->
  sum (map (fun p => (nth c (snd p) 0 - h (fst p)) ^ 2) w) = 0.
Proof.
  intros H. induction w as [|p w IH]; [reflexivity|]. cbn [map sum fold_right].
  unfold sum in IH. rewrite IH by (intros q Q; apply H; right; exact Q).
  rewrite H by (left; reflexivity). ring.
Qed.

(** With up to four states and actions, exact measurements, and the default [beta]:
    the intervals contain the true linear system. *)
Theorem C92_pendulum : forall jitter floor m_true m second noise scale chol c w x,
  0 <= jitter -> length m_true = length m -> (forall k, second = Some k -> proper k) ->
  0 < noise -> scale <> 0 -> (forall n, factors_all (chol n)) ->
  (length m <= 4)%nat ->
  (forall p, In p w -> nth c (snd p) 0 = linear_output m_true (fst p)) ->
  let out := member_eval c (with_kernel jitter (prior_kernel floor m_true m second)
    (linear_output m) noise scale 2 chol) w x in
  Rabs (linear_output m_true x - fst out) <= snd out.
Proof.
  intros jitter floor m_true m second noise scale chol c w x J L PS N S C HN HE out.
  rewrite <- (Rplus_0_r (linear_output m_true x)).
  apply (C92_contains jitter floor m_true m second (fun _ => 0) 0 noise scale 2 chol c w x); auto using zero_norm; [lra|].
  rewrite (exact_errors c (fun x => linear_output m_true x + 0)).
  - assert (INR (length m) <= 4); [|lra]. apply le_INR in HN. simpl in HN |- *. lra.
  - intros p Hp. rewrite Rplus_0_r. apply HE, Hp.
Qed.
Print Assumptions C92_pendulum.

(** With more than [beta ^ 2] of them, none of whose differences is below the floor,
    the model without data is wrong at some point. *)
Theorem C92_more_columns_refuted : forall jitter floor m_true m noise scale beta chol c,
  0 <= jitter -> length m_true = length m -> 0 < noise -> scale <> 0 -> 0 <= beta ->
  (forall n, factors_all (chol n)) ->
  (forall a b, In (a, b) (combine m_true m) -> a - b <> 0 /\ floor <= (a - b) ^ 2) ->
  beta ^ 2 < INR (length m) ->
  exists x,
    let out := member_eval c (with_kernel jitter (prior_kernel floor m_true m None)
      (linear_output m) noise scale beta chol) [] x in
    ~ Rabs (linear_output m_true x - fst out) <= snd out.
Proof.
  intros jitter floor m_true m noise scale beta chol c J L N S HB C HD HL.
  exists (worst m_true m). cbv zeta.
  rewrite prior_eval by (apply C91_sensible; auto; apply prior_proper; [exact L|discriminate]).
  cbn [fst snd with_kernel me_mean me_beta me_kdiag].
  destruct (worst_case floor m_true m L HD) as [-> ->]. set (n := INR (length m)) in *.
  assert (HP : 0 <= n) by apply pos_INR.
  rewrite Rabs_right by lra. intros H.
  assert (Q : n ^ 2 <= (beta * sqrt n) ^ 2) by (apply pow_incr; lra).
  rewrite Rpow_mult_distr in Q. rewrite pow2_sqrt in Q by assumption.
  assert (0 <= beta ^ 2) by apply pow2_ge_0. nra.
Qed.
Print Assumptions C92_more_columns_refuted.

(** Two states and an action: three exact measurements of a system that is linear,
    and an ordinary Cholesky decomposition.  Five columns: the bounds fail. *)
Definition ex_true : list R := [1; 2; 3].
Definition ex_model : list R := [1 / 2; 0; 3].
Definition ex_data : dataset := [([1; 0; 0], [1]); ([1; 1; 1], [6]); ([0; 0; 0], [0])].
Definition ex_chol n : 'M[R]_n -> res 'M[R]_n := @cholesky R_realFieldType R_sqrt.sqrt n.
Lemma ex_factors n : factors_all (ex_chol n).
Proof. apply cholesky_factors. exact sqrt_root. Qed.
Example C92_ex :
  (let out := member_eval 0 (with_kernel (1 / 1000000) (kernel_pendulum ex_true ex_model)
      (linear_output ex_model) (1 / 1000) 1 2 ex_chol) ex_data [3; 1; 1] in
   Rabs (8 - fst out) <= snd out) /\
  exists x,
    let out := member_eval 0 (with_kernel 0 (prior_kernel (1 / 1000) [1; 1; 1; 1; 1] [0; 0; 0; 0; 0] None)
      (linear_output [0; 0; 0; 0; 0]) (1 / 1000) 1 2 ex_chol) [] x in
    ~ Rabs (linear_output [1; 1; 1; 1; 1] x - fst out) <= snd out.
Proof.
  split.
  - replace 8 with (linear_output ex_true [3; 1; 1]) by (unfold linear_output; simpl; lra).
    apply C92_pendulum; auto using ex_factors; try lra.
    + intros k [= <-]. pose proof (proj1 (proj2 (proj2 C91_ex)) ex_true ex_model eq_refl) as [_ H]. exact H.
    + intros p [<-|[<-|[<-|[]]]]; unfold linear_output; simpl; lra.
  - apply C92_more_columns_refuted; auto using ex_factors; try lra.
    + intros a b H. simpl in H.
      repeat destruct H as [[= <- <-]|H]; try destruct H; lra.
    + simpl. lra.
Qed.
