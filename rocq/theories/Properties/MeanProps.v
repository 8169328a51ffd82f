(** Property C124: Lipschitz constants of the dynamics that follow from the kernels. *)
From Coq Require Import Reals List Bool Arith ZArith Lra Lia.
From Verif Require Import Prelude NumModel GridModel SafeModel CertModel UtilModel SampleModel LoopModel.
From Verif Require Import GPModel GPSpec RField GPLoopModel KernelModel KernelSpec KernelProofs.
From Verif Require Import GridSpec SafeSpec CertSpec CertProofs SampleSpec LoopSpec RefineSpec GPLoopSpec GPLoopProofs ExploreSpec SpreadSpec SteepSpec MeanSpec MeanProofs.
From Verif Require Import Properties.CertProps Properties.KernelProps Properties.GPLoopProps Properties.SpreadProps Properties.SteepProps.
Import ListNotations.
Local Open Scope R_scope.

(** The inequality of Cauchy and Schwarz for a kernel. *)
Lemma discriminant A D c : (forall t s, 0 <= t ^ 2 * A + 2 * t * s * c + s ^ 2 * D) -> c ^ 2 <= A * D.
Proof.
  intros E. pose proof (E 1 0) as A0. pose proof (E 0 1) as D0.
  destruct (Req_dec D 0) as [Z|Z].
  - destruct (Req_dec c 0) as [->|N]; [rewrite Z; lra|].
    pose proof (E 1 (- (A + 1) / (2 * c))) as F. rewrite Z in F.
    replace (1 ^ 2 * A + 2 * 1 * (- (A + 1) / (2 * c)) * c + (- (A + 1) / (2 * c)) ^ 2 * 0) with (-1) in F by (field; assumption). lra.
  - pose proof (E D (- c)) as F.
    replace (D ^ 2 * A + 2 * D * - c * c + (- c) ^ 2 * D) with (D * (A * D - c ^ 2)) in F by ring.
    assert (0 < D) by lra. assert (0 <= A * D - c ^ 2); [|lra]. apply Rmult_le_reg_l with D; lra.
Qed.
Lemma kernel_cauchy k P x z : kernel k ->
  combination (fun y => k y x - k y z) P ^ 2 <= energy k P * (k x x + k z z - 2 * k x z).
Proof.
  intros [S H]. apply discriminant. intros t s.
  pose proof (H ((s, x) :: (- s, z) :: reweight (list R) (fun _ => t) P)) as E.
  change (energy k ?Q) with (en (list R) k Q) in *. change (combination ?h ?Q) with (comb (list R) h Q).
  rewrite !en_cons in E by exact S. rewrite comb_cons, !comb_reweight, en_reweight, !comb_scal in E.
  rewrite (en_ext (list R) _ (fun x z => (t * t) * k x z)) in E by (intros; ring). rewrite en_scal in E.
  rewrite (comb_ext (list R) (fun y => k y x - k y z) (fun y => k x y + (-1) * k z y)) by (intros; rewrite (S x), (S z); ring).
  rewrite comb_plus, comb_scal. lra.
Qed.
Lemma abs_of_square a B D : 0 <= B -> 0 <= D -> a ^ 2 <= B ^ 2 * D -> Rabs a <= B * sqrt D.
Proof.
  intros HB HD H. apply Rsqr_incr_0_var; [|apply Rmult_le_pos; [exact HB|apply sqrt_pos]].
  rewrite <- Rsqr_abs. unfold Rsqr. pose proof (sqrt_sqrt D HD) as E.
  replace (B * sqrt D * (B * sqrt D)) with (B ^ 2 * (sqrt D * sqrt D)) by ring. rewrite E. lra.
Qed.

(** A function that the kernel can represent varies no faster than the distance that
    belongs to the kernel, ... *)
Theorem C124_true_function : forall me k h w x z, sensible me -> covers me k h w ->
  Rabs ((h x - me_mean me x) - (h z - me_mean me z)) <= me_beta me * kernel_distance (me_kern me) x z.
Proof.
  intros me k h w x z [KE _ NO _ BE _] (B & NB & HB).
  destruct (two_points (me_kern me) x z KE) as (_ & _ & D & _).
  apply abs_of_square; [exact BE|exact D|].
  pose proof (NB [(1, x); (-1, z)]) as H. unfold energy, combination, sum in H. cbn [map fold_right fst snd] in H.
  rewrite (proj1 KE z x) in H.
  assert (E : 0 <= sum (map (fun p => (nth k (snd p) 0 - h (fst p)) ^ 2) w) / me_noise me).
  { apply Rmult_le_pos; [apply sum_nonneg_map; intros; apply pow2_ge_0|left; now apply Rinv_0_lt_compat]. }
  assert (B ^ 2 * (me_kern me x x + me_kern me z z - 2 * me_kern me x z) <= me_beta me ^ 2 * (me_kern me x x + me_kern me z z - 2 * me_kern me x z))
    by (apply Rmult_le_compat_r; lra).
  replace (h x - me_mean me x - (h z - me_mean me z)) with (1 * (h x - me_mean me x) + (-1 * (h z - me_mean me z) + 0)) by ring.
  lra.
Qed.
Print Assumptions C124_true_function.

(** ... and so do the predictions from measurements of it. *)
Theorem C124_predictions : forall me k h w x z, sensible me -> covers me k h w ->
  Rabs ((fst (member_eval k me w x) - me_mean me x) - (fst (member_eval k me w z) - me_mean me z))
    <= me_beta me * kernel_distance (me_kern me) x z.
Proof.
  intros me k h w x z S C. destruct (mean_combination S C) as (P & HP & HE).
  destruct (two_points (me_kern me) x z (se_kernel _ S)) as (_ & _ & D & _).
  apply abs_of_square; [apply se_beta, S|exact D|]. rewrite !HE.
  replace (me_mean me x + combination (fun y => me_kern me y x) P - me_mean me x
     - (me_mean me z + combination (fun y => me_kern me y z) P - me_mean me z))
    with (combination (fun y => me_kern me y x - me_kern me y z) P).
  - eapply Rle_trans; [apply kernel_cauchy, S|]. now apply Rmult_le_compat_r.
  - change (combination ?h ?Q) with (comb (list R) h Q).
    rewrite (comb_ext (list R) _ (fun y => me_kern me y x + (-1) * me_kern me y z)) by (intros; ring).
    rewrite comb_plus, comb_scal. ring.
Qed.
Print Assumptions C124_predictions.

Lemma close_dist1 x : forall z, length x = length z -> close (dist1 x z) x z.
Proof.
  induction x as [|a x IH]; intros [|b z] E j; try discriminate; unfold dist1; cbn.
  - destruct j; rewrite Rminus_0_r, Rabs_R0; lra.
  - injection E as E. pose proof (IH z E) as H. pose proof (dist1_nonneg x z) as N. unfold dist1 in *. pose proof (Rabs_pos (a - b)).
    unfold sum in *. destruct j; cbn; [lra|]. specialize (H j). cbn beta in H. lra.
Qed.
Lemma slopes_length A B (f : A * B -> R) (g : A -> R) (l : list A) : forall l' : list B, length l = length l' ->
  sum (map g l) + sum (map f (combine l l')) = sum (map (fun p => g (fst p) + f p) (combine l l')).
Proof.
  induction l as [|a l IH]; intros [|b l'] E; try discriminate; cbn; [lra|]. injection E as E.
  specialize (IH l' E). unfold sum in *. rewrite <- IH. ring.
Qed.
Lemma slopes_nth A B (f : A * B -> R) c (l : list A) (l' : list B) j a b : nth_error l j = Some a -> nth_error l' j = Some b ->
  nth j (map (fun p => f p * c) (combine l l')) 0 = f (a, b) * c.
Proof.
  revert l l'. induction j as [|j IH]; intros [|x l] [|y l'] H H'; try discriminate; cbn in *.
  - now injection H as ->; injection H' as ->.
  - now apply IH.
Qed.
Lemma rows_close jitter M mu ms ks x z y y' : 0 <= jitter -> (forall k, In k ks -> proper k) -> have_kernels jitter ms ks ->
  (forall me, In me ms -> sensible me) -> means_lipschitz M mu ms ->
  length x = length z -> in_box M x -> in_box M z -> length y = length ms -> length y' = length ms ->
  (forall j me, nth_error ms j = Some me ->
     Rabs ((nth j y 0 - me_mean me x) - (nth j y' 0 - me_mean me z)) <= me_beta me * kernel_distance (me_kern me) x z) ->
  dist1 y y' <= dynamics_slope M mu ms ks * dist1 x z.
Proof.
  intros J P H S HM E X Z L L' HY.
  assert (LK : length ms = length ks) by (clear - H; induction H; cbn; congruence).
  unfold dynamics_slope, stack_slope. rewrite slopes_length by exact LK.
  rewrite Rmult_comm, <- sum_scale_map.
  rewrite (map_ext _ (fun p => (mu (fst p) + me_beta (fst p) * sqrt (steepness M (snd p))) * dist1 x z)) by (intros; ring).
  apply dist1_nth_le; rewrite ?map_length, ?combine_length, <- ?LK, ?Nat.min_id; try congruence.
  intros j Hj. assert (Hj' : (j < length ms)%nat) by congruence.
  destruct (nth_error ms j) as [me|] eqn:EM; [|apply nth_error_None in EM; lia].
  destruct (nth_error ks j) as [k|] eqn:EK; [|apply nth_error_None in EK; lia].
  rewrite (slopes_nth _ _ (fun p => mu (fst p) + me_beta (fst p) * sqrt (steepness M (snd p))) _ _ _ _ _ _ EM EK). cbn [fst snd].
  assert (EQ : me_kern me = K jitter k).
  { clear - H EM EK. revert j EM EK. induction H as [|m0 k0 ms ks [H0 _] H IH]; intros [|j] EM EK; try discriminate; cbn in *.
    - injection EM as ->. now injection EK as ->.
    - eauto. }
  specialize (HY j me EM). apply nth_error_In in EM, EK.
  pose proof (HM me x z EM E X Z) as H1. rewrite EQ in HY.
  pose proof (C123_kernel_distance jitter k M x z (dist1 x z) J (P k EK) (dist1_nonneg x z) X Z (close_dist1 x z E)) as H2.
  apply Rmult_le_compat_l with (r := me_beta me) in H2; [|apply se_beta, S, EM].
  replace (nth j y 0 - nth j y' 0) with
    ((nth j y 0 - me_mean me x - (nth j y' 0 - me_mean me z)) + (me_mean me x - me_mean me z)) by ring.
  eapply Rle_trans; [apply Rabs_triang|]. lra.
Qed.

(** In a box, true dynamics and predictions have a Lipschitz constant that is computed
    from [beta], the parameters of the kernels and the mean functions. *)
Theorem C124_dynamics : forall jitter M mu ms ks F w s u s' u',
  0 <= jitter -> (forall k, In k ks -> proper k) -> have_kernels jitter ms ks ->
  (forall me, In me ms -> sensible me) -> means_lipschitz M mu ms -> measured ms F w ->
  let x := s ++ u in let x' := s' ++ u' in
  length x = length x' -> in_box M x -> in_box M x' -> length (F x) = length ms -> length (F x') = length ms ->
  dist1 (F x) (F x') <= dynamics_slope M mu ms ks * dist1 x x' /\
  exists mean err mean' err',
    stack_dynamics ms w s u = Uncertain mean err /\ stack_dynamics ms w s' u' = Uncertain mean' err' /\
    dist1 mean mean' <= dynamics_slope M mu ms ks * dist1 x x'.
Proof.
  intros jitter M mu ms ks F w s u s' u' J P H S HM ME x x' E X X' L L'. split.
  - apply (rows_close jitter M mu ms ks x x'); auto. intros j me EM. apply (C124_true_function me j (fun y => nth j (F y) 0) w).
    + apply S. eapply nth_error_In, EM.
    + now apply ME.
  - eexists _, _, _, _. split; [reflexivity|]. split; [reflexivity|].
    apply (rows_close jitter M mu ms ks x x'); auto; try (rewrite map_length; apply stack_length).
    intros j me EM. assert (Hj : (j < length ms)%nat) by (apply nth_error_Some; congruence).
    destruct (stack_nth w x 0 Hj) as (m1 & E1 & Q1 & _). destruct (stack_nth w x' 0 Hj) as (m2 & E2 & Q2 & _).
    rewrite EM in E1, E2. injection E1 as <-. injection E2 as <-.
    pose proof (C124_predictions me (ssrnat.addn 0 j) (fun y => nth j (F y) 0) w x x' (S me (nth_error_In _ _ EM)) (ME j me EM)) as R.
    rewrite <- Q1, <- Q2 in R. exact R.
Qed.
Print Assumptions C124_dynamics.

Lemma dist1_app x : forall x' y y', length x = length x' -> dist1 (x ++ y) (x' ++ y') = dist1 x x' + dist1 y y'.
Proof.
  induction x as [|a x IH]; intros [|b x'] y y' E; try discriminate; unfold dist1, sum; cbn [map2 app fold_right]; [lra|].
  injection E as E. specialize (IH x' y y' E). unfold dist1, sum in IH. rewrite IH. ring.
Qed.
(** So the number that is passed as [lipschitz_dynamics] can be computed. *)
Theorem C124_closed_loop : forall jitter M mu ms ks F w g pi lp m,
  0 <= jitter -> (forall k, In k ks -> proper k) -> have_kernels jitter ms ks ->
  (forall me, In me ms -> sensible me) -> means_lipschitz M mu ms -> measured ms F w ->
  length ms = dims g -> (forall x, length x = dims g -> length (pi x) = m) ->
  (forall x, length x = (dims g + m)%nat -> length (F x) = dims g) ->
  (forall x, length x = dims g -> inside g x -> in_box M (x ++ pi x)) ->
  (forall x y, length x = dims g -> length y = dims g -> dist1 (pi x) (pi y) <= lp * dist1 x y) ->
  0 <= dynamics_slope M mu ms ks ->
  let lf := dynamics_slope M mu ms ks * (1 + lp) in
  forall x y, length x = dims g -> inside g x -> length y = dims g -> inside g y ->
    dist1 (F (x ++ pi x)) (F (y ++ pi y)) <= lf * dist1 x y.
Proof.
  intros jitter M mu ms ks F w g pi lp m J P H S HM ME LM LP LF HB HP D0 lf x y Lx Ix Ly Iy.
  destruct (C124_dynamics jitter M mu ms ks F w x (pi x) y (pi y) J P H S HM ME) as [HD _];
    rewrite ?app_length; auto; try (rewrite !LP by assumption; lia); try (rewrite LM; apply LF; rewrite app_length, LP by assumption; lia).
  eapply Rle_trans; [exact HD|]. rewrite dist1_app by congruence. unfold lf. rewrite Rmult_assoc.
  apply Rmult_le_compat_l; [exact D0|]. specialize (HP x y Lx Ly). lra.
Qed.
Print Assumptions C124_closed_loop.

(** The system whose successor is the state, with the prior of the examples. *)
Definition prior1 : kernel_object := prior_kernel 0 [1] [0] None.
Definition gp_prior1 : member := with_kernel 0 prior1 (linear_output [0]) 1 1 2 ex_chol.
Definition stays (x : list R) : list R := [nth 0 x 0].
Lemma stays_measured w : (forall p, In p w -> snd p = stays (fst p)) -> measured [gp_prior1] stays w.
Proof.
  intros H [|[|k]] me E; try discriminate. injection E as <-.
  exists (sqrt (INR (length [0]) + 0 ^ 2)). split.
  - intros P. pose proof (sum_norm 0 0 [1] [0] None (fun _ => 0) 0 (Rle_refl 0) eq_refl ltac:(discriminate) (zero_norm _) P) as N.
    eapply Rle_trans; [|exact N]. right. f_equal. unfold combination. f_equal. apply map_ext. intros p.
    unfold stays, linear_output, sum. cbn. ring.
  - rewrite (exact_errors 0 (fun x => nth 0 (stays x) 0)) by (intros p I; now rewrite H).
    rewrite pow2_sqrt by (cbn; lra). cbn. lra.
Qed.
Lemma prior1_slope M : dynamics_slope M (fun _ => 0) [gp_prior1] [prior1] = 2.
Proof.
  unfold dynamics_slope, stack_slope, sum. cbn [map combine fold_right fst snd gp_prior1 with_kernel me_beta].
  replace (steepness M prior1) with (1 ^ 2); [rewrite sqrt_pow2; lra|].
  unfold prior1, prior_kernel, prior_variances. cbn [steepness map2]. unfold sum. cbn [fold_right].
  rewrite Rmax_left; lra.
Qed.
Example C124_ex : forall w a b, (forall p, In p w -> snd p = stays (fst p)) -> Rabs a <= 5 -> Rabs b <= 5 ->
  exists mean err mean' err',
    stack_dynamics [gp_prior1] w [a] [] = Uncertain mean err /\ stack_dynamics [gp_prior1] w [b] [] = Uncertain mean' err' /\
    dist1 mean mean' <= 2 * dist1 [a] [b].
Proof.
  intros w a b H A B. rewrite <- (prior1_slope 5).
  apply (C124_dynamics 0 5 (fun _ => 0) [gp_prior1] [prior1] stays w [a] [] [b] []); auto; try lra.
  - intros k [<-|[]]. apply prior_proper; [reflexivity|discriminate].
  - repeat constructor.
  - intros me [<-|[]]. apply C91_sensible; try lra; [|exact ex_factors]. apply prior_proper; [reflexivity|discriminate].
  - intros me x z [<-|[]] L _ _. unfold gp_prior1, with_kernel, linear_output, sum. cbn.
    rewrite !Rmult_0_l, Rplus_0_l, Rminus_0_r, Rabs_R0. lra.
  - now apply stays_measured.
  - intros [|[|j]]; cbn; auto; rewrite Rabs_R0; lra.
  - intros [|[|j]]; cbn; auto; rewrite Rabs_R0; lra.
Qed.
(** On a grid from -4 to 4, with an action that is a quarter of the state. *)
Example C124_closed_loop_ex : forall x y, length x = 1%nat -> inside g9 x -> length y = 1%nat -> inside g9 y ->
  dist1 (stays (x ++ [nth 0 x 0 / 4])) (stays (y ++ [nth 0 y 0 / 4])) <= 5 / 2 * dist1 x y.
Proof.
  replace (5 / 2) with (dynamics_slope 4 (fun _ => 0) [gp_prior1] [prior1] * (1 + 1 / 4)) by (rewrite prior1_slope; lra).
  apply (C124_closed_loop 0 4 (fun _ => 0) [gp_prior1] [prior1] stays [([2], [2])] g9 (fun x => [nth 0 x 0 / 4]) (1 / 4) 1); auto; try lra.
  - intros k [<-|[]]. apply prior_proper; [reflexivity|discriminate].
  - repeat constructor.
  - intros me [<-|[]]. apply C91_sensible; try lra; [|exact ex_factors]. apply prior_proper; [reflexivity|discriminate].
  - intros me x z [<-|[]] L _ _. unfold gp_prior1, with_kernel, linear_output, sum. cbn.
    rewrite !Rmult_0_l, Rplus_0_l, Rminus_0_r, Rabs_R0. lra.
  - apply stays_measured. intros p [<-|[]]. reflexivity.
  - intros x L I. specialize (I 0%nat ltac:(cbn; lia)). unfold lower, upper, coordinate in I. cbn in I.
    destruct x as [|a [|b x]]; try discriminate. cbn in I.
    intros [|[|[|j]]]; cbn; unfold Rabs; destruct Rcase_abs; lra.
  - intros x y L L'. destruct x as [|a [|b x]]; try discriminate. destruct y as [|c [|d y]]; try discriminate.
    unfold dist1, sum. cbn. replace (a / 4 - c / 4) with ((a - c) * (1 / 4)) by field.
    rewrite Rabs_mult, (Rabs_pos_eq (1 / 4)) by lra. lra.
  - rewrite prior1_slope. lra.
Qed.
