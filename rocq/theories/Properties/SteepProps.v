(** Property C123: the error bounds of the examples are Lipschitz continuous. *)
From Coquelicot Require Import Coquelicot.
From Coq Require Import Reals List Bool Arith ZArith Lra Lia.
From Verif Require Import Prelude NumModel GridModel SafeModel CertModel UtilModel SampleModel LoopModel.
From Verif Require Import GPModel GPSpec RField GPLoopModel KernelModel KernelSpec KernelProofs.
From Verif Require Import GridSpec SafeSpec CertSpec SampleSpec LoopSpec RefineSpec GPLoopSpec ExploreSpec ExploreProofs SpreadSpec SpreadProofs SteepSpec SteepProofs.
From Verif Require Import Properties.KernelProps Properties.SpreadProps.
Import ListNotations.
Local Open Scope R_scope.

Lemma sum_nonneg_map A (f : A -> R) l : (forall a, In a l -> 0 <= f a) -> 0 <= sum (map f l).
Proof.
  induction l as [|a l IH]; intros H; cbn; [lra|].
  pose proof (H a (or_introl eq_refl)). pose proof (IH (fun b B => H b (or_intror B))). unfold sum in *. lra.
Qed.
Lemma sum_le_map A (f h : A -> R) l : (forall a, In a l -> f a <= h a) -> sum (map f l) <= sum (map h l).
Proof.
  induction l as [|a l IH]; intros H; cbn; [lra|].
  pose proof (H a (or_introl eq_refl)). pose proof (IH (fun b B => H b (or_intror B))). unfold sum in *. lra.
Qed.
Lemma sum_scale_map A c (f : A -> R) l : sum (map (fun a => c * f a) l) = c * sum (map f l).
Proof. induction l as [|a l IH]; cbn; [ring|]. unfold sum in *. rewrite IH. ring. Qed.
Lemma combine_first A B (l : list A) : forall (l' : list B), length l = length l' -> map fst (combine l l') = l.
Proof. induction l as [|a l IH]; intros [|b l'] E; try discriminate; [reflexivity|]. cbn. rewrite IH; auto. Qed.
Lemma sum_first A B (h : A -> R) (l : list A) (l' : list B) : length l = length l' ->
  sum (map h l) = sum (map (fun p => h (fst p)) (combine l l')).
Proof. intros E. rewrite <- (combine_first _ _ l l' E) at 1. rewrite map_map. reflexivity. Qed.
Lemma square_abs a b : Rabs a <= b -> a ^ 2 <= b ^ 2.
Proof.
  intros H. rewrite <- (pow2_abs a). pose proof (Rabs_pos a). apply pow_incr. lra.
Qed.

Lemma square_dist_close l a x z delta : Forall (Rlt 0) l -> length l = length a -> close delta x z ->
  0 <= square_dist l a x z <= inverse_squares l * delta ^ 2.
Proof.
  intros L E C. unfold square_dist, inverse_squares. split.
  { apply sum_nonneg_map. intros. apply pow2_ge_0. }
  rewrite Rmult_comm, (sum_first _ _ _ l a E), <- sum_scale_map.
  apply sum_le_map. intros [s j] I. cbn [fst snd]. apply in_combine_l in I. rewrite Forall_forall in L. specialize (L s I).
  replace ((column x j / s - column z j / s) ^ 2) with ((column x j - column z j) ^ 2 * / s ^ 2) by (field; lra).
  apply Rmult_le_compat_r; [left; apply Rinv_0_lt_compat, pow_lt, L|]. apply square_abs, C.
Qed.

(** The kernel of Matern as a function of the squared distance. *)
Lemma exp_mono a b : a <= b -> exp a <= exp b.
Proof. intros [H | ->]; [left; now apply exp_increasing|lra]. Qed.
Lemma matern_slope r q : 0 <= r -> r <= q ->
  (1 + r) * exp (- r) - (1 + q) * exp (- q) <= (q ^ 2 - r ^ 2) / 2.
Proof.
  intros R0 RQ.
  assert (D : forall t, derivable_pt_lim (fun t => (1 + t) * exp (- t) + t ^ 2 / 2) t (t * (1 - exp (- t)))).
  { intros t. apply is_derive_Reals. auto_derive; [exact I|]. field. }
  assert (H : (1 + r) * exp (- r) + r ^ 2 / 2 <= (1 + q) * exp (- q) + q ^ 2 / 2).
  { destruct (Req_dec r q) as [->|N]; [lra|].
    destruct (MVT_cor2 (fun t => (1 + t) * exp (- t) + t ^ 2 / 2) (fun t => t * (1 - exp (- t))) r q) as (c & E & Hc); [lra|auto|].
    assert (exp (- c) <= exp 0) by (apply exp_mono; lra). rewrite exp_0 in *.
    assert (0 <= c * (1 - exp (- c)) * (q - r)) by (repeat apply Rmult_le_pos; lra). lra. }
  lra.
Qed.

(** Three numbers of a kernel at two points. *)
Lemma two_points k x z : kernel k ->
  0 <= k x x /\ 0 <= k z z /\ 0 <= k x x + k z z - 2 * k x z /\ k x z ^ 2 <= k x x * k z z.
Proof.
  intros [S H].
  assert (E : forall a b, 0 <= a ^ 2 * k x x + b ^ 2 * k z z + 2 * a * b * k x z).
  { intros a b. specialize (H [(a, x); (b, z)]). unfold energy, combination, sum in H. cbn in H. rewrite (S z x) in H. lra. }
  pose proof (E 1 0). pose proof (E 0 1). pose proof (E 1 (-1)).
  repeat split; try lra.
  destruct (Req_dec (k z z) 0) as [Z|Z].
  - destruct (Req_dec (k x z) 0) as [->|N]; [rewrite Z; lra|].
    pose proof (E 1 (- (k x x + 1) / (2 * k x z))) as F. rewrite Z in F.
    replace (1 ^ 2 * k x x + (- (k x x + 1) / (2 * k x z)) ^ 2 * 0 + 2 * 1 * (- (k x x + 1) / (2 * k x z)) * k x z) with (-1) in F by (field; assumption). lra.
  - pose proof (E (k z z) (- k x z)) as F.
    replace (k z z ^ 2 * k x x + (- k x z) ^ 2 * k z z + 2 * k z z * - k x z * k x z) with (k z z * (k x x * k z z - k x z ^ 2)) in F by ring.
    assert (0 < k z z) by lra. assert (0 <= k x x * k z z - k x z ^ 2); [|lra].
    apply Rmult_le_reg_l with (k z z); lra.
Qed.
Lemma diagonal_change a b c : 0 <= a -> 0 <= b -> c ^ 2 <= a * b -> (a - b) ^ 2 <= 2 * (a + b - 2 * c) * (a + b).
Proof.
  intros A B C. assert (H : 2 * c <= a + b - (a - b) ^ 2 / (2 * (a + b)) \/ a + b = 0).
  { destruct (Req_dec (a + b) 0) as [E|N]; [now right|left].
    (* sqrt (a b) is at most (a + b)/2 - (a-b)^2 / (4 (a + b)) *)
    assert (P : 0 < a + b) by lra.
    apply Rle_trans with (Rabs (2 * c)); [apply Rle_abs|].
    apply Rsqr_incr_0_var.
    - rewrite <- Rsqr_abs. unfold Rsqr.
      apply Rle_trans with (4 * (a * b)); [lra|].
      replace ((a + b - (a - b) ^ 2 / (2 * (a + b))) * (a + b - (a - b) ^ 2 / (2 * (a + b))))
        with (4 * (a * b) + ((a - b) ^ 2 / (2 * (a + b))) ^ 2) by (field; lra).
      pose proof (pow2_ge_0 ((a - b) ^ 2 / (2 * (a + b)))). lra.
    - replace (a + b - (a - b) ^ 2 / (2 * (a + b))) with ((2 * (a + b) ^ 2 - (a - b) ^ 2) / (2 * (a + b))) by (field; lra).
      apply Rmult_le_pos; [nra|left; apply Rinv_0_lt_compat; lra]. }
  destruct H as [H|H].
  - destruct (Req_dec (a + b) 0) as [E|N]; [assert (a = 0) by lra; assert (b = 0) by lra; subst; lra|].
    assert (P : 0 < a + b) by lra.
    assert (H' : (a - b) ^ 2 / (2 * (a + b)) <= a + b - 2 * c) by lra.
    apply Rmult_le_compat_r with (r := 2 * (a + b)) in H'; [|lra].
    unfold Rdiv in H'. rewrite Rmult_assoc, Rinv_l in H' by lra. lra.
  - assert (a = 0) by lra. assert (b = 0) by lra. subst. lra.
Qed.
Lemma product_distance a b c a' b' c' h h' : 0 <= a -> 0 <= b -> c ^ 2 <= a * b -> 0 <= a + b - 2 * c ->
  0 <= a' -> 0 <= b' -> c' ^ 2 <= a' * b' -> 0 <= a' + b' - 2 * c' ->
  a <= h -> b <= h -> a' <= h' -> b' <= h' ->
  a * a' + b * b' - 2 * (c * c') <= 2 * (h * (a' + b' - 2 * c') + h' * (a + b - 2 * c)).
Proof.
  intros A B C D A' B' C' D' AH BH AH' BH'.
  pose proof (diagonal_change a b c A B C) as E. pose proof (diagonal_change a' b' c' A' B' C') as E'.
  set (d := a + b - 2 * c) in *. set (d' := a' + b' - 2 * c') in *.
  set (s := (a + b) / 2). set (s' := (a' + b') / 2).
  assert (S1 : 0 <= s <= h) by (unfold s; lra). assert (S2 : 0 <= s' <= h') by (unfold s'; lra).
  assert (F : (a - b) * (a' - b') / 2 <= d * s' + d' * s).
  { apply Rle_trans with (Rabs ((a - b) * (a' - b') / 2)); [apply Rle_abs|].
    assert (0 <= d * s') by (apply Rmult_le_pos; lra). assert (0 <= d' * s) by (apply Rmult_le_pos; lra).
    apply Rsqr_incr_0_var; [|lra]. rewrite <- Rsqr_abs. unfold Rsqr.
    apply Rle_trans with ((4 * d * s) * (4 * d' * s') / 4).
    - replace ((a - b) * (a' - b') / 2 * ((a - b) * (a' - b') / 2)) with ((a - b) ^ 2 * (a' - b') ^ 2 / 4) by field.
      apply Rmult_le_compat_r; [lra|]. apply Rmult_le_compat; try apply pow2_ge_0; unfold s, s'; lra.
    - pose proof (pow2_ge_0 (d * s' - d' * s)). nra. }
  assert (0 <= d * d') by (apply Rmult_le_pos; lra).
  assert (d' * s <= d' * h) by (apply Rmult_le_compat_l; lra).
  assert (d * s' <= d * h') by (apply Rmult_le_compat_l; lra).
  replace (a * a' + b * b' - 2 * (c * c')) with ((a - b) * (a' - b') / 2 + s * d' + s' * d - d * d' / 2)
    by (unfold s, s', d, d'; field).
  lra.
Qed.

Lemma height_diag k M x : proper k -> in_box M x -> 0 <= Kdiag k x <= height M k.
Proof.
  intros P X. split.
  { pose proof (K_diag 0 k (Rle_refl 0) P x) as [[? ?] _]. lra. }
  revert P. induction k as [v a|s l a|s l a|k IH k' IH'|k IH k' IH']; cbn [proper Kdiag height]; try (intros; lra).
  - intros [V E]. rewrite <- (map_id v) at 2. rewrite (sum_first _ _ _ v a E), <- sum_scale_map.
    apply sum_le_map. intros [s j] I. cbn [fst snd]. apply in_combine_l in I. rewrite Forall_forall in V. specialize (V s I).
    apply Rmult_le_compat_r; [exact V|]. apply square_abs, X.
  - intros [P P']. specialize (IH P). specialize (IH' P'). lra.
  - intros [P P']. specialize (IH P). specialize (IH' P').
    pose proof (K_diag 0 k (Rle_refl 0) P x) as [[A A'] _]. pose proof (K_diag 0 k' (Rle_refl 0) P' x) as [[B B'] _].
    apply Rmult_le_compat; lra.
Qed.
Lemma height_bound jitter k M x : 0 <= jitter -> proper k -> in_box M x -> 0 <= K jitter k x x <= height M k.
Proof.
  intros J P X. pose proof (K_diag jitter k J P x) as [[H0 H] _]. pose proof (height_diag k M x P X). lra.
Qed.
Lemma excess_bound jitter k M x : 0 <= jitter -> proper k -> in_box M x -> Kdiag k x - K jitter k x x <= excess jitter M k.
Proof.
  intros J P X. revert P. induction k as [v a|s l a|s l a|k IH k' IH'|k IH k' IH']; cbn [proper excess].
  - intros P. assert (P' : proper (Linear v a)) by exact P.
    rewrite <- (proj2 (K_diag 0 (Linear v a) (Rle_refl 0) P' x) eq_refl). cbn [K]. lra.
  - intros P. cbn [K Kdiag]. rewrite square_dist_diag. replace (- 0 / 2) with 0 by lra. rewrite exp_0. lra.
  - intros (V & _). cbn [K Kdiag]. rewrite square_dist_diag, Rplus_0_l.
    pose proof (matern_slope 0 (sqrt 3 * sqrt jitter) ltac:(lra) ltac:(apply Rmult_le_pos; apply sqrt_pos)) as H.
    rewrite Rpow_mult_distr, !pow2_sqrt, Ropp_0, exp_0, <- ?Ropp_mult_distr_l in H by lra. rewrite <- Ropp_mult_distr_l.
    apply Rmult_le_compat_l with (r := s) in H; [|exact V]. set (u := exp _) in *. lra.
  - intros [P P']. specialize (IH P). specialize (IH' P'). cbn [K Kdiag]. lra.
  - intros [P P']. specialize (IH P). specialize (IH' P'). cbn [K Kdiag].
    pose proof (height_diag k M x P X) as [H1 H2]. pose proof (height_diag k' M x P' X) as [H1' H2'].
    pose proof (proj1 (K_diag jitter k J P x)) as [A A']. pose proof (proj1 (K_diag jitter k' J P' x)) as [B B'].
    replace (Kdiag k x * Kdiag k' x - K jitter k x x * K jitter k' x x)
      with (Kdiag k x * (Kdiag k' x - K jitter k' x x) + K jitter k' x x * (Kdiag k x - K jitter k x x)) by ring.
    apply Rplus_le_compat; apply Rmult_le_compat; lra.
Qed.
Lemma steep jitter k M x z delta : 0 <= jitter -> proper k -> in_box M x -> in_box M z -> close delta x z ->
  K jitter k x x + K jitter k z z - 2 * K jitter k x z <= steepness M k * delta ^ 2.
Proof.
  intros J P X Z C. revert P. induction k as [v a|s l a|s l a|k IH k' IH'|k IH k' IH']; cbn [proper].
  - intros [V E]. cbn [K steepness]. rewrite (Rmult_comm (sum v)). rewrite <- (map_id v) at 4. rewrite (sum_first _ _ _ v a E).
    apply Rle_trans with (sum (map (fun p : R * nat => (column x (snd p) - column z (snd p)) ^ 2 * fst p) (combine v a))).
    + clear. right. induction (combine v a) as [|p c IH]; [cbn; ring|]. cbn [map]. unfold sum in *. cbn [fold_right]. lra.
    + rewrite <- sum_scale_map. apply sum_le_map. intros [s j] I. cbn [fst snd]. apply in_combine_l in I. rewrite Forall_forall in V. specialize (V s I).
      apply Rmult_le_compat_r; [exact V|]. apply square_abs, C.
  - intros (V & L & E). cbn [K steepness]. rewrite !square_dist_diag. replace (- 0 / 2) with 0 by lra. rewrite exp_0.
    destruct (square_dist_close l a x z delta L E C) as [D0 D].
    assert (H : 1 - square_dist l a x z / 2 <= exp (- square_dist l a x z / 2)).
    { destruct (Req_dec (square_dist l a x z) 0) as [->|N]; [replace (- 0 / 2) with 0 by lra; rewrite exp_0; lra|].
      pose proof (exp_ineq1 (- square_dist l a x z / 2) ltac:(lra)). lra. }
    apply Rle_trans with (s * square_dist l a x z); [|rewrite Rmult_assoc; now apply Rmult_le_compat_l].
    apply Rmult_le_compat_l with (r := s) in H; [|exact V]. lra.
  - intros (V & L & E). cbn [K steepness]. rewrite !square_dist_diag, Rplus_0_l.
    destruct (square_dist_close l a x z delta L E C) as [D0 D]. set (d := square_dist l a x z) in *.
    assert (Q : forall t, 0 <= t -> (sqrt 3 * sqrt t) ^ 2 = 3 * t).
    { intros t T. rewrite Rpow_mult_distr, !pow2_sqrt by lra. reflexivity. }
    pose proof (sqrt_pos 3) as S3.
    pose proof (matern_slope (sqrt 3 * sqrt jitter) (sqrt 3 * sqrt (d + jitter))
      ltac:(apply Rmult_le_pos; [exact S3|apply sqrt_pos]) ltac:(apply Rmult_le_compat_l; [exact S3|apply sqrt_le_1; lra])) as H.
    rewrite !Q in H by lra. rewrite <- !Ropp_mult_distr_l.
    apply Rmult_le_compat_l with (r := s) in H; [|exact V].
    assert (s * d <= s * (inverse_squares l * delta ^ 2)) by now apply Rmult_le_compat_l.
    set (u := exp _) in *. set (w := exp _) in *. lra.
  - intros [P P']. cbn [K steepness]. specialize (IH P). specialize (IH' P'). lra.
  - intros [P P']. cbn [K steepness]. specialize (IH P). specialize (IH' P').
    destruct (two_points (K jitter k) x z) as (A & B & D & F); [apply psdk_kernel, K_psdk; assumption|].
    destruct (two_points (K jitter k') x z) as (A' & B' & D' & F'); [apply psdk_kernel, K_psdk; assumption|].
    pose proof (height_bound jitter k M x J P X) as [_ H1]. pose proof (height_bound jitter k M z J P Z) as [_ H2].
    pose proof (height_bound jitter k' M x J P' X) as [_ H1']. pose proof (height_bound jitter k' M z J P' Z) as [_ H2'].
    eapply Rle_trans; [apply (product_distance _ _ _ _ _ _ (height M k) (height M k')); assumption|].
    assert (0 <= height M k) by lra. assert (0 <= height M k') by lra.
    apply Rmult_le_compat_l with (r := height M k') in IH; [|assumption].
    apply Rmult_le_compat_l with (r := height M k) in IH'; [|assumption]. lra.
Qed.

(** The distance that belongs to the kernel of an example is at most a multiple of the
    distance of the points, with a factor that is computed from the parameters. *)
Theorem C123_kernel_distance : forall jitter k M x z delta,
  0 <= jitter -> proper k -> 0 <= delta -> in_box M x -> in_box M z -> close delta x z ->
  kernel_distance (K jitter k) x z <= sqrt (steepness M k) * delta.
Proof.
  intros jitter k M x z delta J P D X Z C.
  pose proof (steep jitter k M x z delta J P X Z C) as H.
  destruct (two_points (K jitter k) x z) as (_ & _ & H0 & _); [apply psdk_kernel, K_psdk; assumption|].
  unfold kernel_distance. destruct (Req_dec delta 0) as [->|N].
  - replace (K jitter k x x + K jitter k z z - 2 * K jitter k x z) with 0 by lra. rewrite sqrt_0. lra.
  - rewrite <- (sqrt_pow2 delta) at 1 by exact D. assert (0 < delta ^ 2) by (apply pow_lt; lra).
    assert (S0 : 0 <= steepness M k).
    { apply Rmult_le_reg_r with (delta ^ 2); [assumption|]. lra. }
    rewrite <- sqrt_mult by lra. apply sqrt_le_1; [exact H0| |exact H]. apply Rmult_le_pos; lra.
Qed.
Print Assumptions C123_kernel_distance.

Lemma stack_steep jitter ms ks M x z delta : 0 <= jitter -> (forall k, In k ks -> proper k) ->
  (forall me, In me ms -> sensible me) -> have_kernels jitter ms ks ->
  0 <= delta -> in_box M x -> in_box M z -> close delta x z ->
  stack_distance ms x z <= stack_slope M ms ks * delta.
Proof.
  intros J P S H D X Z C. unfold stack_distance, stack_slope. induction H as [|me k ms ks [H1 H2] H IH]; cbn; [lra|].
  unfold sum in *.
  specialize (IH ltac:(intros; apply P; now right) ltac:(intros; apply S; now right)).
  assert (HD := C123_kernel_distance jitter k M x z delta J (P k (or_introl eq_refl)) D X Z C). rewrite H1.
  apply Rmult_le_compat_l with (r := me_beta me) in HD; [|apply se_beta, S; now left]. lra.
Qed.
Lemma excess_even jitter k : (jitter = 0 /\ 0 <= jitter /\ proper k) \/ without_products k ->
  forall x z, Kdiag k x - K jitter k x x = Kdiag k z - K jitter k z z.
Proof.
  intros [(Z & J & P)|W] x z.
  - rewrite !(fun y => proj2 (K_diag jitter k J P y) Z). lra.
  - revert W. induction k as [v a|s l a|s l a|k IH k' IH'|k IH k' IH']; cbn [without_products K Kdiag].
    + intros _. assert (E : forall y, sum (map (fun p => column y (snd p) * fst p * column y (snd p)) (combine v a))
        = sum (map (fun p => column y (snd p) ^ 2 * fst p) (combine v a))).
      { intros y. f_equal. apply map_ext. intros p. ring. }
      rewrite !E. lra.
    + rewrite !square_dist_diag. reflexivity.
    + rewrite !square_dist_diag. reflexivity.
    + intros [W W']. specialize (IH W). specialize (IH' W'). lra.
    + intros [].
Qed.

(** The error bounds of stacks with these kernels are Lipschitz continuous in the box,
    whatever was measured. *)
Theorem C123_bounds_lipschitz : forall V pi lv lf tau jitter ms ks w s u s' u' M delta,
  0 <= jitter -> (forall k, In k ks -> proper k) -> (forall me, In me ms -> sensible me) -> have_kernels jitter ms ks ->
  jitter = 0 \/ (forall k, In k ks -> without_products k) ->
  0 <= delta -> in_box M (s ++ u) -> in_box M (s' ++ u') -> close delta (s ++ u) (s' ++ u') ->
  let S0 := learner V pi lv lf tau ms w in
  Rabs (uncertainty S0 s u - uncertainty S0 s' u') <= stack_slope M ms ks * delta.
Proof.
  intros V pi lv lf tau jitter ms ks w s u s' u' M delta J P S H HJ D X Z C S0.
  eapply Rle_trans; [apply C122_bounds_vary; [exact S|]|now apply (stack_steep jitter)].
  intros me x z I. clear - J P H HJ I. induction H as [|me' k ms ks [H1 H2] H IH]; [destruct I|].
  destruct I as [->|I].
  - rewrite H1, H2. apply excess_even. destruct HJ as [->|HJ]; [left|right]; auto using in_eq.
  - apply IH; [intros; apply P; now right| |exact I]. destruct HJ as [->|HJ]; [now left|right]. intros; apply HJ; now right.
Qed.
Print Assumptions C123_bounds_lipschitz.

Lemma stack_plain jitter ms ks M w x : forall i, 0 <= jitter -> (forall k, In k ks -> proper k) ->
  (forall me, In me ms -> sensible me) -> have_kernels jitter ms ks -> in_box M x ->
  sum (map snd (stack_from i (map plain ms) w x)) <= sum (map snd (stack_from i ms w x)) /\
  sum (map snd (stack_from i ms w x)) <= sum (map snd (stack_from i (map plain ms) w x)) + stack_excess jitter M ms ks.
Proof.
  intros i J P S H X. revert i. unfold stack_excess. induction H as [|me k ms ks [H1 H2] H IH]; intros i; cbn; [lra|].
  specialize (IH ltac:(intros; apply P; now right) ltac:(intros; apply S; now right) (Datatypes.S i)).
  pose proof (excess_bound jitter k M x J (P k (or_introl eq_refl)) X) as E. rewrite <- H1, <- H2 in E.
  destruct (plain_eval i w (S me (or_introl eq_refl)) E) as [A B]. unfold sum in *. cbn [fold_right map]. lra.
Qed.
Lemma plain_all ms : (forall me, In me ms -> sensible me) -> forall me, In me (map plain ms) -> sensible me.
Proof. intros S me I. apply in_map_iff in I. destruct I as (me' & <- & I). apply plain_sensible, S, I. Qed.
Lemma plain_distance ms x z : stack_distance (map plain ms) x z = stack_distance ms x z.
Proof. unfold stack_distance. rewrite map_map. reflexivity. Qed.
Lemma plain_noise ms n : noise_bound (map plain ms) n = noise_bound ms n.
Proof. unfold noise_bound. rewrite map_map. reflexivity. Qed.
Lemma plain_white ms : no_white_noise (map plain ms).
Proof. intros me x I. apply in_map_iff in I. destruct I as (me' & <- & _). reflexivity. Qed.

(** With products and a number under the root there is a small jump. *)
Theorem C123_with_jitter : forall V pi lv lf tau jitter ms ks w s u s' u' M delta,
  0 <= jitter -> (forall k, In k ks -> proper k) -> (forall me, In me ms -> sensible me) -> have_kernels jitter ms ks ->
  0 <= delta -> in_box M (s ++ u) -> in_box M (s' ++ u') -> close delta (s ++ u) (s' ++ u') ->
  let S0 := learner V pi lv lf tau ms w in
  Rabs (uncertainty S0 s u - uncertainty S0 s' u') <= stack_slope M ms ks * delta + stack_excess jitter M ms ks.
Proof.
  intros V pi lv lf tau jitter ms ks w s u s' u' M delta J P S H D X Z C S0.
  pose proof (C122_bounds_vary V pi lv lf tau (map plain ms) w s u s' u' (plain_all ms S)
    ltac:(intros me x z I; rewrite !(plain_white ms) by exact I; lra)) as HV.
  cbv zeta in HV. rewrite plain_distance in HV.
  pose proof (stack_steep jitter ms ks M _ _ delta J P S H D X Z C) as HD.
  destruct (stack_plain jitter ms ks M w _ 0 J P S H X) as [A1 A2]. destruct (stack_plain jitter ms ks M w _ 0 J P S H Z) as [B1 B2].
  unfold S0, uncertainty, learner, stack_dynamics in *. cbn [dynamics] in *.
  apply Rabs_le. apply Rabs_le_between in HV. lra.
Qed.
Print Assumptions C123_with_jitter.

(** Near a point that was measured often they are small. *)
Theorem C123_near_measurements : forall V pi lv lf tau jitter ms ks w s u z n M delta,
  0 <= jitter -> (forall k, In k ks -> proper k) -> (forall me, In me ms -> sensible me) -> have_kernels jitter ms ks ->
  (0 < n <= times_measured w z)%nat ->
  0 <= delta -> in_box M (s ++ u) -> in_box M z -> close delta (s ++ u) z ->
  uncertainty (learner V pi lv lf tau ms w) s u
    <= noise_bound ms n + stack_slope M ms ks * delta + stack_excess jitter M ms ks.
Proof.
  intros V pi lv lf tau jitter ms ks w s u z n M delta J P S H N D X Z C.
  pose proof (C122_near_measurements V pi lv lf tau (map plain ms) w s u z n (plain_all ms S) (plain_white ms) N) as HN.
  rewrite plain_distance, plain_noise in HN.
  pose proof (stack_steep jitter ms ks M _ _ delta J P S H D X Z C) as HD.
  destruct (stack_plain jitter ms ks M w _ 0 J P S H X) as [A1 A2].
  unfold uncertainty, learner, stack_dynamics in *. cbn [dynamics] in *. lra.
Qed.
Print Assumptions C123_near_measurements.

(** A net of measurements in the region where the true system decreases by more than
    the tested amount is enough for [update_safe_set]. *)
Theorem C123_net : forall leb g V pi lv lf tau jitter ms ks sf m perts limits st h F mr bs order after mu c n M delta,
  explorer g V pi lv lf tau ms m perts limits st ->
  0 <= jitter -> (forall k, In k ks -> proper k) -> have_kernels jitter ms ks ->
  without is_assignment h -> Forall (uses sf m) h ->
  let now := run leb g st h in
  step leb g now (UpdateSafeSet true mr sf bs order) = (after, Nothing) ->
  sorts (l_vals (book now)) order -> l_adaptive (book now) = false \/ (mr <= 1)%Z ->
  0 <= lv -> (forall y z, length y = dims g -> length z = dims g -> Rabs (V y - V z) <= lv * dist1 y z) ->
  (forall x, length (F x) = dims g) -> measured ms F (world now) ->
  (0 < n)%nat -> 0 <= delta ->
  lv * (1 + lf) * tau + 2 * lv * (noise_bound ms n + stack_slope M ms ks * delta + stack_excess jitter M ms ks) < mu ->
  (forall x, is_vertex g x -> V x <= c -> initial_state g (book now) x \/
     (V (F (x ++ pi x)) - V x <= - mu /\ in_box M (x ++ pi x) /\
      exists z, (n <= times_measured (world now) z)%nat /\ in_box M z /\ close delta (x ++ pi x) z)) ->
  forall k, (k < length (all_points g))%nat -> V (grid_point g k) <= c -> safe (book after) k.
Proof.
  intros leb g V pi lv lf tau jitter ms ks sf m perts limits st h F mr bs order after mu c n M delta X J P H HA HU now ES Hs Hact P1 HV LF HM Hn D Hmu Hdec.
  refine (update_covers leb g V pi F lv lf tau ms sf m perts limits st X h mr bs order after mu c _ HA HU ES Hs Hact P1 HV LF HM Hmu _).
  intros x Hx Hc. destruct (Hdec x Hx Hc) as [I|(E & B & z & Hz & Bz & C)]; [now left|]. right. split; [exact E|].
  apply (C123_near_measurements V pi lv lf tau jitter ms ks (world now) x (pi x) z n M delta); auto. apply X.
Qed.
Print Assumptions C123_net.

(** Without the box there is no factor: products of linear kernels. *)
Theorem C123_unbounded_refuted : forall L, exists x z,
  let k := Prod (Linear [1] [0%nat]) (Linear [1] [0%nat]) in
  proper k /\ close 1 x z /\ ~ kernel_distance (K 0 k) x z <= L * 1.
Proof.
  intros L. set (t := Rabs L). exists [t + 1], [t]. cbv zeta. pose proof (Rabs_pos L) as T. fold t in T.
  split; [cbn; repeat split; repeat constructor; lra|]. split.
  - intros [|[|j]]; cbn; [replace (t + 1 - t) with 1 by ring; rewrite Rabs_R1; lra|..]; rewrite Rminus_0_r, Rabs_R0; lra.
  - unfold kernel_distance. cbn. match goal with |- ~ sqrt ?e <= _ => replace e with ((2 * t + 1) ^ 2) by ring end.
    rewrite sqrt_pow2 by lra. pose proof (Rle_abs L) as A. fold t in A. lra.
Qed.
Print Assumptions C123_unbounded_refuted.

(** The kernel of 1d_example.ipynb on [-1, 1], measured four times at the origin. *)
Definition gp_1d : member := with_kernel (1 / 10 ^ 12) kernel_1d (fun _ => 0) (1 / 100) 1 2 ex_chol.
Definition origin_data : dataset := repeat ([0; 0], [0]) 4.
Example C123_ex : steepness 1 kernel_1d = 84 / 5 /\
  uncertainty (learner (fun _ => 0) (fun _ => []) 1 1 1 [gp_1d] origin_data) [1 / 100] [1 / 100] <= 1 / 5.
Proof.
  assert (PK : proper kernel_1d) by (cbn; repeat split; try lra; repeat constructor; lra).
  assert (SE : steepness 1 kernel_1d = 84 / 5) by (cbn; field).
  assert (J : 0 <= 1 / 10 ^ 12) by (cbn; lra).
  split; [exact SE|].
  eapply Rle_trans; [apply (C123_near_measurements _ _ _ _ _ (1 / 10 ^ 12) [gp_1d] [kernel_1d] _ _ _ [0; 0] 4 1 (1 / 100))|].
  - exact J.
  - intros k [<-|[]]. exact PK.
  - intros me [<-|[]]. apply C91_sensible; try lra; try exact PK. exact ex_factors.
  - repeat constructor.
  - unfold times_measured, origin_data. cbn [repeat map fst count_occ]. destruct list_eq_dec as [_|N]; [lia|now elim N].
  - lra.
  - intros [|[|[|j]]]; cbn; unfold Rabs; destruct Rcase_abs; lra.
  - intros [|[|[|j]]]; cbn; unfold Rabs; destruct Rcase_abs; lra.
  - intros [|[|[|j]]]; cbn; unfold Rabs; destruct Rcase_abs; lra.
  - unfold noise_bound, stack_slope, stack_excess, sum. cbn [map combine fold_right fst snd gp_1d with_kernel me_beta me_noise]. rewrite SE.
    replace (1 / 100 / INR 4) with ((1 / 20) ^ 2) by (cbn; lra). rewrite sqrt_pow2 by lra.
    assert (sqrt (84 / 5) <= 9 / 2).
    { rewrite <- (sqrt_pow2 (9 / 2)) by lra. apply sqrt_le_1; lra. }
    assert (sqrt (excess (1 / 10 ^ 12) 1 kernel_1d) <= 1 / 1000); [|lra].
    rewrite <- (sqrt_pow2 (1 / 1000)) by lra. apply sqrt_le_1_alt. cbn. lra.
Qed.

(** A sum of a linear kernel and the squared exponential: the bounds change by at most
    three times the distance. *)
Definition kernel_sum : kernel_object := Add (Linear [1; 1] [0; 1]%nat) (RBF 1 [2] [0%nat]).
Definition gp_sum : member := with_kernel (1 / 10 ^ 12) kernel_sum (fun _ => 0) (1 / 100) 1 2 ex_chol.
Example C123_lipschitz_ex : forall w s u s' u' delta, 0 <= delta ->
  Rabs s <= 5 -> Rabs u <= 5 -> Rabs s' <= 5 -> Rabs u' <= 5 -> Rabs (s - s') <= delta -> Rabs (u - u') <= delta ->
  let S0 := learner (fun _ => 0) (fun _ => []) 1 1 1 [gp_sum] w in
  Rabs (uncertainty S0 [s] [u] - uncertainty S0 [s'] [u']) <= 3 * delta.
Proof.
  intros w s u s' u' delta D A B A' B' E E' S0.
  assert (PK : proper kernel_sum) by (cbn; repeat split; try lra; repeat constructor; lra).
  assert (J : 0 <= 1 / 10 ^ 12) by (cbn; lra).
  eapply Rle_trans; [apply (C123_bounds_lipschitz _ _ _ _ _ (1 / 10 ^ 12) [gp_sum] [kernel_sum] w [s] [u] [s'] [u'] 5 delta)|].
  - exact J.
  - intros k [<-|[]]. exact PK.
  - intros me [<-|[]]. apply C91_sensible; try lra; try exact PK. exact ex_factors.
  - repeat constructor.
  - right. intros k [<-|[]]. cbn. auto.
  - exact D.
  - intros [|[|[|j]]]; cbn; auto; rewrite Rabs_R0; lra.
  - intros [|[|[|j]]]; cbn; auto; rewrite Rabs_R0; lra.
  - intros [|[|[|j]]]; cbn; auto; rewrite Rminus_0_r, Rabs_R0; lra.
  - unfold stack_slope, sum. cbn [map combine fold_right fst snd gp_sum with_kernel me_beta].
    replace (steepness 5 kernel_sum) with ((3 / 2) ^ 2) by (cbn; field). rewrite sqrt_pow2 by lra. lra.
Qed.
