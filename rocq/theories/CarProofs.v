(** Proofs about the mountain car. *)
From Coq Require Import Reals List Bool Arith ZArith Lia Lra.
From Verif Require Import Prelude NumModel NumProofs GridModel GridSpec SparseSpec GridProofs TriModel TriSpec
  TriProofs TriProofs2 SafeModel CertModel ListFacts Bellman RLModel RLSpec RLProofs CarModel CarSpec.
Import ListNotations.
Local Open Scope nat_scope.
Local Open Scope R_scope.

Lemma largest_of (n : nat) (u : nat -> R) : (0 < n)%nat ->
  exists k, (k < n)%nat /\ forall j, (j < n)%nat -> u j <= u k.
Proof.
  induction n as [|n IH]; intros H; [lia|]. destruct n as [|n].
  - exists 0%nat. split; [lia|]. intros j Hj. assert (j = 0%nat) as -> by lia. lra.
  - destruct IH as (k & Hk & B); [lia|]. destruct (Rle_dec (u k) (u (S n))) as [Q|Q].
    + exists (S n). split; [lia|]. intros j Hj. destruct (Nat.eq_dec j (S n)) as [->|]; [lra|].
      specialize (B j ltac:(lia)). lra.
    + exists k. split; [lia|]. intros j Hj. destruct (Nat.eq_dec j (S n)) as [->|]; [lra|].
      apply B; lia.
Qed.
Lemma least_of (n : nat) (u : nat -> R) : (0 < n)%nat ->
  exists k, (k < n)%nat /\ forall j, (j < n)%nat -> u k <= u j.
Proof.
  intros H. destruct (largest_of n (fun k => - u k) H) as (k & Hk & B). exists k. split; auto.
  intros j Hj. specialize (B j Hj). lra.
Qed.

Section Interp.
Variables (dl : list (list R) -> delaunay) (inv : list (list R) -> res (list (list R))) (g : grid)
  (values : list (list R)) (m : nat) (project : bool) (t : tri).
Hypothesis SU : TriSpec.setup dl inv g values m project t.

Lemma interp_const a x : length x = dims g -> interp t (fun _ => a) x = a.
Proof using SU.
  intros L. unfold interp. destruct (weights_at _ _ _ _ _ _ _ SU x L) as (w & verts & -> & Lw & Lv & S1 & _).
  unfold combine_at. 
  rewrite sumn_scal_r, Lv, S1. lra.
Qed.
Lemma bounded_ge_1 c x : length x = dims g -> weights_bounded t c x -> 1 <= c.
Proof using SU.
  intros L (w & verts & E & B). destruct (weights_at _ _ _ _ _ _ _ SU x L) as (w' & verts' & E' & Lw & Lv & S1 & _).
  rewrite E in E'. injection E' as <- <-. eapply Rle_trans; [|exact B]. rewrite Lw.
  rewrite <- S1. apply sumn_le. intros. apply Rle_abs.
Qed.
Lemma interp_range u x c lo hi : length x = dims g -> weights_bounded t c x ->
  (forall k, (Z.of_nat k < nindex g)%Z -> lo <= u k <= hi) ->
  lo - (c - 1) / 2 * (hi - lo) <= interp t u x <= hi + (c - 1) / 2 * (hi - lo).
Proof using SU.
  intros L B H. pose proof (interp_diff _ _ _ _ _ _ _ SU u (fun _ => (lo + hi) / 2) x ((hi - lo) / 2) c L B) as D.
  rewrite interp_const in D by auto.
  assert (Q : Rabs (interp t u x - (lo + hi) / 2) <= c * ((hi - lo) / 2)).
  { apply D. intros k Hk. specialize (H k Hk). apply Rabs_le. lra. }
  pose proof (Rle_abs (interp t u x - (lo + hi) / 2)). pose proof (Rle_abs (- (interp t u x - (lo + hi) / 2))) as Q2.
  rewrite Rabs_Ropp in Q2. split; lra.
Qed.
End Interp.

Lemma value_range dl inv g project t P c lo hi v : learns dl inv g project t P ->
  0 <= rl_gamma P -> rl_gamma P * c < 1 ->
  (forall s, is_vertex g s -> weights_bounded t c (successor P (rl_policy P s) s)) ->
  (forall s, is_vertex g s -> lo <= rl_reward P s (rl_policy P s) <= hi) ->
  bellman P g v ->
  let slack := rl_gamma P * ((c - 1) / 2) * ((hi - lo) / (1 - rl_gamma P * c)) in
  forall k, (k < length v)%nat -> (lo - slack) / (1 - rl_gamma P) <= nth k v 0 <= (hi + slack) / (1 - rl_gamma P).
Proof.
  intros LN G0 G1 B Hr BE slack k Hk. destruct (ln_tri _ _ _ _ _ _ LN) as (w0 & SU).
  apply (bellman_fixed _ _ _ _ _ _ LN) in BE as (Lv & F).
  rewrite Lv in Hk. set (n := N g) in *. set (gm := rl_gamma P) in *.
  assert (N0 : (0 < n)%nat) by lia.
  destruct (largest_of n (look v) N0) as (a & Ha & A). destruct (least_of n (look v) N0) as (b & Hb & Bb).
  assert (C1 : 1 <= c).
  { eapply (bounded_ge_1 _ _ _ _ _ _ _ SU); [|apply B; apply (st_vertex _ _ _ _ _ _ LN 0 N0)].
    apply (nx_len _ _ _ _ _ _ LN 0 N0). }
  assert (IR : forall j, (j < n)%nat ->
     lo + gm * (look v b - (c - 1) / 2 * (look v a - look v b)) <= look v j <=
     hi + gm * (look v a + (c - 1) / 2 * (look v a - look v b))).
  { intros j Hj. pose proof (F j Hj) as Fj. rewrite <- Fj. unfold Top.
    pose proof (st_vertex _ _ _ _ _ _ LN j Hj) as SV.
    specialize (Hr _ SV).
    pose proof (interp_range _ _ _ _ _ _ _ SU (look v) _ c (look v b) (look v a) (nx_len _ _ _ _ _ _ LN j Hj) (B _ SV)) as I.
    destruct I as [I1 I2]. { intros i Hi. assert ((i < n)%nat) by (unfold n, N; lia). split; auto. }
    fold gm. split; apply Rplus_le_compat; try tauto; apply Rmult_le_compat_l; auto. }
  destruct (IR a Ha) as [_ I2]. destruct (IR b Hb) as [I1 _].
  set (M := look v a) in *. set (m := look v b) in *.
  assert (G : gm < 1) by nra.
  assert (D : M - m <= (hi - lo) / (1 - gm * c)).
  { apply Rmult_le_reg_r with (1 - gm * c); [lra|]. unfold Rdiv. rewrite Rmult_assoc, Rinv_l by lra. nra. }
  assert (K : gm * ((c - 1) / 2 * (M - m)) <= slack).
  { unfold slack. rewrite Rmult_assoc. apply Rmult_le_compat_l; auto. apply Rmult_le_compat_l; lra. }
  change (nth k v 0) with (look v k).
  assert (X1 : m <= look v k <= M) by (split; [apply Bb|apply A]; auto).
  split; apply Rmult_le_reg_r with (1 - gm); try lra; unfold Rdiv; rewrite Rmult_assoc, Rinv_l by lra; nra.
Qed.

Lemma car_reward_range gamma s u : 0 <= gamma <= 1 -> 0 <= car_reward gamma s u <= 1 - gamma.
Proof. intros H. unfold car_reward. destruct Rlt_dec; lra. Qed.

Lemma return_range gamma pi n : 0 <= gamma <= 1 -> forall s, 0 <= car_return gamma pi n s <= 1 - gamma ^ n.
Proof.
  intros H. induction n as [|n IH]; intros s; cbn [car_return pow]; [lra|].
  specialize (IH (car_next s (pi s))). pose proof (car_reward_range gamma s (pi s) H). nra.
Qed.
Lemma return_full gamma pi n : 0 < gamma < 1 -> forall s,
  car_return gamma pi n s = 1 - gamma ^ n <-> forall k, (k < n)%nat -> 0.6 < fst (drive pi k s).
Proof.
  intros H. induction n as [|n IH]; intros s; cbn [car_return pow].
  - split; [intros _ k Hk; lia|intros; lra].
  - specialize (IH (car_next s (pi s))). assert (H' : 0 <= gamma <= 1) by lra.
    pose proof (return_range gamma pi n H' (car_next s (pi s))) as RR.
    assert (CR : car_reward gamma s (pi s) = 1 - gamma <-> 0.6 < fst s).
    { unfold car_reward. destruct Rlt_dec; split; intros; lra. }
    pose proof (car_reward_range gamma s (pi s) H').
    split.
    + intros E k Hk. assert (E1 : car_reward gamma s (pi s) = 1 - gamma) by nra.
      assert (E2 : car_return gamma pi n (car_next s (pi s)) = 1 - gamma ^ n) by nra.
      destruct k as [|k]; [apply CR; auto|]. cbn [drive]. apply (proj1 IH E2). lia.
    + intros A. assert (E1 : car_reward gamma s (pi s) = 1 - gamma) by (apply CR; apply (A 0%nat); lia).
      assert (E2 : car_return gamma pi n (car_next s (pi s)) = 1 - gamma ^ n).
      { apply (proj2 IH). intros k Hk. apply (A (S k)). lia. }
      rewrite E1, E2. ring.
Qed.
Lemma return_zero gamma pi n : 0 < gamma < 1 -> forall s,
  car_return gamma pi n s = 0 <-> forall k, (k < n)%nat -> fst (drive pi k s) <= 0.6.
Proof.
  intros H. induction n as [|n IH]; intros s; cbn [car_return].
  - split; [intros _ k Hk; lia|intros; lra].
  - specialize (IH (car_next s (pi s))). assert (H' : 0 <= gamma <= 1) by lra.
    pose proof (return_range gamma pi n H' (car_next s (pi s))) as RR.
    assert (CR : car_reward gamma s (pi s) = 0 <-> fst s <= 0.6).
    { unfold car_reward. destruct Rlt_dec; split; intros; lra. }
    pose proof (car_reward_range gamma s (pi s) H').
    split.
    + intros E k Hk. assert (E1 : car_reward gamma s (pi s) = 0) by nra.
      assert (E2 : car_return gamma pi n (car_next s (pi s)) = 0) by nra.
      destruct k as [|k]; [apply CR; auto|]. cbn [drive]. apply (proj1 IH E2). lia.
    + intros A. assert (E1 : car_reward gamma s (pi s) = 0) by (apply CR; apply (A 0%nat); lia).
      assert (E2 : car_return gamma pi n (car_next s (pi s)) = 0).
      { apply (proj2 IH). intros k Hk. apply (A (S k)). lia. }
      rewrite E1, E2. ring.
Qed.

Lemma fill_length pi n : forall s, length (fill_rows pi n s) = n.
Proof.
  induction n as [|n IH]; intros s; cbn [fill_rows]; [reflexivity|].
  destruct Rle_dec; [apply repeat_length|]. cbn [length]. now rewrite IH.
Qed.
Lemma fill_before pi n : forall s k, (k < n)%nat ->
  (forall i, (1 <= i <= k)%nat -> fst (drive pi i s) < 0.6) ->
  nth k (fill_rows pi n s) (0, 0) = drive pi (S k) s.
Proof.
  induction n as [|n IH]; intros s k Hk H; [lia|]. cbn [fill_rows].
  destruct k as [|k].
  - destruct Rle_dec; reflexivity.
  - destruct Rle_dec as [Q|Q].
    + specialize (H 1%nat ltac:(lia)). cbn [drive] in H. lra.
    + cbn [nth]. rewrite IH; [reflexivity|lia|]. intros i Hi. apply (H (S i)). lia.
Qed.
Lemma nth_repeat_lt {A} (x d : A) n k : (k < n)%nat -> nth k (repeat x n) d = x.
Proof. revert k. induction n as [|n IH]; intros [|k] H; cbn; try lia; auto. apply IH. lia. Qed.
Lemma fill_after pi n : forall s k i, (i <= k < n)%nat ->
  (forall j, (1 <= j <= i)%nat -> fst (drive pi j s) < 0.6) -> 0.6 <= fst (drive pi (S i) s) ->
  nth k (fill_rows pi n s) (0, 0) = drive pi (S i) s.
Proof.
  induction n as [|n IH]; intros s k i Hk H G; [lia|]. cbn [fill_rows].
  destruct Rle_dec as [Q|Q].
  - rewrite nth_repeat_lt by lia. destruct i as [|i]; [reflexivity|].
    specialize (H 1%nat ltac:(lia)). cbn [drive] in H. lra.
  - destruct i as [|i]; [cbn [drive] in G; lra|]. destruct k as [|k]; [lia|]. cbn [nth].
    rewrite (IH _ k i); [reflexivity|lia| |exact G]. intros j Hj. apply (H (S j)). lia.
Qed.

Lemma change_le d a : forall b, length a = length b -> 0 <= d ->
  (largest_change a b <= d <-> all_close d a b).
Proof.
  unfold largest_change, all_close.
  induction a as [|x a IH]; intros [|y b] L D; try discriminate.
  - cbn. split; [intros _; split; auto; intros; lia|auto].
  - cbn [map2 fold_right]. injection L as L. specialize (IH b L D). split.
    + intros H. split; [cbn; lia|]. intros [|k] Hk; cbn [nth].
      * eapply Rle_trans; [apply Rmax_l|exact H].
      * apply IH; [eapply Rle_trans; [apply Rmax_r|exact H]|cbn in Hk; lia].
    + intros (_ & H). apply Rmax_lub; [apply (H 0%nat); cbn; lia|]. apply IH. split; auto.
      intros k Hk. apply (H (S k)). cbn; lia.
Qed.
Lemma learn_spec nv na results : forall i old,
  Forall (fun r => length (fst r) = nv /\ length (snd r) = na) (old :: results) ->
  let close k := all_close 0.1 (fst (nth k (old :: results) old)) (fst (nth k results old)) /\
                 all_close 0.1 (snd (nth k (old :: results) old)) (snd (nth k results old)) in
  (forall n, learn_until i old results = Some n <->
     (i < n)%nat /\ (n - i <= length results)%nat /\ close (n - i - 1)%nat /\
     forall k, (k < n - i - 1)%nat -> ~ close k) /\
  (learn_until i old results = None <-> forall k, (k < length results)%nat -> ~ close k).
Proof.
  induction results as [|new rest IH]; intros i old F close.
  - cbn [learn_until]. split; [intros n; split; [discriminate|cbn [length]; lia]|].
    split; auto. cbn [length]. intros; lia.
  - inversion F as [|? ? (Lv & La) F']; subst. inversion F' as [|? ? (Lv' & La') _]; subst.
    specialize (IH (i + 1)%nat new F'). cbn zeta in IH.
    assert (C0 : close 0%nat <-> all_close 0.1 (fst old) (fst new) /\ all_close 0.1 (snd old) (snd new)) by reflexivity.
    assert (CS : forall k, (k < length rest)%nat -> (close (S k) <->
       all_close 0.1 (fst (nth k (new :: rest) new)) (fst (nth k rest new)) /\
       all_close 0.1 (snd (nth k (new :: rest) new)) (snd (nth k rest new)))).
    { intros k Hk. unfold close.
      change (nth (S k) (old :: new :: rest) old) with (nth k (new :: rest) old).
      change (nth (S k) (new :: rest) old) with (nth k rest old).
      rewrite (nth_indep rest old new) by lia.
      rewrite (nth_indep (new :: rest) old new) by (cbn [length]; lia).
      reflexivity. }
    pose proof (change_le 0.1 (fst old) (fst new) ltac:(congruence) ltac:(lra)) as E1.
    pose proof (change_le 0.1 (snd old) (snd new) ltac:(congruence) ltac:(lra)) as E2.
    assert (STEP : ~ close 0%nat -> learn_until i old (new :: rest) = learn_until (i + 1) new rest).
    { intros NC. cbn [learn_until]. destruct Rle_dec; auto. destruct Rle_dec; auto. exfalso. tauto. }
    assert (STOP : close 0%nat -> learn_until i old (new :: rest) = Some (i + 1)%nat).
    { intros NC. cbn [learn_until]. destruct Rle_dec; [|exfalso; tauto]. destruct Rle_dec; auto. exfalso; tauto. }
    assert (DEC : close 0%nat \/ ~ close 0%nat).
    { destruct (Rle_dec (largest_change (fst old) (fst new)) 0.1); [|right; tauto].
      destruct (Rle_dec (largest_change (snd old) (snd new)) 0.1); [left|right]; tauto. }
    destruct DEC as [C|C].
    + rewrite (STOP C). split.
      * intros n. split.
        -- intros E. injection E as <-. replace (i + 1 - i - 1)%nat with 0%nat by lia. cbn [length].
           repeat split; try lia; apply C.
        -- intros (A & B & D & G). destruct (Nat.eq_dec n (i + 1)) as [->|]; auto.
           exfalso. apply (G 0%nat); auto. lia.
      * split; [discriminate|]. intros H. exfalso. apply (H 0%nat); auto. cbn; lia.
    + rewrite (STEP C). destruct IH as [I1 I2]. split.
      * intros n. rewrite I1. split.
        -- intros (A & B & D & G). replace (n - i - 1)%nat with (S (n - (i + 1) - 1)) by lia.
           split; [lia|]. split; [cbn [length]; lia|]. split; [apply CS; [lia|exact D]|].
           intros [|k] Hk; auto. intros Q. apply CS in Q; [|lia]. revert Q. apply G. lia.
        -- intros (A & B & D & G). cbn [length] in B.
           destruct (Nat.eq_dec n (i + 1)) as [->|].
           { replace (i + 1 - i - 1)%nat with 0%nat in D by lia. contradiction. }
           replace (n - i - 1)%nat with (S (n - (i + 1) - 1)) in D by lia.
           split; [lia|]. split; [lia|]. split; [apply CS; [lia|exact D]|].
           intros k Hk Q. apply (G (S k)); [lia|]. apply CS; [lia|exact Q].
      * rewrite I2. split.
        -- intros H [|k] Hk; auto. cbn [length] in Hk. intros Q. apply CS in Q; [|lia]. revert Q. apply H. lia.
        -- intros H k Hk Q. apply (H (S k)); [cbn; lia|]. apply CS; auto.
Qed.
