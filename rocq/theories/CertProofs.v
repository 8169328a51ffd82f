(** Lemmas about the certificate. *)
From Coq Require Import Reals List Bool Arith ZArith Lia Lra Permutation.
From Verif Require Import Prelude ListFacts NumModel GridModel GridSpec GridProofs
  SafeModel SafeSpec SafeProofs SafeProofs2 CertModel CertSpec.
Import ListNotations.
Local Open Scope R_scope.

Lemma Rltb_true a b : Rltb a b = true <-> a < b.
Proof. unfold Rltb; destruct Rlt_dec; split; auto; discriminate. Qed.
Lemma Rltb_false a b : Rltb a b = false <-> b <= a.
Proof. unfold Rltb; destruct Rlt_dec; split; intros; try lra; try discriminate; auto. Qed.

(** Weighted sums are monotone in the distances. *)
Lemma wsum_le : forall w a b : list R,
  length a = length b -> Forall (Rle 0) w ->
  (forall j, (j < length a)%nat -> nth j a 0 <= nth j b 0) ->
  sum (map2 Rmult w a) <= sum (map2 Rmult w b).
Proof.
  induction w as [|c w IH]; intros a b HL HW H; [simpl; lra|].
  destruct a as [|x a], b as [|y b]; simpl in HL; try discriminate; simpl; [lra|].
  inversion HW; subst.
  pose proof (H 0%nat ltac:(simpl; lia)) as H0; simpl in H0.
  assert (sum (map2 Rmult w a) <= sum (map2 Rmult w b)).
  { apply IH; auto. intros j Hj. apply (H (S j)). simpl; lia. }
  assert (c * x <= c * y) by (apply Rmult_le_compat_l; auto). lra.
Qed.

Lemma map_repeat_mult c (e : list R) n : length e = n ->
  map (fun x => c * x) e = map2 Rmult (repeat c n) e.
Proof. intros <-. induction e; simpl; auto. now rewrite IHe. Qed.

Lemma weighted_error_constants S mean err :
  length err = length mean ->
  weighted_error S mean err = sum (map2 Rmult (coordinate_constants S mean) err).
Proof.
  intros H. unfold weighted_error, coordinate_constants.
  destruct (lip_v S) as [c|f]; [now rewrite (map_repeat_mult c err (length mean))|].
  destruct (f mean) as [|c [|c' r]]; auto.
  now rewrite (map_repeat_mult c err (length mean)).
Qed.

Lemma model_right_decrease S F x : model_right S F x ->
  lyapunov_function S (F x) - lyapunov_function S x <= decrease S x.
Proof.
  unfold model_right, decrease, v_decrease_bound, v_decrease_confidence.
  destruct (dynamics S x (policy S x)) as [y|mean err].
  - intros ->. lra.
  - intros ((L1 & L2 & H) & LC & HP & HV).
    assert (wdist (coordinate_constants S mean) (F x) mean <= weighted_error S mean err).
    { rewrite weighted_error_constants by auto. unfold wdist. apply wsum_le; auto.
      - rewrite map2_length. lia.
      - intros j Hj. rewrite map2_length in Hj.
        rewrite nth_map2' with (da := 0) (db := 0) by lia. apply H. lia. }
    pose proof (Rle_abs (lyapunov_function S (F x) - lyapunov_function S mean)). lra.
Qed.

(** The neighbourhood argument, for an arbitrary distance. *)
Lemma neighbourhood S F (d : list R -> list R -> R) c x :
  lyapunov_function S (F c) - lyapunov_function S c <= decrease S c ->
  0 <= lv_scalar S c -> 0 <= lf_scalar S c ->
  d x c <= tau S ->
  Rabs (lyapunov_function S x - lyapunov_function S c) <= lv_scalar S c * d x c ->
  Rabs (lyapunov_function S (F x) - lyapunov_function S (F c))
    <= lv_scalar S c * d (F x) (F c) ->
  d (F x) (F c) <= lf_scalar S c * d x c ->
  decrease S c < threshold S c (tau S) ->
  lyapunov_function S (F x) < lyapunov_function S x.
Proof.
  intros HM Hlv Hlf Hd HV HVF HF Hdec. unfold threshold in Hdec.
  set (lv := lv_scalar S c) in *. set (lf := lf_scalar S c) in *.
  set (V := lyapunov_function S) in *.
  assert (A1 : lv * d x c <= lv * tau S) by (apply Rmult_le_compat_l; auto).
  assert (A2 : lv * d (F x) (F c) <= lv * (lf * tau S)).
  { apply Rmult_le_compat_l; auto. apply Rle_trans with (lf * d x c); auto.
    apply Rmult_le_compat_l; auto. }
  pose proof (Rle_abs (V (F x) - V (F c))).
  pose proof (Rle_abs (- (V x - V c))) as H'. rewrite Rabs_Ropp in H'.
  assert (lv * (1 + lf) * tau S = lv * tau S + lv * (lf * tau S)) by ring.
  lra.
Qed.

(** Distance of a state to the nearest grid state. *)
Lemma dist1_nth_le : forall x y h : list R,
  length x = length h -> length y = length h ->
  (forall j, (j < length h)%nat -> Rabs (nth j x 0 - nth j y 0) <= nth j h 0) ->
  dist1 x y <= sum h.
Proof.
  induction x as [|a x IH]; intros y h H1 H2 H; destruct h as [|c h]; try discriminate;
    destruct y as [|b y]; try discriminate; unfold dist1; simpl; [lra|].
  pose proof (H 0%nat ltac:(simpl; lia)) as H0; simpl in H0.
  assert (dist1 x y <= sum h).
  { apply IH; auto. intros j Hj. apply (H (S j)). simpl; lia. }
  unfold dist1 in *. lra.
Qed.

Lemma dist1_nonneg x : forall y, 0 <= dist1 x y.
Proof.
  induction x as [|a x IH]; intros [|b y]; unfold dist1; simpl; try lra.
  pose proof (IH y) as H; unfold dist1 in H. pose proof (Rabs_pos (a - b)). lra.
Qed.

Lemma grid_point_vertex g k : valid_grid g -> (Z.of_nat k < nindex g)%Z ->
  is_vertex g (grid_point g k) /\ grid_point g k = nth k (all_points g) [].
Proof.
  intros V H. unfold grid_point.
  rewrite (all_points_nth g V) by lia. rewrite Nat2Z.id. split; auto.
  apply (all_points_In g V). apply nth_In.
  pose proof (all_points_length g V). lia.
Qed.

Lemma nearest_cell g x : valid_grid g -> length x = dims g -> inside g x ->
  exists k, state_to_index g x = Ok (Z.of_nat k) /\ (Z.of_nat k < nindex g)%Z /\
    dist1 x (grid_point g k) <= sum (map (fun h => h / 2) (unit_maxes g)).
Proof.
  intros V HL HI. destruct (nearest g V x HL) as (i & p & Hi & Hr & Hp & Hv & Hn & Hc).
  exists (Z.to_nat i). rewrite Z2Nat.id by lia. split; [auto|]. split; [lia|].
  unfold grid_point. rewrite Z2Nat.id by lia. rewrite Hp.
  apply dist1_nth_le; rewrite ?map_length, ?unit_len by auto; auto.
  - apply Hv.
  - intros j Hj.
    rewrite nth_map' with (d' := 0) by (rewrite unit_len; auto).
    rewrite unit_nth by auto. apply (Hc j Hj). apply HI; auto.
Qed.

(** ** The refinement number *)

Lemma ceilR_spec x : IZR (ceilR x) - 1 < x <= IZR (ceilR x).
Proof.
  unfold ceilR. pose proof (base_Int_part (- x)) as (H1 & H2).
  rewrite opp_IZR. lra.
Qed.

Lemma n_req_nonneg S sf x : (0 <= n_req S sf x)%Z.
Proof.
  unfold n_req. destruct Req_EM_T; [lia|].
  match goal with |- (0 <= ceilR ?r)%Z => pose proof (ceilR_spec r) as H;
    assert (0 <= r) by apply Rmax_r end.
  assert (Hi : (-1 < ceilR (Rmax (Rmax sf 1 * threshold S x (tau S) / decrease S x) 0))%Z).
  { apply lt_IZR. lra. }
  lia.
Qed.

Lemma n_req_least S x M :
  (1 <= M < n_req S 1 x)%Z -> decrease S x < 0 ->
  threshold S x (tau S / IZR M) <= decrease S x.
Proof.
  intros (H1 & H2) Hd. unfold n_req in H2. destruct Req_EM_T as [|_]; [lra|].
  rewrite (Rmax_left 1 1) in H2 by lra. rewrite Rmult_1_l in H2.
  match type of H2 with (_ < ceilR ?r)%Z => set (q := r) in *; pose proof (ceilR_spec q) end.
  assert (HM : IZR M <= IZR (ceilR q) - 1).
  { rewrite <- minus_IZR. apply IZR_le. lia. }
  assert (HM1 : 1 <= IZR M) by (apply IZR_le; lia).
  assert (Hq : q = threshold S x (tau S) / decrease S x).
  { unfold q. apply Rmax_left. unfold q in H, HM.
    destruct (Rle_dec 0 (threshold S x (tau S) / decrease S x)); auto.
    rewrite Rmax_right in * by lra. lra. }
  assert (HMq : IZR M < threshold S x (tau S) / decrease S x) by lra.
  assert (E : threshold S x (tau S / IZR M) = threshold S x (tau S) / IZR M).
  { unfold threshold. field. lra. }
  rewrite E.
  assert (HD : threshold S x (tau S) < IZR M * decrease S x).
  { replace (threshold S x (tau S)) with
      (threshold S x (tau S) / decrease S x * decrease S x) by (field; lra).
    apply Rmult_lt_gt_compat_neg_l with (r := decrease S x) in HMq; auto. lra. }
  apply Rmult_le_reg_r with (IZR M); [lra|].
  unfold Rdiv. rewrite Rmult_assoc, Rinv_l, Rmult_1_r by lra. lra.
Qed.

(** ** Per-coordinate constants and the largest coordinate distance *)
Lemma wdist_norm1 : forall (w x y : list R) t,
  length w = length x -> length y = length x -> Forall (Rle 0) w ->
  (forall j, (j < length x)%nat -> Rabs (nth j x 0 - nth j y 0) <= t) ->
  wdist w x y <= norm1 w * t.
Proof.
  unfold wdist, norm1.
  induction w as [|c w IH]; intros [|a x] [|b y] t L1 L2 HW H; simpl in *; try discriminate; try lra.
  inversion HW; subst. injection L1 as L1. injection L2 as L2.
  pose proof (H 0%nat ltac:(lia)) as H0; simpl in H0.
  assert (sum (map2 Rmult w (map2 (fun a b : R => Rabs (a - b)) x y)) <= sum (map Rabs w) * t).
  { apply IH; auto. intros j Hj. apply (H (S j)). lia. }
  assert (c * Rabs (a - b) <= c * t) by (apply Rmult_le_compat_l; auto).
  rewrite (Rabs_pos_eq c) by auto. lra.
Qed.

Lemma vertex_inside g x : valid_grid g -> is_vertex g x -> inside g x.
Proof.
  intros V (_ & H) j Hj. destruct (H j Hj) as (k & Hk & ->).
  pose proof (spacing_pos g V j Hj) as Hs.
  assert (Hn : (2 <= npts g j)%Z).
  { apply (proj2 (proj1 (GridProofs.Forall2_nth _ _ _ (0, 0) 0%Z) V) j Hj). }
  assert (E : upper g j = lower g j + IZR (npts g j - 1) * spacing g j).
  { unfold spacing. field. apply not_0_IZR. lia. }
  rewrite E. assert (0 <= IZR k) by (apply IZR_le; lia).
  assert (IZR k <= IZR (npts g j - 1)) by (apply IZR_le; lia).
  assert (0 <= IZR k * spacing g j) by (apply Rmult_le_pos; lra).
  assert (IZR k * spacing g j <= IZR (npts g j - 1) * spacing g j)
    by (apply Rmult_le_compat_r; lra). lra.
Qed.

Lemma reached_succ g F z : length z = dims g -> inside g z -> length (F z) = dims g -> reached g F (F z).
Proof. intros A B C. split; [assumption | right; exists z; auto]. Qed.

(** A positive number below finitely many positive numbers. *)
Lemma common_margin (P : nat -> Prop) (m : nat -> R) : (forall k, P k -> 0 < m k) ->
  forall n, exists e, 0 < e /\ forall k, (k < n)%nat -> P k -> e <= m k.
Proof.
  intros H n. induction n as [|n (e & He & IH)]; [exists 1; split; [lra|intros; lia]|].
  destruct (Rlt_dec 0 (m n)) as [D|D].
  - exists (Rmin e (m n)). split; [now apply Rmin_pos|]. intros k Hk Pk.
    destruct (Nat.eq_dec k n) as [->|]; [apply Rmin_r|].
    apply Rle_trans with e; [apply Rmin_l|]. apply IH; auto. lia.
  - exists e. split; auto. intros k Hk Pk. destruct (Nat.eq_dec k n) as [->|]; [|apply IH; auto; lia].
    contradiction D. now apply H.
Qed.
Lemma lower_bound (m : nat -> R) : forall n, exists b, forall k, (k < n)%nat -> b <= m k.
Proof.
  induction n as [|n (b & IH)]; [exists 0; intros; lia|].
  exists (Rmin b (m n)). intros k Hk. destruct (Nat.eq_dec k n) as [->|]; [apply Rmin_r|].
  apply Rle_trans with b; [apply Rmin_l|]. apply IH. lia.
Qed.
