(** Rounding errors of the decrease check. *)
From Coq Require Import List ZArith Reals Bool Permutation Lra Lia Psatz Arith.
From Flocq Require Import Core.
From Verif Require Import Prelude ListFacts FunModel QuadModel QuadProofs LipProofs F64Model F64Spec F64Facts
  F64CertModel F64CertSpec.
Import ListNotations.
Local Open Scope R_scope.

Local Notation u := (/ 9007199254740992).
Local Notation eta := (bpow radix2 (-1075)).

Lemma eta_pos : 0 < eta. Proof. apply bpow_gt_0. Qed.
Lemma two_u : bpow radix2 (-52) = 2 * u.
Proof. simpl. lra. Qed.
Lemma four_u : bpow radix2 (-51) = 4 * u.
Proof. simpl. lra. Qed.
Lemma four_eta : bpow radix2 (-1073) = 4 * eta.
Proof. change (-1073)%Z with (2 + -1075)%Z. rewrite bpow_plus. reflexivity. Qed.

Definition total (l : list (R * R)) : R := fold_right Rplus 0 (map (fun p => fst p * snd p) l).
Definition size_of (l : list (R * R)) : R := fold_right Rplus 0 (map (fun p => Rabs (fst p * snd p)) l).

Lemma sum_app (a b : list R) : fold_right Rplus 0 (a ++ b) = fold_right Rplus 0 a + fold_right Rplus 0 b.
Proof. induction a; simpl; [ lra | rewrite IHa; lra ]. Qed.
Lemma sum_perm (a b : list R) : Permutation a b -> fold_right Rplus 0 a = fold_right Rplus 0 b.
Proof. induction 1; simpl; lra. Qed.
Lemma total_app a b : total (a ++ b) = total a + total b.
Proof. unfold total. rewrite map_app. apply sum_app. Qed.
Lemma size_app a b : size_of (a ++ b) = size_of a + size_of b.
Proof. unfold size_of. rewrite map_app. apply sum_app. Qed.
Lemma size_nonneg l : 0 <= size_of l.
Proof. unfold size_of. induction l; simpl; [ lra | ]. pose proof (Rabs_pos (fst a * snd a)). lra. Qed.
Lemma total_size l : Rabs (total l) <= size_of l.
Proof.
  unfold total, size_of. induction l; simpl; [ rewrite Rabs_R0; lra | ].
  eapply Rle_trans; [ apply Rabs_triang | ]. lra.
Qed.

Lemma fdot_nonempty l r : fdot l r -> (1 <= length l)%nat.
Proof.
  induction 1 as [ | | l1 l2 r1 r2 H1 IH1 H2 IH2 | l l' r P H IH ]; simpl; try lia.
  - rewrite app_length. lia.
  - rewrite <- (Permutation_length P). exact IH.
Qed.

Local Notation gr n := ((1 + u) ^ n).
Lemma gr_ge n : 1 <= gr n.
Proof. apply pow_R1_Rle. lra. Qed.
Lemma gr_mono n k : (n <= k)%nat -> gr n <= gr k.
Proof. intros. apply Rle_pow; [ lra | assumption ]. Qed.

Definition err (n : nat) (s : R) : R := (gr n - 1) * s + (2 * INR n - 1) * eta * gr n.

Lemma err_nonneg n s : (1 <= n)%nat -> 0 <= s -> 0 <= err n s.
Proof.
  intros Hn Hs. unfold err. pose proof (gr_ge n). pose proof eta_pos.
  apply (le_INR 1) in Hn. simpl in Hn.
  apply Rplus_le_le_0_compat; repeat apply Rmult_le_pos; lra.
Qed.

(** One more rounding of two partial sums. *)
Lemma step_err n1 n2 s1 s2 e1 e2 x r z :
  (1 <= n1)%nat -> (1 <= n2)%nat -> 0 <= s1 -> 0 <= s2 ->
  e1 <= err n1 s1 -> e2 <= err n2 s2 -> Rabs z <= s1 + s2 ->
  Rabs (x - z) <= e1 + e2 -> r = rnd x ->
  Rabs (r - z) <= err (n1 + n2) (s1 + s2).
Proof.
  intros H1 H2 P1 P2 E1 E2 Z X ->.
  pose proof (rnd_err x) as R.
  assert (A : Rabs x <= s1 + s2 + (e1 + e2)).
  { replace x with (z + (x - z)) by ring. eapply Rle_trans; [ apply Rabs_triang | ]. lra. }
  assert (B : Rabs (rnd x - z) <= Rabs (rnd x - x) + Rabs (x - z)).
  { replace (rnd x - z) with ((rnd x - x) + (x - z)) by ring. apply Rabs_triang. }
  assert (C : Rabs (rnd x - z) <= u * (s1 + s2) + (1 + u) * (err n1 s1 + err n2 s2) + eta).
  { assert (u * Rabs x <= u * (s1 + s2 + (e1 + e2))) by (apply Rmult_le_compat_l; lra).
    lra. }
  eapply Rle_trans; [ exact C | ]. unfold err. rewrite plus_INR.
  assert (G1 : (1 + u) * gr n1 <= gr (n1 + n2)).
  { change (gr (S n1) <= gr (n1 + n2)). apply gr_mono. lia. }
  assert (G2 : (1 + u) * gr n2 <= gr (n1 + n2)).
  { change (gr (S n2) <= gr (n1 + n2)). apply gr_mono. lia. }
  pose proof (gr_ge (n1 + n2)) as G3. set (g := gr (n1 + n2)) in *.
  set (g1 := gr n1) in *. set (g2 := gr n2) in *.
  apply (le_INR 1) in H1, H2. simpl in H1, H2. set (m1 := INR n1) in *. set (m2 := INR n2) in *.
  pose proof eta_pos as Pe. set (h := eta) in *.
  assert (T1 : (1 + u) * g1 * s1 <= g * s1) by (apply Rmult_le_compat_r; assumption).
  assert (T2 : (1 + u) * g2 * s2 <= g * s2) by (apply Rmult_le_compat_r; assumption).
  assert (T3 : (1 + u) * g1 * ((2 * m1 - 1) * h) <= g * ((2 * m1 - 1) * h)).
  { apply Rmult_le_compat_r; [ apply Rmult_le_pos; lra | assumption ]. }
  assert (T4 : (1 + u) * g2 * ((2 * m2 - 1) * h) <= g * ((2 * m2 - 1) * h)).
  { apply Rmult_le_compat_r; [ apply Rmult_le_pos; lra | assumption ]. }
  assert (T5 : h <= g * h) by (rewrite <- (Rmult_1_l h) at 1; apply Rmult_le_compat_r; lra).
  clear -T1 T2 T3 T4 T5.
  replace (((1 + u) * ((g1 - 1) * s1 + (2 * m1 - 1) * h * g1 + ((g2 - 1) * s2 + (2 * m2 - 1) * h * g2))))
    with ((1 + u) * g1 * s1 - (1 + u) * s1 + (1 + u) * g1 * ((2 * m1 - 1) * h) +
          ((1 + u) * g2 * s2 - (1 + u) * s2 + (1 + u) * g2 * ((2 * m2 - 1) * h))) by ring.
  replace ((g - 1) * (s1 + s2) + (2 * (m1 + m2) - 1) * h * g)
    with (g * s1 + g * s2 - s1 - s2 + g * ((2 * m1 - 1) * h) + g * ((2 * m2 - 1) * h) + g * h) by ring.
  lra.
Qed.

Lemma one_err a b : Rabs (rnd (a * b) - a * b) <= err 1 (Rabs (a * b)).
Proof.
  pose proof (rnd_err (a * b)) as E. unfold err. simpl INR. pose proof eta_pos. 
  replace (gr 1) with (1 + u) by ring. set (h := eta) in *.
  assert (0 <= h * u) by (apply Rmult_le_pos; lra). lra.
Qed.

Lemma fdot_err l r : fdot l r -> Rabs (r - total l) <= err (length l) (size_of l).
Proof.
  induction 1 as [ a b | a b l r H IH | l1 l2 r1 r2 H1 IH1 H2 IH2 | l l' r P H IH ].
  - unfold total, size_of. simpl. rewrite !Rplus_0_r. apply one_err.
  - change ((a, b) :: l) with ([(a, b)] ++ l). rewrite app_length, total_app, size_app.
    assert (Es : size_of [(a, b)] = Rabs (a * b)) by (unfold size_of; simpl; lra).
    assert (Et : total [(a, b)] = a * b) by (unfold total; simpl; lra).
    change (length [(a, b)]) with 1%nat.
    apply (step_err 1 (length l) (size_of [(a, b)]) (size_of l) 0 (err (length l) (size_of l)) (a * b + r));
      try reflexivity; try (apply (fdot_nonempty _ _ H)); try apply size_nonneg; try lra; try lia.
    + apply err_nonneg; [ lia | apply size_nonneg ].
    + eapply Rle_trans; [ apply Rabs_triang | ]. rewrite Et, Es.
      pose proof (total_size l). lra.
    + rewrite Et. replace (a * b + r - (a * b + total l)) with (r - total l) by ring. lra.
  - rewrite app_length, total_app, size_app.
    apply (step_err _ _ _ _ (err (length l1) (size_of l1)) (err (length l2) (size_of l2)) (r1 + r2));
      try reflexivity; try (eapply fdot_nonempty; eassumption); try apply size_nonneg; try lra.
    + eapply Rle_trans; [ apply Rabs_triang | ]. apply Rplus_le_compat; apply total_size.
    + replace (r1 + r2 - (total l1 + total l2)) with ((r1 - total l1) + (r2 - total l2)) by ring.
      eapply Rle_trans; [ apply Rabs_triang | ]. lra.
  - rewrite <- (Permutation_length P).
    replace (total l') with (total l) by (apply sum_perm; now apply Permutation_map).
    replace (size_of l') with (size_of l) by (apply sum_perm; now apply Permutation_map).
    exact IH.
Qed.

Lemma gr_linear n : INR n <= 4503599627370496 -> gr n <= 1 + 2 * INR n * u.
Proof.
  induction n as [ | n IH ]; intros H; [ simpl; lra | ].
  rewrite S_INR in *. pose proof (pos_INR n). specialize (IH ltac:(lra)).
  simpl pow. set (m := INR n) in *.
  apply Rle_trans with ((1 + u) * (1 + 2 * m * u)); [ apply Rmult_le_compat_l; lra | ].
  assert (2 * m * u * u <= 1 * u) by (apply Rmult_le_compat_r; lra). lra.
Qed.

Lemma err_slack n s : (1 <= n)%nat -> INR n <= 4503599627370496 -> 0 <= s -> err n s <= dot_slack n s.
Proof.
  intros H1 H2 Hs. unfold err, dot_slack. rewrite two_u, four_eta.
  pose proof (gr_linear n H2) as G. pose proof (gr_ge n).
  apply (le_INR 1) in H1. simpl in H1. set (m := INR n) in *.
  set (g := gr n) in *. pose proof eta_pos as Pe. set (h := eta) in *.
  assert ((g - 1) * s <= 2 * m * u * s) by (apply Rmult_le_compat_r; lra).
  assert (g <= 2) by lra.
  assert ((2 * m - 1) * h * g <= (2 * m - 1) * h * 2).
  { apply Rmult_le_compat_l; [ apply Rmult_le_pos; lra | lra ]. }
  assert (0 <= h) by lra. lra.
Qed.

Lemma dot_slack_nonneg n s : 0 <= s -> 0 <= dot_slack n s.
Proof.
  intros H. unfold dot_slack. apply Rmult_le_pos; [ apply pos_INR | ].
  pose proof (bpow_gt_0 radix2 (-1073)). pose proof (bpow_gt_0 radix2 (-52)).
  assert (0 <= bpow radix2 (-52) * s) by (apply Rmult_le_pos; lra). lra.
Qed.

Lemma fdot_pairs n f g r : INR n <= 4503599627370496 -> fdot (pairs n f g) r ->
  Rabs (r - rsum n (fun k => f k * g k)) <= dot_slack n (rsum n (fun k => Rabs (f k * g k))).
Proof.
  intros Hn H. pose proof (fdot_err _ _ H) as E. pose proof (fdot_nonempty _ _ H) as N.
  unfold pairs in N, E. rewrite map_length, seq_length in *.
  unfold total, size_of in E. rewrite !map_map in E. simpl in E.
  eapply Rle_trans; [ exact E | ]. apply err_slack; auto.
  apply rsum_nonneg. intros. apply Rabs_pos.
Qed.

Lemma rsum_diff n f g : rsum n f - rsum n g = rsum n (fun k => f k - g k).
Proof.
  replace (rsum n f - rsum n g) with (rsum n f + (-1) * rsum n g) by ring.
  rewrite <- rsum_scal, <- rsum_plus. apply rsum_ext. intros. ring.
Qed.

(** Values of a quadratic function. *)
Lemma f_quadratic_err P pts v i :
  f_quadratic P pts v -> (i < rows pts)%nat -> INR (cols pts) <= 4503599627370496 ->
  Rabs (entry v i 0%nat - quad P (cols pts) (entry pts i)) <= quad_slack P (cols pts) (entry pts i).
Proof.
  intros (lin & (M1 & M2 & M3 & M4) & Ec & _ & _ & H) Hi Hd.
  specialize (H i Hi). apply fdot_pairs in H; [ | exact Hd ].
  set (d := cols pts) in *. set (z := entry pts i) in *. set (w := entry lin i) in *.
  unfold quad, quad_slack.
  set (s := fun j => rsum d (fun k => Rabs (z k * entry P k j))).
  set (t := fun j => rsum d (fun k => z k * entry P k j)).
  assert (W : forall j, (j < d)%nat -> Rabs (w j - t j) <= dot_slack d (s j)).
  { intros j Hj. rewrite <- Ec in Hj. specialize (M4 i j Hi Hj). now apply fdot_pairs in M4. }
  assert (T : forall j, Rabs (t j) <= s j).
  { intros j. unfold t, s. apply rsum_abs. }
  assert (S0 : forall j, 0 <= s j).
  { intros j. unfold s. apply rsum_nonneg. intros. apply Rabs_pos. }
  assert (A : Rabs (rsum d (fun k => w k * z k) - rsum d (fun j => t j * z j))
              <= rsum d (fun j => dot_slack d (s j) * Rabs (z j))).
  { rewrite rsum_diff. eapply Rle_trans; [ apply rsum_abs | ]. apply rsum_le. intros j Hj.
    replace (w j * z j - t j * z j) with ((w j - t j) * z j) by ring. rewrite Rabs_mult.
    apply Rmult_le_compat_r; [ apply Rabs_pos | auto ]. }
  assert (B : dot_slack d (rsum d (fun k => Rabs (w k * z k))) <=
              dot_slack d (rsum d (fun j => (s j + dot_slack d (s j)) * Rabs (z j)))).
  { unfold dot_slack at 1 2. apply Rmult_le_compat_l; [ apply pos_INR | ].
    apply Rplus_le_compat_r. apply Rmult_le_compat_l; [ apply bpow_ge_0 | ].
    apply rsum_le. intros j Hj. rewrite Rabs_mult. apply Rmult_le_compat_r; [ apply Rabs_pos | ].
    specialize (W j Hj). replace (w j) with (t j + (w j - t j)) by ring.
    eapply Rle_trans; [ apply Rabs_triang | ]. specialize (T j). lra. }
  change (Rabs (entry v i 0%nat - rsum d (fun j => t j * z j)) <=
          dot_slack d (rsum d (fun j => (s j + dot_slack d (s j)) * Rabs (z j))) +
          rsum d (fun j => dot_slack d (s j) * Rabs (z j))).
  replace (entry v i 0%nat - rsum d (fun j => t j * z j))
    with ((entry v i 0%nat - rsum d (fun k => w k * z k)) +
          (rsum d (fun k => w k * z k) - rsum d (fun j => t j * z j))) by ring.
  eapply Rle_trans; [ apply Rabs_triang | ]. lra.
Qed.

(** A linear map. *)
Lemma f_linear_err M pts y i j :
  f_linear M pts y -> (i < rows pts)%nat -> (j < rows M)%nat -> INR (cols pts) <= 4503599627370496 ->
  Rabs (entry y i j - apply M (cols pts) (entry pts i) j)
    <= dot_slack (cols pts) (rsum (cols pts) (fun k => Rabs (entry pts i k * entry M j k))).
Proof.
  intros (M1 & M2 & M3 & M4) Hi Hj Hd. specialize (M4 i j Hi Hj). simpl in M4.
  apply fdot_pairs in M4; [ | exact Hd ].
  replace (apply M (cols pts) (entry pts i) j)
    with (rsum (cols pts) (fun k => entry pts i k * entry M j k)); [ exact M4 | ].
  unfold apply. apply rsum_ext. intros. ring.
Qed.

Lemma action_slack_nonneg K d x k : 0 <= action_slack K d x k.
Proof. apply dot_slack_nonneg. apply rsum_nonneg. intros. apply Rabs_pos. Qed.
Lemma next_slack_nonneg K D d m x a j : 0 <= next_slack K D d m x a j.
Proof.
  unfold next_slack. apply Rplus_le_le_0_compat.
  - apply dot_slack_nonneg. apply rsum_nonneg. intros. apply Rabs_pos.
  - apply rsum_nonneg. intros. apply Rmult_le_pos; [ apply Rabs_pos | apply action_slack_nonneg ].
Qed.

(** The next states. *)
Lemma f_next_err K D st ac pts nx i j :
  f_linear K st ac -> hcat [st; ac] = Ok pts -> f_linear D pts nx ->
  (i < rows st)%nat -> (j < rows D)%nat -> INR (cols st + cols ac) <= 4503599627370496 ->
  Rabs (entry nx i j - loop K D (cols st) (cols ac) (entry st i) j)
    <= next_slack K D (cols st) (cols ac) (entry st i) (entry ac i) j.
Proof.
  intros HK HC HD Hi Hj Hd.
  assert (Ec : cols ac = rows K) by apply HK.
  simpl in HC. unfold hcat2 in HC. destruct (Nat.eqb_spec (rows st) (rows ac)); [ | discriminate ].
  injection HC as <-.
  pose proof (f_linear_err D _ nx i j HD Hi Hj Hd) as E.
  set (d := cols st) in *. set (m := cols ac) in *. set (x := entry st i) in *. set (a := entry ac i) in *.
  simpl in E. fold d m x a in E.
  assert (Hs : INR d <= 4503599627370496).
  { eapply Rle_trans; [ | exact Hd ]. apply le_INR. lia. }
  assert (EA : forall k, (k < m)%nat -> Rabs (a k - apply K d x k) <= action_slack K d x k).
  { intros k Hk. unfold action_slack. apply (f_linear_err K st ac i k); auto. congruence. }
  unfold loop, next_slack.
  change (Rabs (entry nx i j - apply D (d + m) (join d x a) j) <=
    dot_slack (d + m) (rsum (d + m) (fun k => Rabs (join d x a k * entry D j k)))) in E.
  replace (entry nx i j - apply D (d + m) (join d x (apply K d x)) j)
    with ((entry nx i j - apply D (d + m) (join d x a) j) +
          (apply D (d + m) (join d x a) j - apply D (d + m) (join d x (apply K d x)) j)) by ring.
  eapply Rle_trans; [ apply Rabs_triang | ]. apply Rplus_le_compat; [ exact E | ].
  unfold apply at 1 2. rewrite rsum_diff, rsum_app.
  rewrite (rsum_ext d _ (fun _ => 0)).
  2:{ intros k Hk. unfold join. destruct (Nat.ltb_spec k d); [ ring | lia ]. }
  rewrite rsum_zero, Rplus_0_l. eapply Rle_trans; [ apply rsum_abs | ].
  apply rsum_le. intros k Hk. unfold join. destruct (Nat.ltb_spec (d + k) d); [ lia | ].
  replace (d + k - d)%nat with k by lia.
  rewrite <- Rmult_minus_distr_l, Rabs_mult. apply Rmult_le_compat_l; [ apply Rabs_pos | auto ].
Qed.

Lemma move_err P d z y e : (forall j, (j < d)%nat -> Rabs (z j - y j) <= e j) ->
  Rabs (quad P d z - quad P d y) <= move_slack P d z e.
Proof.
  intros H. unfold quad, move_slack. rewrite rsum_diff.
  eapply Rle_trans; [ apply rsum_abs | ]. apply rsum_le. intros j Hj.
  replace (rsum d (fun k => z k * entry P k j) * z j - rsum d (fun k => y k * entry P k j) * y j)
    with (z j * rsum d (fun k => z k * entry P k j) - y j * rsum d (fun k => y k * entry P k j)) by ring.
  rewrite <- !rsum_scal, rsum_diff. eapply Rle_trans; [ apply rsum_abs | ]. apply rsum_le. intros k Hk.
  replace (z j * (z k * entry P k j) - y j * (y k * entry P k j))
    with (entry P k j * ((z k - y k) * z j + y k * (z j - y j))) by ring.
  rewrite Rabs_mult. apply Rmult_le_compat_l; [ apply Rabs_pos | ].
  eapply Rle_trans; [ apply Rabs_triang | ]. rewrite !Rabs_mult.
  pose proof (H j Hj) as A. pose proof (H k Hk) as B.
  apply Rplus_le_compat.
  - apply Rmult_le_compat_r; [ apply Rabs_pos | exact B ].
  - apply Rmult_le_compat; try apply Rabs_pos; [ | exact A ].
    replace (y k) with (z k + - (z k - y k)) by ring.
    eapply Rle_trans; [ apply Rabs_triang | ]. rewrite Rabs_Ropp. lra.
Qed.

Lemma rnd_back x : Rabs (rnd x - x) <= bpow radix2 (-52) * Rabs (rnd x) + bpow radix2 (-1073).
Proof.
  pose proof (rnd_err x) as E. rewrite two_u, four_eta. pose proof eta_pos. set (h := eta) in *.
  assert (A : Rabs x <= Rabs (rnd x) + Rabs (rnd x - x)).
  { replace x with (rnd x + - (rnd x - x)) at 1 by ring.
    eapply Rle_trans; [ apply Rabs_triang | ]. rewrite Rabs_Ropp. lra. }
  pose proof (Rabs_pos (rnd x)). lra.
Qed.

Lemma threshold_err lv lf tau : 0 <= lv -> 0 <= lf -> 0 <= tau ->
  Rabs (f_threshold lv lf tau - - lv * (1 + lf) * tau) <= threshold_slack lv lf tau.
Proof.
  intros P1 P2 P3. unfold f_threshold, threshold_slack. rewrite four_u, four_eta.
  pose proof eta_pos as Pe. assert (He : eta <= / 2 ^ 500) by (apply bpow_neg_small; lia).
  set (h := eta) in *.
  pose proof (rnd_err (1 + lf)) as E1. fold h in E1. rewrite (Rabs_pos_eq (1 + lf)) in E1 by lra.
  set (q := rnd (1 + lf)) in *. set (r := rnd (- lv * q)). set (s := rnd (r * tau)).
  pose proof (rnd_err (- lv * q)) as E2. fold h r in E2.
  pose proof (rnd_err (r * tau)) as E3. fold h s in E3.
  set (w := 1 + lf) in *. assert (1 <= w) by (unfold w; lra).
  assert (Q : Rabs q <= (1 + u) * w + h).
  { replace q with (w + (q - w)) by ring. eapply Rle_trans; [ apply Rabs_triang | ].
    rewrite (Rabs_pos_eq w) by lra. lra. }
  assert (A2 : Rabs (- lv * q) <= lv * ((1 + u) * w + h)).
  { rewrite Rabs_mult, Rabs_Ropp, (Rabs_pos_eq lv) by lra. apply Rmult_le_compat_l; lra. }
  assert (B2 : Rabs (r - - lv * w) <= lv * (u * w + h) + (u * (lv * ((1 + u) * w + h)) + h)).
  { replace (r - - lv * w) with ((- lv) * (q - w) + (r - - lv * q)) by ring.
    eapply Rle_trans; [ apply Rabs_triang | ]. rewrite Rabs_mult, Rabs_Ropp, (Rabs_pos_eq lv) by lra.
    apply Rplus_le_compat; [ apply Rmult_le_compat_l; lra | ].
    eapply Rle_trans; [ exact E2 | ]. apply Rplus_le_compat_r. apply Rmult_le_compat_l; lra. }
  set (c := lv * (u * w + h) + (u * (lv * ((1 + u) * w + h)) + h)) in *.
  assert (A3 : Rabs r <= lv * w + c).
  { replace r with (- lv * w + (r - - lv * w)) by ring. eapply Rle_trans; [ apply Rabs_triang | ].
    rewrite Rabs_mult, Rabs_Ropp, (Rabs_pos_eq lv), (Rabs_pos_eq w) by lra. lra. }
  assert (B3 : Rabs (s - - lv * w * tau) <= u * ((lv * w + c) * tau) + h + c * tau).
  { replace (s - - lv * w * tau) with ((s - r * tau) + (r - - lv * w) * tau) by ring.
    eapply Rle_trans; [ apply Rabs_triang | ]. rewrite Rabs_mult, (Rabs_pos_eq tau) by lra.
    apply Rplus_le_compat.
    - eapply Rle_trans; [ exact E3 | ]. apply Rplus_le_compat_r. apply Rmult_le_compat_l; [ lra | ].
      rewrite Rabs_mult, (Rabs_pos_eq tau) by lra. apply Rmult_le_compat_r; lra.
    - apply Rmult_le_compat_r; lra. }
  eapply Rle_trans; [ exact B3 | ]. unfold c.
  set (X := lv * w * tau). set (Y := lv * tau).
  assert (0 <= X) by (unfold X; repeat apply Rmult_le_pos; lra).
  assert (PY : 0 <= Y) by (unfold Y; apply Rmult_le_pos; lra).
  assert (P4 : 0 <= h * tau) by (apply Rmult_le_pos; lra).
  assert (P5 : 0 <= h * Y) by (apply Rmult_le_pos; lra).
  replace (u * ((lv * w + (lv * (u * w + h) + (u * (lv * ((1 + u) * w + h)) + h))) * tau) + h +
    (lv * (u * w + h) + (u * (lv * ((1 + u) * w + h)) + h)) * tau)
   with (X * (u + (1 + u) * (u + u * (1 + u))) + h + (h * tau) * (1 + u) + (h * Y) * ((1 + u) * (1 + u)))
   by (unfold X, Y; ring).
  replace (4 * u * X + 4 * h * (1 + tau + Y)) with (X * (4 * u) + 4 * h + (h * tau) * 4 + (h * Y) * 4) by ring.
  repeat apply Rplus_le_compat; try (apply Rmult_le_compat_l; [ assumption | lra ]). lra.
Qed.
