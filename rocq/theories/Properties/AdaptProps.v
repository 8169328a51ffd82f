(** Property C106: the safe set of adaptive objects. *)
From Coq Require Import Reals List Bool Arith ZArith Lia Lra Permutation.
From Verif Require Import Prelude ListFacts NumModel NumProofs GridModel GridSpec GridProofs
  SafeModel SafeSpec SafeProofs SafeProofs2 CertModel CertSpec CertProofs
  Properties.CertProps TauModel TauProofs Properties.TauProps AdaptProofs.
Import ListNotations.
Local Open Scope R_scope.

(** What is needed of a setup: a numpy tau below 1, positive constants, and initial states
    for which no decrease is known come before all others in the order of the values. *)
Record refinable (S : setup) (pt : nat -> list R) (L : lyap) : Prop := {
  rf_adaptive : l_adaptive L = true;
  rf_consistent : consistent L;
  rf_tau : 0 < tau S < 1;
  rf_lv : forall k, 0 < lv_scalar S (pt k);
  rf_lf : forall k, 0 <= lf_scalar S (pt k);
  rf_init : forall i k, (i < size L)%nat -> (k < size L)%nat ->
    initially_safe L i -> 0 <= decrease S (pt i) -> ~ initially_safe L k -> value L i < value L k
}.

Lemma thr_neg S y : 0 < tau S -> 0 < lv_scalar S y -> 0 <= lf_scalar S y -> threshold S y (tau S) < 0.
Proof.
  intros A B C. unfold threshold.
  assert (0 < lv_scalar S y * (1 + lf_scalar S y) * tau S) by (apply Rmult_lt_0_compat; [apply Rmult_lt_0_compat|]; lra). lra.
Qed.

Lemma thr_div S y m : m <> 0 -> threshold S y (tau S / m) = threshold S y (tau S) / m.
Proof. intros H. unfold threshold. field. exact H. Qed.

Lemma n_req_range S sf y m : threshold S y (tau S) < 0 -> (1 <= m)%Z ->
  (1 <= n_req S sf y <= m)%Z <-> decrease S y <= Rmax sf 1 * threshold S y (tau S / IZR m).
Proof.
  intros T M. assert (M' : 1 <= IZR m) by now apply IZR_le.
  rewrite thr_div by lra. set (t := threshold S y (tau S)) in *. set (d := decrease S y) in *.
  pose proof (Rmax_r sf 1) as F. set (f := Rmax sf 1) in *.
  assert (FT : f * t < 0) by nra.
  assert (R : f * (t / IZR m) < 0).
  { replace (f * (t / IZR m)) with (f * t * / IZR m) by (field; lra).
    assert (0 < / IZR m) by (apply Rinv_0_lt_compat; lra). nra. }
  unfold n_req. fold d t f. destruct Req_EM_T as [E|E]; [split; [lia|lra]|].
  pose proof (ceilR_spec (Rmax (f * t / d) 0)) as (A & B). set (c := ceilR _) in *.
  destruct (Rlt_le_dec d 0) as [D|D].
  - assert (Q : 0 < f * t / d).
    { replace (f * t / d) with (- (f * t) * / (- d)) by (field; lra). apply Rmult_lt_0_compat; [lra|]. apply Rinv_0_lt_compat. lra. }
    rewrite Rmax_left in A, B by lra.
    assert (EQ : f * t = f * t / d * d) by (field; lra).
    assert (EM : f * (t / IZR m) * IZR m = f * t) by (field; lra).
    split.
    + intros (_ & H). assert (IZR c <= IZR m) by now apply IZR_le.
      apply Rmult_le_reg_r with (IZR m); [lra|]. rewrite EM. nra.
    + intros H. split.
      * assert (0 < c)%Z by (apply lt_IZR; lra). lia.
      * assert (H' : d * IZR m <= f * t) by (rewrite <- EM; apply Rmult_le_compat_r; lra).
        assert (f * t / d <= IZR m) by nra. assert (c < m + 1)%Z; [|lia]. apply lt_IZR. rewrite plus_IZR. lra.
  - assert (Q : f * t / d < 0).
    { replace (f * t / d) with (- (- (f * t) * / d)) by (field; lra).
      assert (0 < - (f * t) * / d) by (apply Rmult_lt_0_compat; [lra|]; apply Rinv_0_lt_compat; lra). lra. }
    rewrite Rmax_right in A, B by lra. split; [|lra]. intros (H & _). assert (c < 1)%Z by (apply lt_IZR; lra). lia.
Qed.

Lemma Rltb_iff a b : Rltb a b = true <-> a < b.
Proof. apply Rltb_true. Qed.

(** The states before the first one whose decrease is not below the threshold for tau divided
    by max_refinement, and the initial ones.  (With a safety factor, the threshold is
    multiplied by it.) *)
Theorem C106_safe_set : forall S sf pt L mr bs order L',
  refinable S pt L -> sorts (l_vals L) order -> (1 < mr)%Z -> sf <= IZR mr ->
  update_typed S NumpyFloat sf pt L true mr bs order = Ok L' ->
  forall q, (q < size L)%nat ->
    (safe L' (nth q order 0%nat) <->
     initially_safe L (nth q order 0%nat) \/
     forall p, (p <= q)%nat ->
       initially_safe L (nth p order 0%nat) \/
       decrease S (pt (nth p order 0%nat)) <= Rmax sf 1 * threshold S (pt (nth p order 0%nat)) (tau S / IZR mr)).
Proof.
  intros S sf pt L mr bs order L' [Ha HL Ht Hlv Hlf Hi] Hs Hmr Hsf U q Hq.
  unfold update_typed in U. rewrite Ha in U. cbn [as_int32 bind] in U. rewrite trunc_small in U by lra.
  set (C := typed_certificate S 0 sf pt) in *.
  assert (T0 : forall y n, threshold S y (0 / IZR n) = 0).
  { intros y n. unfold threshold, Rdiv. rewrite Rmult_0_l. lra. }
  assert (TN : forall k, threshold S (pt k) (tau S) < 0) by (intros; now apply thr_neg).
  assert (ACC : forall x, accept C (l_adaptive L && (1 <? mr)%Z) (l_init L) mr x = true <->
      initially_safe L x \/ decrease S (pt x) <= Rmax sf 1 * threshold S (pt x) (tau S / IZR mr)).
  { intros x. unfold accept. rewrite Ha. replace (1 <? mr)%Z with true by lia. cbn [andb].
    rewrite !orb_true_iff, initially_safe_omask, andb_true_iff, !Z.leb_le.
    cbn [C neg nreq typed_certificate certificate]. rewrite Rltb_iff, n_req_range by (auto; lia).
    split; [|tauto]. intros [[|H]|]; auto. right.
    rewrite thr_div by (apply not_0_IZR; lia). specialize (TN x). set (t := threshold _ _ _) in *.
    assert (0 < IZR mr) by (apply IZR_lt; lia).
    assert (1 <= IZR mr) by (apply IZR_le; lia).
    assert (Rmax sf 1 <= IZR mr) by (apply Rmax_lub; auto).
    replace (Rmax sf 1 * (t / IZR mr)) with (Rmax sf 1 / IZR mr * t) by (field; lra).
    assert (Rmax sf 1 / IZR mr <= 1).
    { apply Rmult_le_reg_r with (IZR mr); [auto|]. unfold Rdiv. rewrite Rmult_assoc, Rinv_l, Rmult_1_r; lra. }
    nra. }
  assert (RN : forall x, Rmax sf 1 * threshold S (pt x) (tau S / IZR mr) < 0).
  { intros x. rewrite thr_div by (apply not_0_IZR; lia). specialize (TN x). set (t := threshold _ _ _) in *.
    assert (0 < / IZR mr) by (apply Rinv_0_lt_compat, IZR_lt; lia). pose proof (Rmax_r sf 1).
    assert (t / IZR mr < 0) by (unfold Rdiv; nra). nra. }
  rewrite (update_exact C (fun j => Rltb (decrease S (pt j)) 0) L mr bs order L'); auto.
  - split; (intros [|H]; [now left|right]); intros p Hp; specialize (H p Hp); now apply ACC.
  - intros j k n _. cbn [C passes typed_certificate]. now rewrite T0.
  - intros x. cbn [C neg typed_certificate certificate]. rewrite !Rltb_iff. specialize (TN x). lra.
  - intros x Ho Hx. apply ACC in Hx. rewrite Rltb_iff. destruct Hx as [H|H].
    + apply initially_safe_omask in H. congruence.
    + specialize (RN x). lra.
  - intros p r Hpr _ _ Ho Hr. rewrite Rltb_iff. apply Rnot_le_lt. intros D.
    assert (Hp : (p < size L)%nat) by lia. assert (Hr' : (r < size L)%nat) by lia.
    assert (X : value L (nth r order 0%nat) < value L (nth p order 0%nat)).
    { apply Hi; auto; try now apply (order_lt L order Hs).
      - now apply initially_safe_omask.
      - intros H. apply initially_safe_omask in H. congruence. }
    pose proof (proj2 Hs p r ltac:(lia) Hr') as Y. unfold value in X. lra.
Qed.
Print Assumptions C106_safe_set.

(** No equality: exactly the safe set of the same object without refinement for tau divided
    by max_refinement. *)
Definition with_tau (S : setup) (t : R) : setup :=
  {| lyapunov_function := lyapunov_function S; policy := policy S; dynamics := dynamics S;
     lip_v := lip_v S; lip_f := lip_f S; tau := t |}.
Definition without_refinement (L : lyap) : lyap :=
  {| l_init := l_init L; l_adaptive := false; l_vals := l_vals L; l_safe := l_safe L;
     l_ref := l_ref L; l_cmax := l_cmax L |}.

Lemma plain_set S sf pt L mr bs order L' : l_adaptive L = false ->
  consistent L -> sorts (l_vals L) order ->
  update_safe_set L (certificate S sf pt) true mr bs order = Ok L' ->
  forall q, (q < size L)%nat ->
    (safe L' (nth q order 0%nat) <->
     initially_safe L (nth q order 0%nat) \/
     forall p, (p <= q)%nat ->
       initially_safe L (nth p order 0%nat) \/
       decrease S (pt (nth p order 0%nat)) < threshold S (pt (nth p order 0%nat)) (tau S)).
Proof.
  intros Ha HL Hs U q Hq.
  set (C := {| neg := neg (certificate S sf pt); nreq := fun _ => 0%Z; passes := fun _ _ _ => true |}).
  rewrite (update_not_adaptive L _ C) in U by auto.
  rewrite (update_exact C (fun _ => true) L mr bs order L'); auto.
  assert (ACC : forall x, accept C (l_adaptive L && (1 <? mr)%Z) (l_init L) mr x = true <->
      initially_safe L x \/ decrease S (pt x) < threshold S (pt x) (tau S)).
  { intros x. unfold accept. rewrite Ha. cbn [andb]. rewrite orb_false_r, orb_true_iff, initially_safe_omask.
    cbn [C neg certificate]. now rewrite Rltb_iff. }
  split; (intros [|H]; [now left|right]); intros p Hp; specialize (H p Hp); now apply ACC.
Qed.

Theorem C106_like_finer_tau : forall S sf sf' pt L mr mr' bs bs' order L1 L2,
  refinable S pt L -> sorts (l_vals L) order -> (1 < mr)%Z -> sf <= 1 ->
  update_safe_set (without_refinement L) (certificate (with_tau S (tau S / IZR mr)) sf' pt) true mr' bs' order = Ok L1 ->
  update_typed S NumpyFloat sf pt L true mr bs order = Ok L2 ->
  (forall x, (x < size L)%nat -> safe L1 x -> safe L2 x) /\
  ((forall x, (x < size L)%nat -> decrease S (pt x) <> threshold S (pt x) (tau S / IZR mr)) ->
   forall x, (x < size L)%nat -> safe L1 x <-> safe L2 x).
Proof.
  intros S sf sf' pt L mr mr' bs bs' order L1 L2' RF Hs Hmr Hsf U1 U2.
  assert (1 < IZR mr) by (apply IZR_lt; lia).
  assert (X0 : sf <= IZR mr) by lra.
  pose proof (C106_safe_set _ _ _ _ _ _ _ _ RF Hs Hmr X0 U2) as E2. rewrite Rmax_right in E2 by lra.
  destruct RF as [Ha HL Ht Hlv Hlf Hi].
  assert (HL' : consistent (without_refinement L)) by (destruct HL; now constructor).
  pose proof (plain_set _ _ _ (without_refinement L) _ _ _ _ eq_refl HL' Hs U1) as E1.
  assert (X : forall x, (x < size L)%nat -> safe L1 x -> safe L2' x).
  { intros x Hx. destruct (order_onto L order Hs x Hx) as (q & Hq & <-). rewrite E1, E2 by exact Hq.
    intros [I|I]; [now left|right]. intros p Hp. destruct (I p Hp) as [J|J]; [now left|right].
    assert (J' : decrease S (pt (nth p order 0%nat)) < threshold S (pt (nth p order 0%nat)) (tau S / IZR mr)) by exact J. lra. }
  split; [exact X|]. intros NE x Hx. split; [now apply X|].
  destruct (order_onto L order Hs x Hx) as (q & Hq & <-). rewrite E1, E2 by exact Hq.
  intros [I|I]; [now left|right]. intros p Hp. destruct (I p Hp) as [J|J]; [now left|right].
  specialize (NE _ (order_lt L order Hs p ltac:(unfold size in *; lia))).
  assert (J' : decrease S (pt (nth p order 0%nat)) < threshold S (pt (nth p order 0%nat)) (tau S / IZR mr)) by lra. exact J'.
Qed.
Print Assumptions C106_like_finer_tau.

(** The batch size does not matter, and allowing more refinement does not lose states. *)
Theorem C106_more_refinement : forall S sf pt L mr mr' bs bs' order L1 L2,
  refinable S pt L -> sorts (l_vals L) order -> (1 < mr <= mr')%Z -> sf <= IZR mr ->
  update_typed S NumpyFloat sf pt L true mr bs order = Ok L1 ->
  update_typed S NumpyFloat sf pt L true mr' bs' order = Ok L2 ->
  forall x, (x < size L)%nat -> safe L1 x -> safe L2 x.
Proof.
  intros S sf pt L mr mr' bs bs' order L1 L2' RF Hs Hmr Hsf U1 U2 x Hx.
  assert (IZR mr <= IZR mr') by (apply IZR_le; lia).
  assert (1 < IZR mr) by (apply IZR_lt; lia).
  pose proof (C106_safe_set _ _ _ _ _ _ _ _ RF Hs (proj1 Hmr) Hsf U1) as E1.
  assert (X0 : (1 < mr')%Z) by lia. assert (X1 : sf <= IZR mr') by lra.
  pose proof (C106_safe_set _ _ _ _ _ _ _ _ RF Hs X0 X1 U2) as E2.
  destruct RF as [Ha HL Ht Hlv Hlf Hi].
  destruct (order_onto L order Hs x Hx) as (q & Hq & <-). rewrite E1, E2 by exact Hq.
  intros [I|I]; [now left|right]. intros p Hp. destruct (I p Hp) as [J|J]; [now left|right].
  eapply Rle_trans; [exact J|]. pose proof (Rmax_r sf 1). apply Rmult_le_compat_l; [lra|].
  apply threshold_anti; auto; [left; apply Hlv|]. apply Rmult_le_compat_l; [lra|]. apply Rinv_le_contravar; lra.
Qed.
Print Assumptions C106_more_refinement.

(** Refinement does not lose states of the safe set without it, whatever the checks are. *)
Theorem C106_adaptive_larger : forall L C mr mr' bs bs' order L1 L2,
  consistent L -> sorts (l_vals L) order ->
  update_safe_set (without_refinement L) C true mr' bs' order = Ok L1 ->
  update_safe_set L C true mr bs order = Ok L2 ->
  forall x, (x < size L)%nat -> safe L1 x -> safe L2 x.
Proof.
  intros L C mr mr' bs bs' order L1 L2' HL Hs U1 U2 x Hx S1.
  assert (HL' : consistent (without_refinement L)) by (destruct HL; now constructor).
  destruct (order_onto L order Hs x Hx) as (q & Hq & <-).
  destruct (update_run _ _ _ _ _ _ _ HL' Hs U1) as (B1 & N1 & K1 & E1 & RO1).
  destruct (update_run _ _ _ _ _ _ _ HL Hs U2) as (B2 & N2 & K2 & E2 & RO2).
  apply (safe_run _ _ _ _ _ _ _ _ _ HL' Hs B1 N1 RO1 q Hq) in S1.
  apply (safe_run _ _ _ _ _ _ _ _ _ HL Hs B2 N2 RO2 q Hq).
  destruct S1 as [I|[I|(_ & I)]]; [now left| |].
  2:{ left. rewrite S0_init_shrink in I. now apply initially_safe_omask. }
  right; left. destruct (Nat.lt_ge_cases q K2) as [|G]; [assumption|exfalso].
  assert (HK2 : (K2 < size L)%nat) by lia.
  destruct (ro_end _ _ _ _ _ _ _ _ _ RO2 HK2) as (_ & b & Hb & N & S & _).
  destruct (ro_how _ _ _ _ _ _ _ _ _ RO1 b ltac:(lia)) as (r & [(A & _)|[(_ & A & _)|(A & _)]]).
  - congruence.
  - rewrite S0_init_shrink in A, S. cbn [without_refinement l_init] in A. congruence.
  - discriminate.
Qed.
Print Assumptions C106_adaptive_larger.

(** For a tau that is a whole number, allowing more refinement can lose states: the grid 0, 1
    with V(x) = x (constant 1), the closed loop x -> -9/5 + 19/10 x (constant 2), tau = 1 and
    batches of two states.  With at most two points the state 0 is accepted; with at most four,
    the state 1 is examined as well and the two spoil each other's check. *)
Definition S6 : setup :=
  {| lyapunov_function := fun x => nth 0 x 0; policy := fun _ => [];
     dynamics := fun x _ => Exact [- (9 / 5) + 19 / 10 * nth 0 x 0];
     lip_v := LvConst 1; lip_f := LfConst 2; tau := 1 |}.

Lemma decrease6 k : decrease S6 (pt5 k) = - (9 / 5) + 9 / 10 * INR k.
Proof. unfold decrease, v_decrease_bound, pt5; simpl. destruct k; simpl; lra. Qed.
Lemma threshold6 x t : threshold S6 x t = -3 * t.
Proof. unfold threshold, lv_scalar, lf_scalar; simpl. lra. Qed.

Lemma ceil_is r n : IZR n - 1 < r <= IZR n -> ceilR r = n.
Proof.
  intros H. pose proof (ceilR_spec r) as (A & B).
  assert (ceilR r < n + 1)%Z by (apply lt_IZR; rewrite plus_IZR; lra).
  assert (n - 1 < ceilR r)%Z by (apply lt_IZR; rewrite minus_IZR; lra). lia.
Qed.

Lemma n_req6 : n_req S6 1 (pt5 0) = 2%Z /\ n_req S6 1 (pt5 1) = 4%Z.
Proof.
  unfold n_req. rewrite !decrease6, !threshold6. cbn [tau S6 INR]. rewrite (Rmax_left 1 1) by lra.
  split; (destruct Req_EM_T; [lra|]).
  - replace (1 * (-3 * 1) / (- (9 / 5) + 9 / 10 * 0)) with (5 / 3) by field. rewrite Rmax_left by lra. apply ceil_is. lra.
  - replace (1 * (-3 * 1) / (- (9 / 5) + 9 / 10 * 1)) with (10 / 3) by field. rewrite Rmax_left by lra. apply ceil_is. lra.
Qed.

Lemma generic6 C mr : (1 < mr)%Z -> neg C 0%nat = false -> neg C 1%nat = false -> nreq C 0%nat = 2%Z -> nreq C 1%nat = 4%Z ->
  update_safe_set (L2 [false; false] [0; 0]%Z 0) C true mr 2 [0; 1]%nat =
  if (mr <? 4)%Z then if passes C 0%nat 0%nat 2%Z then Ok (L2 [true; false] [2; 0]%Z 0) else Ok (L2 [false; false] [0; 0]%Z 1)
  else if passes C 0%nat 0%nat 2%Z && passes C 1%nat 0%nat 2%Z then
    if passes C 0%nat 1%nat 4%Z && passes C 1%nat 1%nat 4%Z then Ok (L2 [true; true] [2; 4]%Z 1) else Ok (L2 [true; false] [2; 0]%Z 0)
  else Ok (L2 [false; false] [0; 0]%Z 1).
Proof.
  intros M H1 H2 H3 H4. rewrite update_safe_set_eq. unfold L2; simpl. unfold batch_pass; simpl.
  rewrite H1, H2; simpl. replace (1 <? mr)%Z with true by lia. rewrite H3, H4; simpl.
  replace (2 <=? mr)%Z with true by lia. destruct (Z.ltb_spec mr 4) as [X|X].
  - replace (4 <=? mr)%Z with false by lia. simpl. destruct (passes C 0 0 2); reflexivity.
  - replace (4 <=? mr)%Z with true by lia. simpl.
    destruct (passes C 0 0 2), (passes C 1 0 2), (passes C 0 1 4), (passes C 1 1 4); reflexivity.
Qed.

Lemma run6 : exists C,
  (forall mr, update_typed S6 PythonInt 1 pt5 (L2 [false; false] [0; 0]%Z 0) true mr 2 [0; 1]%nat
     = update_safe_set (L2 [false; false] [0; 0]%Z 0) C true mr 2 [0; 1]%nat) /\
  neg C 0%nat = false /\ neg C 1%nat = false /\ nreq C 0%nat = 2%Z /\ nreq C 1%nat = 4%Z /\
  passes C 0%nat 0%nat 2%Z = true /\ passes C 1%nat 0%nat 2%Z = false.
Proof.
  exists (typed_certificate S6 (trunc 1) 1 pt5). split; [reflexivity|].
  cbn [neg nreq passes typed_certificate certificate]. rewrite (trunc_IZR 1), !decrease6, !threshold6. cbn [tau S6 INR].
  pose proof n_req6 as (A & B). repeat split; auto.
  - apply Rltb_false. lra.
  - apply Rltb_false. lra.
  - apply Rltb_true. lra.
  - apply Rltb_false. lra.
Qed.

Theorem C106_more_refinement_refuted : ~ forall S pt L mr mr' bs order L1 L2,
  consistent L -> sorts (l_vals L) order -> (1 < mr <= mr')%Z -> 0 < tau S ->
  update_typed S PythonInt 1 pt L true mr bs order = Ok L1 ->
  update_typed S PythonInt 1 pt L true mr' bs order = Ok L2 ->
  forall x, (x < size L)%nat -> safe L1 x -> safe L2 x.
Proof.
  intros H. destruct run6 as (C & E & N0 & N1 & R0 & R1 & P0 & P1).
  specialize (H S6 pt5 _ 2%Z 4%Z 2%nat [0; 1]%nat (L2 [true; false] [2; 0]%Z 0) (L2 [false; false] [0; 0]%Z 1)
    (consistent2 [false; false] [0; 0]%Z 0 eq_refl eq_refl) sorts2 ltac:(lia) ltac:(simpl; lra)).
  rewrite !E, !generic6 in H by (auto; lia). rewrite P0, P1 in H. cbn in H.
  specialize (H eq_refl eq_refl 0%nat ltac:(unfold size; simpl; lia) eq_refl). discriminate.
Qed.
Print Assumptions C106_more_refinement_refuted.

(** An initial state without known decrease that comes later spoils the check of the states it
    shares a batch with: the closed loop x -> 2x - 1 (constant 2) with tau = 1/2 and the initial
    state 1.  The result depends on the batch size. *)
Definition S7 : setup :=
  {| lyapunov_function := fun x => nth 0 x 0; policy := fun _ => [];
     dynamics := fun x _ => Exact [2 * nth 0 x 0 - 1];
     lip_v := LvConst 1; lip_f := LfConst 2; tau := 1 / 2 |}.
Definition L7 (s : list bool) (r : list Z) (c : R) : lyap :=
  {| l_init := Some [false; true]; l_adaptive := true; l_vals := [0; 1];
     l_safe := s; l_ref := r; l_cmax := c |}.

Lemma decrease7 k : decrease S7 (pt5 k) = INR k - 1.
Proof. unfold decrease, v_decrease_bound, pt5; simpl. destruct k; simpl; lra. Qed.
Lemma threshold7 x t : threshold S7 x t = -3 * t.
Proof. unfold threshold, lv_scalar, lf_scalar; simpl. lra. Qed.

Lemma n_req7 : n_req S7 1 (pt5 0) = 2%Z.
Proof.
  unfold n_req. rewrite !decrease7, !threshold7. cbn [tau S7 INR]. rewrite (Rmax_left 1 1) by lra.
  destruct Req_EM_T; [lra|].
  replace (1 * (-3 * (1 / 2)) / (0 - 1)) with (3 / 2) by field. rewrite Rmax_left by lra. apply ceil_is. lra.
Qed.

Lemma run7 : exists C,
  (forall bs, update_typed S7 NumpyFloat 1 pt5 (L7 [false; true] [0; 1]%Z 0) true 5 bs [0; 1]%nat
     = update_safe_set (L7 [false; true] [0; 1]%Z 0) C true 5 bs [0; 1]%nat) /\
  neg C 0%nat = false /\ neg C 1%nat = false /\ nreq C 0%nat = 2%Z /\
  passes C 0%nat 0%nat 2%Z = true /\ passes C 1%nat 0%nat 2%Z = false.
Proof.
  exists (typed_certificate S7 (trunc (1 / 2)) 1 pt5). split; [reflexivity|].
  cbn [neg nreq passes typed_certificate certificate]. rewrite trunc_small by lra. rewrite !decrease7, !threshold7. cbn [tau S7 INR].
  pose proof n_req7 as A. repeat split; auto.
  - apply Rltb_false. lra.
  - apply Rltb_false. lra.
  - apply Rltb_true. lra.
  - apply Rltb_false. lra.
Qed.

Theorem C106_batch_size_refuted : ~ forall S pt L mr bs bs' order L1 L2,
  consistent L -> sorts (l_vals L) order -> (1 < mr)%Z -> 0 < tau S < 1 ->
  update_typed S NumpyFloat 1 pt L true mr bs order = Ok L1 ->
  update_typed S NumpyFloat 1 pt L true mr bs' order = Ok L2 ->
  forall x, (x < size L)%nat -> safe L1 x -> safe L2 x.
Proof.
  intros H. destruct run7 as (C & E & N0 & N1 & R0 & P0 & P1).
  specialize (H S7 pt5 (L7 [false; true] [0; 1]%Z 0) 5%Z 1%nat 2%nat [0; 1]%nat).
  assert (HL : consistent (L7 [false; true] [0; 1]%Z 0)).
  { constructor; auto. intros m X; injection X as <-; reflexivity. }
  rewrite !E, !update_safe_set_eq in H. unfold L7 in H; simpl in H. unfold batch_pass in H; simpl in H.
  rewrite N0, N1 in H; simpl in H. rewrite R0 in H; simpl in H. rewrite P0, P1 in H; simpl in H.
  specialize (H _ _ HL sorts2 ltac:(lia) ltac:(lra) eq_refl eq_refl 0%nat ltac:(unfold size; simpl; lia) eq_refl). discriminate.
Qed.
Print Assumptions C106_batch_size_refuted.

(** The object of C105 meets the conditions and accepts a state at the very threshold. *)
Example C106_ex :
  refinable S5 pt5 (L2 [false; false] [0; 0]%Z 0) /\ sorts [0; 1] [0; 1]%nat /\
  decrease S5 (pt5 0) = threshold S5 (pt5 0) (tau S5 / 2) /\
  ~ decrease S5 (pt5 0) < threshold S5 (pt5 0) (tau S5 / 1) /\
  decrease S5 (pt5 1) < threshold S5 (pt5 1) (tau S5) /\
  update_typed S5 NumpyFloat 1 pt5 (L2 [false; false] [0; 0]%Z 0) true 5 1 [0; 1]%nat
    = Ok (L2 [true; true] [2; 1]%Z 0).
Proof.
  split; [constructor|split; [apply sorts2|]].
  - reflexivity.
  - now apply consistent2.
  - simpl. lra.
  - intros k. unfold lv_scalar. simpl. lra.
  - intros k. unfold lf_scalar. simpl. lra.
  - intros i k _ _ (m & E & Hm). injection E as <-. do 2 (destruct i as [|i]; [discriminate|]). destruct i; discriminate.
  - unfold decrease, v_decrease_bound, threshold, lv_scalar, lf_scalar, pt5; simpl. repeat split; try lra. apply typed5.
Qed.

(** Refinement voids the guarantee of C22: the grid -4, ..., 4 with V(x) = |x|, a closed loop
    that maps everything to 0 except for a bump of height 5 between the grid states 1 and 2
    (constant 10), tau = 1/2 and the initial state 0.  All states become safe with at most six
    points, and a state far below the level leaves the level set and the grid in one step. *)
Definition bump (x : R) : R := Rmax 0 (5 - 10 * Rabs (x - 3 / 2)).
Definition Fb (x : list R) : list R := [bump (nth 0 x 0)].
Definition Sb : setup :=
  {| lyapunov_function := absV; policy := fun _ => []; dynamics := fun x _ => Exact (Fb x);
     lip_v := LvConst 1; lip_f := LfConst 10; tau := 1 / 2 |}.
Definition maskb : list bool := [false; false; false; false; true; false; false; false; false].
Definition Lb (s : list bool) (r : list Z) (c : R) : lyap :=
  {| l_init := Some maskb; l_adaptive := true; l_vals := vals9; l_safe := s; l_ref := r; l_cmax := c |}.
Definition Lb0 : lyap := Lb maskb [0; 0; 0; 0; 1; 0; 0; 0; 0]%Z 0.
Definition Lb1 : lyap := Lb (repeat true 9) [2; 2; 3; 6; 1; 6; 3; 2; 2]%Z (nth 0 vals9 0).

Lemma generic_b C : (forall k, (k < 9)%nat -> neg C k = false) ->
  (forall k, (k < 9)%nat -> k <> 4%nat -> nreq C k = nth k [2; 2; 3; 6; 1; 6; 3; 2; 2]%Z 0%Z) ->
  (forall j k n, (j < 9)%nat -> j <> 4%nat -> passes C j k n = true) ->
  update_safe_set Lb0 C true 6 9 order9 = Ok Lb1.
Proof.
  intros N Q P. rewrite update_safe_set_eq. unfold Lb0, Lb1, Lb, order9.
  remember vals9 as v eqn:Ev. pose proof vals9_length as E. rewrite <- Ev in E. clear Ev.
  destruct v as [|v0 [|v1 [|v2 [|v3 [|v4 [|v5 [|v6 [|v7 [|v8 [|]]]]]]]]]]; try discriminate E.
  simpl. unfold batch_pass; simpl. rewrite !N by lia. simpl. rewrite !Q by lia. simpl.
  rewrite !P by lia. reflexivity.
Qed.

Lemma bump_grid k : (k < 9)%nat -> bump (-4 + INR k) = 0.
Proof.
  intros H. unfold bump. apply Rmax_left. apply Rle_trans with (5 - 10 * (1 / 2)); [|lra].
  do 9 (destruct k as [|k]; [simpl; unfold Rabs; destruct Rcase_abs; lra|]). lia.
Qed.

Lemma decrease_b k : (k < 9)%nat -> decrease Sb (grid_point g9 k) = - Rabs (-4 + INR k).
Proof.
  intros H. rewrite point9 by exact H. unfold decrease, v_decrease_bound. simpl.
  unfold Fb, absV. cbn [nth]. rewrite bump_grid by exact H. rewrite Rabs_R0. simpl. lra.
Qed.
Lemma threshold_b x t : threshold Sb x t = - 11 * t.
Proof. unfold threshold, lv_scalar, lf_scalar; simpl. lra. Qed.

Lemma update_b : update_typed Sb NumpyFloat 1 (grid_point g9) Lb0 true 6 9 order9 = Ok Lb1.
Proof.
  unfold update_typed. cbn [l_adaptive Lb0 Lb as_int32 bind tau Sb]. rewrite trunc_small by lra.
  apply generic_b; cbn [neg nreq passes typed_certificate certificate].
  - intros k H. apply Rltb_false. rewrite decrease_b, threshold_b by exact H. simpl.
    do 9 (destruct k as [|k]; [simpl; unfold Rabs; destruct Rcase_abs; lra|]). lia.
  - intros k H D. unfold n_req. rewrite decrease_b, threshold_b by exact H. cbn [tau Sb].
    rewrite (Rmax_left 1 1) by lra.
    assert (G : forall m n, 0 < m -> IZR n - 1 < 11 / 2 / m <= IZR n -> Rabs (-4 + INR k) = m ->
      (if Req_EM_T (- Rabs (-4 + INR k)) 0 then 0%Z
       else ceilR (Rmax (1 * (- 11 * (1 / 2)) / - Rabs (-4 + INR k)) 0)) = n).
    { intros m n M R ->. destruct Req_EM_T; [lra|].
      replace (1 * (- 11 * (1 / 2)) / - m) with (11 / 2 / m) by (field; lra).
      rewrite Rmax_left; [now apply ceil_is|]. apply Rmult_le_pos; [lra|]. left. now apply Rinv_0_lt_compat. }
    assert (A : forall z, Rabs z = if Rcase_abs z then - z else z) by reflexivity.
    do 9 (destruct k as [|k];
      [try (contradiction D; reflexivity); cbn [nth];
       first [apply (G 4); [lra | lra | rewrite A; simpl; destruct Rcase_abs; lra]
             | apply (G 3); [lra | lra | rewrite A; simpl; destruct Rcase_abs; lra]
             | apply (G 2); [lra | lra | rewrite A; simpl; destruct Rcase_abs; lra]
             | apply (G 1); [lra | lra | rewrite A; simpl; destruct Rcase_abs; lra]]|]). lia.
  - intros j k n H D. apply Rltb_true. rewrite decrease_b, threshold_b by exact H.
    unfold Rdiv. rewrite Rmult_0_l. 
    do 9 (destruct j as [|j]; [try (contradiction D; reflexivity); simpl; unfold Rabs; destruct Rcase_abs; lra|]). lia.
Qed.
Lemma cmax_b : l_cmax Lb1 = 4.
Proof. change (nth 0 vals9 0 = 4). rewrite vals9_nth by lia. simpl. unfold Rabs; destruct Rcase_abs; lra. Qed.

Lemma bump_lip x y : Rabs (bump x - bump y) <= 10 * Rabs (x - y).
Proof.
  unfold bump, Rmax. repeat destruct Rle_dec; unfold Rabs in *; repeat destruct Rcase_abs; lra.
Qed.

Lemma premises_b : premises g9 Sb Fb 1 10 Lb0 Lb1.
Proof.
  constructor; try reflexivity; try lra.
  - intros x y (Hx & _) (Hy & _). simpl. apply one_dim in Hx, Hy. rewrite Hx, Hy. simpl.
    unfold absV, dist1; simpl. rewrite Rplus_0_r.
    pose proof (Rabs_triang_inv2 (nth 0 x 0) (nth 0 y 0)). lra.
  - intros x y Hx _ Hy _. apply one_dim in Hx, Hy. rewrite Hx, Hy. simpl.
    unfold dist1, Fb; simpl. rewrite !Rplus_0_r. apply bump_lip.
  - simpl. unfold upper, lower; simpl. lra.
  - intros x Hx HV. rewrite cmax_b in HV. intros j Hj. change (GridSpec.dims g9) with 1%nat in Hj.
    assert (j = 0%nat) by lia. subst j. unfold lower, upper; simpl.
    simpl in HV. unfold absV in HV. unfold coordinate.
    apply Rabs_def2 in HV. lra.
  - intros k x (m & Em & Hk) Hx Hd HV. rewrite cmax_b in *. simpl in Em.
    injection Em as <-.
    assert (k = 4%nat).
    { destruct (Nat.lt_ge_cases k 9); [|rewrite nth_overflow in Hk by (simpl; lia); discriminate].
      do 9 (destruct k as [|k]; [simpl in Hk; try discriminate; lia|]). lia. }
    subst k. rewrite point9 in Hd by lia. apply one_dim in Hx. rewrite Hx in *. simpl in *.
    unfold dist1 in Hd; simpl in Hd. unfold Fb, absV in *; simpl in *.
    replace (bump (nth 0 x 0)) with 0; [rewrite Rabs_R0; lra|].
    symmetry. apply Rmax_left. unfold Rabs in *; repeat destruct Rcase_abs; lra.
Qed.

Theorem C106_invariance_refuted : ~ forall g S F lv lf L L' mr bs order x0,
  valid_grid g -> consistent L -> premises g S F lv lf L L' ->
  sorts (l_vals L) order ->
  update_typed S NumpyFloat 1 (grid_point g) L true mr bs order = Ok L' ->
  at_position order 0 x0 -> initially_safe L x0 ->
  forall x, length x = GridSpec.dims g -> lyapunov_function S x < l_cmax L' - lv * tau S ->
    lyapunov_function S (F x) < l_cmax L' - lv * tau S.
Proof.
  intros H.
  specialize (H g9 Sb Fb 1 10 Lb0 Lb1 6%Z 9%nat order9 4%nat g9_valid).
  assert (C : consistent Lb0).
  { constructor; try (unfold size; cbn [Lb0 Lb l_vals]; rewrite vals9_length; reflexivity).
    intros m E. injection E as <-. unfold size; cbn [Lb0 Lb l_vals]; rewrite vals9_length; reflexivity. }
  specialize (H C premises_b order9_sorts update_b (conj (Nat.lt_0_succ _) eq_refl)
    (ex_intro _ maskb (conj eq_refl eq_refl)) [3 / 2] eq_refl).
  rewrite cmax_b in H. cbn [lyapunov_function Sb tau] in H.
  assert (E : Fb [3 / 2] = [5]).
  { unfold Fb, bump. cbn [nth]. replace (3 / 2 - 3 / 2) with 0 by lra. rewrite Rabs_R0.
    rewrite Rmax_right by lra. f_equal. lra. }
  rewrite E in H. unfold absV in H. cbn [nth] in H. rewrite !Rabs_right in H by lra. lra.
Qed.
Print Assumptions C106_invariance_refuted.
