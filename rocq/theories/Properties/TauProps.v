(** Property C105: what the division of tau by the number of refined points does to the
    kinds of numbers that can be passed as tau. *)
From Coq Require Import Reals List Bool Arith ZArith Lia Lra Permutation FunctionalExtensionality.
From Verif Require Import Prelude ListFacts NumModel NumProofs GridModel GridSpec GridProofs
  SafeModel SafeSpec SafeProofs SafeProofs2 CertModel CertSpec CertProofs
  Properties.CertProps TauModel TauProofs.
Import ListNotations.
Local Open Scope R_scope.

(** Adaptive objects whose tau is a Python float (as documented) or a float tensor cannot
    be updated. *)
Theorem C105_rejected : forall S k sf pt L sh mr bs order,
  l_adaptive L = true -> k = PythonFloat \/ k = FloatTensor ->
  update_typed S k sf pt L sh mr bs order = Err TypeError.
Proof. intros S k sf pt L sh mr bs order A H. unfold update_typed. rewrite A. destruct H as [-> | ->]; reflexivity. Qed.
Print Assumptions C105_rejected.

(** For the others the kind of number does not matter. *)
Theorem C105_not_adaptive : forall S k sf pt L sh mr bs order,
  l_adaptive L = false ->
  update_typed S k sf pt L sh mr bs order = update_safe_set L (certificate S sf pt) sh mr bs order.
Proof.
  intros S k sf pt L sh mr bs order A. unfold update_typed. rewrite A. cbn [bind].
  apply update_not_adaptive; auto.
Qed.
Print Assumptions C105_not_adaptive.

(** Neither does it for whole numbers that are not Python floats. *)
Theorem C105_whole_number : forall S k sf pt L sh mr bs order n,
  k = PythonInt \/ k = NumpyFloat -> tau S = IZR n ->
  update_typed S k sf pt L sh mr bs order = update_safe_set L (certificate S sf pt) sh mr bs order.
Proof.
  intros S k sf pt L sh mr bs order n H E. destruct (l_adaptive L) eqn:A; [|now apply C105_not_adaptive].
  unfold update_typed. rewrite A. destruct H as [-> | ->]; cbn [as_int32 bind];
    unfold typed_certificate; rewrite E, trunc_IZR; unfold certificate; now rewrite E.
Qed.
Print Assumptions C105_whole_number.

(** What the refinement recorded for a safe state means when tau is a numpy number: the
    decrease condition with tau divided by it, though not strictly. *)
Theorem C105_condition : forall S sf pt L mr bs order L',
  consistent L -> sorts (l_vals L) order -> 0 <= tau S ->
  update_typed S NumpyFloat sf pt L true mr bs order = Ok L' ->
  forall x, (x < size L)%nat -> safe L' x -> ~ initially_safe L x ->
    0 <= lv_scalar S (pt x) -> 0 <= lf_scalar S (pt x) ->
    let N := refinement L' x in
    (1 <= N <= Z.max 1 mr)%Z /\ decrease S (pt x) < 0 /\
    decrease S (pt x) <= threshold S (pt x) (tau S / IZR N) /\
    (1 < sf -> decrease S (pt x) < threshold S (pt x) (tau S / IZR N)).
Proof.
  intros S sf pt L mr bs order L' HL Hs Ht EU x Hx Hsafe Hni Hlv Hlf N.
  unfold update_typed in EU.
  set (q := if l_adaptive L then trunc (tau S) else 0%Z).
  assert (Hq : 0 <= IZR q) by (unfold q; destruct (l_adaptive L); [now apply trunc_pos | lra]).
  assert (EU' : update_safe_set L (typed_certificate S q sf pt) true mr bs order = Ok L')
    by (unfold q; destruct (l_adaptive L); exact EU).
  clear EU. rename EU' into EU.
  destruct (update_run _ _ _ _ _ _ _ HL Hs EU) as (Hbs & Hn & K & E & RO).
  destruct (order_onto L order Hs x Hx) as (p & Hp & <-).
  assert (Eo : omask (l_init L) (nth p order 0%nat) = false).
  { destruct (omask _ _) eqn:Eo; auto. exfalso; apply Hni. now apply initially_safe_omask. }
  apply (safe_run _ _ _ _ _ _ _ _ _ HL Hs Hbs Hn RO p Hp) in Hsafe.
  destruct Hsafe as [|[HK|(_ & HS)]]; [tauto| |].
  2:{ rewrite S0_init_shrink in HS. congruence. }
  pose proof (ro_acc _ _ _ _ _ _ _ _ _ RO p HK Eo) as A. cbv zeta in A.
  unfold refinement in N. fold N in A.
  set (y := pt (nth p order 0%nat)) in *.
  assert (NEG : forall t, 0 <= t -> threshold S y t <= 0) by (intros; now apply threshold_neg).
  destruct A as [(A & ->)|[(_ & A & _)|(_ & _ & A & B & [(C & _)|(_ & C)])]].
  - cbn [neg typed_certificate certificate] in A. fold y in A. apply Rltb_true in A.
    pose proof (NEG _ Ht). replace (tau S / 1) with (tau S) by field. split; [lia|]. lra.
  - rewrite S0_init_shrink in A. congruence.
  - cbn [passes typed_certificate] in B. fold y in B. apply Rltb_true in B.
    cbn [nreq typed_certificate certificate] in C. fold y in C.
    assert (0 < IZR N) by (apply IZR_lt; lia).
    assert (D : decrease S y < 0).
    { apply Rlt_le_trans with (1 := B). apply NEG. apply Rmult_le_pos; [auto|]. left. now apply Rinv_0_lt_compat. }
    split; [lia|]. split; [exact D|]. rewrite C. split.
    + apply n_req_enough; auto. rewrite <- C. lia.
    + intros Hsf. apply n_req_more; auto. rewrite <- C. lia.
  - congruence.
Qed.
Print Assumptions C105_condition.

(** No smaller than what exact quotients would give. *)
Theorem C105_larger : forall S sf pt L mr bs order L1 L2,
  consistent L -> sorts (l_vals L) order -> 0 <= tau S ->
  (forall k, 0 <= lv_scalar S (pt k)) -> (forall k, 0 <= lf_scalar S (pt k)) ->
  update_safe_set L (certificate S sf pt) true mr bs order = Ok L1 ->
  update_typed S NumpyFloat sf pt L true mr bs order = Ok L2 ->
  forall x, (x < size L)%nat -> safe L1 x -> safe L2 x.
Proof.
  intros S sf pt L mr bs order L1 L2' HL Hs Ht Hlv Hlf U1 U2 x Hx.
  unfold update_typed in U2. destruct (l_adaptive L) eqn:A; cbn [as_int32 bind] in U2.
  - apply (update_mono (certificate S sf pt) (typed_certificate S (trunc (tau S)) sf pt)) with (L := L) (mr := mr) (bs := bs) (order := order); auto.
    intros j k n Hn. cbn [passes typed_certificate certificate].
    intros P. apply Rltb_true in P. apply Rltb_true. eapply Rlt_le_trans; [exact P|].
    assert (0 < IZR n) by (apply IZR_lt; lia).
    apply threshold_anti; auto. apply Rmult_le_compat_r; [left; now apply Rinv_0_lt_compat|]. now apply trunc_le.
  - rewrite (update_not_adaptive _ _ (certificate S sf pt)) in U2 by auto. congruence.
Qed.
Print Assumptions C105_larger.

(** The grid 0, 1 with V(x) = x (constant 1), the closed loop x -> -1 - 3x (constant 3) and
    tau = 1/2: at 0, V decreases by 1 and two points are required, for which it would have
    to decrease by more than 1. *)
Definition S5 : setup :=
  {| lyapunov_function := fun x => nth 0 x 0; policy := fun _ => [];
     dynamics := fun x _ => Exact [-1 - 3 * nth 0 x 0];
     lip_v := LvConst 1; lip_f := LfConst 3; tau := 1 / 2 |}.
Definition pt5 (k : nat) : list R := [INR k].

Lemma decrease5 k : decrease S5 (pt5 k) = -1 - 4 * INR k.
Proof. unfold decrease, v_decrease_bound, pt5; simpl. destruct k; simpl; lra. Qed.
Lemma threshold5 x t : threshold S5 x t = -4 * t.
Proof. unfold threshold, lv_scalar, lf_scalar; simpl. lra. Qed.
Lemma n_req5 : n_req S5 1 (pt5 0) = 2%Z.
Proof.
  unfold n_req. rewrite decrease5, threshold5. cbn [tau S5 INR].
  destruct Req_EM_T; [lra|]. rewrite (Rmax_left 1 1) by lra.
  replace (1 * (-4 * (1 / 2)) / (-1 - 4 * 0)) with 2 by field. rewrite Rmax_left by lra.
  pose proof (ceilR_spec 2) as (A & B).
  assert (ceilR 2 < 3)%Z by (apply lt_IZR; lra). assert (1 < ceilR 2)%Z by (apply lt_IZR; lra). lia.
Qed.

Lemma exact5 :
  update_safe_set (L2 [false; false] [0; 0]%Z 0) (certificate S5 1 pt5) true 5 1 [0; 1]%nat
  = Ok (L2 [false; false] [0; 0]%Z 1).
Proof.
  assert (G : forall C, neg C 0%nat = false -> nreq C 0%nat = 2%Z -> passes C 0%nat 0%nat 2%Z = false ->
     update_safe_set (L2 [false; false] [0; 0]%Z 0) C true 5 1 [0; 1]%nat = Ok (L2 [false; false] [0; 0]%Z 1)).
  { intros C H1 H3 H4. rewrite update_safe_set_eq. unfold L2; simpl. unfold batch_pass; simpl.
    rewrite H1; simpl. rewrite H3; simpl. rewrite H4; simpl. reflexivity. }
  apply G; cbn [neg nreq passes certificate].
  - apply Rltb_false. rewrite decrease5, threshold5. simpl. lra.
  - apply n_req5.
  - apply Rltb_false. rewrite decrease5, threshold5. simpl. lra.
Qed.

Lemma typed5 :
  update_typed S5 NumpyFloat 1 pt5 (L2 [false; false] [0; 0]%Z 0) true 5 1 [0; 1]%nat
  = Ok (L2 [true; true] [2; 1]%Z 0).
Proof.
  assert (G : forall C, neg C 0%nat = false -> neg C 1%nat = true -> nreq C 0%nat = 2%Z ->
     passes C 0%nat 0%nat 2%Z = true ->
     update_safe_set (L2 [false; false] [0; 0]%Z 0) C true 5 1 [0; 1]%nat
     = Ok (L2 [true; true] [2; 1]%Z 0)).
  { intros C H1 H2 H3 H4. rewrite update_safe_set_eq. unfold L2; simpl. unfold batch_pass; simpl.
    rewrite H1; simpl. rewrite H3; simpl. rewrite H4; simpl. rewrite H2. reflexivity. }
  unfold update_typed. cbn [l_adaptive L2 as_int32 bind tau S5].
  rewrite trunc_small by lra.
  apply G; cbn [neg nreq passes typed_certificate certificate].
  - apply Rltb_false. rewrite decrease5, threshold5. simpl. lra.
  - apply Rltb_true. rewrite decrease5, threshold5. simpl. lra.
  - apply n_req5.
  - apply Rltb_true. rewrite decrease5, threshold5. simpl. lra.
Qed.

(** The condition need not hold strictly ... *)
Theorem C105_strict_refuted : ~ forall S pt L mr bs order L',
  consistent L -> sorts (l_vals L) order -> 0 < tau S ->
  update_typed S NumpyFloat 1 pt L true mr bs order = Ok L' ->
  forall x, (x < size L)%nat -> safe L' x -> ~ initially_safe L x ->
    0 < lv_scalar S (pt x) -> 0 < lf_scalar S (pt x) ->
    decrease S (pt x) < threshold S (pt x) (tau S / IZR (refinement L' x)).
Proof.
  intros H.
  specialize (H S5 pt5 _ 5%Z 1%nat _ _ (consistent2 [false; false] [0; 0]%Z 0 eq_refl eq_refl) sorts2
    ltac:(simpl; lra) typed5 0%nat ltac:(unfold size; simpl; lia) eq_refl).
  assert (Hni : ~ initially_safe (L2 [false; false] [0; 0]%Z 0) 0).
  { intros (m & E & Hm). injection E as <-. discriminate. }
  specialize (H Hni ltac:(unfold lv_scalar; simpl; lra) ltac:(unfold lf_scalar; simpl; lra)).
  change (refinement (L2 [true; true] [2; 1]%Z 0) 0) with 2%Z in H.
  rewrite decrease5, threshold5 in H. simpl in H. lra.
Qed.
Print Assumptions C105_strict_refuted.

(** ... and the safe set can be larger than with exact quotients: here it is everything
    instead of nothing.  The documented kind of number fails. *)
Example C105_ex :
  update_safe_set (L2 [false; false] [0; 0]%Z 0) (certificate S5 1 pt5) true 5 1 [0; 1]%nat
    = Ok (L2 [false; false] [0; 0]%Z 1) /\
  update_typed S5 NumpyFloat 1 pt5 (L2 [false; false] [0; 0]%Z 0) true 5 1 [0; 1]%nat
    = Ok (L2 [true; true] [2; 1]%Z 0) /\
  update_typed S5 PythonFloat 1 pt5 (L2 [false; false] [0; 0]%Z 0) true 5 1 [0; 1]%nat = Err TypeError.
Proof. split; [apply exact5|]. split; [apply typed5|]. now apply C105_rejected; [|left]. Qed.
