(** Property C107: learning the Lyapunov function and the policy between updates of the
    safe set, as in examples/inverted_pendulum.ipynb (cells 17, 21 and 22). *)
From Coq Require Import Reals List Bool Arith ZArith Lia Lra Permutation.
From Verif Require Import Prelude ListFacts NumModel GridModel GridSpec GridProofs SafeModel
  SafeSpec SafeProofs CertModel CertSpec CertProofs UtilModel SampleModel SampleSpec SampleProofs
  LoopModel LoopSpec LoopProofs LoopWidths.
From Verif.Properties Require Import SafeProps CertProps LoopProps.
Import ListNotations.
Local Open Scope nat_scope.
Local Open Scope R_scope.

(** The object with the values that the Lyapunov function has now. *)
Definition with_current_values (g : grid) (S : setup) (L : lyap) : lyap :=
  {| l_init := l_init L; l_adaptive := l_adaptive L;
     l_vals := map (lyapunov_function S) (all_points g);
     l_safe := l_safe L; l_ref := l_ref L; l_cmax := l_cmax L |}.

(** A program without assignments is in state [now], where variables and data are those of
    [world now], and calls [update_safe_set].  The premises of C22 hold for the functions as
    they are now. *)
Record retrained {W} (leb : list R -> list R -> bool) (g : grid) (w0 : W) (S0 : W -> setup)
    (o0 : object W) (h : list (command W)) (F : list R -> list R) (sf lv lf : R)
    (now after : state W) : Prop := {
  rt_grid : valid_grid g;
  rt_new : exists ini ad, new_object g w0 S0 ini ad = Ok o0;
  rt_program : without is_assignment h /\ exists m, Forall (uses sf m) h;
  rt_now : now = run leb g (w0, o0) h;
  rt_update : exists mr bs order x0,
    step leb g now (UpdateSafeSet true mr sf bs order) = (after, Nothing) /\
    sorts (l_vals (book now)) order /\ (l_adaptive (book now) = false \/ (mr <= 1)%Z) /\
    at_position order 0 x0 /\ initially_safe (book now) x0;
  rt_premises : let S := S0 (world now) in
    premises g S F lv lf (with_current_values g S (book now)) (book after)
}.

Lemma retrained_update W leb g (w0 : W) S0 o0 h F sf lv lf now after :
  retrained leb g w0 S0 o0 h F sf lv lf now after ->
  consistent (book now) /\ size (book now) = length (all_points g) /\
  exists mr bs order x0,
    update_safe_set (book now) (certificate (S0 (world now)) sf (grid_point g)) true mr bs order
      = Ok (book after) /\
    sorts (l_vals (book now)) order /\ (l_adaptive (book now) = false \/ (mr <= 1)%Z) /\
    at_position order 0 x0 /\ initially_safe (book now) x0.
Proof.
  intros [VG (ini & ad & EN) (HA & m & HU) EW (mr & bs & order & x0 & ES & HS & Hr & Hx & Hi) PR].
  assert (SZ : sized g (book now)).
  { rewrite EW. apply sized_run; auto. now apply (sized_new g w0 S0 ini ad o0). }
  destruct SZ as (SZ & SZ'). split; [auto|]. split; [auto|].
  exists mr, bs, order, x0. split; [|auto].
  destruct (C71_reuse_invisible W leb g w0 S0 ini ad o0 h sf m EN HA HU) as (A & _).
  { rewrite <- EW. eapply C87_success_evaluates; rewrite ES; reflexivity. }
  specialize (A true mr bs order). cbn zeta in A. rewrite <- EW, ES in A. cbn [fst snd] in A.
  destruct update_safe_set; destruct A as (A1 & A2); congruence.
Qed.

(** If [update_values] is called after the last change of the variables, the level set of
    the Lyapunov function as it is now is invariant for the policy as it is now. *)
Theorem C107_current_values : forall W leb g (w0 : W) S0 o0 h F sf lv lf now after,
  retrained leb g w0 S0 o0 (h ++ [UpdateValues]) F sf lv lf now after ->
  let S := S0 (world now) in
  forall x n, length x = dims g -> lyapunov_function S x < l_cmax (book after) - lv * tau S ->
    lyapunov_function S (iterate n F x) < l_cmax (book after) - lv * tau S.
Proof.
  intros W leb g w0 S0 o0 h F sf lv lf now after RT S x n Hx HV.
  destruct (retrained_update _ _ _ _ _ _ _ _ _ _ _ _ _ RT)
    as (HC & Hsz & mr & bs & order & x0 & EU & HS & Hr & Hp & Hi).
  destruct RT as [VG (ini & ad & EN) (HA & m & HU) EW (mr' & bs' & order' & x0' & ES & _) PR].
  cbn zeta in PR. fold S in PR, EU.
  assert (EV : evaluates leb g now) by (eapply C87_success_evaluates; rewrite ES; reflexivity).
  assert (EV1 : evaluates leb g (run leb g (w0, o0) h)).
  { apply evaluates_iff. apply evaluates_iff in EV. rewrite EW, run_app, run_cons in EV.
    destruct (run leb g (w0, o0) h) as [w o]. cbn in EV |- *. unfold ob_update_values in EV.
    destruct (ob_stuck o) eqn:E; [|reflexivity]. cbn in EV. congruence. }
  assert (EL : l_vals (book now) = map (lyapunov_function S) (all_points g)).
  { rewrite EW at 1. destruct (C71_values W leb g w0 S0 ini ad o0 h [] EN) as (_ & A); [constructor|].
    rewrite (A EV1). unfold S. rewrite EW, run_app, run_cons.
    destruct (run leb g (w0, o0) h) as [w o]. cbn. destruct ob_update_values; reflexivity. }
  assert (EC : with_current_values g S (book now) = book now).
  { unfold with_current_values. rewrite <- EL. now destruct (book now). }
  rewrite EC in PR.
  apply (C22_forward_invariance g S F lv lf sf (book now) (book after) mr bs order x0
           VG HC PR Hr HS EU Hp (or_intror Hi) x n Hx HV).
Qed.
Print Assumptions C107_current_values.

(** Without [update_values] the states are still ordered by the function of the
    construction: a safe state outside of the initial set decreases the function of now, but
    the states that come with it are those with smaller values of the old function. *)
Theorem C107_old_values : forall W leb g (w0 : W) S0 o0 h F sf lv lf now after,
  retrained leb g w0 S0 o0 h F sf lv lf now after -> without is_values h ->
  let S := S0 (world now) in let V0 := lyapunov_function (S0 w0) in
  (exists k, (k < length (all_points g))%nat /\ l_cmax (book after) = V0 (grid_point g k)) /\
  forall k, (k < length (all_points g))%nat -> safe (book after) k -> ~ initially_safe (book now) k ->
    decrease S (grid_point g k) < threshold S (grid_point g k) (tau S) /\
    forall j, (j < length (all_points g))%nat -> V0 (grid_point g j) < V0 (grid_point g k) ->
      safe (book after) j.
Proof.
  intros W leb g w0 S0 o0 h F sf lv lf now after RT NV S V0.
  destruct (retrained_update _ _ _ _ _ _ _ _ _ _ _ _ _ RT)
    as (HC & Hsz & mr & bs & order & x0 & EU & HS & Hr & Hp & Hi).
  destruct RT as [VG (ini & ad & EN) (HA & m & HU) EW _ _]. fold S in EU.
  assert (EL : l_vals (book now) = map V0 (all_points g)).
  { rewrite EW. destruct (C71_values W leb g w0 S0 ini ad o0 [] h EN NV) as (A & _). exact A. }
  pose proof (all_points_length g VG) as AL.
  assert (Hval : forall k, (k < length (all_points g))%nat -> value (book now) k = V0 (grid_point g k)).
  { intros k Hk. destruct (grid_point_vertex g k VG ltac:(lia)) as (_ & Ep).
    unfold value. rewrite EL, nth_map' with (d' := []) by lia. now rewrite Ep. }
  split.
  - destruct (C17_below_level_is_safe _ _ _ _ _ _ _ _ HC HS EU Hp (or_intror Hi)) as (_ & k & K1 & K2 & K3).
    exists k. rewrite <- Hsz. split; [auto|]. rewrite <- K3. apply Hval. now rewrite <- Hsz.
  - intros k Hk Hsafe Hni.
    destruct (C15_sublevel_set _ _ _ _ _ _ HC HS Hr EU k ltac:(lia)) as (_ & B).
    destruct (B Hsafe Hni) as (B1 & B2). split.
    + apply Rltb_true. exact B1.
    + intros j Hj Hlt.
      apply (C15_sublevel_set _ _ _ _ _ _ HC HS Hr EU j ltac:(lia)).
      intros y Hy Hyj. apply B2; auto. rewrite <- !Hval in Hlt by assumption. lra.
Qed.
Print Assumptions C107_old_values.

(** ** The level set of the retrained function need not be invariant

    The grid -4, ..., 4, first with V(x) = |x|, then with V(x) = |x - 2|.  The closed loop
    maps to 2 what is below 5/2 and grows with slope 4 from there on.  The initial set is
    {0, 1, 2}. *)
Definition F11 (x : list R) : list R := [2 + Rmax 0 (4 * (nth 0 x 0 - 5 / 2))].
Definition V11 (w : bool) (x : list R) : R := if w then Rabs (nth 0 x 0 - 2) else absV x.
Definition S11 (w : bool) : setup :=
  {| lyapunov_function := V11 w; policy := fun _ => []; dynamics := fun x _ => Exact (F11 x);
     lip_v := LvConst 1; lip_f := LfConst 4; tau := 1 / 2 |}.
Definition mask11 : list bool := [false; false; false; false; true; true; true; false; false].
Definition order11 : list nat := [4; 3; 5; 2; 6; 7; 1; 8; 0]%nat.
Definition L11 : lyap :=
  {| l_init := Some mask11; l_adaptive := false; l_vals := vals9; l_safe := mask11;
     l_ref := [0; 0; 0; 0; 1; 1; 1; 0; 0]%Z; l_cmax := 0 |}.
Definition L11' : lyap :=
  {| l_init := Some mask11; l_adaptive := false; l_vals := vals9;
     l_safe := [false; false; true; true; true; true; true; false; false];
     l_ref := [0; 0; 1; 1; 1; 1; 1; 0; 0]%Z; l_cmax := nth 6 vals9 0 |}.

Lemma order11_sorts : sorts vals9 order11.
Proof.
  split.
  - rewrite vals9_length. apply NoDup_Permutation.
    + repeat constructor; simpl; intuition lia.
    + apply seq_NoDup.
    + intros x. rewrite in_seq. unfold order11; simpl. lia.
  - rewrite vals9_length. intros p q H1 H2.
    assert (A : forall k, (k < 9)%nat -> (nth k order11 0 < 9)%nat).
    { intros k Hk. do 9 (destruct k as [|k]; [simpl; lia|]). lia. }
    rewrite !vals9_nth by (apply A; lia).
    assert (B : forall k, (k < 8)%nat ->
       Rabs (-4 + INR (nth k order11 0%nat)) <= Rabs (-4 + INR (nth (Datatypes.S k) order11 0%nat))).
    { intros k Hk. do 8 (destruct k as [|k]; [simpl; unfold Rabs; repeat destruct Rcase_abs; lra|]).
      lia. }
    clear A. induction q as [|q IH]; [lia|].
    destruct (Nat.eq_dec p q) as [->|]; [apply B; lia|].
    apply Rle_trans with (Rabs (-4 + INR (nth q order11 0%nat))); [apply IH; lia|].
    apply B; lia.
Qed.

Lemma neg11 k : (k < 9)%nat -> neg (certificate (S11 true) 1 (grid_point g9)) k =
  nth k [true; true; true; true; false; false; false; false; false] false.
Proof.
  intros H. simpl. rewrite point9 by auto.
  unfold decrease, v_decrease_bound, threshold, lv_scalar, lf_scalar; simpl.
  unfold F11, Rmax; simpl.
  do 9 (destruct k as [|k]; [simpl;
     first [apply Rltb_true | apply Rltb_false];
     unfold Rabs; repeat destruct Rcase_abs; repeat destruct Rle_dec; lra|]). lia.
Qed.
Lemma update11 : update_safe_set L11 (certificate (S11 true) 1 (grid_point g9)) true 1 9 order11 = Ok L11'.
Proof.
  rewrite (update_ext _ _ {| neg := fun k => nth k [true; true; true; true; false; false; false; false; false] false;
     nreq := fun _ => 0%Z; passes := fun _ _ _ => false |}).
  - rewrite update_safe_set_eq. unfold L11, L11'. simpl l_vals.
    remember vals9 as v eqn:Ev. pose proof vals9_length as E. rewrite <- Ev in E.
    destruct v as [|v0 [|v1 [|v2 [|v3 [|v4 [|v5 [|v6 [|v7 [|v8 [|]]]]]]]]]]; try discriminate E.
    reflexivity.
  - intros x Hx. rewrite neg11; [reflexivity|]. unfold order11 in Hx; simpl in Hx; lia.
  - reflexivity.
Qed.
Lemma cmax11 : l_cmax L11' = 2.
Proof. change (nth 6 vals9 0 = 2). rewrite vals9_nth by lia. simpl. unfold Rabs; destruct Rcase_abs; lra. Qed.

Definition o11 (L : lyap) (gr : option (update_graph bool)) : object bool :=
  {| ob_setup := S11; ob_lyap := L; ob_values := fun w => lyapunov_function (S11 w);
     ob_update := gr; ob_sample := None; ob_stuck := false |}.
Lemma new11 : new_object g9 false S11 (Some mask11) false = Ok (o11 L11 None).
Proof.
  unfold new_object, o11, L11. change (map (lyapunov_function (S11 false)) (all_points g9)) with vals9.
  remember vals9 as v eqn:Ev. pose proof vals9_length as E. rewrite <- Ev in E.
  destruct v as [|v0 [|v1 [|v2 [|v3 [|v4 [|v5 [|v6 [|v7 [|v8 [|]]]]]]]]]]; try discriminate E.
  reflexivity.
Qed.
Definition graph11 : update_graph bool :=
  {| ug_setup := S11; ug_factor := 1; ug_adaptive := false |}.
Lemma step11 leb : step leb g9 (true, o11 L11 None) (UpdateSafeSet true 1 1 9 order11)
  = ((true, o11 L11' (Some graph11)), Nothing).
Proof.
  unfold step, ob_update_safe_set, o11. cbn [ob_update ob_setup ob_lyap ob_values ob_sample ob_stuck].
  change (Bool.eqb _ _) with true. cbn [andb]. cbv iota. cbn [ug_setup ug_factor].
  rewrite (proj2 (effect_ok _ _ _ _ _ _ _) update11). reflexivity.
Qed.
Lemma premises11 : premises g9 (S11 true) F11 1 4 (with_current_values g9 (S11 true) L11) L11'.
Proof.
  constructor; try reflexivity; try lra.
  - intros x y (Hx & _) (Hy & _). simpl. apply one_dim in Hx, Hy. rewrite Hx, Hy. simpl.
    unfold dist1; simpl. rewrite Rplus_0_r.
    pose proof (Rabs_triang_inv2 (nth 0 x 0 - 2) (nth 0 y 0 - 2)) as T.
    replace (nth 0 x 0 - 2 - (nth 0 y 0 - 2)) with (nth 0 x 0 - nth 0 y 0) in T by lra. lra.
  - intros x y Hx _ Hy _. apply one_dim in Hx, Hy. rewrite Hx, Hy. simpl.
    unfold dist1, F11; simpl. rewrite !Rplus_0_r.
    unfold Rmax. repeat destruct Rle_dec; unfold Rabs; repeat destruct Rcase_abs; lra.
  - simpl. unfold upper, lower; simpl. lra.
  - intros x Hx HV. rewrite cmax11 in HV. intros j Hj. change (dims g9) with 1%nat in Hj.
    assert (j = 0%nat) by lia. subst j. unfold lower, upper; simpl.
    simpl in HV. unfold coordinate. apply Rabs_def2 in HV. lra.
  - intros k x (m & Em & Hk) Hx Hd HV. rewrite cmax11 in *. simpl in Em.
    injection Em as <-.
    assert (Hk9 : (4 <= k <= 6)%nat).
    { destruct (Nat.lt_ge_cases k 9); [|rewrite nth_overflow in Hk by (simpl; lia); discriminate].
      do 9 (destruct k as [|k]; [simpl in Hk; try discriminate; lia|]). lia. }
    rewrite point9 in Hd by lia. apply one_dim in Hx. rewrite Hx in *. simpl in *.
    unfold dist1 in Hd; simpl in Hd.
    assert (HR : 4 <= INR k <= 6).
    { split; [replace 4 with (INR 4) by (simpl; lra)|replace 6 with (INR 6) by (simpl; lra)];
        apply le_INR; lia. }
    assert (nth 0 x 0 <= 5 / 2).
    { unfold Rabs in Hd. destruct Rcase_abs; lra. }
    rewrite Rmax_left by lra. replace (2 + 0 - 2) with 0 by lra. rewrite Rabs_R0. lra.
Qed.
Lemma retrained11 leb : retrained leb g9 false S11 (o11 L11 None) [SetWorld true] F11 1 1 4
  (true, o11 L11 None) (true, o11 L11' (Some graph11)).
Proof.
  constructor; auto using g9_valid, premises11.
  - exists (Some mask11), false. apply new11.
  - split; [repeat constructor; intros []|]. exists 1%nat. repeat constructor.
  - exists 1%Z, 9%nat, order11, 4%nat. split; [apply step11|]. split; [apply order11_sorts|].
    split; [now left|]. split; [split; [simpl; lia|reflexivity]|]. exists mask11. split; reflexivity.
Qed.

Theorem C107_old_values_refuted :
  ~ forall W leb g (w0 : W) S0 o0 h F sf lv lf now after,
    retrained leb g w0 S0 o0 h F sf lv lf now after -> without is_values h ->
    let S := S0 (world now) in
    forall x, length x = dims g -> lyapunov_function S x < l_cmax (book after) - lv * tau S ->
      lyapunov_function S (F x) < l_cmax (book after) - lv * tau S.
Proof.
  intros H.
  specialize (H bool (fun _ _ => true) g9 false S11 _ _ F11 1 1 4 _ _ (retrained11 _)).
  cbn zeta in H. specialize (H ltac:(repeat constructor; intros []) [3] eq_refl).
  cbn [book world fst snd ob_lyap o11 S11 lyapunov_function tau V11 nth] in H. rewrite cmax11 in H.
  unfold F11 in H. cbn [nth] in H. rewrite Rmax_right in H by lra.
  rewrite !Rabs_right in H by lra. lra.
Qed.
Print Assumptions C107_old_values_refuted.

(** The same program with [update_values] ends with the level 1 and the initial set. *)
Definition vals12 : list R := map (V11 true) (all_points g9).
Definition order12 : list nat := [6; 5; 7; 4; 8; 3; 2; 1; 0]%nat.
Definition L12 (c : R) : lyap :=
  {| l_init := Some mask11; l_adaptive := false; l_vals := vals12; l_safe := mask11;
     l_ref := [0; 0; 0; 0; 1; 1; 1; 0; 0]%Z; l_cmax := c |}.
Lemma vals12_length : length vals12 = 9%nat.
Proof. unfold vals12. rewrite map_length. pose proof vals9_length as E. unfold vals9 in E. now rewrite map_length in E. Qed.
Lemma vals12_nth k : (k < 9)%nat -> nth k vals12 0 = Rabs (-6 + INR k).
Proof.
  intros H. unfold vals12. pose proof vals12_length as E. unfold vals12 in E. rewrite map_length in E.
  rewrite nth_map' with (d' := []) by lia.
  destruct (grid_point_vertex g9 k g9_valid) as (_ & Ep).
  { pose proof (all_points_length g9 g9_valid). lia. }
  rewrite <- Ep, point9 by exact H. cbn. f_equal. lra.
Qed.
Lemma order12_sorts : sorts vals12 order12.
Proof.
  split.
  - rewrite vals12_length. apply NoDup_Permutation.
    + repeat constructor; simpl; intuition lia.
    + apply seq_NoDup.
    + intros x. rewrite in_seq. unfold order12; simpl. lia.
  - rewrite vals12_length. intros p q H1 H2.
    assert (A : forall k, (k < 9)%nat -> (nth k order12 0 < 9)%nat).
    { intros k Hk. do 9 (destruct k as [|k]; [simpl; lia|]). lia. }
    rewrite !vals12_nth by (apply A; lia).
    assert (B : forall k, (k < 8)%nat ->
       Rabs (-6 + INR (nth k order12 0%nat)) <= Rabs (-6 + INR (nth (Datatypes.S k) order12 0%nat))).
    { intros k Hk. do 8 (destruct k as [|k]; [simpl; unfold Rabs; repeat destruct Rcase_abs; lra|]).
      lia. }
    clear A. induction q as [|q IH]; [lia|].
    destruct (Nat.eq_dec p q) as [->|]; [apply B; lia|].
    apply Rle_trans with (Rabs (-6 + INR (nth q order12 0%nat))); [apply IH; lia|].
    apply B; lia.
Qed.
Lemma update12 : update_safe_set (L12 0) (certificate (S11 true) 1 (grid_point g9)) true 1 9 order12
  = Ok (L12 (nth 5 vals12 0)).
Proof.
  rewrite (update_ext _ _ {| neg := fun k => nth k [true; true; true; true; false; false; false; false; false] false;
     nreq := fun _ => 0%Z; passes := fun _ _ _ => false |}).
  - rewrite update_safe_set_eq. unfold L12. simpl l_vals.
    remember vals12 as v eqn:Ev. pose proof vals12_length as E. rewrite <- Ev in E.
    destruct v as [|v0 [|v1 [|v2 [|v3 [|v4 [|v5 [|v6 [|v7 [|v8 [|]]]]]]]]]]; try discriminate E.
    reflexivity.
  - intros x Hx. rewrite neg11; [reflexivity|]. unfold order12 in Hx; simpl in Hx; lia.
  - reflexivity.
Qed.
Lemma step12 leb : step leb g9 (true, o11 (L12 0) None) (UpdateSafeSet true 1 1 9 order12)
  = ((true, o11 (L12 (nth 5 vals12 0)) (Some graph11)), Nothing).
Proof.
  unfold step, ob_update_safe_set, o11. cbn [ob_update ob_setup ob_lyap ob_values ob_sample ob_stuck].
  change (Bool.eqb _ _) with true. cbn [andb]. cbv iota. cbn [ug_setup ug_factor].
  rewrite (proj2 (effect_ok _ _ _ _ _ _ _) update12). reflexivity.
Qed.
Lemma cmax12 : nth 5 vals12 0 = 1.
Proof. rewrite vals12_nth by lia. simpl. unfold Rabs; destruct Rcase_abs; lra. Qed.
Example C107_ex leb :
  retrained leb g9 false S11 (o11 L11 None) ([SetWorld true] ++ [UpdateValues]) F11 1 1 4
    (true, o11 (L12 0) None) (true, o11 (L12 1) (Some graph11)) /\
  forall a n, Rabs (a - 2) < 1 / 2 -> V11 true (iterate n F11 [a]) < 1 / 2.
Proof.
  assert (RT : retrained leb g9 false S11 (o11 L11 None) ([SetWorld true] ++ [UpdateValues]) F11 1 1 4
    (true, o11 (L12 0) None) (true, o11 (L12 1) (Some graph11))).
  { constructor; auto using g9_valid.
    - exists (Some mask11), false. apply new11.
    - split; [repeat constructor; intros []|]. exists 1%nat. repeat constructor.
    - exists 1%Z, 9%nat, order12, 6%nat. split; [rewrite step12, cmax12; reflexivity|].
      split; [apply order12_sorts|].
      split; [now left|]. split; [split; [simpl; lia|reflexivity]|]. exists mask11. split; reflexivity.
    - destruct premises11 as [P1 P2 P3 P4 P5 P6 P7 P8 P9 P10 P11 P12].
      constructor; auto.
      + intros x Hx HV. apply P11; auto. rewrite cmax11. cbn in HV |- *. lra.
      + intros k x Hk Hx Hd HV. pose proof (P12 k x Hk Hx Hd) as Q. rewrite cmax11 in Q.
        cbn in HV, Q |- *. destruct Hk as (m & Em & Hk). cbn in Em. injection Em as <-.
        assert (Hk9 : (4 <= k <= 6)%nat).
        { destruct (Nat.lt_ge_cases k 9); [|rewrite nth_overflow in Hk by (simpl; lia); discriminate].
          do 9 (destruct k as [|k]; [simpl in Hk; try discriminate; lia|]). lia. }
        rewrite point9 in Hd by lia. apply one_dim in Hx. rewrite Hx in Hd.
        unfold dist1 in Hd; simpl in Hd.
        assert (HR : 4 <= INR k <= 6).
        { split; [replace 4 with (INR 4) by (simpl; lra)|replace 6 with (INR 6) by (simpl; lra)];
            apply le_INR; lia. }
        assert (nth 0 x 0 <= 5 / 2).
        { unfold Rabs in Hd. destruct Rcase_abs; lra. }
        rewrite Rmax_left by lra. replace (2 + 0 - 2) with 0 by lra. rewrite Rabs_R0. lra. }
  split; [exact RT|]. intros a n Ha.
  pose proof (C107_current_values _ _ _ _ _ _ _ _ _ _ _ _ _ RT [a] n eq_refl) as H.
  cbn [book world fst snd ob_lyap o11 S11 lyapunov_function tau V11 nth L12 l_cmax] in H.
  cbn [V11]. lra.
Qed.
