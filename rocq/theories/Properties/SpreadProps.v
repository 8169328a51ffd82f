(** Property C122: error bounds away from the data, and what they are good for. *)
From Coq Require Import Reals List Bool Arith ZArith Lra Lia.
From Verif Require Import Prelude NumModel ListFacts GridModel SafeModel CertModel UtilModel SampleModel LoopModel.
From Verif Require Import GPModel GPSpec RField GPLoopModel.
From Verif Require Import GridSpec SafeSpec CertSpec SampleSpec LoopSpec GPLoopSpec RefineSpec.
From Verif Require Import GridProofs SafeProofs CertProofs SampleProofs LoopProofs LoopWidths CholProofs GPLoopProofs ExploreSpec ExploreProofs SpreadSpec SpreadProofs.
From Verif Require Import Properties.SafeProps Properties.CertProps Properties.SampleProps Properties.GridProps Properties.LoopProps Properties.RefineProps Properties.GPLoopProps Properties.ExploreProps.
Import ListNotations.
Local Open Scope R_scope.

Lemma stack_spread w x z ms : forall k, (forall me, In me ms -> sensible me) -> even_white_noise ms ->
  sum (map snd (stack_from k ms w x)) <= sum (map snd (stack_from k ms w z)) + stack_distance ms x z.
Proof.
  unfold stack_distance. induction ms as [|me ms IH]; intros k HS HW; cbn; [lra|].
  assert (H1 : forall me', In me' ms -> sensible me') by (intros; apply HS; now right).
  assert (H2 : even_white_noise ms) by (intros me' x' z' H; apply HW; now right).
  specialize (IH (Datatypes.S k) H1 H2).
  pose proof (member_spread k w (HS me (or_introl eq_refl)) (HW me x z (or_introl eq_refl))) as HM.
  unfold sum in *. cbn [fold_right map]. lra.
Qed.
Lemma kernel_distance_sym me x z : sensible me -> kernel_distance (me_kern me) z x = kernel_distance (me_kern me) x z.
Proof.
  intros [(H & _) _ _ _ _ _]. unfold kernel_distance. f_equal. rewrite (H z x). ring.
Qed.
Lemma stack_distance_sym ms x z : (forall me, In me ms -> sensible me) -> stack_distance ms z x = stack_distance ms x z.
Proof.
  intros H. unfold stack_distance. f_equal. apply map_ext_in. intros me Hm. now rewrite kernel_distance_sym by auto.
Qed.

(** The reported bounds vary no faster than the distance that belongs to the kernels,
    whatever was measured. *)
Theorem C122_bounds_vary : forall V pi lv lf tau ms w s u s' u',
  (forall me, In me ms -> sensible me) -> even_white_noise ms ->
  let S0 := learner V pi lv lf tau ms w in
  Rabs (uncertainty S0 s u - uncertainty S0 s' u') <= stack_distance ms (s ++ u) (s' ++ u').
Proof.
  intros V pi lv lf tau ms w s u s' u' HS HW S0. unfold uncertainty, S0, learner, stack_dynamics. cbn [dynamics].
  pose proof (stack_spread w (s ++ u) (s' ++ u') ms 0 HS HW) as H1.
  pose proof (stack_spread w (s' ++ u') (s ++ u) ms 0 HS HW) as H2.
  rewrite stack_distance_sym in H2 by auto. apply Rabs_le. lra.
Qed.
Print Assumptions C122_bounds_vary.

(** Near a point that was measured [n] times the bounds are small. *)
Theorem C122_near_measurements : forall V pi lv lf tau ms w s u z n,
  (forall me, In me ms -> sensible me) -> no_white_noise ms ->
  (0 < n <= times_measured w z)%nat ->
  uncertainty (learner V pi lv lf tau ms w) s u <= noise_bound ms n + stack_distance ms (s ++ u) z.
Proof.
  intros V pi lv lf tau ms w s u z n HS HW Hn. unfold uncertainty, learner, stack_dynamics. cbn [dynamics].
  assert (HE : even_white_noise ms) by (intros me x y H; rewrite !HW by auto; lra).
  apply Rle_trans with (1 := stack_spread w (s ++ u) z ms 0 HS HE). apply Rplus_le_compat_r.
  unfold noise_bound. generalize 0%nat. induction ms as [|me ms IH]; intros k; cbn; [lra|].
  pose proof (repeated_bound k (HS me (or_introl eq_refl)) (HW me z (or_introl eq_refl)) (proj1 Hn) (proj2 Hn)) as H.
  assert (H1 : sum (map snd (stack_from (Datatypes.S k) ms w z)) <= sum (map (fun me0 => me_beta me0 * sqrt (me_noise me0 / INR n)) ms)).
  { apply IH; intros me'; [|intros x Hm|intros x y Hm]; [intros Hm; apply HS| apply HW|apply HE]; now right. }
  unfold sum in *. cbn [fold_right map]. lra.
Qed.
Print Assumptions C122_near_measurements.

(** The tested bound on the decrease. *)
Lemma gp_decrease V pi F lv lf tau ms w g x e : 0 <= lv ->
  (forall y z, length y = dims g -> length z = dims g -> Rabs (V y - V z) <= lv * dist1 y z) ->
  (forall me, In me ms -> sensible me) -> length ms = dims g -> measured ms F w -> length (F (x ++ pi x)) = dims g ->
  uncertainty (learner V pi lv lf tau ms w) x (pi x) <= e ->
  decrease (learner V pi lv lf tau ms w) x <= V (F (x ++ pi x)) - V x + 2 * lv * e.
Proof.
  intros P1 HV HS HL HM LF He.
  destruct (C90_bounds_contain ms F w x (pi x) HS HM ltac:(congruence)) as (mean & err & E & L1 & L2 & W).
  unfold uncertainty in He. unfold decrease, v_decrease_bound, v_decrease_confidence. cbn [learner dynamics policy lyapunov_function] in *.
  rewrite E in *. unfold weighted_error. cbn [learner lip_v]. rewrite sum_scale.
  assert (D : dist1 mean (F (x ++ pi x)) <= sum err).
  { apply dist1_nth_le; try congruence. intros j Hj. rewrite Rabs_minus_sym. apply W. congruence. }
  pose proof (HV mean (F (x ++ pi x)) ltac:(congruence) LF) as HV'.
  assert (lv * dist1 mean (F (x ++ pi x)) <= lv * e) by (apply Rmult_le_compat_l; lra).
  assert (lv * sum err <= lv * e) by (apply Rmult_le_compat_l; lra).
  pose proof (Rle_abs (V mean - V (F (x ++ pi x)))). lra.
Qed.

Section Update.
  Variables (leb : list R -> list R -> bool) (g : grid) (V : list R -> R) (pi F : list R -> list R).
  Variables (lv lf tau : R) (ms : list member) (sf : R) (m : nat) (perts : list (list R)).
  Variables (limits : option (list (R * R))) (st : state dataset).
  Hypothesis X : explorer g V pi lv lf tau ms m perts limits st.
  Let S0 := learner V pi lv lf tau ms.

  Lemma values_now h : l_vals (book (run leb g st h)) = map V (all_points g).
  Proof.
    destruct X as [X1 X2 X3 X4 X5 X6 (ini & ad & A1)]. destruct st as [w0 o0]. cbn [world fst snd] in A1. apply vals_run.
    - unfold new_object in A1. destruct lyap_init; [|discriminate]. now injection A1 as <-.
    - unfold book. cbn. unfold new_object in A1. destruct lyap_init eqn:E; [|discriminate].
      cbn [bind] in A1. injection A1 as <-. cbn.
      unfold lyap_init in E. destruct assign_opt; [|discriminate]. cbn [bind] in E.
      destruct assign_opt; [|discriminate]. cbn [bind] in E. now injection E as <-.
  Qed.
  Lemma value_now h k : (k < size (book (run leb g st h)))%nat -> value (book (run leb g st h)) k = V (grid_point g k) /\ is_vertex g (grid_point g k).
  Proof.
    intros Hk. pose proof (values_now h) as HV. pose proof (xp_grid _ _ _ _ _ _ _ _ _ _ _ X) as HG.
    unfold size in Hk. rewrite HV, map_length in Hk.
    assert (Hi : (Z.of_nat k < nindex g)%Z) by (rewrite <- (all_points_length g HG); lia).
    destruct (grid_point_vertex g k HG Hi) as (Hv & E). split; [|exact Hv]. rewrite E.
    unfold value. rewrite HV. rewrite nth_indep with (d' := V []) by now rewrite map_length. apply map_nth.
  Qed.
  Lemma size_now h : size (book (run leb g st h)) = length (all_points g).
  Proof. unfold size. now rewrite values_now, map_length. Qed.

  Lemma update_covers h mr bs order after mu c e :
    without is_assignment h -> Forall (uses sf m) h ->
    let now := run leb g st h in
    step leb g now (UpdateSafeSet true mr sf bs order) = (after, Nothing) ->
    sorts (l_vals (book now)) order -> l_adaptive (book now) = false \/ (mr <= 1)%Z ->
    0 <= lv -> (forall y z, length y = dims g -> length z = dims g -> Rabs (V y - V z) <= lv * dist1 y z) ->
    (forall x, length (F x) = dims g) -> measured ms F (world now) ->
    lv * (1 + lf) * tau + 2 * lv * e < mu ->
    (forall x, is_vertex g x -> V x <= c -> initial_state g (book now) x \/
       (V (F (x ++ pi x)) - V x <= - mu /\ uncertainty (S0 (world now)) x (pi x) <= e)) ->
    forall k, (k < length (all_points g))%nat -> V (grid_point g k) <= c -> safe (book after) k.
  Proof.
    intros HA HU now ES Hs Hact P1 HV LF HM Hm Hdec k Hk Hc.
    pose proof X as [X1 X2 X3 X4 X5 X6 (ini & ad & X7)].
    assert (Est : st = (world st, snd st)) by (destruct st; reflexivity).
    assert (EU : update_safe_set (book now) (certificate (S0 (world now)) sf (grid_point g)) true mr bs order = Ok (book after)).
    { destruct (C71_reuse_invisible dataset leb g (world st) S0 ini ad (snd st) h sf m X7 HA HU) as (A & _).
      { rewrite <- Est. fold now. eapply C87_success_evaluates; rewrite ES; reflexivity. }
      specialize (A true mr bs order). cbn zeta in A. rewrite <- Est in A. fold now in A. rewrite ES in A. cbn [fst snd] in A.
      destruct update_safe_set; destruct A as (A1 & A2); congruence. }
    assert (SZ : sized g (book now)) by (apply sized_run; auto; rewrite Est; eapply sized_new; eauto).
    destruct SZ as (HL & _).
    assert (Hk' : (k < size (book now))%nat) by (unfold now; now rewrite size_now).
    apply (C15_sublevel_set (book now) _ mr bs order (book after) HL Hs Hact EU k Hk').
    intros y Hy Hle. destruct (value_now h y Hy) as (E1 & Hv). destruct (value_now h k Hk') as (E2 & _).
    fold now in E1, E2. rewrite E1, E2 in Hle.
    destruct (Hdec _ Hv ltac:(lra)) as [I|(D & U)].
    - right. destruct I as (j & (mk & Em & Ek) & E).
      assert (Hj : (j < size (book now))%nat).
      { rewrite <- (cons_init _ HL _ Em). destruct (Nat.lt_ge_cases j (length mk)); auto.
        rewrite nth_overflow in Ek by auto. discriminate. }
      assert (j = y); [|subst; now exists mk].
      unfold now in Hj, Hy. rewrite size_now in Hj, Hy.
      assert (B : forall i, (i < length (all_points g))%nat -> grid_point g i = nth i (all_points g) []).
      { intros i Hi. apply grid_point_vertex; auto. rewrite <- (all_points_length g X1). lia. }
      rewrite !B in E by auto.
      apply (proj1 (NoDup_nth (all_points g) []) (all_points_NoDup g X1)); auto.
    - left. cbn [neg certificate]. apply Rltb_true. unfold threshold, lv_scalar, lf_scalar. cbn [S0 learner lip_v lip_f].
      pose proof (gp_decrease V pi F lv lf tau ms (world now) g _ e P1 HV X4 X3 HM (LF _) U) as HD.
      unfold S0. cbn [learner CertModel.tau] in *. lra.
  Qed.
End Update.

(** Where the true system decreases by more than the tested amount, measurements
    nearby are enough for [update_safe_set]. *)
Theorem C122_measured_region_is_safe : forall leb g V pi lv lf tau ms sf m perts limits st h F mr bs order after mu c e,
  explorer g V pi lv lf tau ms m perts limits st -> no_white_noise ms ->
  without is_assignment h -> Forall (uses sf m) h ->
  let now := run leb g st h in
  step leb g now (UpdateSafeSet true mr sf bs order) = (after, Nothing) ->
  sorts (l_vals (book now)) order -> l_adaptive (book now) = false \/ (mr <= 1)%Z ->
  0 <= lv -> (forall y z, length y = dims g -> length z = dims g -> Rabs (V y - V z) <= lv * dist1 y z) ->
  (forall x, length (F x) = dims g) -> measured ms F (world now) ->
  lv * (1 + lf) * tau + 2 * lv * e < mu ->
  (forall x, is_vertex g x -> V x <= c -> initial_state g (book now) x \/
     (V (F (x ++ pi x)) - V x <= - mu /\
      exists z n, (0 < n <= times_measured (world now) z)%nat /\ noise_bound ms n + stack_distance ms (x ++ pi x) z <= e)) ->
  forall k, (k < length (all_points g))%nat -> V (grid_point g k) <= c -> safe (book after) k.
Proof.
  intros leb g V pi lv lf tau ms sf m perts limits st h F mr bs order after mu c e X KD HA HU now ES Hs Hact P1 HV LF HM Hmu Hdec.
  refine (update_covers leb g V pi F lv lf tau ms sf m perts limits st X h mr bs order after mu c e HA HU ES Hs Hact P1 HV LF HM Hmu _).
  intros x Hx Hc. destruct (Hdec x Hx Hc) as [I|(D & z & n & Hn & Hz)]; [now left|]. right. split; [exact D|].
  apply Rle_trans with (2 := Hz). apply C122_near_measurements; auto. apply X.
Qed.
Print Assumptions C122_measured_region_is_safe.

(** Long explorations come to a call before which [update_safe_set] would find all
    states up to a level: those where the true system decreases by more than the
    tested amount, and which are close to a certified pair of the present safe set. *)
Theorem C122_exploration_expands : forall leb g V pi lv lf tau ms sf m perts limits st h log eps n F,
  total_order leb -> explorer g V pi lv lf tau ms m perts limits st -> no_white_noise ms ->
  explores leb g sf m perts limits st h log ->
  (0 < n)%nat -> noise_bound ms n <= eps ->
  (length (all_points g) * (length perts + 1) * n < length log)%nat ->
  (forall x, length (F x) = dims g) -> (forall h1 h2, h = h1 ++ h2 -> measured ms F (world (run leb g st h1))) ->
  0 <= lv -> (forall y z, length y = dims g -> length z = dims g -> Rabs (V y - V z) <= lv * dist1 y z) ->
  exists h1 positive num draws h2,
    h = h1 ++ GetSafeSample (Perturbations m perts) limits positive num draws :: h2 /\
    let now := run leb g st h1 in
    forall mr bs order after c mu delta,
      step leb g now (UpdateSafeSet true mr sf bs order) = (after, Nothing) ->
      sorts (l_vals (book now)) order -> l_adaptive (book now) = false \/ (mr <= 1)%Z ->
      lv * (1 + lf) * tau + 2 * lv * (eps + delta) < mu ->
      (forall x, is_vertex g x -> V x <= c -> initial_state g (book now) x \/
         (V (F (x ++ pi x)) - V x <= - mu /\
          exists s p, let u := limited limits (map2 Rplus (pi s) p) in
            In s (tested g (book now) num draws) /\ In p perts /\
            certified g (book now) (learner V pi lv lf tau ms (world now)) positive s u /\
            stack_distance ms (x ++ pi x) (s ++ u) <= delta)) ->
      forall k, (k < length (all_points g))%nat -> V (grid_point g k) <= c -> safe (book after) k.
Proof.
  intros leb g V pi lv lf tau ms sf m perts limits st h log eps n F TO X KD HX Hn He Hl LF HM P1 HV.
  pose proof (C121_few_uncertain_samples _ _ _ _ _ _ _ _ _ _ _ _ _ _ _ eps n TO X KD HX Hn He) as HF.
  assert (E : exists row b, In (row, b) log /\ b <= eps).
  { assert (HL : (length (uncertain eps log) < length log)%nat) by lia. clear - HL.
    unfold uncertain in HL. induction log as [|[row b] log IH]; [cbn in HL; lia|]. cbn [filter snd] in HL.
    unfold CertModel.Rltb in HL at 1. destruct (Rlt_dec eps b).
    - cbn [length] in HL. destruct IH as (r' & b' & H1 & H2); [lia|]. exists r', b'. split; [now right|auto].
    - exists row, b. split; [now left|lra]. }
  destruct E as (row & b & HI & Hb).
  destruct (log_round _ _ _ _ _ _ _ _ _ _ _ _ _ _ _ row b TO X HX HI) as (h1 & po & nu & dr & h2 & Eh & _ & R).
  exists h1, po, nu, dr, h2. split; [exact Eh|]. cbn zeta in *.
  intros mr bs order after c mu delta ES Hs Hact Hmu Hdec.
  destruct (explores_program leb g sf m perts limits st h log HX) as (HA & HU).
  rewrite Eh in HA, HU. apply Forall_app in HU. destruct HU as (HU & _). apply Forall_app in HA. destruct HA as (HA & _).
  pose proof (xp_sensible _ _ _ _ _ _ _ _ _ _ _ X) as HS.
  assert (HW : even_white_noise ms) by (intros me x y H; rewrite !KD by auto; lra).
  refine (update_covers leb g V pi F lv lf tau ms sf m perts limits st X h1 mr bs order after mu c (eps + delta) HA HU ES Hs Hact P1 HV LF (HM _ _ Eh) Hmu _).
  intros x Hx Hc. destruct (Hdec x Hx Hc) as [I|(D & s & p & H1 & H2 & H3 & H4)]; [now left|]. right. split; [exact D|].
  specialize (R s p H1 H2 H3).
  pose proof (C122_bounds_vary V pi lv lf tau ms (world (run leb g st h1)) x (pi x) s (limited limits (map2 Rplus (pi s) p)) HS HW) as HB.
  cbn zeta in HB. eapply Rle_trans in HB; [|apply Rle_abs]. lra.
Qed.
Print Assumptions C122_exploration_expands.
