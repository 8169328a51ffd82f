(** Property C121, continued: explorations exist, and kernels with white noise. *)
From Coq Require Import Reals List Bool Arith ZArith Lra Lia.
From Verif Require Import Prelude NumModel ListFacts GridModel SafeModel CertModel UtilModel SampleModel LoopModel.
From Verif Require Import GPModel GPSpec RField GPLoopModel.
From Verif Require Import GridSpec SafeSpec CertSpec SampleSpec LoopSpec GPLoopSpec.
From Verif Require Import GridProofs SafeProofs CertProofs SampleProofs LoopProofs LoopWidths CholProofs GPLoopProofs ExploreSpec ExploreProofs.
From Verif Require Import Properties.SafeProps Properties.CertProps Properties.SampleProps Properties.GridProps Properties.LoopProps Properties.GPLoopProps Properties.ExploreProps.
Import ListNotations.
Local Open Scope R_scope.

(** The measurements are those of a system [F] without errors. *)
Definition exact_data (F : list R -> list R) (w : dataset) : Prop := Forall (fun p => snd p = F (fst p)) w.

Section Endless.
  Variables (leb : list R -> list R -> bool) (g : grid) (V : list R -> R) (pi F : list R -> list R).
  Variables (lv lf tau : R) (ms : list member) (sf : R) (m : nat) (perts : list (list R)).
  Variables (limits : option (list (R * R))) (st : state dataset).
  Hypothesis TO : total_order leb.
  Hypothesis X : explorer g V pi lv lf tau ms m perts limits st.
  Let S0 := learner V pi lv lf tau ms.
  Hypothesis HW : exact_data F (world st).

  Lemma destruct_list_last {A} (l : list A) : l = [] \/ exists l' a, l = l' ++ [a].
  Proof.
    destruct l as [|b l]; [now left|]. right. destruct (exists_last (l := b :: l)) as (l' & a & E); [discriminate|eauto].
  Qed.
  Lemma last_or_before {A} (l : list A) a l1 b l2 : l ++ [a] = l1 ++ b :: l2 ->
    (exists l3, l = l1 ++ b :: l3) \/ l1 = l /\ a = b.
  Proof.
    destruct (destruct_list_last l2) as [->|(l3 & c & ->)]; intros E.
    - apply app_inj_tail in E. right. intuition congruence.
    - left. exists l3. rewrite app_comm_cons, app_assoc in E. apply app_inj_tail in E. tauto.
  Qed.
  Lemma no_draws cs : Forall (fun c => match c with GetSafeSample _ _ _ _ dr => dr = [] | _ => True end) cs ->
    forall s : state dataset, throughout leb g (real_draws g) s cs.
  Proof.
    induction 1 as [|c cs Hc H IH]; intros s; cbn; [exact I|]. split; [|apply IH].
    unfold real_draws. destruct c; auto. subst. intros i [].
  Qed.

  Lemma endless h0 n : explores leb g sf m perts limits st h0 [] -> (exists k, safe (book (run leb g st h0)) k) ->
    Forall (shaped g m) h0 ->
    Forall (fun c => match c with GetSafeSample _ _ _ _ dr => dr = [] | _ => True end) h0 ->
    Forall (data_in (exact_data F)) h0 ->
    exists h' log, explores leb g sf m perts limits st (h0 ++ h') log /\ length log = n /\
    without is_update h' /\ Forall (shaped g m) (h0 ++ h') /\
    Forall (fun c => match c with GetSafeSample _ _ _ _ dr => dr = [] | _ => True end) (h0 ++ h') /\
    Forall (data_in (exact_data F)) (h0 ++ h') /\
    (forall h1 po nu dr h2, h0 ++ h' = h1 ++ GetSafeSample (Perturbations m perts) limits po nu dr :: h2 ->
      ~ In (GetSafeSample (Perturbations m perts) limits po nu dr) h0 ->
      po = true /\ nu = None /\ exists h3, h1 = h0 ++ h3 /\ without is_update h3).
  Proof.
    intros HX0 HS I1 I2 I3.
    induction n as [|n (h' & log & HX & HL & H1 & H2 & H3 & H4 & H5)].
    { exists [], []. rewrite !app_nil_r. split; [assumption|]. split; [reflexivity|]. split; [constructor|]. repeat (split; [assumption|]).
      intros h1 po nu dr h2 E N. exfalso. apply N. rewrite E. apply in_app_iff. right. now left. }
    set (h := h0 ++ h') in *.
    pose (now := run leb g st h). pose proof X as [X1 X2 X3 X4 X5 X6 (ini & ad & X7)].
    destruct (explores_program leb g sf m perts limits st h log HX) as (HA & HU).
    assert (ES : st = (world st, snd st)) by (destruct st; reflexivity).
    assert (EV : evaluates leb g now).
    { unfold now. rewrite ES. eapply C87_keeps_evaluating; eauto; [|now apply no_draws].
      intros w s Hs. apply X2. eapply vertex_length; eauto. }
    destruct (C71_reuse_invisible dataset leb g (world st) S0 ini ad (snd st) h sf m X7 HA HU) as (_ & A); [now rewrite <- ES|].
    specialize (A (Perturbations m perts) limits true None [] eq_refl). cbn zeta in A. rewrite <- ES in A. fold now in A. destruct A as (_ & A).
    assert (SF : sample_fits g (book now) (S0 (world now)) m limits).
    { constructor; auto.
      - assert (SZ : sized g (book now)) by (apply sized_run; auto; rewrite ES; eapply sized_new; eauto).
        destruct SZ as ([C1 C2 C3] & SZ). rewrite C1, SZ, all_points_length by auto. reflexivity.
      - intros s Hs. apply X2. eapply vertex_length; eauto.
      - intros s u Hs Hu. eexists _, _. split; [reflexivity|]. rewrite !map_length, stack_length.
        unfold coordinate_constants. cbn. rewrite repeat_length, map_length, stack_length. auto. }
    assert (HD : drawn g (book now) None []) by (intros z; discriminate).
    destruct (C28_most_uncertain_certified leb g (book now) (S0 (world now)) m limits perts true None [] TO SF X6 HD) as (_ & Hs).
    destruct (C28_tested_states g (book now) (S0 (world now)) m limits None [] SF HD) as (_ & HT).
    assert (NE : tested g (book now) None [] <> []).
    { destruct HS as (k & Hk). destruct (safe_kept leb g h' (run leb g st h0) H1) as (K & _).
      assert (Hk' : safe (book now) k) by (unfold safe, now, h in *; now rewrite run_app, K).
      pose proof (HT k (or_introl eq_refl) Hk') as HI. intros E. rewrite E in HI. destruct HI. }
    destruct (Hs NE) as (s & u & _ & E & _). rewrite E in A.
    pose (call := GetSafeSample (W := dataset) (Perturbations m perts) limits true None []).
    pose (data := SetWorld (W := dataset) (world now ++ [(s ++ u, F (s ++ u))])).
    exists (h' ++ [call; data]).
    eexists. rewrite app_assoc. fold h.
    split; [exact (ex_sample leb g sf m perts limits st h log true None [] _ _ (F (s ++ u)) HX HD A)|].
    split; [rewrite app_length, HL; cbn; lia|].
    split; [|split; [|split; [|split]]]; [apply Forall_app; (split; [assumption|])..|].
    - repeat constructor; intros [].
    - repeat constructor. auto.
    - repeat constructor.
    - constructor; [exact I|]. constructor; [|constructor]. cbn. apply Forall_app. split; [|repeat constructor].
      apply world_run; auto.
    - intros h1 po nu dr h2 E' N.
      assert (E2 : (h ++ [call]) ++ [data] = h1 ++ GetSafeSample (Perturbations m perts) limits po nu dr :: h2) by (rewrite <- app_assoc; exact E').
      destruct (last_or_before _ _ _ _ _ E2) as [(h4 & E4)|E4].
      + destruct (last_or_before h call h1 _ h4 E4) as [(h5 & E5)|(E5 & E6)]; [exact (H5 _ _ _ _ _ E5 N)|].
        injection E6 as <- <- <-. split; [reflexivity|]. split; [reflexivity|]. exists h'. split; [exact E5|exact H1].
      + destruct E4 as (_ & E4). discriminate.
  Qed.

  Lemma log_bounds h log row b : explores leb g sf m perts limits st h log -> In (row, b) log ->
    exists w s u, b = uncertainty (S0 w) s u.
  Proof.
    induction 1 as [|h log c H IH Hc|h log positive num draws row' b' y H IH now call Hd Hs]; intros HI; [destruct HI|auto|].
    apply in_app_iff in HI. destruct HI as [HI|[[= -> ->]|[]]]; [auto|].
    destruct (sample_is leb g V pi lv lf tau ms sf m perts limits st TO X h log positive num draws row b H Hd Hs)
      as (s0 & u0 & _ & _ & _ & E & _). eauto.
  Qed.
End Endless.

(** A kernel with white noise: the bounds stay, however often a point is measured. *)
Definition white : member :=
  {| me_kern := fun _ _ => 1 / 1024; me_kdiag := fun _ => 1; me_mean := fun x => 0;
     me_noise := 1; me_scale := 1; me_beta := 1; me_chol := @cholesky R_realFieldType R_sqrt.sqrt |}.
Lemma sensible_white : sensible white.
Proof.
  destruct sensible11 as [K1 K2 K3 K4 K5 K6]. constructor; cbn; try lra; auto. intros _. lra.
Qed.
Definition start9 (me : member) : object dataset :=
  {| ob_setup := learner absV (fun _ => [0]) 1 (24 / 5) (1 / 2) [me]; ob_lyap := L9; ob_values := fun w => absV;
     ob_update := None; ob_sample := None; ob_stuck := false |}.
Lemma new9 me : new_object g9 [] (learner absV (fun _ => [0]) 1 (24 / 5) (1 / 2) [me]) (Some mask9) false = Ok (start9 me).
Proof.
  pose proof new11 as E. unfold new_object in *. change (lyapunov_function (S11 [])) with absV in E.
  cbn [learner lyapunov_function]. destruct lyap_init; [|discriminate]. cbn [bind] in *. unfold start9.
  injection E as E. rewrite E. reflexivity.
Qed.
Lemma explorer9 me : sensible me -> explorer g9 absV (fun _ => [0]) 1 (24 / 5) (1 / 2) [me] 1 [[1 / 8]] None ([], start9 me).
Proof.
  intros H. constructor; try discriminate; auto using g9_valid.
  - intros me' [<-|[]]. exact H.
  - intros p [<-|[]]. reflexivity.
  - exists (Some mask9), false. apply new9.
Qed.

Theorem C121_white_noise_refuted :
  ~ (forall g ms perts eps, (forall me, In me ms -> sensible me) -> 0 < eps ->
     exists M, forall leb V pi lv lf tau sf m limits st h log,
       total_order leb -> explorer g V pi lv lf tau ms m perts limits st ->
       explores leb g sf m perts limits st h log ->
       (length (uncertain eps log) <= M)%nat).
Proof.
  intros H. destruct (H g9 [white] [[1 / 8]] (1 / 2)) as (M & HM).
  - intros me [<-|[]]. exact sensible_white.
  - lra.
  - destruct (endless rows_leb g9 absV (fun _ => [0]) (fun _ => []) 1 (24 / 5) (1 / 2) [white] 1 1 [[1 / 8]] None ([], start9 white)
      rows_leb_order (explorer9 white sensible_white)) with (h0 := @nil (command dataset)) (n := Datatypes.S M) as (h & log & HX & HL & _);
      try solve [constructor].
    + exists 2%nat. reflexivity.
    + specialize (HM rows_leb _ _ _ _ _ _ _ _ _ _ _ rows_leb_order (explorer9 white sensible_white) HX).
      assert (E : uncertain (1 / 2) log = log); [|rewrite E in HM; lia].
      unfold uncertain. assert (G : forall s, In s log -> CertModel.Rltb (1 / 2) (snd s) = true).
      { intros [row b] Hs. destruct (log_bounds _ _ _ _ _ _ _ _ _ _ _ _ _ rows_leb_order (explorer9 white sensible_white) h log row b HX Hs) as (w & s & u & ->).
        unfold uncertainty, learner, stack_dynamics. cbn [dynamics stack_from map snd].
        destruct (member_predicts 0 w (s ++ u) sensible_white) as (cache & mu & v & _ & _ & _ & E & Hv & _).
        rewrite E. cbn [fst snd white me_beta me_kdiag me_kern] in *. unfold CertModel.Rltb, sum. cbn [fold_right].
        assert (1 / 2 < sqrt v); [|destruct Rlt_dec; lra].
        rewrite <- (sqrt_pow2 (1 / 2)) by lra. apply sqrt_lt_1_alt. lra. }
      clear - G. induction log as [|s log IH]; [reflexivity|]. cbn [filter]. rewrite G by now left. f_equal. apply IH.
      intros s' Hs. apply G. now right.
Qed.
Print Assumptions C121_white_noise_refuted.

(** The system of C90 with a smaller noise, after an update: of 100 samples at most 72
    have a bound above 17/1024, which is half of the bound without data, and there is a
    call at which the model is right up to 17/1024 about states with perturbed actions. *)
Definition me12 : member :=
  {| me_kern := fun _ _ => 1 / 1024; me_kdiag := fun _ => 1 / 1024; me_mean := fun x => nth 0 (F11 x) 0 - 1 / 32;
     me_noise := 1 / 1024; me_scale := 1; me_beta := 17 / 16;
     me_chol := @cholesky R_realFieldType R_sqrt.sqrt |}.
Lemma sensible12 : sensible me12.
Proof. destruct sensible11 as [K1 K2 K3 K4 K5 K6]. constructor; cbn; try lra; auto. Qed.
Definition S12 : dataset -> setup := learner absV (fun _ => [0]) 1 (24 / 5) (1 / 2) [me12].
Lemma model12 s u : stack_dynamics [me12] [] s u = Uncertain [nth 0 (F11 (s ++ u)) 0 - 1 / 32] [17 / 512].
Proof.
  rewrite <- model11. unfold stack_dynamics. cbn [stack_from map].
  rewrite !prior_eval by (apply sensible11 || apply sensible12). reflexivity.
Qed.
Lemma update12 : update_safe_set L9 (certificate (S12 []) 1 (grid_point g9)) true 1 4 order9 = Ok L9'.
Proof.
  rewrite <- update11. apply update_ext; [|reflexivity]. intros x Hx.
  cbn [neg certificate]. unfold decrease. cbn [S11 S12 learner dynamics policy]. rewrite model11, model12. reflexivity.
Qed.
Definition graph12 : update_graph dataset := {| ug_setup := S12; ug_factor := 1; ug_adaptive := false |}.
Definition update9c : command dataset := UpdateSafeSet true 1 1 4 order9.
Definition updated12 : state dataset := ([],
  {| ob_setup := S12; ob_lyap := L9'; ob_values := fun w => absV; ob_update := Some graph12; ob_sample := None; ob_stuck := false |}).
Lemma step12 : step rows_leb g9 ([], start9 me12) update9c = (updated12, Nothing).
Proof.
  unfold update9c, step, ob_update_safe_set, start9. cbn [ob_update ob_setup ob_lyap ob_values ob_sample ob_stuck].
  change (Bool.eqb _ _) with true. cbn [andb]. cbv iota. cbn [ug_setup ug_factor].
  change (learner absV (fun _ => [0]) 1 (24 / 5) (1 / 2) [me12]) with S12.
  rewrite (proj2 (effect_ok _ _ _ _ _ _ _) update12). reflexivity.
Qed.
Lemma exact_measured w : exact_data F11 w -> measured [me12] F11 w.
Proof.
  intros ED k me Hk. destruct k as [|[|k]]; try discriminate. injection Hk as <-.
  destruct (measured11 [] (or_introl eq_refl) 0%nat me11 eq_refl) as (B & H1 & H2). exists B. split; [exact H1|].
  replace (sum _) with 0; [cbn in *; lra|]. symmetry. induction ED as [|p w E _ IH]; [reflexivity|]. cbn [map].
  unfold sum in *. cbn [fold_right]. rewrite IH, E. ring.
Qed.
Lemma prior_bound w x : snd (member_eval 0 me12 w x) <= 17 / 512.
Proof.
  destruct (member_predicts 0 w x sensible12) as (cache & mu & v & _ & _ & _ & E & _ & Hv).
  rewrite E. cbn [snd me12 me_beta me_kdiag] in *.
  assert (sqrt v <= 1 / 32); [|lra]. rewrite <- (sqrt_pow2 (1 / 32)) by lra. apply sqrt_le_1_alt. lra.
Qed.
(** The state 0 with the action 1/8 is certified. *)
Lemma certified12 w L : exact_data F11 w -> l_cmax L = 4 -> certified g9 L (S12 w) true [0] [0 + 1 / 8].
Proof.
  intros ED HL. eexists _, _. split; [reflexivity|]. split; [|discriminate]. rewrite HL.
  assert (HS : forall me, In me [me12] -> sensible me) by (intros me [<-|[]]; apply sensible12).
  destruct (stack_right (x := [0] ++ [0 + 1 / 8]) HS (exact_measured w ED) eq_refl) as (_ & _ & W).
  specialize (W 0%nat). cbn [stack_from map nth length fst snd app] in W. specialize (W ltac:(lia)).
  cbn [S12 learner lyapunov_function lip_v stack_from map fst snd app]. unfold coordinate_constants.
  cbn [S12 learner lip_v length repeat map2].
  pose proof (prior_bound w [0; 0 + 1 / 8]) as P. set (me := member_eval _ _ _ _) in *. clearbody me.
  unfold absV, F11, F9, sum in *. cbn [nth fold_right] in *. destruct Rle_dec; [|lra].
  unfold Rabs in *. repeat destruct Rcase_abs; lra.
Qed.
Lemma cmax12 : l_cmax L9' = 4.
Proof.
  change (nth 8 vals9 0 = 4). unfold vals9.
  assert (H : (8 < length (all_points g9))%nat). { pose proof (all_points_length g9 g9_valid) as E. change (nindex g9) with 9%Z in E. lia. }
  rewrite nth_indep with (d' := absV []) by now rewrite map_length. rewrite map_nth.
  destruct (grid_point_vertex g9 8 g9_valid ltac:(reflexivity)) as (_ & E). rewrite <- E, point9 by lia.
  unfold absV. cbn. rewrite Rabs_pos_eq; lra.
Qed.

Lemma tested12 L : l_safe L = l_safe L9' -> forall dr, In [0] (tested g9 L None dr).
Proof.
  intros H dr. unfold tested, safe_states. rewrite H. apply in_map_iff. exists 4%nat.
  split; [rewrite point9 by lia; f_equal; cbn; lra|]. cbn. auto.
Qed.

Lemma explored12 : exists h' log, explores rows_leb g9 1 1 [[1 / 8]] None ([], start9 me12) (update9c :: h') log /\ length log = 100%nat /\
  Forall (data_in (exact_data F11)) (update9c :: h') /\
  (forall h1 h2, update9c :: h' = h1 ++ h2 -> evaluates rows_leb g9 (run rows_leb g9 ([], start9 me12) h1)) /\
  (forall h1 po nu dr h2, update9c :: h' = h1 ++ GetSafeSample (Perturbations 1 [[1 / 8]]) None po nu dr :: h2 ->
    po = true /\ nu = None /\ l_safe (book (run rows_leb g9 ([], start9 me12) h1)) = l_safe L9' /\
    l_cmax (book (run rows_leb g9 ([], start9 me12) h1)) = l_cmax L9').
Proof.
  pose proof (explorer9 me12 sensible12) as X.
  assert (R0 : run rows_leb g9 ([], start9 me12) [update9c] = updated12) by (cbn [run fold_left]; now rewrite step12).
  destruct (endless rows_leb g9 absV (fun _ => [0]) F11 1 (24 / 5) (1 / 2) [me12] 1 1 [[1 / 8]] None ([], start9 me12)
    rows_leb_order X) with (h0 := [update9c]) (n := 100%nat) as (h & log & HX & HL & _ & HSh & HDr & HD & HC).
  - constructor.
  - apply (ex_other rows_leb g9 1 1 [[1 / 8]] None ([], start9 me12) [] [] update9c); [constructor|reflexivity].
  - exists 2%nat. exact (eq_ind_r (fun s => safe (book s) 2) (eq_refl : safe (book updated12) 2) R0).
  - repeat constructor.
  - repeat constructor.
  - repeat constructor.
  - exists h, log. split; [exact HX|]. split; [exact HL|]. split; [exact HD|]. split.
    { intros h1 h2 E. cbn [app] in HSh, HDr. rewrite E in HSh, HDr. apply Forall_app in HSh, HDr.
      apply (C87_keeps_evaluating dataset rows_leb g9 [] _ (Some mask9) false (start9 me12) h1 1 (new9 me12) rows_leb_order g9_valid); [reflexivity|tauto|].
      apply no_draws. tauto. }
    intros h1 po nu dr h2 E. destruct (HC h1 po nu dr h2 E) as (E1 & E2 & h3 & -> & HN); [intros [[=]|[]]|].
    split; [exact E1|]. split; [exact E2|]. rewrite run_app, R0. exact (safe_kept rows_leb g9 h3 updated12 HN).
Qed.

Example C121_ex : exists h log,
  explores rows_leb g9 1 1 [[1 / 8]] None ([], start9 me12) h log /\ length log = 100%nat /\
  (length (uncertain (17 / 1024) log) <= 72)%nat /\
  exists h1 positive num draws h2,
    h = h1 ++ GetSafeSample (Perturbations 1 [[1 / 8]]) None positive num draws :: h2 /\
    let now := run rows_leb g9 ([], start9 me12) h1 in
    exists mean err, stack_dynamics [me12] (world now) [0] [0 + 1 / 8] = Uncertain mean err /\
        dist1 (F11 ([0] ++ [0 + 1 / 8])) mean <= 17 / 1024.
Proof.
  pose proof (explorer9 me12 sensible12) as X.
  assert (KD : no_white_noise [me12]) by (intros me x [<-|[]]; reflexivity).
  assert (NB : noise_bound [me12] 4 <= 17 / 1024).
  { unfold noise_bound. cbn [map me12 me_beta me_noise]. replace (1 / 1024 / INR 4) with ((1 / 64) ^ 2) by (cbn; lra).
    rewrite sqrt_pow2 by lra. unfold sum. cbn [fold_right]. lra. }
  destruct explored12 as (h & log & HX & HL & HD & _ & HC).
  exists (update9c :: h), log. split; [exact HX|]. split; [exact HL|].
  assert (NP : length (all_points g9) = 9%nat). { pose proof (all_points_length g9 g9_valid). change (nindex g9) with 9%Z in H. lia. }
  assert (ED : forall h1 h2, update9c :: h = h1 ++ h2 -> exact_data F11 (world (run rows_leb g9 ([], start9 me12) h1))).
  { intros h1 h2 E. rewrite E in HD. apply Forall_app in HD. destruct HD as (HD & _). apply world_run; [constructor|exact HD]. }
  split.
  - pose proof (C121_few_uncertain_samples _ _ _ _ _ _ _ _ _ _ _ _ _ _ _ (17 / 1024) 4 rows_leb_order X KD HX ltac:(lia) NB) as HF.
    rewrite NP in HF. exact HF.
  - destruct (C121_system_known _ _ _ _ _ _ _ _ _ _ _ _ _ _ _ (17 / 1024) 4 F11 rows_leb_order X KD HX ltac:(lia) NB)
      as (h1 & po & nu & dr & h2 & Eh & R).
    + rewrite NP, HL. cbn [length]. lia.
    + reflexivity.
    + intros h1 h2 E. apply exact_measured. eauto.
    + exists h1, po, nu, dr, h2. split; [exact Eh|]. intros now.
      destruct (HC _ _ _ _ _ Eh) as (-> & -> & HB1 & HB2).
      apply (R [0] [1 / 8]); [|now left|].
      * apply (tested12 _ HB1).
      * apply certified12; [eauto|]. rewrite <- cmax12. exact HB2.
Qed.
