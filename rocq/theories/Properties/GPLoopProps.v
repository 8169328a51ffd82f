(** Property C90: safe learning with Gaussian processes. *)
From Coq Require Import Reals List Bool Arith ZArith Lra Lia.
From Verif Require Import Prelude NumModel ListFacts GridModel SafeModel CertModel UtilModel SampleModel LoopModel.
From Verif Require Import GPModel GPSpec RField GPLoopModel.
From Verif Require Import GridSpec SafeSpec CertSpec SampleSpec LoopSpec GPLoopSpec.
From Verif Require Import GridProofs SafeProofs CertProofs LoopProofs LoopWidths CholProofs GPLoopProofs.
From Verif Require Import Properties.SafeProps Properties.CertProps Properties.SampleProps Properties.LoopProps.
Import ListNotations.
Local Open Scope R_scope.

(** The bounds of the stacked models contain the successor of every state with every
    action. *)
Theorem C90_bounds_contain : forall ms F w s u,
  (forall me, In me ms -> sensible me) -> measured ms F w -> length (F (s ++ u)) = length ms ->
  exists mean err, stack_dynamics ms w s u = Uncertain mean err /\ within (F (s ++ u)) mean err.
Proof.
  intros ms F w s u HS HM HL. eexists _, _. split; [reflexivity|]. now apply stack_right.
Qed.
Print Assumptions C90_bounds_contain.

Section World.
  Variable leb : list R -> list R -> bool.
  Variable g : grid.
  Lemma world_step (st : state dataset) c : world (fst (step leb g st c)) = match c with SetWorld w => w | _ => world st end.
  Proof.
    destruct st as [w o]. destruct c; simpl; auto.
    - destruct ob_update_values; reflexivity.
    - destruct ob_update_safe_set; reflexivity.
    - destruct ob_get_safe_sample; reflexivity.
  Qed.
  Lemma world_run (P : dataset -> Prop) cs : forall st : state dataset, P (world st) -> Forall (data_in P) cs -> P (world (run leb g st cs)).
  Proof.
    induction cs as [|c cs IH]; intros st H F; [exact H|]. inversion F; subst. rewrite run_cons. apply IH; auto.
    rewrite world_step. destruct c; auto.
  Qed.
  Lemma vals_run V cs : forall st : state dataset, (forall w, ob_values (snd st) w = V) ->
    l_vals (book st) = map V (all_points g) -> l_vals (book (run leb g st cs)) = map V (all_points g).
  Proof.
    induction cs as [|c cs IH]; intros [w o] H E; [exact E|]. rewrite run_cons. apply IH.
    - intros w'. pose proof (values_kept leb g [c] (w, o)) as K. cbn [run fold_left] in K. rewrite K. apply H.
    - destruct (match c with UpdateValues => true | _ => false end) eqn:Ec.
      + destruct c; try discriminate. cbn [step]. unfold ob_update_values. destruct (ob_stuck o); [exact E|].
        cbn. f_equal. apply H.
      + assert (N : without is_values [c]) by (constructor; [destruct c; [intros []..| |intros []|intros []]; try discriminate|constructor]).
        rewrite <- E. exact (vals_kept leb g [c] (w, o) N).
  Qed.
End World.

Lemma dist1_repeat c : forall x y, length x = length y -> wdist (repeat c (length y)) x y = c * dist1 x y.
Proof.
  induction x as [|a x IH]; intros [|b y]; try discriminate; intros H.
  - unfold wdist, dist1; simpl. lra.
  - injection H as H. specialize (IH y H). unfold wdist, dist1 in *. simpl. rewrite IH. ring.
Qed.

Section Learning.
  Variables (leb : list R -> list R -> bool) (g : grid) (V : list R -> R) (pi F : list R -> list R).
  Variables (ms : list member) (sf lv lf tau : R) (m : nat) (before after now : state dataset).
  Hypothesis GL : gp_learning leb g V pi F ms sf lv lf tau m before after now.
  Let S0 := learner V pi lv lf tau ms.
  Let f (s u : list R) := F (s ++ u).

  Lemma world_before : measured ms F (world before).
  Proof.
    destruct (gl_before _ _ _ _ _ _ _ _ _ _ _ _ _ _ GL) as (w0 & ini & ad & o0 & h1 & EN & M0 & _ & _ & D & EB).
    rewrite EB. now apply world_run.
  Qed.
  Lemma world_now : measured ms F (world now).
  Proof.
    destruct (gl_now _ _ _ _ _ _ _ _ _ _ _ _ _ _ GL) as (h2 & EN & _ & _ & _ & D).
    rewrite EN. apply world_run; auto. destruct (gl_update _ _ _ _ _ _ _ _ _ _ _ _ _ _ GL) as (mr & bs & order & x0 & ES & _).
    pose proof (world_step leb g before (UpdateSafeSet true mr sf bs order)) as E. rewrite ES in E. simpl in E.
    rewrite E. apply world_before.
  Qed.
  Lemma gp_right w s u : measured ms F w -> length s = dims g -> length u = m -> right_about (S0 w) f s u.
  Proof.
    intros HM Hs Hu mean err E. unfold S0, learner, stack_dynamics in E. cbn [dynamics] in E.
    assert (HL : length (F (s ++ u)) = length ms).
    { rewrite (gl_members _ _ _ _ _ _ _ _ _ _ _ _ _ _ GL). apply (gl_F _ _ _ _ _ _ _ _ _ _ _ _ _ _ GL).
      rewrite app_length. lia. }
    pose proof (stack_right (x := s ++ u) (gl_sensible _ _ _ _ _ _ _ _ _ _ _ _ _ _ GL) HM HL) as HW.
    injection E as E1 E2. rewrite E1, E2 in HW. split; [exact HW|].
    pose proof (gl_lv _ _ _ _ _ _ _ _ _ _ _ _ _ _ GL).
    assert (Hm : length mean = dims g).
    { destruct HW as (HW & _). rewrite <- HW, HL. apply (gl_members _ _ _ _ _ _ _ _ _ _ _ _ _ _ GL). }
    unfold coordinate_constants, S0, learner. cbn [lip_v lyapunov_function]. split; [apply repeat_length|]. split.
    - apply Forall_forall. intros c Hc. apply repeat_spec in Hc. now subst.
    - assert (Hf : length (f s u) = dims g) by (unfold f; rewrite HL; apply (gl_members _ _ _ _ _ _ _ _ _ _ _ _ _ _ GL)).
      rewrite dist1_repeat by congruence. now apply (gl_V _ _ _ _ _ _ _ _ _ _ _ _ _ _ GL).
  Qed.
  Lemma vertex_length s : is_vertex g s -> length s = dims g.
  Proof.
    intros (H & _). exact H.
  Qed.
  Lemma gp_safe_learning : safe_learning leb g S0 V pi f sf lv lf m before after now.
  Proof.
    destruct GL as [G1 G2 G3 G4 G5 G6 G7 G8 G9 G10 G11 G12 G13 G14 G15 G16].
    constructor; auto.
    - destruct G6 as (w0 & ini & ad & o0 & h1 & A1 & _ & A2 & A3 & _ & A4). exists w0, ini, ad, o0, h1. auto.
    - destruct G8 as (h2 & A1 & A2 & A3 & A4 & _). exists h2. auto.
    - constructor; try reflexivity; auto.
      + intros x y Hx Hy. apply G12; [apply Hx|apply Hy].
      + intros x Hx. apply G5. rewrite app_length, G2 by auto. lia.
      + intros x Hx. apply vertex_length in Hx.
        exact (gp_right (world before) x (pi x) world_before Hx (G2 x Hx) _ _ eq_refl).
      + destruct G6 as (w0 & ini & ad & o0 & h1 & A1 & _ & A2 & A3 & _ & EB).
        rewrite EB. apply vals_run.
        * unfold new_object in A1. destruct lyap_init; [|discriminate]. now injection A1 as <-.
        * unfold book. cbn. unfold new_object in A1. destruct lyap_init eqn:E; [|discriminate].
          cbn [bind] in A1. injection A1 as <-. cbn.
          unfold lyap_init in E. destruct assign_opt; [|discriminate]. cbn [bind] in E.
          destruct assign_opt; [|discriminate]. cbn [bind] in E. now injection E as <-.
    - intros s u Hs Hu. apply gp_right; auto using world_now, vertex_length.
  Qed.
End Learning.

(** The successor of every sample has a value below the level of the last update, or
    the policy was sampled; from there the policy stays in the level set for ever. *)
Theorem C90_safe_learning : forall leb g V pi F ms sf lv lf tau m before after now
    perts limits positive num draws,
  gp_learning leb g V pi F ms sf lv lf tau m before after now ->
  total_order leb -> (forall lims, limits = Some lims -> length lims = m) ->
  (forall p, In p perts -> length p = m) -> drawn g (book now) num draws ->
  let level := l_cmax (book after) in
  let margin := lv * tau in
  match snd (step leb g now (GetSafeSample (Perturbations m perts) limits positive num draws)) with
  | Sampled row b =>
    exists k s u, safe (book after) k /\ s = grid_point g k /\ row = s ++ u /\
      (V (F row) < level \/ u = limited limits (pi s)) /\
      (V (F row) < level - margin -> forall n,
         V (iterate n (fun x => F (x ++ pi x)) (F row)) < level - margin) /\
      (u = pi s -> ~ initially_safe (book before) k -> V (F row) < V s)
  | Raised e => e = ValueError /\ (num = Some 0%Z \/ forall k, ~ safe (book after) k)
  | Nothing => False
  end.
Proof.
  intros leb g V pi F ms sf lv lf tau m before after now perts limits positive num draws GL TO HL HP HD level margin.
  pose proof (gp_safe_learning _ _ _ _ _ _ _ _ _ _ _ _ _ _ GL) as SL.
  assert (SF : sample_fits g (book now) (learner V pi lv lf tau ms (world now)) m limits).
  { constructor; auto.
    - apply GL.
    - destruct GL as [G1 G2 G3 G4 G5 (w0 & ini & ad & o0 & h1 & A1 & _ & A2 & A3 & _ & ->) (mr & bs & order & x0 & ES & _)
        (h2 & -> & HA2 & _) G9 G10 G11 G12 G13 G14 G15 G16].
      assert (SZ : sized g (book (run leb g (w0, o0) h1))).
      { apply sized_run; auto. eapply sized_new; eauto. }
      assert (SZ2 : sized g (book (run leb g after h2))).
      { apply sized_run; auto.
        replace after with (run leb g (run leb g (w0, o0) h1) [UpdateSafeSet true mr sf bs order])
          by (cbn [run fold_left]; now rewrite ES).
        apply sized_run; auto. constructor; [intros []|constructor]. }
      destruct SZ2 as ([C1 C2 C3] & SZ2). rewrite C1, SZ2, all_points_length by auto. reflexivity.
    - intros s Hs. apply GL. eapply vertex_length; eauto.
    - intros s u Hs Hu. eexists _, _. split; [reflexivity|]. rewrite !map_length, stack_length.
      unfold coordinate_constants. cbn. rewrite repeat_length, map_length, stack_length.
      rewrite (gl_members _ _ _ _ _ _ _ _ _ _ _ _ _ _ GL). auto. }
  pose proof (C73_safe_learning dataset leb g _ V pi _ sf lv lf m before after now perts limits positive num draws SL TO SF HP HD) as H.
  cbn zeta in H. destruct (snd _) as [|e|row b]; auto.
  destruct H as (k & s & u & H1 & H2 & H3 & H4). exists k, s, u. rewrite H3. auto.
Qed.
Print Assumptions C90_safe_learning.

(** An instance: the system of C22 with an action that is added to the successor.
    The model has a constant kernel, a mean function that is wrong by 1/32, and is
    first without data; then it gets a measurement with an error of 1/4. *)
Definition F11 (x : list R) : list R := [nth 0 (F9 [nth 0 x 0]) 0 + nth 1 x 0].
Definition me11 : member :=
  {| me_kern := fun _ _ => 1 / 1024; me_kdiag := fun _ => 1 / 1024; me_mean := fun x => nth 0 (F11 x) 0 - 1 / 32;
     me_noise := 1; me_scale := 1; me_beta := 17 / 16;
     me_chol := @cholesky R_realFieldType R_sqrt.sqrt |}.
Definition data11 : dataset := [([2; 1 / 2], [3 / 4])].

Lemma combination_const c P : combination (fun _ => c) P = c * sum (map fst P).
Proof. unfold combination. induction P as [|p P IH]; simpl; [ring|]. rewrite IH. ring. Qed.
Lemma energy_const c P : energy (fun _ _ => c) P = c * sum (map fst P) ^ 2.
Proof. unfold energy. rewrite combination_const, combination_const. ring. Qed.
Lemma sensible11 : sensible me11.
Proof.
  constructor; cbn; try lra.
  - split; [reflexivity|]. intros P. rewrite energy_const. pose proof (pow2_ge_0 (sum (map fst P))). lra.
  - intros _. right. reflexivity.
  - intros n. apply cholesky_factors. exact sqrt_root.
Qed.
Lemma measured11 w : w = [] \/ w = data11 -> measured [me11] F11 w.
Proof.
  intros Hw k me Hk. destruct k as [|[|k]]; try discriminate. injection Hk as <-.
  exists 1. split.
  - intros P. cbn [me11 me_kern me_mean]. rewrite energy_const.
    replace (combination _ P) with (combination (fun _ => 1 / 32) P).
    + rewrite combination_const. field_simplify. lra.
    + unfold combination. f_equal. apply map_ext. intros p. f_equal. ring.
  - destruct Hw as [-> | ->]; cbn; [lra|]. destruct Rle_dec; lra.
Qed.
Lemma model11 s u : stack_dynamics [me11] [] s u = Uncertain [nth 0 (F11 (s ++ u)) 0 - 1 / 32] [17 / 512].
Proof.
  unfold stack_dynamics. cbn [stack_from map]. rewrite prior_eval by apply sensible11. cbn [fst snd].
  f_equal. f_equal. cbn [me11 me_beta me_kdiag]. replace (1 / 1024) with (Rsqr (1 / 32)) by (unfold Rsqr; lra).
  rewrite sqrt_Rsqr by lra. lra.
Qed.
Definition S11 : dataset -> setup := learner absV (fun _ => [0]) 1 (24 / 5) (1 / 2) [me11].
Lemma neg11 k : (k < 9)%nat -> neg (certificate (S11 []) 1 (grid_point g9)) k =
  nth k [false; true; false; false; false; false; false; true; true] false.
Proof.
  intros H. cbn [neg certificate]. rewrite point9 by auto.
  unfold decrease. cbn [S11 learner dynamics policy]. rewrite model11.
  unfold v_decrease_bound, threshold, lv_scalar, lf_scalar; simpl.
  unfold weighted_error; simpl. unfold absV, F11, F9; simpl.
  do 9 (destruct k as [|k]; [simpl;
     first [apply Rltb_true | apply Rltb_false];
     unfold Rabs; repeat destruct Rcase_abs; repeat destruct Rle_dec; lra|]). lia.
Qed.
Lemma update11 : update_safe_set L9 (certificate (S11 []) 1 (grid_point g9)) true 1 4 order9 = Ok L9'.
Proof.
  rewrite <- update9. apply update_ext; [|reflexivity]. intros x Hx.
  assert (x < 9)%nat by (unfold order9 in Hx; simpl in Hx; lia). now rewrite neg9, neg11.
Qed.
Definition o11 (L : lyap) (gr : option (update_graph dataset)) : object dataset :=
  {| ob_setup := S11; ob_lyap := L; ob_values := fun w => lyapunov_function (S11 w);
     ob_update := gr; ob_sample := None; ob_stuck := false |}.
Lemma new11 : new_object g9 [] S11 (Some mask9) false = Ok (o11 L9 None).
Proof.
  unfold new_object, o11, L9. change (map (lyapunov_function (S11 [])) (all_points g9)) with vals9.
  remember vals9 as v eqn:Ev. pose proof vals9_length as E. rewrite <- Ev in E.
  destruct v as [|v0 [|v1 [|v2 [|v3 [|v4 [|v5 [|v6 [|v7 [|v8 [|]]]]]]]]]]; try discriminate E.
  reflexivity.
Qed.
Definition graph11 : update_graph dataset :=
  {| ug_setup := S11; ug_factor := 1; ug_adaptive := false |}.
Lemma step11 : step rows_leb g9 ([], o11 L9 None) (UpdateSafeSet true 1 1 4 order9)
  = (([], o11 L9' (Some graph11)), Nothing).
Proof.
  unfold step, ob_update_safe_set, o11. cbn [ob_update ob_setup ob_lyap ob_values ob_sample ob_stuck].
  change (Bool.eqb _ _) with true. cbn [andb]. cbv iota. cbn [ug_setup ug_factor].
  rewrite (proj2 (effect_ok _ _ _ _ _ _ _) update11). reflexivity.
Qed.
Lemma F11_policy x : length x = 1%nat -> F11 (x ++ [0]) = F9 x.
Proof. intros H. apply one_dim in H. rewrite H. unfold F11, F9. simpl. f_equal. lra. Qed.
Definition before11 : state dataset := ([], o11 L9 None).
Definition after11 : state dataset := ([], o11 L9' (Some graph11)).
Definition now11 (w : dataset) : state dataset := (w, o11 L9' (Some graph11)).
Lemma learning11 w : w = [] \/ w = data11 ->
  gp_learning rows_leb g9 absV (fun _ => [0]) F11 [me11] 1 1 (24 / 5) (1 / 2) 1 before11 after11 (now11 w).
Proof.
  intros Hw. destruct premises9 as [P1 P2 P3 P4 P5 P6 P7 P8 P9 P10 P11 P12].
  constructor; auto using g9_valid; try reflexivity; try lra.
  - intros me [<-|[]]. apply sensible11.
  - exists [], (Some mask9), false, (o11 L9 None), []. repeat split; auto using new11, measured11; constructor.
  - exists 1%Z, 4%nat, order9, 4%nat. repeat split; auto using step11, order9_sorts; try apply order9_sorts.
    + simpl. lia.
    + right. exists mask9. split; reflexivity.
  - pose proof (measured11 w Hw) as Mw. exists [SetWorld w].
    split; [reflexivity|]. split; [|split; [|split]]; (apply Forall_cons; [|apply Forall_nil]).
    1,2: intros []. exact I. exact Mw.
  - intros x y Hx Hy. apply absV_lipschitz; assumption.
  - intros x y Hx Ix Hy Iy. rewrite !F11_policy by assumption. auto.
  - intros k x H1 H2 H3 H4. rewrite F11_policy by assumption. eapply P12; eauto.
Qed.

(** After the measurement the sample with the perturbation 1 is safe. *)
Example C90_ex : exists k u b,
  safe (book after11) k /\
  snd (step rows_leb g9 (now11 data11) (GetSafeSample (Perturbations 1 [[1]]) None true None []))
    = Sampled (grid_point g9 k ++ u) b /\
  (absV (F11 (grid_point g9 k ++ u)) < 4 \/ u = [0]) /\
  (absV (F11 (grid_point g9 k ++ u)) < 7 / 2 -> forall n,
     absV (iterate n (fun x => F11 (x ++ [0])) (F11 (grid_point g9 k ++ u))) < 7 / 2).
Proof.
  pose proof (C90_safe_learning rows_leb g9 absV (fun _ => [0]) F11 [me11] 1 1 (24 / 5) (1 / 2) 1 before11 after11
    (now11 data11) [[1]] None true None [] (learning11 data11 (or_intror eq_refl)) rows_leb_order
    ltac:(discriminate) ltac:(intros q [<-|[]]; reflexivity) ltac:(intros n [=])) as H.
  cbn zeta in H. destruct (snd _) as [|e|row b].
  - destruct H.
  - exfalso. destruct H as (_ & [H|H]); [discriminate|]. exact (H 1%nat eq_refl).
  - destruct H as (k & s & u & H1 & -> & -> & H2 & H3 & _). exists k, u, b.
    change (l_cmax (book after11)) with (l_cmax L9') in H2, H3. rewrite cmax9 in H2, H3.
    change (limited None [0]) with [0] in H2.
    split; auto. split; auto. split; auto. intros HV n. specialize (H3 ltac:(lra) n). lra.
Qed.

(** The models must be right about all actions: it is not enough if they are right
    about the closed loop. *)
Definition F11' (x : list R) : list R := [nth 0 (F9 [nth 0 x 0]) 0 + 100 * nth 1 x 0].
Theorem C90_closed_loop_only_refuted :
  ~ (forall leb g V pi F F' ms sf lv lf tau m before after now perts positive num draws s u b,
     gp_learning leb g V pi F ms sf lv lf tau m before after now ->
     (forall x, length x = dims g -> F' (x ++ pi x) = F (x ++ pi x)) ->
     total_order leb -> (forall p, In p perts -> length p = m) -> drawn g (book now) num draws ->
     length s = dims g ->
     snd (step leb g now (GetSafeSample (Perturbations m perts) None positive num draws)) = Sampled (s ++ u) b ->
     V (F' (s ++ u)) < l_cmax (book after) \/ u = pi s).
Proof.
  intros H.
  pose proof (learning11 [] (or_introl eq_refl)) as GL.
  assert (SF : sample_fits g9 (book (now11 [])) (S11 []) 1 None).
  { constructor; auto using g9_valid; try discriminate.
    intros s u _ _. unfold S11, learner. cbn [dynamics]. rewrite model11. eexists _, _. repeat split; reflexivity. }
  destruct (C28_most_uncertain_certified rows_leb g9 (book (now11 [])) (S11 []) 1 None [[1]] true None []
    rows_leb_order SF ltac:(intros q [<-|[]]; reflexivity) ltac:(intros n [=])) as (_ & A).
  destruct (C28_tested_states g9 (book (now11 [])) (S11 []) 1 None None [] SF ltac:(intros n [=])) as (HT & HT').
  assert (F0 : forall k, safe L9' k -> F9 (grid_point g9 k) = [0] /\ grid_point g9 k = [-4 + INR k]).
  { intros k Hk.
    assert (Hk9 : (1 <= k < 9)%nat).
    { unfold safe in Hk. destruct (Nat.lt_ge_cases k 9); [|rewrite nth_overflow in Hk by (simpl; lia); discriminate].
      destruct k; [discriminate|lia]. }
    rewrite point9 by lia. split; auto. unfold F9. simpl.
    assert (1 <= INR k) by (replace 1 with (INR 1) by reflexivity; apply le_INR; lia).
    destruct Rle_dec; [auto|lra]. }
  assert (HC : forall k, safe L9' k -> certified g9 (book (now11 [])) (S11 []) true (grid_point g9 k) [0 + 1]).
  { intros k Hk. eexists _, _. split; [apply model11|]. split; [|discriminate].
    change (l_cmax (book (now11 []))) with (l_cmax L9'). rewrite cmax9.
    destruct (F0 k Hk) as (E1 & E2). rewrite E2 in E1 |- *. cbn [app]. unfold F11. cbn [nth]. rewrite E1.
    unfold weighted_error. simpl. unfold absV; simpl. rewrite Rabs_right by lra. lra. }
  destruct A as (s & u & Hs & ES & Hu).
  { intros E. assert (Hin : In (grid_point g9 4) (tested g9 (book (now11 [])) None [])).
    { apply HT'; auto. reflexivity. }
    rewrite E in Hin. destruct Hin. }
  destruct (HT s Hs) as (k & Hk & Hkn & Ek).
  assert (Es : s = grid_point g9 k) by (unfold grid_point; now rewrite Ek).
  assert (Eu : u = [0 + 1]).
  { destruct Hu as [(p & [<-|[]] & -> & _)|(_ & Hno & _)]; [reflexivity|].
    exfalso. apply (Hno s [1] Hs ltac:(left; reflexivity)). rewrite Es. apply HC. exact Hk. }
  subst u. rewrite Es in ES. destruct (F0 k Hk) as (E1 & E2).
  specialize (H rows_leb g9 absV (fun _ => [0]) F11 F11' [me11] 1 1 (24 / 5) (1 / 2) 1%nat before11 after11 (now11 [])
    [[1]] true None [] (grid_point g9 k) [0 + 1] (uncertainty (S11 []) (grid_point g9 k) [0 + 1]) GL).
  destruct H as [H|H].
  - intros x Hx. apply one_dim in Hx. rewrite Hx. unfold F11', F11. simpl. f_equal. lra.
  - exact rows_leb_order.
  - intros q [<-|[]]; reflexivity.
  - intros n [=].
  - rewrite E2. reflexivity.
  - unfold step, now11, ob_get_safe_sample, o11. cbn [ob_sample ob_setup ob_lyap sg_setup sg_width ob_stuck sample_call].
    change (sample_with rows_leb g9 L9' (S11 []) (ndim g9 + action_dim (Perturbations 1 [[1]]))
        (Perturbations 1 [[1]]) None true None [])
      with (get_safe_sample rows_leb g9 (book (now11 [])) (S11 []) (Perturbations 1 [[1]]) None true None []).
    rewrite ES. reflexivity.
  - change (l_cmax (book after11)) with (l_cmax L9') in H. rewrite cmax9 in H.
    rewrite E2 in E1, H. unfold F11' in H. cbn [app nth] in H. rewrite E1 in H. unfold absV in H. simpl in H.
    rewrite Rabs_right in H by lra. lra.
  - injection H as H. lra.
Qed.
Print Assumptions C90_closed_loop_only_refuted.
