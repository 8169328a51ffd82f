(** Property C121: exploration with Gaussian processes. *)
From Coq Require Import Reals List Bool Arith ZArith Lra Lia.
From Verif Require Import Prelude NumModel ListFacts GridModel SafeModel CertModel UtilModel SampleModel LoopModel.
From Verif Require Import GPModel GPSpec RField GPLoopModel.
From Verif Require Import GridSpec SafeSpec CertSpec SampleSpec LoopSpec GPLoopSpec.
From Verif Require Import GridProofs SafeProofs CertProofs SampleProofs LoopProofs LoopWidths CholProofs GPLoopProofs ExploreSpec ExploreProofs.
From Verif Require Import Properties.SafeProps Properties.CertProps Properties.SampleProps Properties.GridProps Properties.LoopProps Properties.GPLoopProps.
Import ListNotations.
Local Open Scope R_scope.

Section Explore.
  Variables (leb : list R -> list R -> bool) (g : grid) (V : list R -> R) (pi : list R -> list R).
  Variables (lv lf tau : R) (ms : list member) (sf : R) (m : nat) (perts : list (list R)).
  Variables (limits : option (list (R * R))) (st : state dataset).
  Hypothesis TO : total_order leb.
  Hypothesis X : explorer g V pi lv lf tau ms m perts limits st.
  Let S0 := learner V pi lv lf tau ms.
  Let action s p := limited limits (map2 Rplus (pi s) p).

  Lemma explores_program h log : explores leb g sf m perts limits st h log ->
    without is_assignment h /\ Forall (uses sf m) h.
  Proof.
    induction 1 as [|h log c H (I1 & I2) Hc|h log positive num draws row b y H (I1 & I2) now call Hd Hs].
    - split; constructor.
    - split; apply Forall_app; split; auto; constructor; auto; destruct c; cbn in *; auto; tauto.
    - split; apply Forall_app; split; auto; repeat constructor; cbn; auto.
  Qed.

  (** What a sample is. *)
  Lemma sample_is h log positive num draws row b :
    explores leb g sf m perts limits st h log ->
    let now := run leb g st h in
    drawn g (book now) num draws ->
    snd (step leb g now (GetSafeSample (Perturbations m perts) limits positive num draws)) = Sampled row b ->
    exists s u, In s (tested g (book now) num draws) /\ is_vertex g s /\ row = s ++ u /\
      b = uncertainty (S0 (world now)) s u /\
      (u = limited limits (pi s) \/ exists p, In p perts /\ u = action s p) /\
      forall s' p', In s' (tested g (book now) num draws) -> In p' perts ->
        certified g (book now) (S0 (world now)) positive s' (action s' p') ->
        uncertainty (S0 (world now)) s' (action s' p') <= b.
  Proof.
    intros HX now HD HS. destruct X as [X1 X2 X3 X4 X5 X6 (ini & ad & X7)]. destruct (explores_program h log HX) as (HA & HU).
    destruct st as [w0 o0]. cbn [world snd fst] in X7.
    assert (EV : evaluates leb g now).
    { apply evaluates_iff. destruct now as [w o]. cbn in HS |- *. unfold ob_get_safe_sample, sample_call in HS.
      destruct (ob_stuck o); [|reflexivity]. exfalso. destruct select_states as [x|e]; cbn in HS; [discriminate|].
      destruct e; discriminate. }
    destruct (C71_reuse_invisible dataset leb g w0 S0 ini ad o0 h sf m X7 HA HU EV) as (_ & A).
    specialize (A (Perturbations m perts) limits positive num draws eq_refl). cbn zeta in A. destruct A as (_ & A).
    fold now in A. rewrite A in HS. clear A.
    assert (SF : sample_fits g (book now) (S0 (world now)) m limits).
    { constructor; auto.
      - assert (SZ : sized g (book now)) by (apply sized_run; auto; eapply sized_new; eauto).
        destruct SZ as ([C1 C2 C3] & SZ). rewrite C1, SZ, all_points_length by auto. reflexivity.
      - intros s Hs. apply X2. eapply vertex_length; eauto.
      - intros s u Hs Hu. eexists _, _. split; [reflexivity|]. rewrite !map_length, stack_length.
        unfold coordinate_constants. cbn. rewrite repeat_length, map_length, stack_length. auto. }
    destruct (C28_most_uncertain_certified leb g (book now) (S0 (world now)) m limits perts positive num draws TO SF X6 HD) as (Hn & Hs).
    destruct (list_eq_dec (list_eq_dec Req_EM_T) (tested g (book now) num draws) []) as [E|NE].
    { rewrite Hn in HS by auto. discriminate. }
    destruct (Hs NE) as (s & u & H1 & H2 & H3). rewrite H2 in HS. injection HS as <- <-.
    exists s, u. split; [auto|]. split; [apply (safe_good g (book now) _ m limits SF num draws HD s H1)|].
    split; [reflexivity|]. split; [reflexivity|].
    destruct H3 as [(p & Hp & -> & _ & H3)|(-> & H3 & _)].
    - split; [right; eauto|]. auto.
    - split; [left; reflexivity|]. intros s' p' A B C. exfalso. exact (H3 s' p' A B C).
  Qed.

  (** The points that can be sampled. *)
  Definition candidates : list (list R) :=
    flat_map (fun s => (s ++ limited limits (pi s)) :: map (fun p => s ++ action s p) perts) (all_points g).
  Lemma candidates_length : length candidates = (length (all_points g) * (length perts + 1))%nat.
  Proof.
    unfold candidates. induction (all_points g) as [|s l IH]; [reflexivity|]. cbn [flat_map].
    rewrite app_length, IH. cbn [length]. rewrite map_length. lia.
  Qed.

  Lemma bound_small w s u n : no_white_noise ms -> (0 < n)%nat -> (n <= times_measured w (s ++ u))%nat ->
    uncertainty (S0 w) s u <= noise_bound ms n.
  Proof.
    intros KD Hn Ht. unfold uncertainty, S0, learner, stack_dynamics. cbn [dynamics]. unfold noise_bound.
    assert (G : forall ms' k, (forall me, In me ms' -> In me ms) ->
      sum (map snd (stack_from k ms' w (s ++ u))) <= sum (map (fun me => me_beta me * sqrt (me_noise me / INR n)) ms')).
    { induction ms' as [|me ms' IH]; intros k HI; cbn; [lra|].
      pose proof (IH (Datatypes.S k) ltac:(intros; apply HI; now right)).
      pose proof (@repeated_bound k me w (s ++ u) n (xp_sensible _ _ _ _ _ _ _ _ _ _ _ X me (HI me (or_introl eq_refl)))
        (KD me _ (HI me (or_introl eq_refl))) Hn Ht). unfold sum in *. lra. }
    apply (G ms 0%nat). auto.
  Qed.

  Lemma world_snoc h c : world (run leb g st (h ++ [c])) =
    match c with SetWorld w => w | _ => world (run leb g st h) end.
  Proof. rewrite run_app. unfold run at 1. cbn [fold_left]. apply world_step. Qed.
  Lemma times_app w new x : times_measured (w ++ new) x = (times_measured w x + times_measured new x)%nat.
  Proof. unfold times_measured. now rewrite map_app, count_occ_app. Qed.

  Lemma explored h log eps n : no_white_noise ms -> (0 < n)%nat -> noise_bound ms n <= eps ->
    explores leb g sf m perts limits st h log ->
    (forall x, count_occ (list_eq_dec Req_EM_T) (map fst log) x <= times_measured (world (run leb g st h)) x)%nat /\
    (forall x, In x (map fst log) -> In x candidates) /\
    (forall x, count_occ (list_eq_dec Req_EM_T) (map fst (uncertain eps log)) x <= n)%nat.
  Proof.
    intros KD Hn He. induction 1 as [|h log c H (I1 & I2 & I3) Hc|h log positive num draws row b y H (I1 & I2 & I3) now call Hd Hs].
    - cbn. split; [intros; lia|]. split; [tauto|intros; lia].
    - split; [|split]; auto. intros x. rewrite world_snoc. destruct c; auto.
      destruct Hc as (new & ->). rewrite times_app. specialize (I1 x). lia.
    - destruct (sample_is h log positive num draws row b H Hd Hs) as (s & u & H1 & H2 & H3 & H4 & H5 & _).
      fold now in I1.
      split; [|split].
      + intros x. replace (h ++ _) with ((h ++ [call]) ++ [SetWorld (world now ++ [(row, y)])]) by (rewrite <- app_assoc; reflexivity).
        rewrite world_snoc, times_app, map_app, count_occ_app. specialize (I1 x). unfold times_measured at 2. cbn [map fst].
        lia.
      + intros x Hx. rewrite map_app in Hx. apply in_app_iff in Hx. destruct Hx as [Hx|[<-|[]]]; [auto|]. cbn [fst].
        unfold candidates. apply in_flat_map. exists s. split.
        * apply C02_all_points_in_index_order; [apply X|exact H2].
        * rewrite H3. destruct H5 as [->|(p & Hp & ->)]; [now left|right]. apply in_map_iff. eauto.
      + intros x. unfold uncertain. rewrite filter_app, map_app, count_occ_app. cbn [filter snd]. unfold CertModel.Rltb.
        specialize (I3 x). change (filter (fun s0 => if Rlt_dec eps (snd s0) then true else false) log) with (uncertain eps log). destruct (Rlt_dec eps b) as [Hb|Hb]; [|cbn; lia]. cbn [map fst count_occ].
        destruct (list_eq_dec Req_EM_T row x) as [<-|]; [|lia].
        destruct (Nat.lt_ge_cases (times_measured (world now) row) n) as [Hl|Hl].
        * assert (count_occ (list_eq_dec Req_EM_T) (map fst (uncertain eps log)) row <= count_occ (list_eq_dec Req_EM_T) (map fst log) row)%nat.
          { unfold uncertain. clear. induction log as [|[r b] log IH]; [auto|]. cbn [filter snd]. destruct CertModel.Rltb; cbn [map fst count_occ]; destruct list_eq_dec; lia. }
          specialize (I1 row). lia.
        * exfalso. rewrite H3 in Hl. pose proof (bound_small (world now) s u n KD Hn Hl) as HB. change (world now) with (world (run leb g st h)) in HB. lra.
  Qed.
End Explore.

Lemma count_candidates {A} (eq_dec : forall x y : A, {x = y} + {x <> y}) n (cand : list A) : forall rows,
  (forall x, In x rows -> In x cand) -> (forall x, count_occ eq_dec rows x <= n)%nat ->
  (length rows <= length cand * n)%nat.
Proof.
  induction cand as [|a cand IH]; intros rows HI HC.
  - destruct rows as [|x rows]; [cbn; lia|]. destruct (HI x (or_introl eq_refl)).
  - set (rest := filter (fun x => if eq_dec a x then false else true) rows).
    assert (L : forall l, length l = (count_occ eq_dec l a + length (filter (fun x => if eq_dec a x then false else true) l))%nat).
    { induction l as [|x l IHl]; [reflexivity|]. cbn. destruct (eq_dec a x), (eq_dec x a); try congruence; cbn; lia. }
    specialize (L rows). fold rest in L. specialize (IH rest). cbn [length].
    assert (length rest <= length cand * n)%nat; [|specialize (HC a); lia].
    apply IH.
    + intros x Hx. apply filter_In in Hx. destruct Hx as (H1 & H2). destruct (eq_dec a x); [discriminate|].
      destruct (HI x H1) as [->|]; [congruence|auto].
    + intros x. specialize (HC x). assert (F : forall l, (count_occ eq_dec (filter (fun x => if eq_dec a x then false else true) l) x <= count_occ eq_dec l x)%nat).
      { induction l as [|y l IHl]; [auto|]. cbn. destruct (eq_dec a y); cbn; destruct (eq_dec y x); lia. }
      specialize (F rows). fold rest in F. lia.
Qed.

(** In every exploration the number of samples with a bound above [eps] is limited. *)
Theorem C121_few_uncertain_samples : forall leb g V pi lv lf tau ms sf m perts limits st h log eps n,
  total_order leb -> explorer g V pi lv lf tau ms m perts limits st -> no_white_noise ms ->
  explores leb g sf m perts limits st h log ->
  (0 < n)%nat -> noise_bound ms n <= eps ->
  (length (uncertain eps log) <= length (all_points g) * (length perts + 1) * n)%nat.
Proof.
  intros leb g V pi lv lf tau ms sf m perts limits st h log eps n TO X KD HX Hn He.
  destruct (explored leb g V pi lv lf tau ms sf m perts limits st TO X h log eps n KD Hn He HX) as (_ & H2 & H3).
  rewrite <- (candidates_length g pi perts limits), <- (map_length fst (uncertain eps log)).
  apply (count_candidates (list_eq_dec Req_EM_T)); [|exact H3].
  intros x Hx. apply H2. apply in_map_iff in Hx. destruct Hx as (p & <- & Hp). apply in_map. now apply filter_In in Hp.
Qed.
Print Assumptions C121_few_uncertain_samples.

(** For every [eps] there is such a limit. *)
Lemma enough_measurements ms eps : (forall me, In me ms -> sensible me) -> 0 < eps ->
  exists n, (0 < n)%nat /\ noise_bound ms n <= eps.
Proof.
  intros HS He. set (C := sum (map (fun me => me_beta me * sqrt (me_noise me)) ms)).
  assert (HC : 0 <= C).
  { unfold C. clear C. induction ms as [|me ms' IH]; cbn; [lra|].
    pose proof (IH ltac:(intros; apply HS; now right)). pose proof (se_beta me (HS me (or_introl eq_refl))).
    pose proof (sqrt_pos (me_noise me)). unfold sum in *. nra. }
  assert (NB : forall n, (0 < n)%nat -> noise_bound ms n = C / sqrt (INR n)).
  { intros n Hn. unfold noise_bound, C. assert (Hi : 0 < INR n) by (apply lt_0_INR; lia).
    assert (Hq : sqrt (INR n) <> 0) by (pose proof (sqrt_lt_R0 _ Hi); lra).
    clear - HS Hi Hq. induction ms as [|me ms' IH]; cbn; [field; auto|]. unfold sum in IH.
    rewrite IH by (intros; apply HS; now right). rewrite sqrt_div_alt by auto. field. auto. }
  set (y := C / eps). assert (Hy : 0 <= y) by (unfold y; apply Rmult_le_pos; [auto|left; now apply Rinv_0_lt_compat]).
  destruct (archimed (y ^ 2 + 1)) as (Ha & _). set (n := Z.to_nat (up (y ^ 2 + 1))).
  assert (Hn : INR n > y ^ 2 + 1).
  { unfold n. assert (0 < up (y ^ 2 + 1))%Z by (apply lt_IZR; pose proof (pow2_ge_0 y); lra).
    rewrite INR_IZR_INZ, Z2Nat.id by lia. exact Ha. }
  clearbody n. clear Ha. exists n.
  assert (Hn0 : (0 < n)%nat) by (destruct n; [cbn in Hn; nra|lia]).
  split; [auto|]. rewrite NB by auto. assert (Hi : 0 < INR n) by (apply lt_0_INR; lia).
  assert (Hq : y <= sqrt (INR n)). { rewrite <- (sqrt_pow2 y) by auto. apply sqrt_le_1_alt. lra. }
  assert (Hp : 0 < sqrt (INR n)) by now apply sqrt_lt_R0.
  apply (Rmult_le_reg_r (sqrt (INR n))); [auto|]. unfold Rdiv. rewrite Rmult_assoc, Rinv_l, Rmult_1_r by lra.
  replace C with (eps * y) by (unfold y; field; lra). now apply Rmult_le_compat_l; [lra|].
Qed.

Theorem C121_finitely_many : forall g ms perts eps,
  (forall me, In me ms -> sensible me) -> no_white_noise ms -> 0 < eps ->
  exists M, forall leb V pi lv lf tau sf m limits st h log,
    total_order leb -> explorer g V pi lv lf tau ms m perts limits st ->
    explores leb g sf m perts limits st h log ->
    (length (uncertain eps log) <= M)%nat.
Proof.
  intros g ms perts eps HS KD He. destruct (enough_measurements ms eps HS He) as (n & Hn & HB).
  exists (length (all_points g) * (length perts + 1) * n)%nat.
  intros leb V pi lv lf tau sf m limits st h log TO X HX. eapply C121_few_uncertain_samples; eauto.
Qed.
Print Assumptions C121_finitely_many.

(** Every entry of the log was a call. *)
Lemma log_round leb g V pi lv lf tau ms sf m perts limits st h log row b :
  total_order leb -> explorer g V pi lv lf tau ms m perts limits st ->
  explores leb g sf m perts limits st h log -> In (row, b) log ->
  exists h1 positive num draws h2,
    h = h1 ++ GetSafeSample (Perturbations m perts) limits positive num draws :: h2 /\
    let now := run leb g st h1 in
    snd (step leb g now (GetSafeSample (Perturbations m perts) limits positive num draws)) = Sampled row b /\
    forall s p, let u := limited limits (map2 Rplus (pi s) p) in
      In s (tested g (book now) num draws) -> In p perts ->
      certified g (book now) (learner V pi lv lf tau ms (world now)) positive s u ->
      uncertainty (learner V pi lv lf tau ms (world now)) s u <= b.
Proof.
  intros TO X H. induction H as [|h log c H IH Hc|h log positive num draws row' b' y H IH now call Hd Hs]; intros HI.
  - destruct HI.
  - destruct (IH HI) as (h1 & po & nu & dr & h2 & -> & R). exists h1, po, nu, dr, (h2 ++ [c]).
    split; [now rewrite <- app_assoc|exact R].
  - apply in_app_iff in HI. destruct HI as [HI|[[= -> ->]|[]]].
    + destruct (IH HI) as (h1 & po & nu & dr & h2 & -> & R). eexists h1, po, nu, dr, (h2 ++ _).
      split; [rewrite <- app_assoc; reflexivity|exact R].
    + exists h, positive, num, draws, [SetWorld (world now ++ [(row, y)])]. split; [reflexivity|]. split; [exact Hs|].
      destruct (sample_is leb g V pi lv lf tau ms sf m perts limits st TO X h log positive num draws row b H Hd Hs)
        as (s0 & u0 & _ & _ & _ & _ & _ & H6). exact H6.
Qed.

(** Long explorations come to a call at which the model knows the successors of all
    certified pairs up to [eps]. *)
Theorem C121_system_known : forall leb g V pi lv lf tau ms sf m perts limits st h log eps n F,
  total_order leb -> explorer g V pi lv lf tau ms m perts limits st -> no_white_noise ms ->
  explores leb g sf m perts limits st h log ->
  (0 < n)%nat -> noise_bound ms n <= eps ->
  (length (all_points g) * (length perts + 1) * n < length log)%nat ->
  (forall x, length (F x) = dims g) -> (forall h1 h2, h = h1 ++ h2 -> measured ms F (world (run leb g st h1))) ->
  exists h1 positive num draws h2,
    h = h1 ++ GetSafeSample (Perturbations m perts) limits positive num draws :: h2 /\
    let now := run leb g st h1 in
    forall s p, let u := limited limits (map2 Rplus (pi s) p) in
      In s (tested g (book now) num draws) -> In p perts ->
      certified g (book now) (learner V pi lv lf tau ms (world now)) positive s u ->
      exists mean err, stack_dynamics ms (world now) s u = Uncertain mean err /\
        dist1 (F (s ++ u)) mean <= eps.
Proof.
  intros leb g V pi lv lf tau ms sf m perts limits st h log eps n F TO X KD HX Hn He Hl LF HM.
  pose proof (C121_few_uncertain_samples _ _ _ _ _ _ _ _ _ _ _ _ _ _ _ eps n TO X KD HX Hn He) as HF.
  assert (E : exists row b, In (row, b) log /\ b <= eps).
  { assert (HL : (length (uncertain eps log) < length log)%nat) by lia. clear - HL.
    unfold uncertain in HL. induction log as [|[row b] log IH]; [cbn in HL; lia|]. cbn [filter snd] in HL.
    unfold CertModel.Rltb in HL at 1. destruct (Rlt_dec eps b).
    - cbn [length] in HL. destruct IH as (r' & b' & H1 & H2); [lia|]. exists r', b'. split; [now right|auto].
    - exists row, b. split; [now left|lra]. }
  destruct E as (row & b & HI & Hb).
  destruct (log_round _ _ _ _ _ _ _ _ _ _ _ _ _ _ _ row b TO X HX HI) as (h1 & po & nu & dr & h2 & Eh & _ & R).
  exists h1, po, nu, dr, h2. split; [exact Eh|]. cbn zeta in *. intros s p Hs Hp HC.
  specialize (R s p Hs Hp HC). set (u := limited limits _) in *. set (w := world (run leb g st h1)) in *.
  destruct (C90_bounds_contain ms F w s u (xp_sensible _ _ _ _ _ _ _ _ _ _ _ X) (HM _ _ Eh)) as (mean & err & E1 & E2).
  { rewrite LF. symmetry. apply X. }
  exists mean, err. split; [exact E1|].
  unfold uncertainty in R. cbn [learner dynamics] in R. rewrite E1 in R.
  apply Rle_trans with (sum err); [|lra].
  destruct E2 as (L1 & _ & E2).
  assert (L2 : length err = length mean). { unfold stack_dynamics in E1. injection E1 as <- <-. now rewrite !map_length. }
  unfold dist1. clear - L1 L2 E2. revert mean err L1 L2 E2. induction (F (s ++ u)) as [|a l IH]; intros [|b mean] [|e err]; cbn; try lia; intros L1 L2 E2; [lra|].
  specialize (IH mean err ltac:(lia) ltac:(lia)). pose proof (E2 0%nat ltac:(cbn; lia)) as E0. cbn in E0.
  unfold sum in IH |- *. cbn. assert (H : forall j, (j < length mean)%nat -> Rabs (nth j l 0 - nth j mean 0) <= nth j err 0) by (intros j Hj; exact (E2 (Datatypes.S j) ltac:(cbn; lia))).
  specialize (IH H). cbn in *. lra.
Qed.
Print Assumptions C121_system_known.
