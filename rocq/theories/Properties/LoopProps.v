(** Properties C71, C72, C73 and C87: reused graphs and the safe learning loop. *)
From Coq Require Import Reals List Bool Arith ZArith Lia Lra Permutation.
From Verif Require Import Prelude ListFacts NumModel GridModel GridSpec GridProofs SafeModel
  SafeSpec SafeProofs CertModel CertSpec CertProofs UtilModel SampleModel SampleSpec SampleProofs
  LoopModel LoopSpec LoopProofs LoopWidths.
From Verif.Properties Require Import SafeProps CertProps SampleProps.
Import ListNotations.
Local Open Scope nat_scope.
Local Open Scope R_scope.

(** ** C71: which functions a call uses *)

(** The first call of [update_safe_set] fixes the functions, the constants, the
    safety factor and the kind of graph for all later calls: the policy, dynamics,
    Lyapunov function, constants and [tau] that the object had at the first call,
    evaluated with the variables and data of the moment.  If [adaptive] was
    reassigned, every later call raises ValueError and changes nothing.  This is as
    long as tensors can be evaluated, see below. *)
Theorem C71_first_update_fixes : forall W leb g (w0 : W) S0 ini ad o0 h1 h2 sh1 mr1 sf1 bs1 order1
    sh mr sf bs order,
  new_object g w0 S0 ini ad = Ok o0 -> without is_update h1 ->
  let first := run leb g (w0, o0) h1 in
  let now := run leb g (w0, o0) (h1 ++ UpdateSafeSet sh1 mr1 sf1 bs1 order1 :: h2) in
  let result := step leb g now (UpdateSafeSet sh mr sf bs order) in
  (evaluates leb g now -> l_adaptive (book now) = l_adaptive (book first) ->
   match update_safe_set (book now)
           (certificate (attributes first (world now)) sf1 (grid_point g)) sh mr bs order with
   | Ok L => snd result = Nothing /\ book (fst result) = L
   | Err e => snd result = Raised e /\
       ((forall m, l_init (book now) = Some m -> length m = length (all_points g)) ->
        book (fst result) = book now)
   end) /\
  (l_adaptive (book now) <> l_adaptive (book first) ->
   snd result = Raised ValueError /\ book (fst result) = book now).
Proof.
  intros W leb g w0 S0 ini ad o0 h1 h2 sh1 mr1 sf1 bs1 order1 sh mr sf bs order E0 H1 first now result.
  assert (N : ob_update (snd first) = None).
  { apply update_none; auto. unfold new_object in E0.
    destruct lyap_init; [|discriminate]. cbn [bind] in E0. now injection E0 as <-. }
  assert (G : ob_update (snd now) = Some {| ug_setup := attributes first; ug_factor := sf1;
                ug_adaptive := l_adaptive (book first) |}).
  { unfold now. rewrite run_app, run_cons. apply update_kept. fold first.
    destruct first as [w1 o1]. cbn. unfold ob_update_safe_set. cbn in N. rewrite N. cbn.
    rewrite Bool.eqb_reflx. unfold attributes, book. destruct (_ && _); [reflexivity|]. cbn. now destruct update_effect. }
  assert (HL : lengths g (book now)).
  { apply lengths_run. unfold book. cbn. eapply lengths_new; exact E0. }
  pose proof (evaluates_iff leb g now) as EV.
  unfold result. remember (l_adaptive (book first)) as af. destruct now as [w o]. cbn in G, HL, EV.
  unfold book, world in *. cbn. unfold ob_update_safe_set. rewrite G. cbn. split.
  - intros HE' ->. apply EV in HE'. rewrite HE', Bool.eqb_reflx. cbn [andb].
    match goal with |- context [update_effect ?L ?C _ _ _ _] =>
      pose proof (effect_outcome L C sh mr bs order) as HE end.
    destruct update_safe_set as [L'|e] eqn:EU; [rewrite HE; cbn; auto|].
    destruct HE as (L' & -> & HE). cbn. split; [reflexivity|]. intros Hm.
    apply HE. destruct HL as (L1 & L2 & L3). cbn in L1, L2, L3. constructor; rewrite ?L3; auto.
  - intros E. destruct (Bool.eqb _ _) eqn:EB; [|cbn; auto].
    apply Bool.eqb_prop in EB. exfalso; congruence.
Qed.
Print Assumptions C71_first_update_fixes.

(** The same for [get_safe_sample]: functions and constants of the first call, and
    its number of action dimensions; safe set and level are the current ones. *)
Theorem C71_first_sample_fixes : forall W leb g (w0 : W) S0 ini ad o0 h1 h2 p1 lim1 pos1 num1 draws1
    p lim pos num draws,
  new_object g w0 S0 ini ad = Ok o0 -> without is_sample h1 ->
  let first := run leb g (w0, o0) h1 in
  let now := run leb g (w0, o0) (h1 ++ GetSafeSample p1 lim1 pos1 num1 draws1 :: h2) in
  snd (step leb g first (GetSafeSample p1 lim1 pos1 num1 draws1)) <> Raised TypeError ->
  evaluates leb g now ->
  let result := step leb g now (GetSafeSample p lim pos num draws) in
  book (fst result) = book now /\
  snd result = match sample_with leb g (book now) (attributes first (world now))
                       (dims g + action_dim p1) p lim pos num draws with
               | Ok (row, b) => Sampled row b
               | Err e => Raised e
               end.
Proof.
  intros W leb g w0 S0 ini ad o0 h1 h2 p1 lim1 pos1 num1 draws1 p lim pos num draws E0 H1 first now HT EV result.
  assert (N : ob_sample (snd first) = None).
  { apply sample_none; auto. unfold new_object in E0.
    destruct lyap_init; [|discriminate]. cbn [bind] in E0. now injection E0 as <-. }
  assert (G : ob_sample (snd now) = Some {| sg_setup := attributes first;
                sg_width := (dims g + action_dim p1)%nat |}).
  { unfold now. rewrite run_app, run_cons. apply sample_kept. fold first.
    destruct first as [w1 o1]. cbn in N, HT |- *. unfold ob_get_safe_sample in *.
    rewrite N in *. cbn [sg_setup sg_width] in *.
    destruct sample_call as [[[]|[]] ?]; cbn in *; auto. congruence. }
  apply evaluates_iff in EV.
  unfold result. destruct now as [w o]. cbn in G, EV. unfold book, world. cbn.
  unfold ob_get_safe_sample, sample_call. rewrite G, EV. cbn.
  destruct sample_with as [[]|[]]; cbn; auto.
Qed.
Print Assumptions C71_first_sample_fixes.

(** Reuse is invisible if the attributes are not assigned and all calls use the
    same safety factor and number of action dimensions: every call is computed from
    the functions of the constructor with the current variables and data. *)
Theorem C71_reuse_invisible : forall W leb g (w0 : W) S0 ini ad o0 h sf m,
  new_object g w0 S0 ini ad = Ok o0 -> without is_assignment h -> Forall (uses sf m) h ->
  let now := run leb g (w0, o0) h in
  evaluates leb g now ->
  (forall sh mr bs order,
     let result := step leb g now (UpdateSafeSet sh mr sf bs order) in
     match update_safe_set (book now) (certificate (S0 (world now)) sf (grid_point g)) sh mr bs order with
     | Ok L => snd result = Nothing /\ book (fst result) = L
     | Err e => snd result = Raised e /\ book (fst result) = book now
     end) /\
  (forall p lim pos num draws, action_dim p = m ->
     let result := step leb g now (GetSafeSample p lim pos num draws) in
     book (fst result) = book now /\
     snd result = match get_safe_sample leb g (book now) (S0 (world now)) p lim pos num draws with
                  | Ok (row, b) => Sampled row b
                  | Err e => Raised e
                  end).
Proof.
  intros W leb g w0 S0 ini ad o0 h sf m E0 HA HU now EV. apply evaluates_iff in EV.
  assert (G : graphs_current g S0 sf m (snd now)).
  { apply graphs_run; auto. unfold new_object in E0.
    destruct lyap_init; [|discriminate]. cbn [bind] in E0. injection E0 as <-.
    split; [reflexivity|]. split; cbn; discriminate. }
  assert (HC : consistent (book now)).
  { apply (sized_run leb g h (w0, o0) HA). eapply sized_new; exact E0. }
  destruct now as [w o]. destruct G as (G1 & G2 & G3). cbn in G1, G2, G3, EV. unfold book, world in *. cbn.
  cbn in HC. split.
  - intros sh mr bs order. unfold ob_update_safe_set. rewrite EV.
    destruct (ob_update o) as [gr|].
    + destruct (G2 gr eq_refl) as (-> & -> & ->). rewrite Bool.eqb_reflx. cbn [andb].
      rewrite effect_consistent by exact HC. destruct update_safe_set; cbn; auto.
    + cbn. rewrite Bool.eqb_reflx, G1. cbn [andb]. rewrite effect_consistent by exact HC.
      destruct update_safe_set; cbn; auto.
  - intros p lim pos num draws <-. unfold ob_get_safe_sample, get_safe_sample, sample_call. rewrite EV.
    destruct (ob_sample o) as [gr|].
    + destruct (G3 gr eq_refl) as (-> & ->). destruct sample_with as [[]|[]]; cbn; auto.
    + cbn. rewrite G1. destruct sample_with as [[]|[]]; cbn; auto.
Qed.
Print Assumptions C71_reuse_invisible.

(** The stored values are those of the Lyapunov function given to the constructor,
    with the variables at the last [update_values] (or at construction), whatever
    is assigned in between. *)
Theorem C71_values : forall W leb g (w0 : W) S0 ini ad o0 h1 h2,
  new_object g w0 S0 ini ad = Ok o0 -> without is_values h2 ->
  l_vals (book (run leb g (w0, o0) h2)) = map (lyapunov_function (S0 w0)) (all_points g) /\
  (evaluates leb g (run leb g (w0, o0) h1) ->
   l_vals (book (run leb g (w0, o0) (h1 ++ UpdateValues :: h2)))
   = map (lyapunov_function (S0 (world (run leb g (w0, o0) h1)))) (all_points g)).
Proof.
  intros W leb g w0 S0 ini ad o0 h1 h2 E0 H2. split.
  - rewrite vals_kept by auto. unfold book. cbn. unfold new_object in E0.
    destruct lyap_init eqn:E; [|discriminate]. cbn [bind] in E0. injection E0 as <-. cbn.
    unfold lyap_init in E. destruct assign_opt; [|discriminate]. cbn [bind] in E.
    destruct assign_opt; [|discriminate]. cbn [bind] in E. now injection E as <-.
  - intros EV. apply evaluates_iff in EV. rewrite run_app, run_cons, vals_kept by auto. unfold book, world.
    pose proof (values_kept leb g h1 (w0, o0)) as E. destruct (run leb g (w0, o0) h1) as [w o].
    cbn in E, EV |- *. unfold ob_update_values. rewrite EV. cbn. rewrite E. unfold new_object in E0.
    destruct lyap_init; [|discriminate]. cbn [bind] in E0. now injection E0 as <-.
Qed.
Print Assumptions C71_values.

(** ** C87: calls after which nothing can be evaluated *)

(** A new object can evaluate its tensors, and this stays so if all calls of
    [get_safe_sample] and all policies have the same number [m] of action columns
    (explicit actions only for one-dimensional states and actions). *)
Theorem C87_keeps_evaluating : forall W leb g (w0 : W) S0 ini ad o0 h m,
  new_object g w0 S0 ini ad = Ok o0 -> total_order leb -> valid_grid g ->
  (forall w s, is_vertex g s -> length (policy (S0 w) s) = m) ->
  Forall (shaped g m) h -> throughout leb g (real_draws g) (w0, o0) h ->
  evaluates leb g (run leb g (w0, o0) h).
Proof.
  intros W leb g w0 S0 ini ad o0 h m E0 TO VG HP HS HD. apply evaluates_iff.
  pose proof (lengths_new g w0 S0 ini ad o0 E0) as HL.
  apply (matching_run leb g m h TO VG (w0, o0)); auto.
  unfold new_object in E0. destruct lyap_init; [|discriminate]. cbn [bind] in E0. injection E0 as <-.
  split; [reflexivity|]. split; [apply HL|]. split; [exact HP|discriminate].
Qed.
Print Assumptions C87_keeps_evaluating.

(** [update_values] and [update_safe_set] only succeed if evaluation works, and no
    command but [get_safe_sample] changes whether it works. *)
Theorem C87_success_evaluates : forall W leb g (st : state W) sh mr sf bs order,
  snd (step leb g st (UpdateSafeSet sh mr sf bs order)) = Nothing -> evaluates leb g st.
Proof.
  intros W leb g [w o] sh mr sf bs order. rewrite evaluates_iff. cbn. unfold ob_update_safe_set.
  set (gr := match ob_update o with None => _ | Some gr => gr end).
  destruct Bool.eqb; [|discriminate]. destruct (ob_stuck o); auto. cbn [andb].
  destruct (Nat.eqb_spec (length (starts (length order) bs)) 0) as [E|]; [|discriminate]. cbn [negb].
  unfold update_effect, verified. destruct start_sets; [|discriminate]. cbn [bind].
  destruct (starts _ _); [|discriminate]. cbn. discriminate.
Qed.
Print Assumptions C87_success_evaluates.
Theorem C87_evaluates_kept : forall W leb g (st : state W) c,
  ~ is_sample c -> (evaluates leb g (fst (step leb g st c)) <-> evaluates leb g st).
Proof. intros W leb g st c H. rewrite !evaluates_iff, stuck_kept by auto. reflexivity. Qed.
Print Assumptions C87_evaluates_kept.

(** Once evaluation does not work, everything raises, changes nothing of the safe set
    and the values, and this remains so for ever if no explicit actions are
    proposed: whatever is assigned and however variables and data change. *)
Theorem C87_stuck : forall W leb g (st : state W) h,
  ~ evaluates leb g st -> without proposes_actions h ->
  let now := run leb g st h in
  ~ evaluates leb g now /\
  snd (step leb g now UpdateValues) = Raised ValueError /\
  (forall sh mr sf bs order, exists e,
     let result := step leb g now (UpdateSafeSet sh mr sf bs order) in
     snd result = Raised e /\ book (fst result) = book now) /\
  (forall m rows lim pos num draws, exists e,
     let result := step leb g now (GetSafeSample (Perturbations m rows) lim pos num draws) in
     snd result = Raised e /\ book (fst result) = book now).
Proof.
  intros W leb g st h HN HA now.
  assert (HS : ob_stuck (snd now) = true).
  { apply stuck_run; auto. rewrite evaluates_iff in HN. destruct ob_stuck; congruence. }
  rewrite evaluates_iff. clearbody now. destruct now as [w o]. cbn in HS. unfold book. cbn. rewrite HS.
  split; [discriminate|]. split; [|split].
  - unfold ob_update_values. rewrite HS. reflexivity.
  - intros sh mr sf bs order. unfold ob_update_safe_set. rewrite HS. cbn [andb].
    destruct Bool.eqb; [|eexists; split; reflexivity].
    destruct (Nat.eqb_spec (length (starts (length order) bs)) 0) as [E|]; [|eexists; split; reflexivity].
    cbn [negb]. unfold update_effect, verified.
    destruct start_sets; [|eexists; split; reflexivity]. cbn [bind].
    destruct (starts _ _); [|discriminate]. cbn. eexists; split; reflexivity.
  - intros m rows lim pos num draws. unfold ob_get_safe_sample, sample_call. rewrite HS.
    destruct select_states as [|[]]; cbn; eexists; split; reflexivity.
Qed.
Print Assumptions C87_stuck.

(** This is what one call of [get_safe_sample] does whose proposals have another
    number of columns than its first call announced: the policy has [k] columns, the
    perturbations [m], their sums [c], and the perturbations of the first call had
    [m1 <> c].  The call raises ValueError. *)
Theorem C87_other_columns : forall W leb g (w0 : W) S0 ini ad o0 h1 h2 p1 lim1 pos1 num1 draws1
    m k c rows lim pos num draws,
  new_object g w0 S0 ini ad = Ok o0 -> total_order leb -> valid_grid g -> without is_sample h1 ->
  let first := run leb g (w0, o0) h1 in
  snd (step leb g first (GetSafeSample p1 lim1 pos1 num1 draws1)) <> Raised TypeError ->
  let now := run leb g (w0, o0) (h1 ++ GetSafeSample p1 lim1 pos1 num1 draws1 :: h2) in
  evaluates leb g now ->
  (forall s, is_vertex g s -> length (policy (attributes first (world now)) s) = k) ->
  (forall r, In r rows -> length r = m) -> rows <> [] ->
  (forall l, lim = Some l -> length l = c) ->
  drawn g (book now) num draws -> tested g (book now) num draws <> [] ->
  broadcasts m k c -> action_dim p1 <> c ->
  let result := step leb g now (GetSafeSample (Perturbations m rows) lim pos num draws) in
  snd result = Raised ValueError /\ book (fst result) = book now /\ ~ evaluates leb g (fst result).
Proof.
  intros W leb g w0 S0 ini ad o0 h1 h2 p1 lim1 pos1 num1 draws1 m k c rows lim pos num draws
    E0 TO VG H1 first HT now EV HP HR HR0 HLim HD HTe HB HC result.
  assert (N : ob_sample (snd first) = None).
  { apply sample_none; auto. unfold new_object in E0.
    destruct lyap_init; [|discriminate]. cbn [bind] in E0. now injection E0 as <-. }
  assert (G : ob_sample (snd now) = Some {| sg_setup := attributes first;
                sg_width := (dims g + action_dim p1)%nat |}).
  { unfold now. rewrite run_app, run_cons. apply sample_kept. fold first.
    destruct first as [w1 o1]. cbn in N, HT |- *. unfold ob_get_safe_sample in *.
    rewrite N in *. cbn [sg_setup sg_width] in *.
    destruct sample_call as [[[]|[]] ?]; cbn in *; auto. congruence. }
  assert (HL : lengths g (book now)) by (apply lengths_run; eapply lengths_new; exact E0).
  apply evaluates_iff in EV. rewrite evaluates_iff. unfold result. clearbody now.
  destruct now as [w o]. cbn in G, EV. unfold book, world in *. cbn in *.
  unfold ob_get_safe_sample, sample_call. rewrite G, EV. cbn [sg_setup sg_width].
  destruct (leaves_misfit leb TO g VG (ob_lyap o) (attributes first w) (proj1 HL) false m k c
    (dims g + action_dim p1) rows lim pos num draws) as (-> & ->); auto; [lia|].
  cbn. repeat split; discriminate.
Qed.
Print Assumptions C87_other_columns.

(** The first call itself fails in this way if a single column of perturbations is
    meant for all of several action dimensions. *)
Theorem C87_single_column : forall W leb g (w0 : W) S0 ini ad o0 h k rows lim pos num draws,
  new_object g w0 S0 ini ad = Ok o0 -> total_order leb -> valid_grid g -> without is_sample h ->
  let now := run leb g (w0, o0) h in
  (forall s, is_vertex g s -> length (policy (attributes now (world now)) s) = k) -> (2 <= k)%nat ->
  (forall r, In r rows -> length r = 1%nat) -> rows <> [] ->
  (forall l, lim = Some l -> length l = k) ->
  drawn g (book now) num draws -> tested g (book now) num draws <> [] ->
  let result := step leb g now (GetSafeSample (Perturbations 1 rows) lim pos num draws) in
  snd result = Raised ValueError /\ book (fst result) = book now /\ ~ evaluates leb g (fst result).
Proof.
  intros W leb g w0 S0 ini ad o0 h k rows lim pos num draws E0 TO VG H1 now HP Hk HR HR0 HLim HD HTe result.
  assert (N : ob_sample (snd now) = None /\ ob_stuck (snd now) = false).
  { split.
    - apply sample_none; auto. unfold new_object in E0.
      destruct lyap_init; [|discriminate]. cbn [bind] in E0. now injection E0 as <-.
    - apply (evaluates_iff leb g). unfold now. revert H1.
      assert (EV : evaluates leb g (w0, o0)).
      { apply evaluates_iff. unfold new_object in E0.
        destruct lyap_init; [|discriminate]. cbn [bind] in E0. now injection E0 as <-. }
      clear - EV. revert EV. generalize (w0, o0) as st. induction h as [|a h IH]; intros st EV H1; [exact EV|].
      inversion H1; subst. rewrite run_cons. apply IH; auto. now apply C87_evaluates_kept. }
  assert (HL : lengths g (book now)) by (apply lengths_run; eapply lengths_new; exact E0).
  rewrite evaluates_iff. unfold result. clearbody now.
  destruct now as [w o]. destruct N as (N & EV). cbn in N, EV. unfold book, world in *. cbn in *.
  unfold ob_get_safe_sample, sample_call. rewrite N, EV. cbn [sg_setup sg_width action_dim].
  destruct (leaves_misfit leb TO g VG (ob_lyap o) (ob_setup o w) (proj1 HL) false 1 k k
    (ndim g + 1) rows lim pos num draws) as (-> & ->); auto.
  - right. auto.
  - unfold dims, ndim. lia.
  - cbn. repeat split; discriminate.
Qed.
Print Assumptions C87_single_column.

(** For one-dimensional states and actions a call with explicit actions repairs
    this. *)
Theorem C87_actions_repair : forall W leb g (w0 : W) S0 ini ad o0 h1 h2 p1 lim1 pos1 num1 draws1
    rows lim pos num draws,
  new_object g w0 S0 ini ad = Ok o0 -> valid_grid g -> without is_sample h1 ->
  let first := run leb g (w0, o0) h1 in
  snd (step leb g first (GetSafeSample p1 lim1 pos1 num1 draws1)) <> Raised TypeError ->
  let now := run leb g (w0, o0) (h1 ++ GetSafeSample p1 lim1 pos1 num1 draws1 :: h2) in
  dims g = 1%nat -> action_dim p1 = 1%nat -> drawn g (book now) num draws ->
  let result := step leb g now (GetSafeSample (Actions 1 rows) lim pos num draws) in
  snd result <> Raised TypeError -> evaluates leb g (fst result).
Proof.
  intros W leb g w0 S0 ini ad o0 h1 h2 p1 lim1 pos1 num1 draws1 rows lim pos num draws
    E0 VG H1 first HT now Hd Hm HD result.
  assert (N : ob_sample (snd first) = None).
  { apply sample_none; auto. unfold new_object in E0.
    destruct lyap_init; [|discriminate]. cbn [bind] in E0. now injection E0 as <-. }
  assert (G : ob_sample (snd now) = Some {| sg_setup := attributes first;
                sg_width := (dims g + action_dim p1)%nat |}).
  { unfold now. rewrite run_app, run_cons. apply sample_kept. fold first.
    destruct first as [w1 o1]. cbn in N, HT |- *. unfold ob_get_safe_sample in *.
    rewrite N in *. cbn [sg_setup sg_width] in *.
    destruct sample_call as [[[]|[]] ?]; cbn in *; auto. congruence. }
  assert (HL : lengths g (book now)) by (apply lengths_run; eapply lengths_new; exact E0).
  rewrite evaluates_iff. unfold result. clearbody now.
  destruct now as [w o]. cbn in G. unfold book in *. cbn in *.
  unfold ob_get_safe_sample, sample_call. rewrite G. cbn [sg_setup sg_width].
  assert (EM : forall b, misfit_after leb g (ob_lyap o) (attributes first w) b (dims g + action_dim p1)
                 (Actions 1 rows) lim pos num draws = false).
  { intros b. unfold misfit_after. rewrite (proj1 (drawn_select g VG (ob_lyap o) (proj1 HL) num draws HD)).
    now rewrite Hd, Hm. }
  destruct (ob_stuck o); rewrite EM; destruct sample_with as [[]|[]]; cbn; auto; congruence.
Qed.
Print Assumptions C87_actions_repair.

(** After every successful [update_safe_set] the initial set of the moment, also one
    that was assigned later, is in the safe set with refinement 1. *)
Theorem C71_initial_set : forall W leb g (st : state W) sh mr sf bs order,
  let result := step leb g st (UpdateSafeSet sh mr sf bs order) in
  snd result = Nothing ->
  forall x, initially_safe (book st) x ->
    safe (book (fst result)) x /\ refinement (book (fst result)) x = 1%Z.
Proof.
  intros W leb g [w o] sh mr sf bs order result HN x (m & Em & Hx). revert HN.
  unfold result, book in *. cbn in *. unfold ob_update_safe_set.
  set (gr := match ob_update o with None => _ | Some gr => gr end).
  destruct Bool.eqb; [|discriminate]. destruct (_ && _); [discriminate|].
  destruct update_effect as [L' [e|]] eqn:EF; cbn; [discriminate|]. intros _. apply effect_ok in EF.
  revert EF. rewrite update_safe_set_eq. destruct start_sets; [|discriminate]. cbn [bind].
  destruct verify as [[[s r] [[[i b] rb]|]]|]; cbn [bind]; try discriminate.
  destruct py_nth; [|discriminate]. cbn [bind]. destruct py_nth; [|discriminate]. cbn [bind].
  rewrite Em. unfold assign_opt, assign_mask.
  destruct (_ =? _)%nat eqn:E1; [|discriminate]. cbn [bind].
  destruct (Nat.eqb (length (scatter (l_ref _) _ _)) _) eqn:E2; [|discriminate]. cbn [bind].
  apply Nat.eqb_eq in E1, E2. intros [= <-]. unfold safe, refinement. cbn.
  assert (x < length m)%nat by
    (destruct (Nat.lt_ge_cases x (length m)); auto; rewrite nth_overflow in Hx by auto; discriminate).
  rewrite (nth_map2 _ _ _ _ false false), (nth_map2 _ _ _ _ 0%Z false) by lia. rewrite Hx. auto.
Qed.
Print Assumptions C71_initial_set.

(** The object of the examples: states -1, 0, 1, V = |x|, initial set {0} or none,
    dynamics that send everything to [y]. *)
Definition Sto (y : R) : setup :=
  {| lyapunov_function := absV; policy := fun _ => [0]; dynamics := fun _ _ => Exact [y];
     lip_v := LvConst 1; lip_f := LfConst 0; tau := 1 / 4 |}.
Definition only_zero : list bool := [false; true; false].
Definition order3 : list nat := [1; 0; 2]%nat.
Lemma points3 : all_points g3 = [[-1]; [0]; [1]].
Proof. unfold all_points, discrete_points; cbn. change (Pos.to_nat 3) with 3%nat. cbn. repeat f_equal; lra. Qed.
Lemma values3 y : map (lyapunov_function (Sto y)) (all_points g3) = [1; 0; 1].
Proof.
  rewrite points3. cbn. unfold absV; cbn.
  rewrite Rabs_R0, Rabs_R1, Rabs_left by lra. repeat f_equal; lra.
Qed.
Lemma order3_sorts : sorts [1; 0; 1] order3.
Proof.
  split.
  - apply NoDup_Permutation.
    + repeat constructor; simpl; intuition lia.
    + apply seq_NoDup.
    + intros x. rewrite in_seq. unfold order3; simpl. lia.
  - intros p q H1 H2. simpl in H2.
    destruct q as [|[|[|]]]; try lia; destruct p as [|[|]]; try lia; simpl; lra.
Qed.
Lemma point3 k : (k < 3)%nat -> grid_point g3 k = [-1 + INR k].
Proof.
  intros H. do 3 (destruct k as [|k]; [unfold grid_point, index_to_state; simpl;
    rewrite Z.div_1_r; f_equal; lra|]). lia.
Qed.
Definition book3 (ini : option (list bool)) (s : list bool) (r : list Z) (c : R) : lyap :=
  {| l_init := ini; l_adaptive := false; l_vals := [1; 0; 1]; l_safe := s; l_ref := r; l_cmax := c |}.
(** With successor 0 the states -1 and 1 are certified, with successor 5 none. *)
Lemma update_to0 ini s r c sh :
  update_safe_set (book3 ini s r c) (certificate (Sto 0) 1 (grid_point g3)) sh 1 3 order3 =
  update_safe_set (book3 ini s r c)
    {| neg := fun k => nth k [true; false; true] false; nreq := fun _ => 0%Z;
       passes := fun _ _ _ => false |} sh 1 3 order3.
Proof.
  apply update_ext; auto. intros x Hx. cbn.
  assert (x < 3)%nat by (unfold order3 in Hx; simpl in Hx; lia).
  rewrite point3 by auto.
  unfold decrease, v_decrease_bound, threshold, lv_scalar, lf_scalar; cbn. unfold absV; cbn.
  do 3 (destruct x as [|x]; [cbn; first [apply Rltb_true | apply Rltb_false];
    unfold Rabs; repeat destruct Rcase_abs; lra|]). lia.
Qed.
Lemma update_to5 ini s r c sh :
  update_safe_set (book3 ini s r c) (certificate (Sto 5) 1 (grid_point g3)) sh 1 3 order3 =
  update_safe_set (book3 ini s r c)
    {| neg := fun k => false; nreq := fun _ => 0%Z; passes := fun _ _ _ => false |} sh 1 3 order3.
Proof.
  apply update_ext; auto. intros x Hx. cbn.
  assert (x < 3)%nat by (unfold order3 in Hx; simpl in Hx; lia).
  rewrite point3 by auto.
  unfold decrease, v_decrease_bound, threshold, lv_scalar, lf_scalar; cbn. unfold absV; cbn.
  do 3 (destruct x as [|x]; [cbn; apply Rltb_false;
    unfold Rabs; repeat destruct Rcase_abs; lra|]). lia.
Qed.

Definition object3 (y : R) (ini : option (list bool)) (s : list bool) (r : list Z) (c : R)
    (gr : option (update_graph unit)) : object unit :=
  {| ob_setup := fun _ => Sto y; ob_lyap := book3 ini s r c; ob_values := fun _ => absV;
     ob_update := gr; ob_sample := None; ob_stuck := false |}.
Lemma new3 y : new_object g3 tt (fun _ => Sto y) (Some only_zero) false
  = Ok (object3 y (Some only_zero) only_zero [0; 1; 0]%Z 0 None).
Proof. unfold new_object. rewrite values3. reflexivity. Qed.
Lemma new3_none y : new_object g3 tt (fun _ => Sto y) None false
  = Ok (object3 y None [false; false; false] [0; 0; 0]%Z 0 None).
Proof. unfold new_object. rewrite values3. reflexivity. Qed.
Lemma consistent3 m s r c : length s = 3%nat -> length r = 3%nat -> length m = 3%nat ->
  consistent (book3 (Some m) s r c).
Proof. intros H1 H2 H3. constructor; auto. intros m' E. cbn in E. injection E as <-. exact H3. Qed.
Ltac effect3 := rewrite effect_consistent by (apply consistent3; reflexivity).
Definition call3 (sh : bool) : command unit := UpdateSafeSet sh 1 1 3 order3.
Definition graph3 (y : R) : option (update_graph unit) :=
  Some {| ug_setup := fun _ => Sto y; ug_factor := 1; ug_adaptive := false |}.
Lemma first3 leb sh : step leb g3 (tt, object3 0 (Some only_zero) only_zero [0; 1; 0]%Z 0 None) (call3 sh)
  = ((tt, object3 0 (Some only_zero) [true; true; true] [1; 1; 1]%Z 1 (graph3 0)), Nothing).
Proof.
  cbn -[update_effect certificate]. unfold ob_update_safe_set.
  cbn -[update_effect certificate]. change (ob_lyap _) with (book3 (Some only_zero) only_zero [0; 1; 0]%Z 0).
  effect3. rewrite update_to0. destruct sh; reflexivity.
Qed.

(** A case of the positive statements: the data changes so that nothing can be
    certified any more, which the next call notices although it uses the stored
    graph. *)
Definition world_setup (w : bool) : setup := Sto (if w then 0 else 5).
Example C71_ex : exists o0,
  new_object g3 true world_setup (Some only_zero) false = Ok o0 /\
  let call := UpdateSafeSet true 1 1 3 order3 in
  let st1 := run rows_leb g3 (true, o0) [call] in
  let st2 := run rows_leb g3 (true, o0) [call; SetWorld false; call] in
  l_safe (book st1) = [true; true; true] /\ l_safe (book st2) = only_zero /\
  l_cmax (book st1) = 1.
Proof.
  eexists. split; [unfold new_object; change (world_setup true) with (Sto 0); rewrite values3; reflexivity|].
  cbn zeta. unfold run. cbn [fold_left].
  match goal with |- context [fst (step rows_leb g3 (true, ?o) ?c)] =>
    assert (E1 : fst (step rows_leb g3 (true, o) c) =
      (true, {| ob_setup := world_setup; ob_lyap := book3 (Some only_zero) [true; true; true] [1; 1; 1]%Z 1;
                ob_values := fun w => lyapunov_function (world_setup w);
                ob_update := Some {| ug_setup := world_setup; ug_factor := 1; ug_adaptive := false |};
                ob_sample := None; ob_stuck := false |})) end.
  { cbn -[update_effect certificate world_setup]. unfold ob_update_safe_set.
    cbn -[update_effect certificate world_setup].
    change (world_setup true) with (Sto 0).
    change (update_effect _ ?C ?sh ?mr ?bs ?ord) with
      (update_effect (book3 (Some only_zero) only_zero [0; 1; 0]%Z 0) C sh mr bs ord).
    effect3. rewrite update_to0. reflexivity. }
  rewrite E1. split; [reflexivity|]. split; [|reflexivity].
  cbn -[update_effect certificate world_setup]. unfold ob_update_safe_set.
  cbn -[update_effect certificate world_setup]. change (world_setup false) with (Sto 5).
  effect3. rewrite update_to5. reflexivity.
Qed.

(** A case: two actions, and perturbations with one column.  The object was usable
    before this call and never is again. *)
Definition Stwo : setup :=
  {| lyapunov_function := absV; policy := fun _ => [0; 0];
     dynamics := fun _ _ => Uncertain [0] [0];
     lip_v := LvConst 1; lip_f := LfConst 0; tau := 1 / 4 |}.
Definition one_column : command unit := GetSafeSample (Perturbations 1 [[1]]) None true None [].
Lemma single3 : exists o0, new_object g3 tt (fun _ => Stwo) (Some only_zero) false = Ok o0 /\
  evaluates rows_leb g3 (tt, o0) /\
  snd (step rows_leb g3 (tt, o0) one_column) = Raised ValueError /\
  ~ evaluates rows_leb g3 (fst (step rows_leb g3 (tt, o0) one_column)).
Proof.
  assert (E : new_object g3 tt (fun _ => Stwo) (Some only_zero) false
              = Ok {| ob_setup := fun _ => Stwo; ob_lyap := book3 (Some only_zero) only_zero [0; 1; 0]%Z 0;
                      ob_values := fun _ => absV; ob_update := None; ob_sample := None; ob_stuck := false |}).
  { unfold new_object. change (lyapunov_function Stwo) with (lyapunov_function (Sto 0)). rewrite values3. reflexivity. }
  eexists. split; [exact E|]. split; [apply evaluates_iff; reflexivity|].
  destruct (C87_single_column unit rows_leb g3 tt (fun _ => Stwo) (Some only_zero) false _ [] 2 [[1]] None true None []
    E rows_leb_order g3_valid ltac:(constructor)) as (H1 & _ & H2); auto.
  - intros r [<-|[]]. reflexivity.
  - discriminate.
  - discriminate.
  - intros n [=].
  - cbn. discriminate.
Qed.
Example C87_stuck_ex : exists o0, new_object g3 tt (fun _ => Stwo) (Some only_zero) false = Ok o0 /\
  evaluates rows_leb g3 (tt, o0) /\
  forall h, without proposes_actions h ->
    let now := run rows_leb g3 (tt, o0) (one_column :: h) in
    snd (step rows_leb g3 now UpdateValues) = Raised ValueError /\
    forall sh, exists e, snd (step rows_leb g3 now (call3 sh)) = Raised e.
Proof.
  destruct single3 as (o0 & E & H1 & H2 & H3). exists o0. split; [exact E|]. split; [exact H1|].
  intros h Hh now. destruct (C87_stuck unit rows_leb g3 _ h H3 Hh) as (_ & A & B & _). unfold now.
  rewrite run_cons. split; [exact A|]. intros sh. destruct (B sh 1%Z 1 3%nat order3) as (e & B1 & _).
  exists e. exact B1.
Qed.
Theorem C87_failed_call_harmless_refuted :
  ~ (forall W leb g (st : state W) c e, snd (step leb g st c) = Raised e ->
     evaluates leb g st -> evaluates leb g (fst (step leb g st c))).
Proof.
  intros H. destruct single3 as (o0 & _ & H1 & H2 & H3). apply H3. eapply H; eauto.
Qed.
Print Assumptions C87_failed_call_harmless_refuted.

(** A case of [C87_keeps_evaluating]. *)
Example C87_keeps_ex : forall o0, new_object g3 tt (fun _ => Stwo) (Some only_zero) false = Ok o0 ->
  evaluates rows_leb g3 (run rows_leb g3 (tt, o0)
    [GetSafeSample (Perturbations 2 [[1; 0]; [0; 1]]) None true None []; call3 true; UpdateValues;
     GetSafeSample (Perturbations 2 [[2; 2]]) None false None []]).
Proof.
  intros o0 E. apply (C87_keeps_evaluating unit rows_leb g3 tt (fun _ => Stwo) (Some only_zero) false o0 _ 2 E
    rows_leb_order g3_valid).
  - reflexivity.
  - repeat apply Forall_cons; try exact I; [split; [reflexivity|]..|apply Forall_nil];
      intros r Hr; cbn in Hr; intuition (subst; reflexivity).
  - cbn [throughout real_draws]. repeat split; intros i [].
Qed.

(** A policy or dynamics model that is assigned after the first call is ignored. *)
Theorem C71_current_attributes_refuted :
  ~ (forall W leb g (w0 : W) S0 ini ad o0 h sh mr sf bs order,
     new_object g w0 S0 ini ad = Ok o0 ->
     let now := run leb g (w0, o0) h in
     let result := step leb g now (UpdateSafeSet sh mr sf bs order) in
     sorts (l_vals (book now)) order ->
     match update_safe_set (book now) (certificate (attributes now (world now)) sf (grid_point g))
             sh mr bs order with
     | Ok L => snd result = Nothing /\ book (fst result) = L
     | Err e => snd result = Raised e
     end).
Proof.
  intros H.
  specialize (H unit rows_leb g3 tt (fun _ => Sto 0) (Some only_zero) false _
    [call3 true; SetAttributes (fun _ => Sto 5) false] true 1%Z 1 3%nat order3 (new3 0)).
  unfold run in H. cbn [fold_left] in H. rewrite first3 in H. cbn [fst] in H.
  cbn zeta in H. specialize (H order3_sorts). unfold attributes, world, book in H.
  cbn -[update_effect certificate] in H. unfold ob_update_safe_set in H.
  cbn -[update_effect certificate] in H.
  change (update_effect _ ?C ?sh ?mr ?bs ?ord) with
    (update_effect (book3 (Some only_zero) [true; true; true] [1; 1; 1]%Z 1) C sh mr bs ord) in H.
  rewrite effect_consistent in H by (apply consistent3; reflexivity).
  change (update_safe_set _ ?C ?sh ?mr ?bs ?ord) with
    (update_safe_set (book3 (Some only_zero) [true; true; true] [1; 1; 1]%Z 1) C sh mr bs ord) in H.
  rewrite update_to5, update_to0 in H. cbn in H. destruct H as (_ & H). discriminate H.
Qed.
Print Assumptions C71_current_attributes_refuted.

(** Assigning [adaptive] after the first call makes every further call fail. *)
Example C71_adaptive_ex : forall o0 ,
  new_object g3 tt (fun _ => Sto 0) (Some only_zero) false = Ok o0 ->
  let now := run rows_leb g3 (tt, o0) [call3 true; SetAttributes (fun _ => Sto 0) true] in
  snd (step rows_leb g3 now (call3 true)) = Raised ValueError.
Proof.
  intros o0 E. rewrite new3 in E. injection E as <-.
  unfold run. cbn [fold_left]. rewrite first3. reflexivity.
Qed.

(** ** C72: update_safe_set with and without can_shrink *)

(** With [can_shrink] (the default) the result does not depend on the safe set, the
    refinement and the level that the object had before: only on the initial set,
    the values and the certificates. *)
Theorem C72_shrink_forgets : forall L1 L2 C mr bs order,
  consistent L1 -> consistent L2 -> sorts (l_vals L1) order ->
  l_init L1 = l_init L2 -> l_adaptive L1 = l_adaptive L2 -> l_vals L1 = l_vals L2 ->
  update_safe_set L1 C true mr bs order = update_safe_set L2 C true mr bs order.
Proof.
  intros L1 L2 C mr bs order C1 C2 HS EI EA EV.
  assert (Esz : size L1 = size L2) by (unfold size; congruence).
  assert (Es : length (l_safe L1) = length (l_safe L2)) by (rewrite (cons_safe _ C1), (cons_safe _ C2); auto).
  assert (Er : length (l_ref L1) = length (l_ref L2)) by (rewrite (cons_ref _ C1), (cons_ref _ C2); auto).
  pose proof (order_length L1 order HS) as OL. pose proof (order_NoDup L1 order HS) as ND.
  rewrite !update_safe_set_eq. unfold start_sets. rewrite <- EI, <- EA, <- EV, <- Es, <- Er.
  destruct (assign_opt (repeat false _) _ _) as [s0|] eqn:E0; [|reflexivity]. cbn [bind].
  destruct (assign_opt (repeat 0%Z _) _ _) as [r0|] eqn:E1; [|reflexivity]. cbn [bind fst snd].
  destruct (verify _ _ _ _ _ _ _ _ _ _) as [[[s r] [[[i b] rb]|]]|] eqn:EVf; cbn [bind]; auto.
  destruct (py_nth order _) as [k|]; [|reflexivity]. cbn [bind].
  destruct (py_nth (l_vals L1) _) as [c|]; [|reflexivity]. cbn [bind].
  replace (scatter (l_ref L2) order r) with (scatter (l_ref L1) order r); [reflexivity|].
  assert (Hbs : (0 < bs)%nat).
  { unfold starts in EVf. destruct (Nat.eqb_spec bs 0); [|lia]. cbn in EVf. discriminate. }
  unfold starts in EVf. destruct (Nat.eqb_spec bs 0); [lia|].
  apply verify_ok in EVf; auto; try (unfold gather; now rewrite map_length).
  destruct EVf as (K & E & LO & _). pose proof (lo_lenr _ _ _ _ _ _ _ _ _ _ _ _ _ LO) as LR.
  apply nth_ext with (d := 0%Z) (d' := 0%Z); rewrite !scatter_length; auto.
  intros x Hx.
  assert (Hin : In x order).
  { destruct HS as (HP & _). apply (Permutation.Permutation_in x (Permutation.Permutation_sym HP)).
    apply in_seq. rewrite (cons_ref _ C1) in Hx. unfold size in Hx. lia. }
  apply In_nth with (d := 0%nat) in Hin as (p & Hp & <-).
  assert (HI : forall L, consistent L -> size L = size L1 -> forall j, In j order -> (j < length (l_ref L))%nat).
  { intros L CL EL j Hj. apply In_nth with (d := 0%nat) in Hj as (q & Hq & <-).
    rewrite (cons_ref _ CL), EL. apply (order_lt L1 order HS). lia. }
  rewrite !scatter_at; auto.
Qed.
Print Assumptions C72_shrink_forgets.

(** Hence an initial set that is assigned after construction works like one given to
    the constructor, for calls with [can_shrink]. *)
Theorem C72_initial_assigned : forall W leb g (w0 : W) S0 m ad oa ob mr sf bs order,
  new_object g w0 S0 (Some m) ad = Ok oa -> new_object g w0 S0 None ad = Ok ob ->
  sorts (l_vals (ob_lyap oa)) order ->
  let given := step leb g (w0, oa) (UpdateSafeSet true mr sf bs order) in
  let assigned := step leb g (run leb g (w0, ob) [SetInitial (Some m)]) (UpdateSafeSet true mr sf bs order) in
  snd given = snd assigned /\
  (snd given = Nothing -> book (fst given) = book (fst assigned)).
Proof.
  intros W leb g w0 S0 m ad oa ob mr sf bs order Ea Eb HS given assigned.
  unfold new_object, lyap_init in Ea, Eb.
  cbn [bind assign_opt] in Eb. injection Eb as <-.
  cbn [assign_opt] in Ea. unfold assign_mask in Ea. rewrite !repeat_length in Ea.
  destruct (Nat.eqb_spec (length (map (lyapunov_function (S0 w0)) (all_points g))) (length m)) as [El|];
    [|discriminate].
  cbn [bind] in Ea. injection Ea as <-. cbn [ob_lyap l_vals] in HS.
  set (n := length _) in *.
  unfold given, assigned, run. cbn [fold_left fst step set_initial with_lyap ob_lyap].
  cbn -[update_effect certificate map2 all_points repeat].
  unfold ob_update_safe_set. cbn -[update_effect certificate map2 all_points repeat].
  rewrite Bool.eqb_reflx.
  rewrite !effect_consistent by
    (constructor; unfold size; cbn -[map2 repeat all_points]; rewrite ?map2_length, ?repeat_length; fold n; try lia;
     intros m' [= <-]; auto).
  match goal with |- context [update_safe_set ?L1 ?C true mr bs order] =>
    match goal with |- context [update_safe_set ?L2 C true mr bs order] =>
      lazymatch L1 with L2 => fail | _ =>
      rewrite (C72_shrink_forgets L1 L2 C mr bs order) end end end; auto.
  - destruct update_safe_set; cbn; auto. split; auto; discriminate.
  - constructor; unfold size; cbn -[map2 repeat all_points]; rewrite ?map2_length, ?repeat_length; fold n; try lia.
    intros m' [= <-]. auto.
  - constructor; unfold size; cbn -[map2 repeat all_points]; rewrite ?map2_length, ?repeat_length; fold n; try lia.
    intros m' [= <-]. auto.
Qed.
Print Assumptions C72_initial_assigned.

(** Without [can_shrink] neither holds. *)
Theorem C72_assigned_without_shrink_refuted :
  ~ (forall W leb g (w0 : W) S0 m ad oa ob mr sf bs order,
     new_object g w0 S0 (Some m) ad = Ok oa -> new_object g w0 S0 None ad = Ok ob ->
     sorts (l_vals (ob_lyap oa)) order ->
     let given := step leb g (w0, oa) (UpdateSafeSet false mr sf bs order) in
     let assigned := step leb g (run leb g (w0, ob) [SetInitial (Some m)])
                       (UpdateSafeSet false mr sf bs order) in
     forall x, safe (book (fst given)) x -> safe (book (fst assigned)) x).
Proof.
  intros H.
  specialize (H unit rows_leb g3 tt (fun _ => Sto 0) only_zero false _ _ 1%Z 1 3%nat order3 (new3 0)
    (new3_none 0) order3_sorts).
  cbn zeta in H. change (UpdateSafeSet false 1 1 3 order3) with (call3 false) in H.
  rewrite first3 in H. specialize (H 0%nat eq_refl). unfold run, book in H. cbn [fold_left] in H.
  cbn -[update_effect certificate] in H. unfold ob_update_safe_set in H.
  cbn -[update_effect certificate] in H.
  change (update_effect _ ?C ?sh ?mr ?bs ?ord) with
    (update_effect (book3 (Some only_zero) [false; false; false] [0; 0; 0]%Z 0) C sh mr bs ord) in H.
  rewrite effect_consistent in H by (apply consistent3; reflexivity).
  rewrite update_to0 in H. cbn in H. discriminate H.
Qed.
Print Assumptions C72_assigned_without_shrink_refuted.

(** A case: an object with three safe states and level 1, and the same object before
    its first call, give the same result when nothing is certified any more. *)
Example C72_ex :
  let C := certificate (Sto 5) 1 (grid_point g3) in
  let L1 := book3 (Some only_zero) [true; true; true] [1; 1; 1]%Z 1 in
  let L2 := book3 (Some only_zero) only_zero [0; 1; 0]%Z 0 in
  update_safe_set L1 C true 1 3 order3 = update_safe_set L2 C true 1 3 order3 /\
  update_safe_set L2 C true 1 3 order3 = Ok (book3 (Some only_zero) only_zero [0; 1; 0]%Z 0) /\
  update_safe_set L1 C false 1 3 order3 = Ok (book3 (Some only_zero) [true; true; true] [1; 1; 1]%Z 1).
Proof.
  cbn zeta. split; [|split; rewrite update_to5; reflexivity].
  apply C72_shrink_forgets; auto using order3_sorts;
    constructor; try reflexivity; intros m [= <-]; reflexivity.
Qed.

(** ** C73: the safe learning loop *)

Lemma half_units_pos g : valid_grid g -> 0 <= sum (map (fun h => h / 2) (unit_maxes g)).
Proof.
  intros VG.
  assert (Hu : forall l, (forall j, (j < length l)%nat -> 0 < nth j l 0) ->
            0 <= sum (map (fun h => h / 2) l)).
  { induction l as [|a l IHl]; intros Hl; simpl; [lra|].
    pose proof (Hl 0%nat ltac:(simpl; lia)) as Ha; simpl in Ha.
    assert (0 <= sum (map (fun h => h / 2) l)).
    { apply IHl. intros j Hj. apply (Hl (Datatypes.S j)). simpl; lia. }
    lra. }
  apply Hu. intros j Hj. rewrite unit_len in Hj by auto.
  rewrite unit_nth by auto. apply spacing_pos; auto.
Qed.

(** The successor of every sample taken from the certified proposals has a value
    below the level of the last update, also if data was added since; from there the
    policy stays in the level set for ever, provided the value is below the level by
    the margin lv*tau.  If the policy is used as a backup (and not clipped), the
    value decreases, unless the state is in the initial set. *)
Theorem C73_safe_learning : forall W leb g (S0 : W -> setup) V pi f sf lv lf m before after now
    perts limits positive num draws,
  safe_learning leb g S0 V pi f sf lv lf m before after now ->
  total_order leb -> sample_fits g (book now) (S0 (world now)) m limits ->
  (forall p, In p perts -> length p = m) -> drawn g (book now) num draws ->
  let level := l_cmax (book after) in
  let margin := lv * tau (S0 (world before)) in
  match snd (step leb g now (GetSafeSample (Perturbations m perts) limits positive num draws)) with
  | Sampled row b =>
    exists k s u, safe (book after) k /\ s = grid_point g k /\ row = s ++ u /\
      (V (f s u) < level \/ u = limited limits (pi s)) /\
      (V (f s u) < level - margin -> forall n,
         V (iterate n (fun x => f x (pi x)) (f s u)) < level - margin) /\
      (u = pi s -> ~ initially_safe (book before) k -> V (f s u) < V s)
  | Raised e => e = ValueError /\ (num = Some 0%Z \/ forall k, ~ safe (book after) k)
  | Nothing => False
  end.
Proof.
  intros W leb g S0 V pi f sf lv lf m before after now perts limits positive num draws SL TO SF HP HD level margin.
  destruct SL as [VG HV Hpi HB HU HN EVN PR HM].
  destruct HB as (w0 & ini & ad & o0 & h1 & EN & HA1 & HU1 & EB).
  destruct HU as (mr & bs & order & x0 & ES & HS & Hmr & Hx0 & Hseed).
  destruct HN as (h2 & E2 & HA2 & HN2 & HU2).
  assert (SZ : sized g (book before)).
  { rewrite EB. apply sized_run; auto. now apply (sized_new g w0 S0 ini ad o0). }
  assert (EU : update_safe_set (book before) (certificate (S0 (world before)) sf (grid_point g)) true mr bs order
               = Ok (book after)).
  { destruct (C71_reuse_invisible W leb g w0 S0 ini ad o0 h1 sf m EN HA1 HU1) as (A & _).
    { rewrite <- EB. eapply C87_success_evaluates; rewrite ES; reflexivity. }
    specialize (A true mr bs order). cbn zeta in A. rewrite <- EB, ES in A. cbn [fst snd] in A.
    destruct update_safe_set; destruct A as (A1 & A2); congruence. }
  assert (ENow : now = run leb g (w0, o0) (h1 ++ UpdateSafeSet true mr sf bs order :: h2)).
  { rewrite run_app, run_cons, <- EB, ES. exact E2. }
  destruct (safe_kept leb g h2 after HN2) as (K1 & K2). rewrite <- E2 in K1, K2.
  assert (HAll : without is_assignment (h1 ++ UpdateSafeSet true mr sf bs order :: h2)).
  { apply Forall_app. split; [auto|constructor; [intros []|auto]]. }
  assert (HAll2 : Forall (uses sf m) (h1 ++ UpdateSafeSet true mr sf bs order :: h2)).
  { apply Forall_app. split; [auto|constructor; [reflexivity|auto]]. }
  destruct (C71_reuse_invisible W leb g w0 S0 ini ad o0 _ sf m EN HAll HAll2) as (_ & A).
  { now rewrite <- ENow. }
  specialize (A (Perturbations m perts) limits positive num draws eq_refl). cbn zeta in A.
  rewrite <- ENow in A. destruct A as (_ & ->).
  destruct (C28_most_uncertain_certified leb g (book now) (S0 (world now)) m limits perts positive num draws
              TO SF HP HD) as (Hnone & Hsome).
  destruct (C28_tested_states g (book now) (S0 (world now)) m limits num draws SF HD) as (HT & HT').
  assert (Hsafe_eq : forall k, safe (book now) k <-> safe (book after) k)
    by (intros k; unfold safe; rewrite K1; tauto).
  destruct (tested g (book now) num draws) as [|t0 ts'] eqn:ET.
  { rewrite Hnone by auto. split; auto. unfold tested in ET.
    assert (Hin : safe_states g (book now) = [] -> forall k, ~ safe (book after) k).
    { intros E k Hk. apply Hsafe_eq in Hk.
      assert (Hin : In (grid_point g k) (safe_states g (book now))).
      { apply (safe_states_spec g (book now) _ m limits SF). exists k. repeat split; auto.
        rewrite <- (sf_safe _ _ _ _ _ SF). unfold safe in Hk.
        assert (k < length (l_safe (book now)))%nat; [|lia].
        destruct (Nat.lt_ge_cases k (length (l_safe (book now)))); auto.
        rewrite nth_overflow in Hk by auto. discriminate. }
      rewrite E in Hin. destruct Hin. }
    destruct num as [z|]; [|right; auto].
    destruct (HD z eq_refl) as (Hz & Hd). destruct (Z.ltb_spec z (Z.of_nat (length (safe_states g (book now))))).
    - left. apply map_eq_nil in ET. subst draws. destruct (Hd H) as (Hl & _). simpl in Hl. f_equal. lia.
    - right; auto. }
  destruct Hsome as (s & u & Hs & -> & Hu); [discriminate|].
  destruct (HT s Hs) as (k & Hk & Hkn & Ek).
  assert (Es : s = grid_point g k).
  { unfold grid_point. now rewrite Ek. }
  pose proof (proj1 (safe_good g (book now) _ m limits SF num draws HD s ltac:(now rewrite ET))) as Hvert.
  pose proof (sf_policy _ _ _ _ _ SF s Hvert) as Hpol.
  assert (Hlu : length u = m).
  { assert (G : forall v, length v = m -> length (limited limits v) = m).
    { intros v Hv. unfold limited. destruct limits as [lims|]; auto.
      rewrite map2_length, Hv, (sf_limits _ _ _ _ _ SF lims eq_refl). lia. }
    destruct Hu as [(p & Hp & -> & _)|(-> & _)]; apply G; auto. rewrite map2_length, Hpol, (HP p Hp). lia. }
  assert (Hlf : length (f s u) = dims g).
  { destruct (sf_model _ _ _ _ _ SF s u Hvert Hlu) as (mean & err & E & Em & _).
    destruct (HM s u Hvert Hlu mean err E) as ((Hw & _) & _). congruence. }
  exists k, s, u. split; [now apply Hsafe_eq|]. split; auto. split; auto. split; [|split].
  - destruct Hu as [(p & Hp & Eu & HC & _)|(-> & _)]; [|right; now rewrite Hpi].
    left. rewrite <- (HV (world now)). unfold level. rewrite <- K2.
    eapply C28_certified_maps_inside; [exact HC|]. apply HM; auto.
  - intros HL n. pose proof (C22_forward_invariance g (S0 (world before)) (fun x => f x (pi x)) lv lf sf
      (book before) (book after) mr bs order x0 VG (proj1 SZ) PR Hmr HS EU Hx0 Hseed (f s u) n Hlf) as (C & _).
    + now rewrite HV.
    + rewrite HV in C. exact C.
  - intros Eu Hni. assert (Hksz : (k < size (book before))%nat).
    { rewrite (proj2 SZ). pose proof (all_points_length g VG). lia. }
    destruct (C15_sublevel_set _ _ _ _ _ _ (proj1 SZ) HS Hmr EU k Hksz) as (_ & HC).
    destruct (HC (proj1 (Hsafe_eq k) Hk) Hni) as (Hneg & _). simpl in Hneg. apply Rltb_true in Hneg.
    rewrite <- Es in Hneg. destruct PR as [P1 P2 P3 P4 P5 P6 P7 P8 P9 P10 P11 P12].
    pose proof (model_right_decrease _ _ _ (P8 s Hvert)) as Hdec. rewrite Eu.
    assert (Hthr : threshold (S0 (world before)) s (tau (S0 (world before))) <= 0).
    { unfold threshold, lv_scalar, lf_scalar. rewrite P1, P2.
      assert (0 <= tau (S0 (world before))) by (eapply Rle_trans; [|exact P9]; apply half_units_pos; auto).
      assert (0 <= lv * (1 + lf) * tau (S0 (world before))) by (repeat apply Rmult_le_pos; lra).
      lra. }
    rewrite !HV in Hdec. lra.
Qed.
Print Assumptions C73_safe_learning.

(** An instance: the system of C22 with an action that is added to the successor,
    and a model whose error is at most 1/16, and 0 once there is more data. *)
Definition f10 (x u : list R) : list R := [nth 0 (F9 x) 0 + nth 0 u 0].
Definition S10 (data : bool) : setup :=
  {| lyapunov_function := absV; policy := fun _ => [0];
     dynamics := fun x u => Uncertain (f10 x u) [if data then 0 else 1 / 16];
     lip_v := LvConst 1; lip_f := LfConst (24 / 5); tau := 1 / 2 |}.
Lemma f10_policy x : f10 x [0] = F9 x.
Proof. unfold f10, F9. simpl. f_equal. lra. Qed.
Lemma neg10 k : (k < 9)%nat -> neg (certificate (S10 false) 1 (grid_point g9)) k =
  nth k [false; true; false; false; false; false; false; true; true] false.
Proof.
  intros H. simpl. rewrite point9 by auto.
  unfold decrease, v_decrease_bound, threshold, lv_scalar, lf_scalar; simpl.
  unfold weighted_error; simpl. unfold absV, f10, F9; simpl.
  do 9 (destruct k as [|k]; [simpl;
     first [apply Rltb_true | apply Rltb_false];
     unfold Rabs; repeat destruct Rcase_abs; repeat destruct Rle_dec; lra|]). lia.
Qed.
Lemma update10 : update_safe_set L9 (certificate (S10 false) 1 (grid_point g9)) true 1 4 order9 = Ok L9'.
Proof.
  rewrite <- update9. apply update_ext; [|reflexivity]. intros x Hx.
  assert (x < 9)%nat by (unfold order9 in Hx; simpl in Hx; lia). now rewrite neg9, neg10.
Qed.
Definition o10 (L : lyap) (gr : option (update_graph bool)) : object bool :=
  {| ob_setup := S10; ob_lyap := L; ob_values := fun w => lyapunov_function (S10 w);
     ob_update := gr; ob_sample := None; ob_stuck := false |}.
Lemma new10 : new_object g9 false S10 (Some mask9) false = Ok (o10 L9 None).
Proof.
  unfold new_object, o10, L9. change (map (lyapunov_function (S10 false)) (all_points g9)) with vals9.
  remember vals9 as v eqn:Ev. pose proof vals9_length as E. rewrite <- Ev in E.
  destruct v as [|v0 [|v1 [|v2 [|v3 [|v4 [|v5 [|v6 [|v7 [|v8 [|]]]]]]]]]]; try discriminate E.
  reflexivity.
Qed.
Definition graph10 : update_graph bool :=
  {| ug_setup := S10; ug_factor := 1; ug_adaptive := false |}.
Lemma step10 : step rows_leb g9 (false, o10 L9 None) (UpdateSafeSet true 1 1 4 order9)
  = ((false, o10 L9' (Some graph10)), Nothing).
Proof.
  unfold step, ob_update_safe_set, o10. cbn [ob_update ob_setup ob_lyap ob_values ob_sample ob_stuck].
  change (Bool.eqb _ _) with true. cbn [andb]. cbv iota. cbn [ug_setup ug_factor].
  rewrite (proj2 (effect_ok _ _ _ _ _ _ _) update10). reflexivity.
Qed.
Lemma right10 data s u : right_about (S10 data) f10 s u.
Proof.
  intros mean err [= <- <-]. unfold within, coordinate_constants. simpl. repeat split.
  - intros j Hj. assert (j = 0%nat) by lia. subst j. simpl. unfold Rminus. rewrite Rplus_opp_r, Rabs_R0.
    destruct data; lra.
  - repeat constructor. lra.
  - unfold Rminus. rewrite Rplus_opp_r, Rabs_R0. unfold wdist; simpl. unfold Rminus.
    rewrite Rplus_opp_r, Rabs_R0. lra.
Qed.
Lemma absV_lipschitz x y : length x = 1%nat -> length y = 1%nat ->
  Rabs (absV x - absV y) <= 1 * dist1 x y.
Proof.
  intros Hx Hy. apply one_dim in Hx, Hy. rewrite Hx, Hy. unfold absV, dist1; simpl.
  rewrite Rplus_0_r. pose proof (Rabs_triang_inv2 (nth 0 x 0) (nth 0 y 0)). lra.
Qed.
Lemma premises10 : premises g9 (S10 false) (fun x => f10 x [0]) 1 (24 / 5) L9 L9'.
Proof.
  destruct premises9 as [P1 P2 P3 P4 P5 P6 P7 P8 P9 P10 P11 P12].
  constructor; auto; try reflexivity.
  - intros x y (Hx & _) (Hy & _). apply absV_lipschitz; assumption.
  - intros x y Hx Ix Hy Iy. rewrite !f10_policy. auto.
  - intros x _. change (model_right (S10 false) (fun x => f10 x [0]) x) with
      (within (f10 x [0]) (f10 x [0]) [1 / 16] /\
       length (coordinate_constants (S10 false) (f10 x [0])) = length (f10 x [0]) /\
       Forall (Rle 0) (coordinate_constants (S10 false) (f10 x [0])) /\
       Rabs (absV (f10 x [0]) - absV (f10 x [0])) <= wdist (coordinate_constants (S10 false) (f10 x [0])) (f10 x [0]) (f10 x [0])).
    apply (right10 false x [0] _ _ eq_refl).
  - intros k x H1 H2 H3 H4. rewrite f10_policy. eapply P12; eauto.
Qed.
Definition before10 : state bool := (false, o10 L9 None).
Definition after10 : state bool := (false, o10 L9' (Some graph10)).
Definition now10 : state bool := (true, o10 L9' (Some graph10)).
Lemma learning10 : safe_learning rows_leb g9 S10 absV (fun _ => [0]) f10 1 1 (24 / 5) 1 before10 after10 now10.
Proof.
  constructor; auto using g9_valid, premises10, right10.
  - exists false, (Some mask9), false, (o10 L9 None), []. repeat split; auto using new10; constructor.
  - exists 1%Z, 4%nat, order9, 4%nat. repeat split; auto using step10, order9_sorts; try apply order9_sorts.
    + simpl. lia.
    + right. exists mask9. split; reflexivity.
  - exists [SetWorld true]. repeat split; auto; repeat constructor; intros [].
  - apply evaluates_iff. reflexivity.
Qed.
Lemma fits10 : sample_fits g9 (book now10) (S10 (world now10)) 1 None.
Proof.
  constructor; auto using g9_valid; try discriminate.
  intros s u _ _. exists (f10 s u), [0]. repeat split; reflexivity.
Qed.
Lemma sampled10 p positive : exists row b,
  snd (step rows_leb g9 now10 (GetSafeSample (Perturbations 1 [[p]]) None positive None [])) = Sampled row b.
Proof.
  pose proof (C73_safe_learning bool rows_leb g9 S10 absV (fun _ => [0]) f10 1 1 (24 / 5) 1 before10 after10 now10
    [[p]] None positive None [] learning10 rows_leb_order fits10) as H.
  cbn zeta in H. destruct (snd _) as [|e|row b].
  - exfalso. apply H; [intros q [<-|[]]; reflexivity|intros n [=]].
  - exfalso. destruct H as (_ & [H|H]); [intros q [<-|[]]; reflexivity|intros n [=]|discriminate|].
    exact (H 1%nat eq_refl).
  - eauto.
Qed.

(** The sample with the perturbation 1 leads to the state 1, from which the policy
    stays in {V < 7/2}. *)
Example C73_ex : exists k u b,
  safe (book after10) k /\
  snd (step rows_leb g9 now10 (GetSafeSample (Perturbations 1 [[1]]) None true None []))
    = Sampled (grid_point g9 k ++ u) b /\
  (absV (f10 (grid_point g9 k) u) < 4 \/ u = [0]) /\
  (absV (f10 (grid_point g9 k) u) < 7 / 2 -> forall n,
     absV (iterate n (fun x => f10 x [0]) (f10 (grid_point g9 k) u)) < 7 / 2).
Proof.
  pose proof (C73_safe_learning bool rows_leb g9 S10 absV (fun _ => [0]) f10 1 1 (24 / 5) 1 before10 after10 now10
    [[1]] None true None [] learning10 rows_leb_order fits10) as H.
  specialize (H ltac:(intros q [<-|[]]; reflexivity) ltac:(intros n [=])). cbn zeta in H.
  destruct (sampled10 1 true) as (row & b & E). rewrite E in H |- *.
  destruct H as (k & s & u & H1 & -> & -> & H2 & H3 & _). exists k, u, b.
  change (l_cmax (book after10)) with (l_cmax L9') in H2, H3. rewrite cmax9 in H2, H3.
  change (limited None [0]) with [0] in H2. simpl tau in H3.
  split; auto. split; auto. split; auto. intros HV n. specialize (H3 ltac:(lra) n). lra.
Qed.

(** Without the margin this is false: the successor of a certified sample is in the
    level set, but the policy leaves the level set in the next step. *)
Theorem C73_without_margin_refuted :
  ~ (forall W leb g (S0 : W -> setup) V pi f sf lv lf m before after now perts limits positive num draws,
     safe_learning leb g S0 V pi f sf lv lf m before after now ->
     total_order leb -> sample_fits g (book now) (S0 (world now)) m limits ->
     (forall p, In p perts -> length p = m) -> drawn g (book now) num draws ->
     forall s u b, length s = dims g ->
       snd (step leb g now (GetSafeSample (Perturbations m perts) limits positive num draws))
       = Sampled (s ++ u) b ->
       V (f s u) < l_cmax (book after) ->
       V (f (f s u) (pi (f s u))) < l_cmax (book after)).
Proof.
  intros H.
  specialize (H bool rows_leb g9 S10 absV (fun _ => [0]) f10 1 1 (24 / 5) 1%nat before10 after10 now10
    [[- (79 / 20)]] None true None [] learning10 rows_leb_order fits10
    ltac:(intros q [<-|[]]; reflexivity) ltac:(intros n [=])).
  destruct (C28_most_uncertain_certified rows_leb g9 (book now10) (S10 true) 1 None [[- (79 / 20)]] true None []
    rows_leb_order fits10 ltac:(intros q [<-|[]]; reflexivity) ltac:(intros n [=])) as (_ & A).
  assert (F0 : forall k, safe L9' k -> F9 (grid_point g9 k) = [0] /\ In (grid_point g9 k) (tested g9 L9' None [])).
  { intros k Hk. split.
    - assert (Hk9 : (1 <= k < 9)%nat).
      { unfold safe in Hk. destruct (Nat.lt_ge_cases k 9); [|rewrite nth_overflow in Hk by (simpl; lia); discriminate].
        destruct k; [discriminate|lia]. }
      rewrite point9 by lia. unfold F9. simpl.
      assert (1 <= INR k) by (replace 1 with (INR 1) by reflexivity; apply le_INR; lia).
      destruct Rle_dec; [auto|lra].
    - apply (C28_tested_states g9 L9' (S10 true) 1 None None [] fits10 ltac:(intros n [=])); auto. }
  assert (HC : forall k, safe L9' k ->
    certified g9 (book now10) (S10 true) true (grid_point g9 k) [0 + - (79 / 20)]).
  { intros k Hk. exists (f10 (grid_point g9 k) [0 + - (79 / 20)]), [0]. split; [reflexivity|]. split; [|discriminate].
    change (l_cmax (book now10)) with (l_cmax L9'). rewrite cmax9.
    unfold f10. rewrite (proj1 (F0 k Hk)). simpl. unfold absV; simpl.
    rewrite Rabs_left by lra. lra. }
  destruct A as (s & u & Hs & ES & Hu).
  { change (book now10) with L9'. intros E. pose proof (proj2 (F0 4%nat eq_refl)) as Hin. rewrite E in Hin. destruct Hin. }
  destruct (C28_tested_states g9 (book now10) (S10 true) 1 None None [] fits10 ltac:(intros n [=])) as (HT & _).
  destruct (HT s Hs) as (k & Hk & Hkn & Ek).
  assert (Es : s = grid_point g9 k) by (unfold grid_point; now rewrite Ek).
  assert (Eu : u = [0 + - (79 / 20)]).
  { destruct Hu as [(p & [<-|[]] & -> & _)|(_ & Hno & _)]; [reflexivity|].
    exfalso. apply (Hno s [- (79 / 20)] Hs ltac:(left; reflexivity)). rewrite Es. apply HC. exact Hk. }
  subst u. rewrite Es in ES.
  assert (E1 : f10 (grid_point g9 k) [0 + - (79 / 20)] = [0 + (0 + - (79 / 20))]).
  { unfold f10. rewrite (proj1 (F0 k Hk)). reflexivity. }
  specialize (H (grid_point g9 k) [0 + - (79 / 20)] (uncertainty (S10 true) (grid_point g9 k) [0 + - (79 / 20)])).
  rewrite E1 in H. change (l_cmax (book after10)) with (l_cmax L9') in H. rewrite cmax9 in H.
  rewrite f10_policy in H.
  assert (B : absV (F9 [0 + (0 + - (79 / 20))]) < 4).
  { apply H.
    - apply (grid_point_vertex g9 k g9_valid Hkn).
    - unfold step, now10, ob_get_safe_sample, o10. cbn [ob_sample ob_setup ob_lyap sg_setup sg_width ob_stuck sample_call].
      change (sample_with rows_leb g9 L9' (S10 true) (ndim g9 + action_dim (Perturbations 1 [[- (79 / 20)]]))
        (Perturbations 1 [[- (79 / 20)]]) None true None [])
        with (get_safe_sample rows_leb g9 (book now10) (S10 true) (Perturbations 1 [[- (79 / 20)]]) None true None []).
      rewrite Es in *. rewrite ES. reflexivity.
    - unfold absV; simpl. rewrite Rabs_left by lra. lra. }
  revert B. unfold F9, absV; simpl. destruct Rle_dec as [r|r]; [lra|].
  rewrite Rabs_left by lra. lra.
Qed.
Print Assumptions C73_without_margin_refuted.
