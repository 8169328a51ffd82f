(** Property C96: training a Lyapunov network with labels from simulations. *)
From Coq Require Import Reals List Bool Arith ZArith Lia Lra Permutation Sorted.
From Verif Require Import Prelude ListFacts NumModel NumProofs GridModel GridSpec GridProofs
  SafeModel SafeSpec SafeProofs SafeProofs2 Properties.SafeProps CertModel CertSpec CertProofs Properties.CertProps
  LoopModel LoopSpec LoopProofs ExUtilModel Properties.ExUtilProps RoaTrainModel RoaTrainSpec RoaTrainProofs.
Import ListNotations.
Local Open Scope R_scope.

Lemma run_states {W} g F (S : W -> setup) ini mult horizon ts : training g F S ini mult horizon ts ->
  exists t0, nth_error ts 0 = Some t0 /\
  Forall (fun t => current g S ini t /\ exists L bs order, consistent L /\ l_init L = ini /\ l_adaptive L = false /\
      l_vals L = map (lyapunov_function (S (tr_params t))) (all_points g) /\ sorts (l_vals L) order /\
      update_safe_set L (certificate (S (tr_params t)) 1 (grid_point g)) true 1 bs order = Ok (ob_lyap (tr_object t))) ts /\
  forall n t k, nth_error ts n = Some t -> (k < length (all_points g))%nat ->
    (marked t k <->
     (exists j t', (j <= n)%nat /\ nth_error ts j = Some t' /\ in_safe_set t' k) \/
     (exists j t', (j < n)%nat /\ nth_error ts j = Some t' /\
        labels_gap S F mult horizon t' (nth k (all_points g) []))).
Proof.
  intros (w0 & calls & rounds & t & HN & HC & HR & EI & ET).
  destruct (initialize_current g S ini w0 calls t EI) as (C & E0).
  destruct (train_ok g F S ini mult horizon rounds t ts C ET) as (L & N0 & FA & ST).
  assert (NE : forall n, (n < length ts)%nat -> nth_error ts n = Some (nth n ts t)) by (intros; now apply nth_error_nth').
  exists t. split; [rewrite NE by lia; now rewrite N0|]. split.
  - assert (T0 : exists L bs order, consistent L /\ l_init L = ini /\ l_adaptive L = false /\
      l_vals L = map (lyapunov_function (S (tr_params t))) (all_points g) /\ sorts (l_vals L) order /\
      update_safe_set L (certificate (S (tr_params t)) 1 (grid_point g)) true 1 bs order = Ok (ob_lyap (tr_object t))).
    { unfold initialize in EI. destruct new_object as [o|] eqn:EO; [|discriminate]. cbn [bind] in EI.
      destruct prepare as [[w' o']|] eqn:EP; [|discriminate]. cbn [bind fst snd] in EI. injection EI as <-. cbn [tr_params tr_object].
      apply (fresh_new g S ini) in EO. clear - HN HC EO EP. revert w0 o EO EP.
      induction calls as [|[[w1 bs] order] calls IH]; [congruence|]. intros w0 o EO. cbn [prepare].
      destruct refresh as [o1|] eqn:E; [|discriminate]. cbn [bind]. intros EP.
      destruct (refresh_ok g S ini _ _ _ _ _ _ EO E) as (HF & L & A1 & A2 & A3 & A4 & A5).
      inversion HC as [|? ? HC1 HC2]; subst. destruct calls as [|c calls].
      - cbn in EP. injection EP as <- <-. exists L, bs, order. repeat split; auto; try apply A1.
        + rewrite A4. apply HC1. + rewrite A4. apply HC1.
      - apply (IH ltac:(discriminate) HC2 w1 o1 HF EP). }
    apply Forall_forall. intros t' Ht'. rewrite Forall_forall in FA. split; [now apply FA|].
    apply (In_nth _ _ t) in Ht' as (n & Hn & <-). destruct n as [|n].
    + rewrite N0. exact T0.
    + destruct (ST n ltac:(lia)) as (r & Er & Es).
      assert (Cn : current g S ini (nth n ts t)) by (apply FA, nth_In; lia).
      destruct (round_ok g F S ini _ _ _ _ _ Cn Es) as (_ & _ & L0 & bs & order & E1 & A1 & A2 & A3 & A4 & A5).
      exists L0, bs, order. split; [exact A1|]. split; [exact A2|]. split; [exact A3|]. split; [exact A4|]. split; [|exact A5].
      rewrite Forall_forall in HR. specialize (HR r (nth_error_In _ _ Er)). rewrite E1 in HR. rewrite A4. exact HR.
  - intros n t' k Hn Hk.
    assert (Hl : (n < length ts)%nat) by (apply nth_error_Some; congruence).
    rewrite NE in Hn by auto. injection Hn as <-.
    unfold marked. rewrite (marks_ok g F S ini mult horizon rounds t ts C ET E0 n k) by (auto; lia). split.
    + intros [(j & Hj & H)|(j & Hj & H)]; [left|right]; exists j, (nth j ts t); (split; [auto|split; [apply NE; lia|exact H]]).
    + intros [(j & t' & Hj & E & H)|(j & t' & Hj & E & H)]; [left|right]; exists j;
        (split; [auto|]); rewrite NE in E by lia; injection E as <-; exact H.
Qed.

(** [roa_estimate] consists of the states that were in one of the safe sets so far, or
    that were outside of the level set in an earlier round, inside of the enlarged one,
    and in the level set after the simulation. *)
Theorem C96_marks {W} g F (S : W -> setup) ini mult horizon ts : valid_grid g -> training g F S ini mult horizon ts ->
  forall n t k, nth_error ts n = Some t -> (Z.of_nat k < nindex g)%Z ->
    (marked t k <->
     (exists j t', (j <= n)%nat /\ nth_error ts j = Some t' /\ in_safe_set t' k) \/
     (exists j t', (j < n)%nat /\ nth_error ts j = Some t' /\ labels_gap S F mult horizon t' (grid_point g k))).
Proof.
  intros VG HT n t k Hn Hk. destruct (run_states _ _ _ _ _ _ _ HT) as (t0 & _ & _ & M).
  pose proof (all_points_length g VG) as AL.
  destruct (grid_point_vertex g k VG Hk) as (_ & ->). apply M; auto. lia.
Qed.

(** Labels are never removed, and the initial set is always labelled. *)
Theorem C96_labels_stay {W} g F (S : W -> setup) ini mult horizon ts : valid_grid g -> training g F S ini mult horizon ts ->
  forall n n' t t' k, (n <= n')%nat -> nth_error ts n = Some t -> nth_error ts n' = Some t' ->
    (Z.of_nat k < nindex g)%Z ->
    (marked t k -> marked t' k) /\ (forall m, ini = Some m -> nth k m false = true -> marked t k).
Proof.
  intros VG HT n n' t t' k Hn Et Et' Hk.
  pose proof (C96_marks g F S ini mult horizon ts VG HT) as M. split.
  - intros H. apply (M n t k Et Hk) in H. apply (M n' t' k Et' Hk).
    destruct H as [(j & s & Hj & H)|(j & s & Hj & H)]; [left|right]; exists j, s; (split; [lia|auto]).
  - intros m Em Hm. apply (M n t k Et Hk). left. exists n, t. split; [lia|]. split; [exact Et|].
    destruct (run_states _ _ _ _ _ _ _ HT) as (_ & _ & FA & _). rewrite Forall_forall in FA.
    destruct (FA t (nth_error_In _ _ Et)) as (_ & L & bs & order & A1 & A2 & A3 & A4 & A5 & A6).
    unfold in_safe_set. pose proof (all_points_length g VG) as AL.
    destruct (update_pos _ _ _ _ _ _ _ A5 A6) as (Hbs & Hsz).
    destruct (C15_certified_prefix L (certificate (S (tr_params t)) 1 (grid_point g)) 1 bs order A1 A5 Hsz Hbs (or_introl A3)) as (L' & E' & H').
    rewrite A6 in E'. injection E' as <-. apply H'.
    + unfold size. rewrite A4, map_length. lia.
    + left. exists m. split; congruence.
Qed.

(** [target_set] lists the grid states that are labelled or in the enlarged level set, in
    the order of the grid, and [target_labels] has the label of each of them. *)
Theorem C96_targets {W} g F (S : W -> setup) ini mult horizon ts : valid_grid g -> training g F S ini mult horizon ts ->
  forall n t, nth_error ts n = Some t ->
  exists est ks, targets g F mult horizon t =
      (est, map (grid_point g) ks, map (fun k => if nth k est false then 1 else 0) ks) /\
    StronglySorted lt ks /\
    (forall k, In k ks <-> (Z.of_nat k < nindex g)%Z /\
       (value_of S t (grid_point g k) <= mult * level t \/ nth k est false = true)) /\
    (forall k, (Z.of_nat k < nindex g)%Z ->
       (nth k est false = true <-> marked t k \/ labels_gap S F mult horizon t (grid_point g k))) /\
    (forall t', nth_error ts (1 + n) = Some t' -> forall k, (Z.of_nat k < nindex g)%Z ->
       (marked t' k <-> nth k est false = true \/ in_safe_set t' k)).
Proof.
  intros VG HT n t Et. pose proof (C96_marks g F S ini mult horizon ts VG HT) as MK.
  destruct (run_states _ _ _ _ _ _ _ HT) as (_ & _ & FA & _). rewrite Forall_forall in FA.
  destruct (FA t (nth_error_In _ _ Et)) as (C & _). pose proof (all_points_length g VG) as AL.
  destruct (targets_ok g F S ini mult horizon t C) as (est & LE & HE & ET).
  set (tm := map2 orb _ est) in ET.
  assert (EV : l_vals (ob_lyap (tr_object t)) = map (lyapunov_function (S (tr_params t))) (all_points g)) by apply C.
  assert (LT : length tm = length (all_points g)) by (unfold tm; rewrite map2_length, map_length, EV, map_length; lia).
  assert (HM : forall k, (Z.of_nat k < nindex g)%Z ->
       (nth k est false = true <-> marked t k \/ labels_gap S F mult horizon t (grid_point g k))).
  { intros k Hk. destruct (grid_point_vertex g k VG Hk) as (_ & ->). apply HE. lia. }
  exists est, (mask tm (seq 0 (length (all_points g)))). split; [|split; [|split; [|split]]].
  - rewrite ET. f_equal; [f_equal|].
    + rewrite (mask_seq []) by auto. apply map_ext_in. intros k Hk. apply mask_seq_In in Hk as (Hk & _); auto.
      destruct (grid_point_vertex g k VG) as (_ & E); [lia|]. now rewrite E.
    + rewrite (mask_seq false) by lia. rewrite map_map, LE. reflexivity.
  - apply mask_sorted.
  - intros k. rewrite mask_seq_In by auto. split.
    + intros (Hk & H). split; [lia|]. unfold tm in H.
      rewrite nth_map2' with (da := false) (db := false) in H by (rewrite ?map_length, ?EV, ?map_length; lia).
      rewrite orb_true_iff in H. destruct H as [H|H]; [left|now right].
      rewrite EV, map_map, nth_map' with (d' := []) in H by lia. apply at_most_true in H.
      destruct (grid_point_vertex g k VG) as (_ & ->); [lia|]. exact H.
    + intros (Hk & H). split; [lia|]. unfold tm.
      rewrite nth_map2' with (da := false) (db := false) by (rewrite ?map_length, ?EV, ?map_length; lia).
      rewrite orb_true_iff. destruct H as [H|H]; [left|now right].
      rewrite EV, map_map, nth_map' with (d' := []) by lia. apply at_most_true.
      destruct (grid_point_vertex g k VG Hk) as (_ & E). rewrite E in H. exact H.
  - exact HM.
  - intros t' Et' k Hk. rewrite (HM k Hk), (MK (1 + n)%nat t' k Et' Hk), (MK n t k Et Hk). split.
    + intros [(j & s & Hj & Es & H)|(j & s & Hj & Es & H)].
      * destruct (Nat.eq_dec j (1 + n)) as [->|]; [right; congruence|]. left; left; left. exists j, s. split; [lia|auto].
      * destruct (Nat.eq_dec j n) as [->|]; [left; right; congruence|]. left; left; right. exists j, s. split; [lia|auto].
    + intros [[[(j & s & Hj & Es & H)|(j & s & Hj & Es & H)]|H]|H].
      * left. exists j, s. split; [lia|auto].
      * right. exists j, s. split; [lia|auto].
      * right. exists n, t. split; [lia|auto].
      * left. exists (1 + n)%nat, t'. split; [lia|auto].
Qed.

(** Labels are right about every set that contains the predecessors of its states, as a
    region of attraction does, if the level sets of all rounds and the safe grid states
    are in the set. *)
Theorem C96_sound {W} g F (S : W -> setup) ini mult horizon ts (A : list R -> Prop) :
  valid_grid g -> training g F S ini mult horizon ts ->
  (forall x, length x = dims g -> length (F x) = dims g) ->
  (forall x, A (F x) -> A x) ->
  (forall t x, In t ts -> length x = dims g -> value_of S t x <= level t -> A x) ->
  (forall t k, In t ts -> (Z.of_nat k < nindex g)%Z -> in_safe_set t k -> A (grid_point g k)) ->
  forall t k, In t ts -> (Z.of_nat k < nindex g)%Z -> marked t k -> A (grid_point g k).
Proof.
  intros VG HT HF HA HL HS t k Ht Hk M. apply In_nth_error in Ht as (n & En).
  apply (C96_marks g F S ini mult horizon ts VG HT n t k En Hk) in M.
  destruct M as [(j & s & _ & Es & H)|(j & s & _ & Es & _ & H)].
  - apply (HS s k); auto. eapply nth_error_In; eauto.
  - assert (B : A (iterate horizon F (grid_point g k))).
    { apply (HL s); auto; [eapply nth_error_In; eauto|].
      destruct (grid_point_vertex g k VG Hk) as ((LP & _) & _). induction horizon as [|h IH]; cbn; auto.
      apply HF. clear - HF LP. induction h; cbn; auto. }
    revert B. clear - HA. induction horizon as [|h IH]; cbn; auto.
Qed.

(** If every round meets the premises of the theory (C22), a labelled state reaches the
    initial set, unless its simulation ended in the outermost layer of a level set,
    {c - lv*tau <= V <= c}, or the safe set contained it although its value was above
    the level. *)
Theorem C96_labelled_states_reach_initial_set {W} g F (S : W -> setup) ini mult horizon ts lv lf :
  valid_grid g -> training g F S ini mult horizon ts ->
  (forall t, In t ts -> premises g (S (tr_params t)) F lv lf (ob_lyap (tr_object t)) (ob_lyap (tr_object t))) ->
  (* the smallest state is certified or initially safe *)
  (forall t k, In t ts -> (Z.of_nat k < nindex g)%Z ->
     (forall k', (Z.of_nat k' < nindex g)%Z -> value_of S t (grid_point g k) <= value_of S t (grid_point g k')) ->
     neg (certificate (S (tr_params t)) 1 (grid_point g)) k = true \/ exists m, ini = Some m /\ nth k m false = true) ->
  forall n t k, nth_error ts n = Some t -> (Z.of_nat k < nindex g)%Z -> marked t k ->
    reaches_initial g F ini (grid_point g k) \/
    (exists t', In t' ts /\ level t' - lv * tau (S (tr_params t')) <= value_of S t' (iterate horizon F (grid_point g k)) <= level t') \/
    (exists t', In t' ts /\ in_safe_set t' k /\ level t' < value_of S t' (grid_point g k)).
Proof.
  intros VG HT HP HX n t k En Hk M.
  destruct (run_states _ _ _ _ _ _ _ HT) as (_ & _ & FA & _). rewrite Forall_forall in FA.
  pose proof (all_points_length g VG) as AL.
  assert (REACH : forall s x, In s ts -> length x = dims g ->
     value_of S s x < level s - lv * tau (S (tr_params s)) \/
     (exists k, (Z.of_nat k < nindex g)%Z /\ x = grid_point g k /\ in_safe_set s k /\ value_of S s x <= level s) ->
     reaches_initial g F ini x).
  { intros s x Hs Lx Hx. destruct (FA s Hs) as (_ & L & bs & order & A1 & A2 & A3 & A4 & A5 & A6).
    assert (SZ : size L = length (all_points g)) by (unfold size; now rewrite A4, map_length).
    assert (PR : premises g (S (tr_params s)) F lv lf L (ob_lyap (tr_object s))).
    { destruct (HP s Hs) as [P1 P2 P3 P4 P5 P6 P7 P8 P9 P10 P11 P12]. constructor; auto.
      intros k0 x0 (m & Em & Hm). apply (P12 k0 x0). exists m. split; [|exact Hm].
      destruct (update_fields _ _ _ _ _ _ _ A6) as (-> & _). exact Em. }
    destruct (update_pos _ _ _ _ _ _ _ A5 A6) as (Hbs & Hsz).
    pose proof (order_length L order A5) as OL.
    set (x0 := nth 0 order 0%nat).
    assert (Hx0 : (x0 < size L)%nat) by (apply (order_lt L order A5); lia).
    assert (VAL : forall k', (k' < size L)%nat -> value L k' = value_of S s (grid_point g k')).
    { intros k' Hk'. unfold value. rewrite A4, nth_map' with (d' := []) by lia.
      destruct (grid_point_vertex g k' VG) as (_ & <-); [lia|]. reflexivity. }
    assert (N0 : neg (certificate (S (tr_params s)) 1 (grid_point g)) x0 = true \/ initially_safe L x0).
    { destruct (HX s x0 Hs) as [H|(m & Em & Hm)]; [lia| |now left|right; exists m; split; congruence].
      intros k' Hk'. rewrite <- !VAL by lia.
      destruct (order_onto L order A5 k' ltac:(lia)) as (p & Hp & <-).
      destruct p as [|p]; [unfold x0; lra|]. unfold x0, value. apply A5; [lia|]. unfold size in Hp. lia. }
    assert (AP : at_position order 0 x0) by (split; [rewrite OL; exact Hsz|reflexivity]).
    destruct (C22_reaches_initial_set g (S (tr_params s)) F lv lf 1 L (ob_lyap (tr_object s)) 1 bs order x0
      VG A1 PR (or_introl A3) A5 A6 AP N0) as (N & H).
    destruct (H x Lx) as (n' & k' & _ & Ei & m & Em & Hm).
    - destruct Hx as [Hx|(k0 & Hk0 & Ex & Hsafe & Hv)]; [left; exact Hx|right]. exists k0. repeat split; auto. lia.
    - exists m, n', k'. repeat split; auto. congruence. }
  apply (C96_marks g F S ini mult horizon ts VG HT n t k En Hk) in M.
  destruct (grid_point_vertex g k VG Hk) as ((LP & _) & _).
  destruct M as [(j & s & _ & Es & H)|(j & s & _ & Es & (_ & H))]; pose proof (nth_error_In _ _ Es) as Hs.
  - destruct (Rle_dec (value_of S s (grid_point g k)) (level s)) as [Hle|Hgt].
    + left. apply (REACH s); auto. right. exists k. auto.
    + right; right. exists s. split; [auto|]. split; [auto|]. lra.
  - destruct (Rlt_dec (value_of S s (iterate horizon F (grid_point g k))) (level s - lv * tau (S (tr_params s)))) as [Hlt|Hge].
    + left. assert (LI : length (iterate horizon F (grid_point g k)) = dims g).
      { pose proof (pr_dim _ _ _ _ _ _ _ (HP s Hs)) as PD. clear - LP PD. induction horizon; cbn; auto. }
      destruct (REACH s _ Hs LI (or_introl Hlt)) as (m & n' & k' & Em & Ei & Hm).
      exists m, (n' + horizon)%nat, k'. split; [auto|]. split; [|auto].
      assert (IT : forall a b (y : list R), iterate (a + b) F y = iterate a F (iterate b F y)).
      { induction a as [|a IHa]; intros; cbn; auto. now rewrite IHa. }
      rewrite IT. exact Ei.
    + right; left. exists s. split; [auto|]. lra.
Qed.

(** ** The objective *)
Lemma sum_zero l : Forall (Rle 0) l -> 0 <= sum l /\ (sum l = 0 <-> Forall (eq 0) l).
Proof.
  induction 1 as [|a l Ha HF (IH1 & IH2)]; cbn; [split; [lra|split; auto]|]. fold (sum l).
  split; [lra|]. split.
  - intros E. constructor; [lra|]. apply IH2. lra.
  - intros E. inversion E; subst. rewrite (proj2 IH2) by auto. lra.
Qed.

(** The objective is non-negative.  It is zero exactly if all labelled states of the batch
    are in the level set and the closed loop does not increase their values, and no
    other state of the batch is strictly inside of the level set. *)
Theorem C96_objective V F safe_level lagrange eps states labels :
  states <> [] -> length labels = length states -> 0 < lagrange ->
  (forall x, In x states -> 0 < V x + eps) ->
  0 <= objective V F safe_level lagrange eps states labels /\
  (objective V F safe_level lagrange eps states labels = 0 <->
   forall i, (i < length states)%nat -> let x := nth i states [] in
     (nth i labels false = true -> V x <= safe_level /\ V (F x) <= V x) /\
     (nth i labels false = false -> safe_level <= V x)).
Proof.
  intros HN HL Hl He. unfold objective. pose proof (C58_class_weights labels true) as CW.
  destruct (balanced_class_weights labels true) as [w counts]. cbn [fst]. destruct CW as (LW & _ & PW & _).
  set (f := fun (x : list R) (lw : bool * R) => _).
  set (rows := map2 f states (map2 pair labels w)).
  assert (LP : length (map2 pair labels w) = length states) by (rewrite map2_length; lia).
  assert (LR : length rows = length states) by (unfold rows; rewrite map2_length; lia).
  assert (NR : forall i, (i < length states)%nat -> nth i rows 0 = f (nth i states []) (nth i labels false, nth i w 0)).
  { intros i Hi. unfold rows. rewrite nth_map2' with (da := []) (db := (false, 0)) by lia.
    rewrite nth_map2' with (da := false) (db := 0) by lia. reflexivity. }
  assert (CR : forall i, (i < length states)%nat -> let x := nth i states [] in
     0 <= nth i rows 0 /\
     (nth i rows 0 = 0 <-> (nth i labels false = true -> V x <= safe_level /\ V (F x) <= V x) /\
                           (nth i labels false = false -> safe_level <= V x))).
  { intros i Hi x. rewrite NR by auto. fold x. unfold f, classifier_loss, decrease_loss. cbn [fst snd].
    pose proof (PW i ltac:(lia)) as Pw. pose proof (He x (nth_In _ _ Hi)) as Hx.
    destruct (nth i labels false); cbn [to_float].
    - replace (- (2 * 1 - 1) * (safe_level - V x)) with (V x - safe_level) by ring.
      assert (D : 0 <= Rmax (V (F x) - V x) 0) by apply Rmax_r.
      assert (C : 0 <= Rmax (V x - safe_level) 0) by apply Rmax_r.
      assert (Dq : 0 <= 1 * Rmax (V (F x) - V x) 0 / (V x + eps)).
      { apply Rmult_le_pos; [lra|]. left. now apply Rinv_0_lt_compat. }
      assert (WC : 0 <= nth i w 0 * Rmax (V x - safe_level) 0) by (apply Rmult_le_pos; lra).
      assert (LD : 0 <= lagrange * (1 * Rmax (V (F x) - V x) 0 / (V x + eps))) by (apply Rmult_le_pos; lra).
      split; [lra|]. split.
      + intros E. split; [|discriminate]. intros _.
        assert (E1 : nth i w 0 * Rmax (V x - safe_level) 0 = 0) by lra.
        assert (E2 : lagrange * (1 * Rmax (V (F x) - V x) 0 / (V x + eps)) = 0) by lra.
        apply Rmult_integral in E1, E2. destruct E1 as [E1|E1]; [lra|]. destruct E2 as [E2|E2]; [lra|].
        apply Rmult_integral in E2. destruct E2 as [E2|E2].
        * pose proof (Rmax_l (V x - safe_level) 0). pose proof (Rmax_l (V (F x) - V x) 0). lra.
        * apply Rinv_0_lt_compat in Hx. lra.
      + intros (H & _). destruct (H eq_refl) as (H1 & H2). rewrite !Rmax_right by lra. field. lra.
    - replace (- (2 * 0 - 1) * (safe_level - V x)) with (safe_level - V x) by ring.
      replace (lagrange * (0 * Rmax (V (F x) - V x) 0 / (V x + eps))) with 0 by (field; lra).
      assert (C : 0 <= Rmax (safe_level - V x) 0) by apply Rmax_r.
      assert (WC : 0 <= nth i w 0 * Rmax (safe_level - V x) 0) by (apply Rmult_le_pos; lra).
      split; [lra|]. split.
      + intros E. split; [discriminate|]. intros _.
        assert (E1 : nth i w 0 * Rmax (safe_level - V x) 0 = 0) by lra.
        apply Rmult_integral in E1. destruct E1 as [E1|E1]; [lra|].
        pose proof (Rmax_l (safe_level - V x) 0). lra.
      + intros (_ & H). specialize (H eq_refl). rewrite Rmax_right by lra. lra. }
  assert (FR : Forall (Rle 0) rows).
  { apply Forall_forall. intros r Hr. apply (In_nth _ _ 0) in Hr as (i & Hi & <-). apply CR. lia. }
  destruct (sum_zero rows FR) as (S1 & S2).
  assert (PL : 0 < / INR (length rows)).
  { apply Rinv_0_lt_compat, lt_0_INR. rewrite LR. destruct states; [congruence|cbn; lia]. }
  unfold Rdiv. split; [apply Rmult_le_pos; lra|]. split.
  - intros E i Hi. apply Rmult_integral in E. destruct E as [E|E]; [|lra].
    apply S2 in E. rewrite Forall_forall in E.
    assert (Z : nth i rows 0 = 0) by (symmetry; apply E, nth_In; lia).
    now apply (CR i Hi).
  - intros H. replace (sum rows) with 0; [ring|]. symmetry. apply S2, Forall_forall.
    intros r Hr. apply (In_nth _ _ 0) in Hr as (i & Hi & <-). symmetry. apply CR; [lia|]. apply H. lia.
Qed.

(** An objective of zero does not mean that the labelled states can be verified, not
    even with tau = 0: their values need not decrease. *)
Theorem C96_zero_objective_refuted : exists V F states labels,
  states <> [] /\ length labels = length states /\
  objective V F 1 1000 (1 / 10 ^ 8) states labels = 0 /\
  exists i, (i < length states)%nat /\ nth i labels false = true /\
    ~ V (F (nth i states [])) - V (nth i states []) < 0.
Proof.
  exists absV, (fun x => x), [[1 / 2]; [2]], [true; false].
  split; [discriminate|]. split; [reflexivity|]. split.
  - apply C96_objective; try reflexivity; try discriminate; try lra.
    + intros x [<-|[<-|[]]]; unfold absV; cbn [nth]; rewrite Rabs_pos_eq by lra; lra.
    + intros [|[|i]] Hi; cbn [length] in Hi; [| |lia]; cbn [nth]; split; intros H; try discriminate;
        unfold absV; cbn [nth]; rewrite Rabs_pos_eq by lra; lra.
  - exists 0%nat. split; [cbn; lia|]. split; [reflexivity|]. cbn [nth]. lra.
Qed.

(** ** Runs *)
Lemma refresh_total {W} g S0 ini (w0 w : W) bs order o L' : fresh g S0 ini w0 o ->
  update_safe_set (update_values (ob_lyap o) (map (lyapunov_function (S0 w)) (all_points g)))
    (certificate (S0 w) 1 (grid_point g)) true 1 bs order = Ok L' ->
  exists o', refresh g w bs order o = Ok o' /\ ob_lyap o' = L'.
Proof.
  intros (E1 & E2 & E3 & E4 & E5 & E6 & E7 & E8) EU. unfold refresh, ob_update_values. rewrite E5.
  rewrite E2. set (L := update_values (ob_lyap o) _) in *.
  assert (SZ : sized g L).
  { destruct E6 as ([C1 C2 C3] & HS). split; [constructor|]; unfold size, L in *; cbn; rewrite ?map_length; try congruence.
    intros m Hm. rewrite <- HS. auto. }
  unfold ob_update_safe_set. cbn [ob_lyap with_lyap ob_update ob_setup ob_stuck ob_values ob_sample].
  set (gr := match ob_update o with None => _ | Some gr => gr end).
  assert (G : ug_setup gr = S0 /\ ug_factor gr = 1 /\ ug_adaptive gr = false).
  { unfold gr. destruct (ob_update o) as [g0|]; [now apply E3|]. cbn. repeat split; auto. }
  destruct G as (G1 & G2 & G3). change (l_adaptive L) with (l_adaptive (ob_lyap o)). rewrite G3, E4, E5. cbn [Bool.eqb andb].
  rewrite G1, G2. rewrite effect_consistent by apply SZ. rewrite EU. cbn. eexists. split; reflexivity.
Qed.

(** Five states, V between |x| and |x| / 4, a closed loop that stays at 3/5. *)
Definition g5 : grid := Grid [(-2, 2)] [5%Z].
Definition V5 (x : list R) : R := let a := Rabs (nth 0 x 0) in if Rle_dec a 1 then a else 1 + (a - 1) / 4.
Definition F5 (x : list R) : list R :=
  let a := nth 0 x 0 in
  [if Rle_dec a (-3 / 2) then 4 * (a + 3 / 2) else if Rle_dec a 0 then 0 else Rmin a (3 / 5)].
Definition S5 (_ : unit) : setup :=
  {| lyapunov_function := V5; policy := fun _ => []; dynamics := fun x _ => Exact (F5 x);
     lip_v := LvConst 1; lip_f := LfConst 4; tau := 0 |}.
Definition mask5 : list bool := [false; false; true; false; false].
Definition order5 : list nat := [2; 1; 3; 0; 4]%nat.
Definition vals5 : list R := map V5 (all_points g5).

Lemma g5_valid : valid_grid g5.
Proof. unfold valid_grid, g5; simpl. repeat constructor; simpl; try lra; lia. Qed.
Lemma points5 : length (all_points g5) = 5%nat.
Proof. pose proof (all_points_length g5 g5_valid) as AL. change (nindex g5) with 5%Z in AL. lia. Qed.
Lemma point5 k : (k < 5)%nat -> grid_point g5 k = [-2 + INR k].
Proof.
  intros H. do 5 (destruct k as [|k]; [unfold grid_point, index_to_state; simpl;
    rewrite Z.div_1_r; f_equal; lra|]). lia.
Qed.
Lemma vals5_nth k : (k < 5)%nat -> nth k vals5 0 = nth k [5 / 4; 1; 0; 1; 5 / 4] 0.
Proof.
  intros H. unfold vals5. rewrite nth_map' with (d' := []) by (rewrite points5; lia).
  destruct (grid_point_vertex g5 k g5_valid) as (_ & <-).
  { change (nindex g5) with 5%Z. lia. }
  rewrite point5 by auto. unfold V5. cbn [nth].
  do 5 (destruct k as [|k]; [cbn [INR nth]; unfold Rabs; destruct Rcase_abs; destruct Rle_dec; lra|]). lia.
Qed.
Lemma order5_sorts : sorts vals5 order5.
Proof.
  assert (L : length vals5 = 5%nat) by (unfold vals5; rewrite map_length; apply points5).
  split.
  - rewrite L. apply NoDup_Permutation.
    + repeat constructor; simpl; intuition lia.
    + apply seq_NoDup.
    + intros x. rewrite in_seq. unfold order5; simpl. lia.
  - rewrite L. intros p q H1 H2.
    assert (A : forall k, (k < 5)%nat -> (nth k order5 0 < 5)%nat).
    { intros k Hk. do 5 (destruct k as [|k]; [simpl; lia|]). lia. }
    rewrite !vals5_nth by (apply A; lia).
    destruct p as [|[|[|[|p]]]]; destruct q as [|[|[|[|[|q]]]]]; try lia; cbn; lra.
Qed.
Lemma neg5 k : (k < 5)%nat -> neg (certificate (S5 tt) 1 (grid_point g5)) k = nth k [false; true; false; true; true] false.
Proof.
  intros H. cbn [neg certificate]. rewrite point5 by auto.
  unfold decrease, v_decrease_bound, threshold, lv_scalar, lf_scalar; cbn.
  unfold V5, F5; cbn [nth].
  do 5 (destruct k as [|k]; [cbn [INR nth];
     first [apply Rltb_true | apply Rltb_false]; unfold Rmin;
     unfold Rabs; repeat destruct Rcase_abs; repeat destruct Rle_dec; lra|]). lia.
Qed.
Definition L5 (s : list bool) (r : list Z) (c : R) : lyap :=
  {| l_init := Some mask5; l_adaptive := false; l_vals := vals5; l_safe := s; l_ref := r; l_cmax := c |}.
Lemma update5 s r c : length s = 5%nat -> length r = 5%nat ->
  update_safe_set (L5 s r c) (certificate (S5 tt) 1 (grid_point g5)) true 1 10 order5 =
  Ok (L5 [false; true; true; true; false] [0; 1; 1; 1; 0]%Z (nth 3 vals5 0)).
Proof.
  intros Hs Hr.
  rewrite (update_ext _ _ {| neg := fun k => nth k [false; true; false; true; true] false;
     nreq := fun _ => 0%Z; passes := fun _ _ _ => false |}).
  - rewrite update_safe_set_eq. unfold L5. simpl l_vals.
    assert (L : length vals5 = 5%nat) by (unfold vals5; rewrite map_length; apply points5).
    remember vals5 as v eqn:Ev.
    destruct v as [|v0 [|v1 [|v2 [|v3 [|v4 [|]]]]]]; try discriminate L.
    destruct s as [|s0 [|s1 [|s2 [|s3 [|s4 [|]]]]]]; try discriminate Hs.
    destruct r as [|r0 [|r1 [|r2 [|r3 [|r4 [|]]]]]]; try discriminate Hr.
    reflexivity.
  - intros x Hx. rewrite neg5; [reflexivity|]. unfold order5 in Hx; simpl in Hx. lia.
  - reflexivity.
Qed.

Lemma training5 : exists t0 t1, training g5 F5 S5 (Some mask5) (13 / 10) 100 [t0; t1] /\
  level t0 = 1 /\ (forall s, In s [t0; t1] -> l_safe (ob_lyap (tr_object s)) = [false; true; true; true; false]).
Proof.
  set (o0 := {| ob_setup := S5; ob_lyap := L5 mask5 [0; 0; 1; 0; 0]%Z 0; ob_values := fun w => lyapunov_function (S5 w);
                ob_update := None; ob_sample := None; ob_stuck := false |} : object unit).
  assert (E0 : new_object g5 tt S5 (Some mask5) false = Ok o0).
  { unfold new_object, lyap_init. rewrite map_length, points5. reflexivity. }
  pose proof (fresh_new g5 S5 (Some mask5) tt o0 E0) as F0.
  destruct (refresh_total g5 S5 (Some mask5) tt tt 10 order5 o0 _ F0 (update5 mask5 [0; 0; 1; 0; 0]%Z 0 eq_refl eq_refl)) as (o1 & E1 & L1).
  destruct (refresh_ok g5 S5 (Some mask5) tt tt 10 order5 o0 o1 F0 E1) as (F1 & _).
  assert (EU : update_values (ob_lyap o1) (map (lyapunov_function (S5 tt)) (all_points g5)) =
               L5 [false; true; true; true; false] [0; 1; 1; 1; 0]%Z (nth 3 vals5 0)) by (rewrite L1; reflexivity).
  pose proof (update5 [false; true; true; true; false] [0; 1; 1; 1; 0]%Z (nth 3 vals5 0) eq_refl eq_refl) as U2.
  rewrite <- EU in U2 at 1.
  destruct (refresh_total g5 S5 (Some mask5) tt tt 10 order5 o1 _ F1 U2) as (o2 & E2 & L2).
  set (t0 := {| tr_params := tt; tr_object := o1; tr_estimate := l_safe (ob_lyap o1) |}).
  assert (I : initialize g5 S5 (Some mask5) tt [(tt, 10%nat, order5)] = Ok t0).
  { unfold initialize. rewrite E0. cbn [bind prepare]. rewrite E1. reflexivity. }
  destruct (train_round g5 F5 (13 / 10) 100 (tt, 10%nat, order5) t0) as [t1|] eqn:ER.
  - exists t0, t1. split; [|split].
    + exists tt, [(tt, 10%nat, order5)], [(tt, 10%nat, order5)], t0. split; [discriminate|].
      assert (SC : Forall (sorted_call g5 S5) [(tt, 10%nat, order5)]).
      { constructor; [|constructor]. exact order5_sorts. }
      split; [exact SC|]. split; [exact SC|]. split; [exact I|]. cbn [train]. rewrite ER. reflexivity.
    + unfold level, t0. cbn [tr_object]. rewrite L1. cbn [l_cmax L5]. rewrite vals5_nth by lia. reflexivity.
    + unfold train_round in ER. cbn [tr_object t0] in ER. rewrite E2 in ER.
      destruct targets as [[? ?] ?]. cbn [bind] in ER. injection ER as <-.
      intros s [<-|[<-|[]]]; cbn [tr_object t0]; [rewrite L1|rewrite L2]; reflexivity.
  - unfold train_round in ER. cbn [tr_object t0] in ER. rewrite E2 in ER.
    destruct targets as [[? ?] ?]. discriminate ER.
Qed.

Lemma stays5 x n : 3 / 5 <= nth 0 x 0 -> nth 0 (iterate n F5 x) 0 >= 3 / 5 /\ iterate (S n) F5 x = [3 / 5].
Proof.
  intros H. assert (ST : forall y, 3 / 5 <= nth 0 y 0 -> F5 y = [3 / 5]).
  { intros y Hy. unfold F5. destruct Rle_dec; [lra|]. destruct Rle_dec; [lra|]. now rewrite Rmin_right. }
  assert (A : 3 / 5 <= nth 0 (iterate n F5 x) 0).
  { induction n as [|n IH]; [exact H|]. cbn [iterate]. rewrite ST by exact IH. cbn. lra. }
  split; [lra|]. cbn [iterate]. now apply ST.
Qed.
Lemma never5 k : (3 <= k < 5)%nat -> ~ reaches_initial g5 F5 (Some mask5) (grid_point g5 k).
Proof.
  intros Hk (m & n & i & Em & Ei & Hi). injection Em as <-.
  assert (Hi2 : i = 2%nat).
  { destruct (Nat.lt_ge_cases i 5); [|rewrite nth_overflow in Hi by (simpl; lia); discriminate].
    do 5 (destruct i as [|i]; [simpl in Hi; try discriminate; lia|]). lia. }
  subst i. rewrite point5 in Ei by lia.
  assert (HR : 3 <= INR k). { replace 3 with (INR 3) by (cbn; lra). apply le_INR. lia. }
  destruct (stays5 [-2 + INR k] n) as (A & _); [cbn [nth]; lra|].
  set (y := iterate n F5 [-2 + INR k]) in *.
  assert (Ly : length y = dims g5). { unfold y. destruct n; reflexivity. }
  destruct (nearest g5 g5_valid y Ly) as (i & p & Hi' & Hr & Hp & Hv & Hn & Hc).
  rewrite Ei in Hi'. injection Hi' as <-.
  assert (Ep : p = [0]).
  { pose proof (point5 2 ltac:(lia)) as P2. unfold grid_point in P2. change (Z.of_nat 2) with 2%Z in P2. rewrite Hp in P2. rewrite P2. cbn. f_equal. lra. }
  subst p.
  (* the grid state 1 is nearer *)
  destruct (Rle_dec (nth 0 y 0) 2) as [Hy|Hy].
  - assert (INy : inside g5 y).
    { intros j Hj. change (dims g5) with 1%nat in Hj. assert (j = 0%nat) by lia. subst j.
      unfold lower, upper, coordinate; cbn. lra. }
    specialize (Hc 0%nat ltac:(cbn; lia) (INy 0%nat ltac:(cbn; lia))). revert Hc.
    unfold spacing, coordinate, lower, upper; cbn. unfold Rabs. destruct Rcase_abs; lra.
  - destruct n as [|n]; [|unfold y in Hy; destruct (stays5 [-2 + INR k] n) as (_ & B); [cbn [nth]; lra|]; rewrite B in Hy; cbn in Hy; lra].
    unfold y in Hy. cbn in Hy. assert (INR k <= 4). { replace 4 with (INR 4) by (cbn; lra). apply le_INR. lia. } lra.
Qed.

(** With tau = 0, as in the example, neither the safe sets nor the labels are right, even
    if all constants are: a run in which the trajectories from a safe grid state and from
    a labelled state stay away from the initial set for ever. *)
Theorem C96_zero_tau_refuted : exists g F S ini ts t t' k k',
  valid_grid g /\ @training unit g F S ini (13 / 10) 100 ts /\ In t ts /\ In t' ts /\
  (Z.of_nat k < nindex g)%Z /\ (Z.of_nat k' < nindex g)%Z /\
  (forall w, lip_v (S w) = LvConst 1 /\ lip_f (S w) = LfConst 4 /\ tau (S w) = 0 /\
     (forall x, dynamics (S w) x (policy (S w) x) = Exact (F x)) /\
     (forall x y, length x = 1%nat -> length y = 1%nat ->
        Rabs (lyapunov_function (S w) x - lyapunov_function (S w) y) <= 1 * dist1 x y /\
        dist1 (F x) (F y) <= 4 * dist1 x y)) /\
  in_safe_set t k /\ ~ reaches_initial g F ini (grid_point g k) /\
  marked t' k' /\ (forall s, In s ts -> ~ in_safe_set s k') /\ ~ reaches_initial g F ini (grid_point g k').
Proof.
  destruct training5 as (t0 & t1 & HT & HL & HS).
  exists g5, F5, S5, (Some mask5), [t0; t1], t0, t1, 3%nat, 4%nat.
  split; [exact g5_valid|]. split; [exact HT|]. split; [now left|]. split; [right; now left|].
  change (nindex g5) with 5%Z. split; [lia|]. split; [lia|]. split; [|split; [unfold in_safe_set, safe; rewrite HS by (now left); reflexivity|split; [apply never5; lia|split; [|split; [|apply never5; lia]]]]].
  - intros w. cbn. repeat split; intros; auto.
    + rewrite (one_dim x), (one_dim y) by auto. unfold dist1, V5; cbn.
      unfold Rabs; repeat destruct Rcase_abs; repeat destruct Rle_dec; lra.
    + rewrite (one_dim x), (one_dim y) by auto. unfold dist1, F5; cbn. unfold Rmin.
      unfold Rabs; repeat destruct Rcase_abs; repeat destruct Rle_dec; lra.
  - apply (C96_marks g5 F5 S5 (Some mask5) (13 / 10) 100 [t0; t1] g5_valid HT 1%nat t1 4%nat eq_refl); [cbn; lia|].
    right. exists 0%nat, t0. split; [lia|]. split; [reflexivity|].
    unfold labels_gap. rewrite HL. unfold value_of. cbn [lyapunov_function S5].
    rewrite point5 by lia. change 100%nat with (S 99). destruct (stays5 [-2 + INR 4] 99) as (_ & ->); [cbn; lra|].
    unfold V5. cbn [nth INR]. unfold Rabs; repeat destruct Rcase_abs; repeat destruct Rle_dec; lra.
  - intros s Hs. unfold in_safe_set, safe. rewrite HS by exact Hs. discriminate.
Qed.

(** A run that meets the hypotheses of [C96_labelled_states_reach_initial_set], with a
    labelled state outside of the initial set. *)
Example C96_ex : exists t, training g9 F9 (fun _ : unit => S9) (Some mask9) (13 / 10) 100 [t] /\
  premises g9 S9 F9 1 (24 / 5) (ob_lyap (tr_object t)) (ob_lyap (tr_object t)) /\
  (forall k, (k < 9)%nat ->
     (forall k', (k' < 9)%nat -> value_of (fun _ => S9) t (grid_point g9 k) <= value_of (fun _ => S9) t (grid_point g9 k')) ->
     nth k mask9 false = true) /\
  marked t 7 /\ nth 7 mask9 false = false /\ reaches_initial g9 F9 (Some mask9) (grid_point g9 7).
Proof.
  set (o0 := {| ob_setup := fun _ => S9; ob_lyap := L9; ob_values := fun _ => lyapunov_function S9;
                ob_update := None; ob_sample := None; ob_stuck := false |} : object unit).
  assert (P9 : length (all_points g9) = 9%nat).
  { pose proof (all_points_length g9 g9_valid) as AL. change (nindex g9) with 9%Z in AL. lia. }
  assert (E0 : new_object g9 tt (fun _ => S9) (Some mask9) false = Ok o0).
  { unfold new_object, lyap_init. rewrite map_length, P9. reflexivity. }
  pose proof (fresh_new g9 (fun _ => S9) (Some mask9) tt o0 E0) as F0.
  destruct (refresh_total g9 (fun _ => S9) (Some mask9) tt tt 4 order9 o0 _ F0 update9) as (o1 & E1 & L1).
  set (t := {| tr_params := tt; tr_object := o1; tr_estimate := l_safe (ob_lyap o1) |}).
  assert (HT : training g9 F9 (fun _ : unit => S9) (Some mask9) (13 / 10) 100 [t]).
  { exists tt, [(tt, 4%nat, order9)], [], t. split; [discriminate|]. split.
    { constructor; [|constructor]. exact order9_sorts. }
    split; [constructor|]. split; [|reflexivity]. unfold initialize. rewrite E0. cbn [bind prepare]. rewrite E1. reflexivity. }
  assert (PR : premises g9 S9 F9 1 (24 / 5) (ob_lyap (tr_object t)) (ob_lyap (tr_object t))).
  { cbn [tr_object t]. rewrite L1. destruct premises9 as [P1 P2 P3 P4 P5 P6 P7 P8 P9' P10 P11 P12]. constructor; auto. }
  assert (SM : forall k, (k < 9)%nat ->
     (forall k', (k' < 9)%nat -> value_of (fun _ => S9) t (grid_point g9 k) <= value_of (fun _ => S9) t (grid_point g9 k')) ->
     nth k mask9 false = true).
  { intros k Hk H. specialize (H 4%nat ltac:(lia)). unfold value_of in H. cbn [lyapunov_function S9] in H.
    rewrite !point9 in H by lia. unfold absV in H. cbn [nth] in H.
    replace (-4 + INR 4) with 0 in H by (cbn; lra). rewrite Rabs_R0 in H.
    do 9 (destruct k as [|k]; [try reflexivity; exfalso; revert H; cbn [INR]; unfold Rabs; destruct Rcase_abs; lra|]). lia. }
  assert (MK : marked t 7) by (unfold marked; cbn [tr_estimate t]; rewrite L1; reflexivity).
  exists t. split; [exact HT|]. split; [exact PR|]. split; [exact SM|]. split; [exact MK|]. split; [reflexivity|].
  destruct (C96_labelled_states_reach_initial_set g9 F9 (fun _ => S9) (Some mask9) (13 / 10) 100 [t] 1 (24 / 5)
    g9_valid HT) with (n := 0%nat) (t := t) (k := 7%nat) as [H|[(s & [<-|[]] & H)|(s & [<-|[]] & _ & H)]]; auto.
  - intros s [<-|[]]. exact PR.
  - intros s k [<-|[]] Hk H. right. exists mask9. split; [reflexivity|]. change (nindex g9) with 9%Z in Hk.
    apply SM; [lia|]. intros k' Hk'. apply H. change (nindex g9) with 9%Z. lia.
  - change (nindex g9) with 9%Z. lia.
  - exfalso. unfold level, value_of in H. cbn [tr_object t] in H. rewrite L1, cmax9 in H. cbn [lyapunov_function tau S9] in H.
    rewrite point9 in H by lia.
    assert (F0' : forall y, nth 0 y 0 = 0 -> F9 y = [0]) by (intros y Hy; unfold F9; rewrite Hy; destruct Rle_dec; [reflexivity|lra]).
    assert (I0 : forall n, iterate (S n) F9 [-4 + INR 7] = [0]).
    { induction n as [|n IH]; [cbn; unfold F9; cbn [nth]; destruct Rle_dec; [reflexivity|cbn in *; lra]|].
      change (F9 (iterate (S n) F9 [-4 + INR 7]) = [0]). rewrite IH. now apply F0'. }
    rewrite (I0 99%nat) in H.
    unfold absV in H. cbn [nth] in H. rewrite Rabs_R0 in H. lra.
  - exfalso. unfold level, value_of in H. cbn [tr_object t] in H. rewrite L1, cmax9 in H. cbn [lyapunov_function S9] in H.
    rewrite point9 in H by lia. unfold absV in H. cbn [nth INR] in H. revert H. unfold Rabs. destruct Rcase_abs; lra.
Qed.
