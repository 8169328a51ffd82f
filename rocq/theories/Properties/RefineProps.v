(** C80: what a finer grid does to the safe set. *)
From Coq Require Import Reals List Bool Arith ZArith Lia Lra Permutation.
From Verif Require Import Prelude GridModel GridSpec GridProofs SafeModel SafeSpec SafeProofs SafeProofs2
  CertModel CertSpec CertProofs RefineSpec.
From Verif.Properties Require Import SafeProps CertProps.
Import ListNotations.
Local Open Scope R_scope.

Lemma sum_scale c l : sum (map (fun x => c * x) l) = c * sum l.
Proof. induction l; simpl; [lra|]. rewrite IHl. lra. Qed.

Lemma visited_succ g S F lv lf e L z : system g S F lv lf e L ->
  length z = dims g -> inside g z -> visited g S F (F z).
Proof.
  intros H A B. left. apply reached_succ; auto. apply (sy_dim _ _ _ _ _ _ _ H); auto.
Qed.

(** The bound that is tested exceeds the true change by at most [2 lv e]. *)
Lemma decrease_le g S F lv lf e L x : valid_grid g -> system g S F lv lf e L -> is_vertex g x ->
  decrease S x <= lyapunov_function S (F x) - lyapunov_function S x + 2 * lv * e.
Proof.
  intros VG H Hx. pose proof (sy_model _ _ _ _ _ _ _ H x Hx) as A.
  pose proof (sy_lv_pos _ _ _ _ _ _ _ H) as P1. pose proof (sy_e _ _ _ _ _ _ _ H) as P2.
  assert (P3 : 0 <= lv * e) by (apply Rmult_le_pos; auto).
  unfold accurate in A. unfold decrease, v_decrease_bound, v_decrease_confidence.
  destruct (dynamics S x (policy S x)) as [y|mean err] eqn:ED.
  - subst y. lra.
  - destruct A as ((L1 & L2 & W) & E).
    unfold weighted_error. rewrite (sy_lv _ _ _ _ _ _ _ H), sum_scale.
    assert (LF : length (F x) = dims g) by (apply (sy_dim _ _ _ _ _ _ _ H); apply Hx).
    assert (Vm : visited g S F mean) by (right; split; [congruence | eauto]).
    pose proof (sy_V _ _ _ _ _ _ _ H mean (F x) Vm
      (visited_succ _ _ _ _ _ _ _ _ H (proj1 Hx) (vertex_inside _ _ VG Hx))) as HV.
    assert (D : dist1 mean (F x) <= sum err).
    { apply dist1_nth_le; try congruence. intros j Hj. rewrite Rabs_minus_sym.
      apply W. congruence. }
    assert (lv * dist1 mean (F x) <= lv * e) by (apply Rmult_le_compat_l; lra).
    assert (lv * sum err <= lv * e) by (apply Rmult_le_compat_l; lra).
    pose proof (Rle_abs (lyapunov_function S mean - lyapunov_function S (F x))). lra.
Qed.

Lemma size_grid g S F lv lf e L k : valid_grid g -> system g S F lv lf e L ->
  (k < size L)%nat -> (Z.of_nat k < nindex g)%Z.
Proof.
  intros V H Hk. unfold size in Hk. rewrite (sy_vals _ _ _ _ _ _ _ H), map_length in Hk.
  pose proof (all_points_length g V). lia.
Qed.

Lemma value_grid g S F lv lf e L k : valid_grid g -> system g S F lv lf e L ->
  (k < size L)%nat -> value L k = lyapunov_function S (grid_point g k).
Proof.
  intros V H Hk. pose proof (size_grid _ _ _ _ _ _ _ _ V H Hk) as Hi.
  destruct (grid_point_vertex g k V Hi) as (_ & ->).
  unfold value. rewrite (sy_vals _ _ _ _ _ _ _ H).
  rewrite nth_indep with (d' := lyapunov_function S []).
  - apply map_nth.
  - unfold size in Hk. now rewrite <- (sy_vals _ _ _ _ _ _ _ H).
Qed.

Lemma initial_state_index g S F lv lf e L k : valid_grid g -> consistent L ->
  system g S F lv lf e L -> (k < size L)%nat ->
  initial_state g L (grid_point g k) -> initially_safe L k.
Proof.
  intros V HL H Hk (k' & (mk & Em & Ek) & E).
  assert (Hk' : (k' < size L)%nat).
  { rewrite <- (cons_init _ HL _ Em). destruct (Nat.lt_ge_cases k' (length mk)); auto.
    rewrite nth_overflow in Ek by auto. discriminate. }
  assert (k' = k); [|subst; now exists mk].
  destruct (grid_point_vertex g k V (size_grid _ _ _ _ _ _ _ _ V H Hk)) as (_ & E1).
  destruct (grid_point_vertex g k' V (size_grid _ _ _ _ _ _ _ _ V H Hk')) as (_ & E2).
  rewrite E1, E2 in E. unfold size in *. rewrite (sy_vals _ _ _ _ _ _ _ H), map_length in *.
  apply (proj1 (NoDup_nth (all_points g) []) (all_points_NoDup g V)); auto.
Qed.

(** ** Strict decrease is certified *)

(** If the Lyapunov function decreases by at least [m] at all grid states up to the
    level [c] that are not in the initial set, and [m] exceeds the threshold and
    twice the weighted model error, then all states up to the level are safe. *)
Theorem C80_strict_decrease_is_certified :
  forall g S F lv lf e sf L L' mr bs order c m,
  valid_grid g -> consistent L -> system g S F lv lf e L ->
  l_adaptive L = false \/ (mr <= 1)%Z -> sorts (l_vals L) order ->
  update_safe_set L (certificate S sf (grid_point g)) true mr bs order = Ok L' ->
  lv * (1 + lf) * tau S + 2 * lv * e < m ->
  (forall x, is_vertex g x -> lyapunov_function S x <= c ->
     lyapunov_function S (F x) - lyapunov_function S x <= - m \/ initial_state g L x) ->
  forall k, (k < size L)%nat -> lyapunov_function S (grid_point g k) <= c -> safe L' k.
Proof.
  intros g S F lv lf e sf L L' mr bs order c m V HL HS Hact Hs EU Hm Hdec k Hk Hc.
  apply (C15_sublevel_set L _ mr bs order L' HL Hs Hact EU k Hk).
  intros y Hy Hle. rewrite !(value_grid g S F lv lf e L) in Hle by auto.
  pose proof (size_grid _ _ _ _ _ _ _ _ V HS Hy) as Hyi.
  destruct (grid_point_vertex g y V Hyi) as (Hv & _).
  destruct (Hdec _ Hv ltac:(lra)) as [D|I].
  - left. cbn [neg certificate]. apply Rltb_true. unfold threshold, lv_scalar, lf_scalar.
    rewrite (sy_lv _ _ _ _ _ _ _ HS), (sy_lf _ _ _ _ _ _ _ HS).
    pose proof (decrease_le _ _ _ _ _ _ _ _ V HS Hv). lra.
  - right. eapply initial_state_index; eauto.
Qed.
Print Assumptions C80_strict_decrease_is_certified.

(** ** The level *)

Lemma last_prefix (ok : nat -> bool) n : forall p0, (p0 < n)%nat ->
  (forall q, (q <= p0)%nat -> ok q = true) ->
  (exists q, (q < n)%nat /\ ok q = false) ->
  exists p, (p0 <= p)%nat /\ (Datatypes.S p < n)%nat /\ (forall q, (q <= p)%nat -> ok q = true) /\
    ok (Datatypes.S p) = false.
Proof.
  intros p0 H0 Hok (b & Hb & Eb).
  assert (Hlt : (p0 < b)%nat).
  { destruct (Nat.lt_ge_cases p0 b); auto. rewrite Hok in Eb by auto. discriminate. }
  remember (b - p0)%nat as d eqn:Ed. revert p0 H0 Hok Hlt Ed.
  induction d as [|d IHd]; intros p0 H0 Hok Hlt Ed; [lia|].
  destruct (ok (Datatypes.S p0)) eqn:E.
  - destruct (Nat.eq_dec (Datatypes.S p0) b) as [Eq|]; [congruence|].
    destruct (IHd (Datatypes.S p0)) as (p & A & B & C & D); try lia.
    + intros q Hq. destruct (Nat.eq_dec q (Datatypes.S p0)) as [->|]; auto. apply Hok; lia.
    + exists p. repeat split; auto. lia.
  - exists p0. repeat split; auto. lia.
Qed.

(** Unless every state is certified, the level is at least the value of every such
    state (if every state is certified it depends on the batch size, see C17). *)
Theorem C80_level_reaches :
  forall g S F lv lf e sf L L' mr bs order c m k b,
  valid_grid g -> consistent L -> system g S F lv lf e L ->
  l_adaptive L = false \/ (mr <= 1)%Z -> sorts (l_vals L) order ->
  update_safe_set L (certificate S sf (grid_point g)) true mr bs order = Ok L' ->
  lv * (1 + lf) * tau S + 2 * lv * e < m ->
  (forall x, is_vertex g x -> lyapunov_function S x <= c ->
     lyapunov_function S (F x) - lyapunov_function S x <= - m \/ initial_state g L x) ->
  (k < size L)%nat -> lyapunov_function S (grid_point g k) <= c ->
  (b < size L)%nat -> neg (certificate S sf (grid_point g)) b = false -> ~ initially_safe L b ->
  lyapunov_function S (grid_point g k) <= l_cmax L'.
Proof.
  intros g S F lv lf e sf L L' mr bs order c m k b V HL HS Hact Hs EU Hm Hdec Hk Hc Hb Nb Ib.
  pose proof (C80_strict_decrease_is_certified g S F lv lf e sf L L' mr bs order c m
    V HL HS Hact Hs EU Hm Hdec) as Hsafe.
  destruct (update_pos _ _ _ _ _ _ _ Hs EU) as (Hbs & Hn).
  pose proof (order_length L order Hs) as OL.
  destruct (order_onto L order Hs k Hk) as (p0 & Hp0 & E0).
  destruct (order_onto L order Hs b Hb) as (pb & Hpb & Eb).
  set (C := certificate S sf (grid_point g)) in *.
  assert (Hdecid : forall y, initially_safe L y \/ ~ initially_safe L y).
  { intros y. unfold initially_safe. destruct (l_init L) as [mk|] eqn:El.
    - destruct (nth y mk false) eqn:Ey.
      + left. eauto.
      + right. intros (mk' & E1 & E2). injection E1 as <-. congruence.
    - right. intros (mk' & E1 & _). discriminate. }
  set (ini := fun y => match l_init L with Some mk => nth y mk false | None => false end).
  assert (Hini : forall y, ini y = true <-> initially_safe L y).
  { intros y. unfold ini, initially_safe. destruct (l_init L) as [mk|]; split.
    - eauto. - intros (mk' & E1 & E2). now injection E1 as <-.
    - discriminate. - intros (mk' & E1 & _). discriminate. }
  destruct (last_prefix (fun q => neg C (nth q order 0%nat) || ini (nth q order 0%nat))
    (size L) p0 Hp0) as (p & Hp & Hsp & Hall & Hno).
  - intros q Hq. apply orb_true_iff. rewrite Hini.
    assert (Hq' : (nth q order 0 < size L)%nat) by (apply (order_lt L order Hs); lia).
    assert (Hle : value L (nth q order 0%nat) <= value L k).
    { destruct (Nat.eq_dec q p0) as [->|]; [rewrite E0; lra|].
      rewrite <- E0. apply (proj2 Hs); [lia|exact Hp0]. }
    rewrite !(value_grid g S F lv lf e L) in Hle by auto.
    specialize (Hsafe _ Hq' ltac:(lra)).
    destruct (Hdecid (nth q order 0%nat)) as [|Hni]; auto. left.
    apply (C15_sublevel_set L C mr bs order L' HL Hs Hact EU _ Hq'); auto.
  - exists pb. split; auto. rewrite Eb. apply orb_false_iff. split; auto.
    destruct (ini b) eqn:Ei; auto. apply Hini in Ei. tauto.
  - apply orb_false_iff in Hno as (N1 & N2).
    rewrite (C17_level_is_last_certified L C mr bs order L' p HL Hs Hact EU Hsp).
    + rewrite <- (value_grid g S F lv lf e L) by auto. rewrite <- E0.
      destruct (Nat.eq_dec p0 p) as [->|]; [lra|]. apply (proj2 Hs); [lia|]. unfold size in Hsp. lia.
    + intros q y Hq (_ & <-). specialize (Hall q Hq). apply orb_true_iff in Hall.
      rewrite Hini in Hall. auto.
    + intros y (_ & <-). split; auto. intros I. apply Hini in I. congruence.
Qed.
Print Assumptions C80_level_reaches.

(** ** Every fine enough grid *)

Lemma radius_bound (lims : list (R * R)) (t : R) :
  Forall (fun l => fst l < snd l) lims -> 0 < t ->
  exists N, (2 <= N)%Z /\ forall ns, length ns = length lims -> Forall (Z.le N) ns ->
    cell_radius (Grid lims ns) <= t.
Proof.
  intros H. revert t. induction H as [|l lims Hl H IH]; intros t Ht.
  - exists 2%Z. split; [lia|]. intros [|] Hn; [|discriminate]. intros _.
    unfold cell_radius; simpl. lra.
  - destruct (IH (t / 2) ltac:(lra)) as (N1 & HN1 & HR).
    set (w := snd l - fst l). assert (Hw : 0 < w) by (unfold w; lra).
    destruct (archimed (w / t)) as (A1 & _).
    set (N2 := (up (w / t) + 1)%Z).
    exists (Z.max N1 N2). split; [lia|]. intros [|n ns] Hn HF; [discriminate|].
    inversion HF as [|? ? Hn1 HF']; subst. injection Hn as Hn.
    unfold cell_radius. simpl. fold w.
    specialize (HR ns Hn). unfold cell_radius in HR. simpl in HR.
    assert (HR' : Forall (Z.le N1) ns).
    { eapply Forall_impl; [|exact HF']. simpl. intros. lia. }
    specialize (HR HR').
    assert (Hn1' : (1 <= n - 1)%Z) by lia.
    assert (Hn2 : w / t <= IZR (n - 1)).
    { apply Rle_trans with (IZR (up (w / t))); [lra|]. apply IZR_le. lia. }
    assert (Hpos : 0 < IZR (n - 1)) by (apply IZR_lt; lia).
    assert (w / IZR (n - 1) <= t).
    { apply Rmult_le_reg_r with (IZR (n - 1)); auto. unfold Rdiv.
      rewrite Rmult_assoc, Rinv_l, Rmult_1_r by lra.
      apply Rmult_le_reg_r with (/ t); [now apply Rinv_0_lt_compat|].
      replace (t * IZR (n - 1) * / t) with (IZR (n - 1)) by (field; lra).
      exact Hn2. }
    unfold unit_maxes in HR; simpl in HR. unfold Rdiv in *. lra.
Qed.

(** For a box, constants, a margin [m] and a model error with [2 lv e < m] there is
    a number of points such that on every grid over the box with at least that many
    points per axis, used with its own [tau], all states up to a level at which the
    Lyapunov function decreases by [m] are safe. *)
Theorem C80_fine_enough_grids : forall lims lv lf e m,
  Forall (fun l => fst l < snd l) lims ->
  0 <= lv -> 0 <= lf -> 2 * lv * e < m ->
  exists N, forall ns S F sf L L' mr bs order c,
    let g := Grid lims ns in
    length ns = length lims -> Forall (Z.le N) ns ->
    tau S = cell_radius g ->
    consistent L -> system g S F lv lf e L ->
    l_adaptive L = false \/ (mr <= 1)%Z -> sorts (l_vals L) order ->
    update_safe_set L (certificate S sf (grid_point g)) true mr bs order = Ok L' ->
    (forall x, is_vertex g x -> lyapunov_function S x <= c ->
       lyapunov_function S (F x) - lyapunov_function S x <= - m \/ initial_state g L x) ->
    forall k, (k < size L)%nat -> lyapunov_function S (grid_point g k) <= c -> safe L' k.
Proof.
  intros lims lv lf e m Hl Hlv Hlf Hm.
  set (q := lv * (1 + lf)). assert (Hq : 0 <= q) by (apply Rmult_le_pos; lra).
  destruct (radius_bound lims ((m - 2 * lv * e) / (2 * (q + 1))) Hl) as (N & HN & HR).
  { apply Rdiv_lt_0_compat; lra. }
  exists N. intros ns S F sf L L' mr bs order c g Hn HF Ht HL HS Hact Hs EU Hdec.
  assert (V : valid_grid g).
  { unfold valid_grid, g; simpl. clear - Hl Hn HF HN. revert ns Hn HF.
    induction Hl as [|l lims H1 H2 IH]; intros [|n ns] Hn HF; try discriminate; constructor.
    - inversion HF; subst. split; auto. lia.
    - apply IH; [now injection Hn|now inversion HF]. }
  apply (C80_strict_decrease_is_certified g S F lv lf e sf L L' mr bs order c m); auto.
  rewrite Ht. specialize (HR ns Hn HF). fold g in HR. fold q.
  assert (q * cell_radius g <= q * ((m - 2 * lv * e) / (2 * (q + 1)))) by now apply Rmult_le_compat_l.
  assert (q * ((m - 2 * lv * e) / (2 * (q + 1))) < m - 2 * lv * e); [|lra].
  replace (q * ((m - 2 * lv * e) / (2 * (q + 1)))) with ((m - 2 * lv * e) * (q / (2 * (q + 1))))
    by (field; lra).
  rewrite <- (Rmult_1_r (m - 2 * lv * e)) at 2. apply Rmult_lt_compat_l; [lra|].
  apply Rmult_lt_reg_r with (2 * (q + 1)); [lra|].
  replace (q / (2 * (q + 1)) * (2 * (q + 1))) with q by (field; lra). lra.
Qed.
Print Assumptions C80_fine_enough_grids.

(** ** A second grid over the same box *)


Lemma accurate_right g S F lv lf e L x : valid_grid g -> system g S F lv lf e L -> is_vertex g x ->
  lyapunov_function S (F x) - lyapunov_function S x <= decrease S x.
Proof.
  intros VG H Hx. apply model_right_decrease.
  pose proof (sy_model _ _ _ _ _ _ _ H x Hx) as A. unfold accurate in A.
  unfold model_right. destruct (dynamics S x (policy S x)) as [y|mean err] eqn:ED; auto.
  destruct A as (W & _). split; auto. destruct W as (L1 & L2 & W).
  unfold coordinate_constants. rewrite (sy_lv _ _ _ _ _ _ _ H), repeat_length.
  split; [auto|]. split.
  - apply Forall_forall. intros c Hc. apply repeat_spec in Hc. subst.
    apply (sy_lv_pos _ _ _ _ _ _ _ H).
  - assert (LF : length (F x) = dims g) by (apply (sy_dim _ _ _ _ _ _ _ H); apply Hx).
    assert (Vm : visited g S F mean) by (right; split; [congruence | eauto]).
    eapply Rle_trans; [apply (sy_V _ _ _ _ _ _ _ H); auto; apply (visited_succ _ _ _ _ _ _ _ _ H);
      [apply Hx | apply (vertex_inside _ _ VG Hx)]|].
    apply Req_le. unfold dist1, wdist.
    assert (E : length (map2 (fun a b => Rabs (a - b)) (F x) mean) = length mean).
    { rewrite map2_length. lia. }
    rewrite <- (map_repeat_mult lv _ _ E). now rewrite sum_scale.
Qed.

(** A coarse grid whose [tau] leaves room for the [tau] of another grid over the
    same box (the condition on the [tau]s; with an exact model, that [tau S1] is at
    least the cell radius of the first grid plus [tau S2]): the second grid
    certifies all states well below the level of the first. *)
Theorem C80_grid_with_margin :
  forall g1 g2 S1 S2 F lv lf e1 e2 sf1 sf2 L1 L2 L1' L2' mr1 mr2 bs1 bs2 order1 order2 x0,
  limits g1 = limits g2 -> valid_grid g1 -> valid_grid g2 ->
  lyapunov_function S1 = lyapunov_function S2 ->
  consistent L1 -> system g1 S1 F lv lf e1 L1 ->
  consistent L2 -> system g2 S2 F lv lf e2 L2 ->
  l_adaptive L1 = false \/ (mr1 <= 1)%Z -> sorts (l_vals L1) order1 ->
  l_adaptive L2 = false \/ (mr2 <= 1)%Z -> sorts (l_vals L2) order2 ->
  update_safe_set L1 (certificate S1 sf1 (grid_point g1)) true mr1 bs1 order1 = Ok L1' ->
  update_safe_set L2 (certificate S2 sf2 (grid_point g2)) true mr2 bs2 order2 = Ok L2' ->
  at_position order1 0 x0 ->
  neg (certificate S1 sf1 (grid_point g1)) x0 = true \/ initially_safe L1 x0 ->
  (1 + lf) * (cell_radius g1 + tau S2) + 2 * e2 <= (1 + lf) * tau S1 ->
  (forall x k1, is_vertex g2 x -> initially_safe L1 k1 ->
     dist1 x (grid_point g1 k1) <= cell_radius g1 -> initial_state g2 L2 x) ->
  forall k, (k < size L2)%nat ->
    lyapunov_function S2 (grid_point g2 k) < l_cmax L1' - lv * cell_radius g1 ->
    safe L2' k.
Proof.
  intros g1 g2 S1 S2 F lv lf e1 e2 sf1 sf2 L1 L2 L1' L2' mr1 mr2 bs1 bs2 order1 order2 x0
    EL V1 V2 EV HL1 HS1 HL2 HS2 Ha1 Hs1 Ha2 Hs2 EU1 EU2 Hx0 Hx0' Ht Hini k Hk Hlev.
  apply (C15_sublevel_set L2 _ mr2 bs2 order2 L2' HL2 Hs2 Ha2 EU2 k Hk).
  intros y Hy Hle. rewrite !(value_grid g2 S2 F lv lf e2 L2) in Hle by auto.
  destruct (grid_point_vertex g2 y V2 (size_grid _ _ _ _ _ _ _ _ V2 HS2 Hy)) as (Hv & _).
  set (x := grid_point g2 y) in *.
  assert (ED : dims g1 = dims g2) by (unfold dims; now rewrite EL).
  assert (Hin : inside g1 x).
  { pose proof (vertex_inside g2 x V2 Hv) as HI. intros j Hj. rewrite ED in Hj.
    specialize (HI j Hj). unfold lower, upper in *. now rewrite EL. }
  assert (Lx : length x = dims g1) by (rewrite ED; apply Hv).
  destruct (nearest_cell g1 x V1 Lx Hin) as (k1 & _ & Hk1 & Hd). fold (cell_radius g1) in Hd.
  assert (Hk1s : (k1 < size L1)%nat).
  { unfold size. rewrite (sy_vals _ _ _ _ _ _ _ HS1), map_length.
    pose proof (all_points_length g1 V1). lia. }
  destruct (grid_point_vertex g1 k1 V1 Hk1) as (Hv1 & _).
  set (c := grid_point g1 k1) in *.
  assert (Lc : length c = dims g1) by apply Hv1.
  pose proof (sy_lv_pos _ _ _ _ _ _ _ HS1) as P1.
  pose proof (sy_lf_pos _ _ _ _ _ _ _ HS1) as P2.
  assert (Ic : inside g1 c) by (apply (vertex_inside _ _ V1 Hv1)).
  assert (Rx : visited g1 S1 F x) by (left; split; auto).
  assert (Rc : visited g1 S1 F c) by (left; split; auto).
  pose proof (sy_V _ _ _ _ _ _ _ HS1 x c Rx Rc) as B1.
  pose proof (dist1_nonneg x c) as P3.
  assert (B2 : lv * dist1 x c <= lv * cell_radius g1) by now apply Rmult_le_compat_l.
  assert (LFx := sy_dim _ _ _ _ _ _ _ HS1 x Lx). assert (LFc := sy_dim _ _ _ _ _ _ _ HS1 c Lc).
  pose proof (sy_V _ _ _ _ _ _ _ HS1 (F x) (F c)
    (visited_succ _ _ _ _ _ _ _ _ HS1 Lx Hin) (visited_succ _ _ _ _ _ _ _ _ HS1 Lc Ic)) as B3.
  pose proof (sy_F _ _ _ _ _ _ _ HS1 x c Lx Hin Lc Ic) as B4.
  assert (B5 : lv * dist1 (F x) (F c) <= lv * (lf * dist1 x c)) by now apply Rmult_le_compat_l.
  assert (B6 : lv * (lf * dist1 x c) <= lv * (lf * cell_radius g1)).
  { apply Rmult_le_compat_l; auto. now apply Rmult_le_compat_l. }
  rewrite EV in *.
  set (VV := lyapunov_function S2) in *.
  pose proof (Rle_abs (VV x - VV c)) as R1. pose proof (Rle_abs (VV (F x) - VV (F c))) as R2.
  pose proof (Rle_abs (VV c - VV x)) as R3. rewrite (Rabs_minus_sym (VV c)) in R3.
  assert (Hsafe : safe L1' k1).
  { apply (C17_below_level_is_safe L1 (certificate S1 sf1 (grid_point g1)) true mr1 bs1 order1 L1' x0
      HL1 Hs1 EU1 Hx0 Hx0'); auto.
    rewrite (value_grid g1 S1 F lv lf e1 L1) by auto. rewrite EV. fold VV c. lra. }
  assert (Hdecid : initially_safe L1 k1 \/ ~ initially_safe L1 k1).
  { unfold initially_safe. destruct (l_init L1) as [mk|] eqn:El.
    - destruct (nth k1 mk false) eqn:Ey.
      + left. eauto.
      + right. intros (mk' & E1 & E2). injection E1 as <-. congruence.
    - right. intros (mk' & E1 & _). discriminate. }
  destruct Hdecid as [I|NI].
  - right. apply (initial_state_index g2 S2 F lv lf e2 L2 y V2 HL2 HS2 Hy).
    now apply (Hini x k1 Hv I).
  - left. destruct (proj2 (C15_sublevel_set L1 _ mr1 bs1 order1 L1' HL1 Hs1 Ha1 EU1 k1 Hk1s)
      Hsafe NI) as (Hneg & _).
    cbn [neg certificate] in *. rewrite Rltb_true in *. fold c in Hneg. fold x.
    unfold threshold, lv_scalar, lf_scalar in *.
    rewrite (sy_lv _ _ _ _ _ _ _ HS1), (sy_lf _ _ _ _ _ _ _ HS1) in Hneg.
    rewrite (sy_lv _ _ _ _ _ _ _ HS2), (sy_lf _ _ _ _ _ _ _ HS2).
    pose proof (accurate_right _ _ _ _ _ _ _ _ V1 HS1 Hv1) as A1. rewrite EV in A1. fold VV in A1.
    pose proof (decrease_le _ _ _ _ _ _ _ _ V2 HS2 Hv) as A2. fold VV in A2.
    assert (T : lv * ((1 + lf) * (cell_radius g1 + tau S2) + 2 * e2) <= lv * ((1 + lf) * tau S1))
      by now apply Rmult_le_compat_l.
    fold c in A1, Hneg. lra.
Qed.
Print Assumptions C80_grid_with_margin.
(** ** A finer grid can certify less *)

(** On [-1, 1] with V = |x|, a closed loop that halves small states and maps all
    others to 1/5 or -1/5. *)
Definition halve (a : R) : R := Rmax (- (1 / 5)) (Rmin (1 / 5) (a / 2)).
Definition Fh (x : list R) : list R := [halve (nth 0 x 0)].
Definition gN (n : Z) : grid := Grid [(-1, 1)] [n].
Definition SN (n : Z) : setup :=
  {| lyapunov_function := absV; policy := fun _ => []; dynamics := fun x _ => Exact (Fh x);
     lip_v := LvConst 1; lip_f := LfConst (1 / 2); tau := cell_radius (gN n) |}.
Definition LN (n : Z) (m : list bool) (r : list Z) : lyap :=
  {| l_init := Some m; l_adaptive := false; l_vals := map absV (all_points (gN n));
     l_safe := m; l_ref := r; l_cmax := 0 |}.

Lemma halve_lip a b : Rabs (halve a - halve b) <= 1 / 2 * Rabs (a - b).
Proof.
  unfold halve, Rmax, Rmin, Rabs. repeat destruct Rle_dec; repeat destruct Rcase_abs; lra.
Qed.
Lemma halve_abs a : Rabs (halve a) <= Rabs a.
Proof.
  unfold halve, Rmax, Rmin, Rabs. repeat destruct Rle_dec; repeat destruct Rcase_abs; lra.
Qed.

Lemma absV_1 (x y : list R) : length x = 1%nat -> length y = 1%nat ->
  Rabs (absV x - absV y) <= 1 * dist1 x y.
Proof.
  intros Hx Hy. rewrite (one_dim x Hx), (one_dim y Hy). unfold absV, dist1; simpl.
  rewrite Rplus_0_r, Rmult_1_l. apply Rabs_triang_inv2.
Qed.

Lemma visited_length g S F x : visited g S F x -> length x = dims g.
Proof. intros [(H & _) | (H & _)]; exact H. Qed.

Lemma system_N n m r : system (gN n) (SN n) Fh 1 (1 / 2) 0 (LN n m r).
Proof.
  constructor; try reflexivity; try lra.
  - intros x y Hx Hy. apply visited_length in Hx, Hy. now apply absV_1.
  - intros x y Hx _ Hy _. rewrite (one_dim x Hx), (one_dim y Hy). unfold dist1, Fh; simpl.
    rewrite !Rplus_0_r. apply halve_lip.
Qed.

Lemma valid_N n : (2 <= n)%Z -> valid_grid (gN n).
Proof. intros H. unfold valid_grid, gN; simpl. repeat constructor; simpl; try lra; lia. Qed.

Lemma point3 k : (k < 3)%nat -> grid_point (gN 3) k = [-1 + INR k].
Proof.
  intros H. do 3 (destruct k as [|k]; [unfold grid_point, index_to_state; simpl;
    rewrite Z.div_1_r; f_equal; lra|]). lia.
Qed.
Lemma point5 k : (k < 5)%nat -> grid_point (gN 5) k = [-1 + INR k / 2].
Proof.
  intros H. do 5 (destruct k as [|k]; [unfold grid_point, index_to_state; simpl;
    rewrite Z.div_1_r; f_equal; lra|]). lia.
Qed.

Lemma size_N n m r : (2 <= n)%Z -> size (LN n m r) = Z.to_nat n.
Proof.
  intros H. unfold size. simpl. rewrite map_length.
  pose proof (all_points_length (gN n) (valid_N n H)) as A.
  unfold nindex in A; simpl in A. change (fold_right Z.mul 1%Z (num_points (gN n))) with (n * 1)%Z in A || idtac.
  lia.
Qed.

Definition L3 := LN 3 [false; true; false] [0; 1; 0]%Z.
Definition L5 := LN 5 [false; false; true; false; false] [0; 0; 1; 0; 0]%Z.
Definition o3 : list nat := [1; 0; 2]%nat.
Definition o5 : list nat := [2; 1; 3; 0; 4]%nat.

Lemma value3 k : (k < 3)%nat -> value L3 k = Rabs (-1 + INR k).
Proof.
  intros H. unfold L3. rewrite (value_grid (gN 3) (SN 3) Fh 1 (1 / 2) 0).
  - rewrite point3 by auto. reflexivity.
  - apply valid_N; lia.
  - apply system_N.
  - rewrite size_N by lia. exact H.
Qed.
Lemma value5 k : (k < 5)%nat -> value L5 k = Rabs (-1 + INR k / 2).
Proof.
  intros H. unfold L5. rewrite (value_grid (gN 5) (SN 5) Fh 1 (1 / 2) 0).
  - rewrite point5 by auto. reflexivity.
  - apply valid_N; lia.
  - apply system_N.
  - rewrite size_N by lia. exact H.
Qed.

Lemma sorts3 : sorts (l_vals L3) o3.
Proof.
  assert (E : length (l_vals L3) = 3%nat) by exact (size_N 3 [false; true; false] [0; 1; 0]%Z ltac:(lia)).
  split.
  - rewrite E. apply NoDup_Permutation; [repeat constructor; simpl; intuition lia|apply seq_NoDup|].
    intros x. rewrite in_seq. unfold o3; simpl. lia.
  - rewrite E. intros p q H1 H2.
    change (value L3 (nth p o3 0%nat) <= value L3 (nth q o3 0%nat)).
    assert (p = 0 /\ q = 1 \/ p = 0 /\ q = 2 \/ p = 1 /\ q = 2)%nat as [(-> & ->)|[(-> & ->)|(-> & ->)]]
      by lia; unfold o3, nth; rewrite !value3 by lia; simpl;
      unfold Rabs; repeat destruct Rcase_abs; lra.
Qed.
Lemma sorts5 : sorts (l_vals L5) o5.
Proof.
  assert (E : length (l_vals L5) = 5%nat) by exact (size_N 5 [false; false; true; false; false] [0; 0; 1; 0; 0]%Z ltac:(lia)).
  split.
  - rewrite E. apply NoDup_Permutation; [repeat constructor; simpl; intuition lia|apply seq_NoDup|].
    intros x. rewrite in_seq. unfold o5; simpl. lia.
  - rewrite E. intros p q H1 H2.
    change (value L5 (nth p o5 0%nat) <= value L5 (nth q o5 0%nat)).
    assert (A : forall k, (k < 4)%nat -> value L5 (nth k o5 0%nat) <= value L5 (nth (Datatypes.S k) o5 0%nat)).
    { intros k Hk. do 4 (destruct k as [|k]; [unfold o5, nth; rewrite !value5 by lia; simpl;
        unfold Rabs; repeat destruct Rcase_abs; lra|]). lia. }
    induction q as [|q IH]; [lia|].
    destruct (Nat.eq_dec p q) as [->|]; [apply A; lia|].
    apply Rle_trans with (value L5 (nth q o5 0%nat)); [apply IH; lia|]. apply A; lia.
Qed.

Lemma consistent3 : consistent L3.
Proof.
  constructor; unfold L3; rewrite ?(size_N 3) by lia; auto. intros m E. injection E as <-. reflexivity.
Qed.
Lemma consistent5 : consistent L5.
Proof.
  constructor; unfold L5; rewrite ?(size_N 5) by lia; auto. intros m E. injection E as <-. reflexivity.
Qed.

Lemma halve_half : halve (1 / 2) = 1 / 5.
Proof. unfold halve, Rmax, Rmin. repeat destruct Rle_dec; lra. Qed.
Lemma halve_one : halve 1 = 1 / 5.
Proof. unfold halve, Rmax, Rmin. repeat destruct Rle_dec; lra. Qed.
Lemma halve_mone : halve (-1) = - (1 / 5).
Proof. unfold halve, Rmax, Rmin. repeat destruct Rle_dec; lra. Qed.

(** The strict decrease of the three-point grid is certified. *)
Lemma decrease3 x : is_vertex (gN 3) x -> absV x <= 1 ->
  absV (Fh x) - absV x <= - (4 / 5) \/ initial_state (gN 3) L3 x.
Proof.
  intros (Hl & H) _. change (dims (gN 3)) with 1%nat in *.
  destruct (H 0%nat ltac:(lia)) as (k & Hk & E). change (npts (gN 3) 0) with 3%Z in Hk.
  rewrite (one_dim x Hl). unfold coordinate in E. rewrite E.
  unfold lower, spacing, upper, lower, npts, gN; simpl.
  assert (k = 0 \/ k = 1 \/ k = 2)%Z as [->|[->| ->]] by lia.
  - left. unfold absV, Fh; simpl. replace (-1 + 0 * ((1 - -1) / 2)) with (-1) by lra.
    rewrite halve_mone. unfold Rabs; repeat destruct Rcase_abs; lra.
  - right. exists 1%nat. split; [exists [false; true; false]; auto|].
    rewrite point3 by lia. f_equal. simpl. lra.
  - left. unfold absV, Fh; simpl. replace (-1 + 2 * ((1 - -1) / 2)) with 1 by lra.
    rewrite halve_one. unfold Rabs; repeat destruct Rcase_abs; lra.
Qed.

Lemma tau3 : tau (SN 3) = 1 / 2.
Proof. simpl. unfold cell_radius, unit_maxes; simpl. lra. Qed.
Lemma tau5 : tau (SN 5) = 1 / 4.
Proof. simpl. unfold cell_radius, unit_maxes; simpl. lra. Qed.

Example C80_strict_decrease_ex : forall L', update_safe_set L3
    (certificate (SN 3) 1 (grid_point (gN 3))) true 1 10 o3 = Ok L' ->
  safe L' 0 /\ safe L' 1 /\ safe L' 2.
Proof.
  intros L' EU.
  assert (H : forall k, (k < 3)%nat -> safe L' k).
  { intros k Hk. apply (C80_strict_decrease_is_certified (gN 3) (SN 3) Fh 1 (1 / 2) 0 1 L3 L' 1 10 o3 1 (4 / 5));
      auto using consistent3, sorts3, decrease3.
    - apply valid_N; lia.
    - apply system_N.
    - rewrite tau3. lra.
    - rewrite point3 by auto. simpl. unfold absV; simpl.
      do 3 (destruct k as [|k]; [simpl; unfold Rabs; destruct Rcase_abs; lra|]). lia. }
  repeat split; apply H; lia.
Qed.

(** The same system on the grid with the midpoints added, each grid with its own
    [tau]: a state that the coarse grid certifies is no longer safe. *)
Theorem C80_finer_grid_keeps_safe_refuted :
  ~ (forall g1 g2 S1 S2 F lv lf sf L1 L2 L1' L2' mr bs order1 order2,
     limits g1 = limits g2 -> valid_grid g1 -> valid_grid g2 ->
     (forall x, is_vertex g1 x -> is_vertex g2 x) ->
     lyapunov_function S1 = lyapunov_function S2 -> policy S1 = policy S2 ->
     dynamics S1 = dynamics S2 ->
     tau S1 = cell_radius g1 -> tau S2 = cell_radius g2 ->
     consistent L1 -> system g1 S1 F lv lf 0 L1 ->
     consistent L2 -> system g2 S2 F lv lf 0 L2 ->
     (forall x, initial_state g1 L1 x <-> initial_state g2 L2 x) ->
     l_adaptive L1 = false -> l_adaptive L2 = false ->
     sorts (l_vals L1) order1 -> sorts (l_vals L2) order2 ->
     update_safe_set L1 (certificate S1 sf (grid_point g1)) true mr bs order1 = Ok L1' ->
     update_safe_set L2 (certificate S2 sf (grid_point g2)) true mr bs order2 = Ok L2' ->
     forall k1 k2, (k1 < size L1)%nat -> (k2 < size L2)%nat ->
       grid_point g1 k1 = grid_point g2 k2 -> safe L1' k1 -> safe L2' k2).
Proof.
  intros H.
  destruct (C15_certified_prefix L3 (certificate (SN 3) 1 (grid_point (gN 3))) 1 10 o3
    consistent3 sorts3) as (L3' & E3 & _); try lia; try (unfold L3; rewrite size_N; lia); auto.
  destruct (C15_certified_prefix L5 (certificate (SN 5) 1 (grid_point (gN 5))) 1 10 o5
    consistent5 sorts5) as (L5' & E5 & _); try lia; try (unfold L5; rewrite size_N; lia); auto.
  assert (S5 : safe L5' 4).
  { refine (H (gN 3) (gN 5) (SN 3) (SN 5) Fh 1 (1 / 2) 1 L3 L5 L3' L5' 1%Z 10%nat o3 o5 eq_refl
      (valid_N 3 ltac:(lia)) (valid_N 5 ltac:(lia)) _ eq_refl eq_refl eq_refl eq_refl eq_refl
      consistent3 (system_N 3 _ _) consistent5 (system_N 5 _ _) _ eq_refl eq_refl
      sorts3 sorts5 E3 E5 2%nat 4%nat _ _ _ _).
    - intros x (Hl & Hx). split; auto. intros j Hj.
      destruct (Hx j Hj) as (k & Hk & E). change (dims (gN 5)) with 1%nat in Hj.
      assert (j = 0%nat) by lia. subst j. change (npts (gN 3) 0) with 3%Z in Hk.
      exists (2 * k)%Z. change (npts (gN 5) 0) with 5%Z. split; [lia|].
      rewrite E, mult_IZR. unfold lower, spacing, upper, lower, npts, gN; simpl. lra.
    - intros x. split; intros (k & (m & Em & Ek) & Ex); injection Em as <-.
      + assert (k = 1)%nat by (do 3 (destruct k as [|k]; [simpl in Ek; try discriminate; auto|]); destruct k; discriminate).
        subst k. exists 2%nat. split; [exists [false; false; true; false; false]; auto|].
        rewrite <- Ex, point3, point5 by lia. f_equal. simpl. lra.
      + assert (k = 2)%nat by (do 5 (destruct k as [|k]; [simpl in Ek; try discriminate; auto|]); destruct k; discriminate).
        subst k. exists 1%nat. split; [exists [false; true; false]; auto|].
        rewrite <- Ex, point3, point5 by lia. f_equal. simpl. lra.
    - unfold L3. rewrite size_N by lia. change (Z.to_nat 3) with 3%nat. lia.
    - unfold L5. rewrite size_N by lia. change (Z.to_nat 5) with 5%nat. lia.
    - rewrite point3, point5 by lia. f_equal. simpl. lra.
    - apply (C80_strict_decrease_ex L3' E3). }
  assert (Hsz : size L5 = 5%nat) by (unfold L5; rewrite size_N by lia; reflexivity).
  assert (NI4 : ~ initially_safe L5 4) by (intros (m & Em & Ek); injection Em as <-; discriminate).
  destruct (proj2 (C15_sublevel_set L5 _ 1 10 o5 L5' consistent5 sorts5 (or_introl eq_refl) E5 4
    ltac:(lia)) S5 NI4) as (_ & Hlow).
  destruct (Hlow 3%nat ltac:(lia)) as [N|(m & Em & Ek)].
  - rewrite !value5 by lia. simpl. unfold Rabs; repeat destruct Rcase_abs; lra.
  - cbn [neg certificate] in N. apply Rltb_true in N. rewrite point5, tau5 in N by lia.
    revert N. unfold decrease, v_decrease_bound, v_decrease_confidence, threshold, lv_scalar, lf_scalar.
    cbn [dynamics lyapunov_function lip_v lip_f SN]. unfold absV, Fh.
    cbn [nth]. replace (-1 + INR 3 / 2) with (1 / 2) by (simpl; lra).
    rewrite halve_half. unfold Rabs; repeat destruct Rcase_abs; lra.
  - injection Em as <-. discriminate.
Qed.
Print Assumptions C80_finer_grid_keeps_safe_refuted.

(** The state 1/2 is not certified on the finer grid; the level is at least that of
    the initial state. *)
Example C80_level_reaches_ex : forall L', update_safe_set L5
    (certificate (SN 5) 1 (grid_point (gN 5))) true 1 10 o5 = Ok L' -> 0 <= l_cmax L'.
Proof.
  intros L' EU.
  assert (Hsz : size L5 = 5%nat) by exact (size_N 5 [false; false; true; false; false] [0; 0; 1; 0; 0]%Z ltac:(lia)).
  pose proof (C80_level_reaches (gN 5) (SN 5) Fh 1 (1 / 2) 0 1 L5 L' 1 10 o5 0 (4 / 5) 2 3
    (valid_N 5 ltac:(lia)) consistent5 (system_N 5 _ _) (or_introl eq_refl) sorts5 EU) as H.
  assert (P : lyapunov_function (SN 5) (grid_point (gN 5) 2) = 0).
  { rewrite point5 by lia. simpl. unfold absV; simpl. unfold Rabs; destruct Rcase_abs; lra. }
  rewrite P in H. apply H; try lia; try lra.
  - rewrite tau5. lra.
  - intros x (Hl & Hx) H0. right. exists 2%nat.
    split; [exists [false; false; true; false; false]; auto|].
    rewrite point5 by lia. rewrite (one_dim x Hl). f_equal. simpl in H0. unfold absV in H0.
    revert H0. unfold Rabs; destruct Rcase_abs; simpl; lra.
  - cbn [neg certificate]. apply Rltb_false. rewrite point5, tau5 by lia.
    unfold decrease, v_decrease_bound, v_decrease_confidence, threshold, lv_scalar, lf_scalar.
    cbn [dynamics lyapunov_function lip_v lip_f SN]. unfold absV, Fh.
    cbn [nth]. replace (-1 + INR 3 / 2) with (1 / 2) by (simpl; lra).
    rewrite halve_half. unfold Rabs; repeat destruct Rcase_abs; lra.
  - intros (m & Em & Ek). injection Em as <-. discriminate.
Qed.

(** The grids -4, -3, ..., 4 and -4, -7/2, ..., 4, V = |x| and the closed loop 0.
    The first is used with [tau = 3/4], which leaves room for the 1/4 of the
    second; its level is 4. *)
Definition gM (n : Z) : grid := Grid [(-4, 4)] [n].
Definition SM (t : R) : setup :=
  {| lyapunov_function := absV; policy := fun _ => []; dynamics := fun _ _ => Exact [0];
     lip_v := LvConst 1; lip_f := LfConst 0; tau := t |}.
Definition LM (n : Z) (m : list bool) (r : list Z) : lyap :=
  {| l_init := Some m; l_adaptive := false; l_vals := map absV (all_points (gM n));
     l_safe := m; l_ref := r; l_cmax := 0 |}.
Definition mask_at (n : nat) (l : list nat) : list bool :=
  map (fun k => existsb (Nat.eqb k) l) (seq 0 n).
Definition LM9 := LM 9 (mask_at 9 [4%nat]) (repeat 0%Z 9).
Definition LM17 := LM 17 (mask_at 17 [7; 8; 9]%nat) (repeat 0%Z 17).

Lemma system_M n t m r : system (gM n) (SM t) (fun _ => [0]) 1 0 0 (LM n m r).
Proof.
  constructor; try reflexivity; try lra.
  - intros x y Hx Hy. apply visited_length in Hx, Hy. now apply absV_1.
  - intros x y _ _ _ _. unfold dist1; simpl. rewrite Rminus_0_r, Rabs_R0. lra.
Qed.
Lemma valid_M n : (2 <= n)%Z -> valid_grid (gM n).
Proof. intros H. unfold valid_grid, gM; simpl. repeat constructor; simpl; try lra; lia. Qed.
Lemma size_M n m r : (2 <= n)%Z -> size (LM n m r) = Z.to_nat n.
Proof.
  intros H. unfold size. simpl. rewrite map_length.
  pose proof (all_points_length (gM n) (valid_M n H)) as A.
  unfold nindex in A; simpl in A. lia.
Qed.
Lemma point17 k : (k < 17)%nat -> grid_point (gM 17) k = [-4 + INR k / 2].
Proof.
  intros H. do 17 (destruct k as [|k]; [unfold grid_point, index_to_state; simpl;
    rewrite Z.div_1_r; f_equal; lra|]). lia.
Qed.

Example C80_grid_with_margin_ex : forall L1' L2' order2 bs2,
  update_safe_set LM9 (certificate (SM (3 / 4)) 1 (grid_point (gM 9))) true 1 10 order9 = Ok L1' ->
  sorts (l_vals LM17) order2 ->
  update_safe_set LM17 (certificate (SM (1 / 4)) 1 (grid_point (gM 17))) true 1 bs2 order2 = Ok L2' ->
  l_cmax L1' = 4 /\ safe L2' 2 /\ safe L2' 14.
Proof.
  intros L1' L2' order2 bs2 E1 Hs2 E2.
  assert (C1 : consistent LM9).
  { constructor; unfold LM9; rewrite ?(size_M 9) by lia; auto. intros m E. injection E as <-. reflexivity. }
  assert (C2 : consistent LM17).
  { constructor; unfold LM17; rewrite ?(size_M 17) by lia; auto. intros m E. injection E as <-. reflexivity. }
  assert (Z1 : size LM9 = 9%nat) by (unfold LM9; rewrite size_M by lia; reflexivity).
  assert (Z2 : size LM17 = 17%nat) by (unfold LM17; rewrite size_M by lia; reflexivity).
  assert (Hi : forall k, (k < 9)%nat -> k <> 4%nat ->
    neg (certificate (SM (3 / 4)) 1 (grid_point (gM 9))) k = true).
  { intros k Hk H4. cbn [neg certificate]. apply Rltb_true. change (gM 9) with g9. rewrite point9 by auto.
    unfold decrease, v_decrease_bound, v_decrease_confidence, threshold, lv_scalar, lf_scalar.
    cbn [dynamics lyapunov_function lip_v lip_f tau SM]. unfold absV. cbn [nth].
    rewrite Rabs_R0.
    do 9 (destruct k as [|k]; [first [congruence | simpl; unfold Rabs; destruct Rcase_abs; lra]|]). lia. }
  assert (I4 : initially_safe LM9 4) by (exists (mask_at 9 [4%nat]); auto).
  assert (Hcm : l_cmax L1' = 4).
  { rewrite (C17_level_all_certified LM9 _ 1 10 order9 L1' C1 order9_sorts (or_introl eq_refl) E1).
    - rewrite Z1. change (nth _ order9 0%nat) with 0%nat.
      change (nth 0 vals9 0 = 4). rewrite vals9_nth by lia. simpl. unfold Rabs; destruct Rcase_abs; lra.
    - intros y Hy. rewrite Z1 in Hy. destruct (Nat.eq_dec y 4) as [->|]; auto. }
  split; auto.
  assert (R1 : cell_radius (gM 9) = 1 / 2) by (unfold cell_radius, unit_maxes; simpl; lra).
  assert (H : forall k, (k < 17)%nat -> Rabs (-4 + INR k / 2) < 7 / 2 -> safe L2' k).
  { intros k Hk HV.
    apply (C80_grid_with_margin (gM 9) (gM 17) (SM (3 / 4)) (SM (1 / 4)) (fun _ => [0]) 1 0 0 0 1 1
      LM9 LM17 L1' L2' 1 1 10 bs2 order9 order2 4%nat); auto.
    - apply valid_M; lia.
    - apply valid_M; lia.
    - apply system_M.
    - apply system_M.
    - exact order9_sorts.
    - split; [simpl; lia|reflexivity].
    - rewrite R1. simpl. lra.
    - intros x k1 (Hl & Hv) (m & Em & Ek) Hd. injection Em as <-.
      assert (k1 = 4)%nat.
      { do 9 (destruct k1 as [|k1]; [simpl in Ek; try discriminate; auto|]). destruct k1; discriminate. }
      subst k1. change (gM 9) with g9 in Hd at 1. rewrite point9, R1 in Hd by lia.
      destruct (Hv 0%nat ltac:(unfold dims; simpl; lia)) as (j & Hj & Ej).
      change (npts (gM 17) 0) with 17%Z in Hj. unfold coordinate in Ej.
      rewrite (one_dim x Hl) in Hd |- *. unfold dist1 in Hd; simpl in Hd.
      assert (Ej' : nth 0 x 0 = -4 + IZR j / 2).
      { rewrite Ej. unfold lower, spacing, upper, lower, npts, gM; simpl. lra. }
      assert (Hj' : 7 <= IZR j <= 9).
      { rewrite Ej' in Hd. revert Hd. unfold Rabs; destruct Rcase_abs; lra. }
      assert (7 <= j <= 9)%Z by (split; apply le_IZR; lra).
      exists (Z.to_nat j). split.
      + exists (mask_at 17 [7; 8; 9]%nat). split; auto.
        assert (j = 7 \/ j = 8 \/ j = 9)%Z as [->|[->| ->]] by lia; reflexivity.
      + rewrite point17 by lia. rewrite INR_IZR_INZ, Z2Nat.id by lia. now rewrite Ej'.
    - rewrite point17 by auto. rewrite Hcm, R1. simpl. unfold absV; simpl. lra. }
  split; apply H; try lia; simpl; unfold Rabs; destruct Rcase_abs; lra.
Qed.

(** Grids of every size meet the conditions of [C80_fine_enough_grids]. *)
Example C80_fine_enough_grids_ex : forall n m r,
  cell_radius (gN n) = tau (SN n) /\ system (gN n) (SN n) Fh 1 (1 / 2) 0 (LN n m r) /\
  2 * 1 * 0 < 1 / 10.
Proof. intros n m r. split; [reflexivity|]. split; [apply system_N|lra]. Qed.
