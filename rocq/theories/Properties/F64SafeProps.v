(** C84: safe sets that are computed in double precision. *)
From Coq Require Import Reals List Bool Arith ZArith Lia Lra Psatz.
From Flocq Require Import Core.
From Verif Require Import Prelude FunModel QuadModel QuadProofs LipProofs F64CertModel F64CertSpec F64CertProofs.
From Verif Require Import ListFacts NumModel GridModel GridSpec GridProofs SafeModel SafeSpec SafeProofs SafeProofs2
  CertModel CertSpec CertProofs RefineSpec F64Model F64Spec F64Facts F64Proofs F64Tri F64SafeSpec.
From Verif.Properties Require Import SafeProps CertProps F64CertProps.
Import ListNotations.
Local Open Scope R_scope.

Lemma dist1_sym x : forall y, dist1 x y = dist1 y x.
Proof.
  unfold dist1. induction x as [|a x IH]; intros [|b y]; simpl; auto. rewrite IH, Rabs_minus_sym. reflexivity.
Qed.
Lemma dist1_triangle x : forall y z, length x = length y -> length z = length y ->
  dist1 x z <= dist1 x y + dist1 y z.
Proof.
  unfold dist1. induction x as [|a x IH]; intros [|b y] [|c z] H1 H2; simpl in *; try discriminate; [ lra | ].
  specialize (IH y z ltac:(lia) ltac:(lia)).
  replace (a - c) with ((a - b) + (b - c)) by ring. pose proof (Rabs_triang (a - b) (b - c)). lra.
Qed.

(** Trajectories of the true closed loop that start in {V < c_max - lv radius - ev}
    stay there, and V decreases unless the nearest grid state is in the initial
    set, although the values and the certificate are inexact. *)
Theorem C84_inexact_values : forall g V F D lv lf r ev pt C L L' mr bs order x0,
  valid_grid g -> consistent L -> inexact g V F D lv lf r ev pt C L L' ->
  l_adaptive L = false \/ (mr <= 1)%Z ->
  sorts (l_vals L) order -> update_safe_set L C true mr bs order = Ok L' ->
  at_position order 0 x0 -> neg C x0 = true \/ initially_safe L x0 ->
  forall x n, length x = dims g -> V x < l_cmax L' - lv * cell_radius g - ev ->
    V (iterate n F x) < l_cmax L' - lv * cell_radius g - ev /\
    (forall k, state_to_index g (iterate n F x) = Ok (Z.of_nat k) -> ~ initially_safe L k ->
       V (iterate (1 + n) F x) < V (iterate n F x)).
Proof.
  intros g V F D lv lf r ev pt C L L' mr bs order x0 VG HL IX Hact Hs EU Hp0 Hx0.
  destruct IX as [P1 P2 P3 P4 P5 P5' P6 P7 P8 P9 P10 P11 P12].
  destruct (C17_below_level_is_safe _ _ _ _ _ _ _ _ HL Hs EU Hp0 Hx0) as (Hbelow & _).
  set (c := l_cmax L' - lv * cell_radius g - ev) in *.
  assert (Step : forall x, length x = dims g -> V x < c ->
    V (F x) < c /\
    (forall k, state_to_index g x = Ok (Z.of_nat k) -> ~ initially_safe L k -> V (F x) < V x)).
  { intros x Hx HV. pose proof (P11 x Hx HV) as HI.
    destruct (nearest_cell g x VG Hx HI) as (k & Ek & Hk & Hd). fold (cell_radius g) in Hd.
    assert (Hkn : (k < size L)%nat) by lia.
    destruct (grid_point_vertex g k VG Hk) as (Hv & _).
    pose proof (P3 x Hx HI) as Dx.
    pose proof (P3 _ (proj1 Hv) (vertex_inside g _ VG Hv)) as Dg.
    destruct (P4 k Hkn) as (Dp & Lp & Hr).
    assert (Hlvd : lv * dist1 x (grid_point g k) <= lv * cell_radius g)
      by (apply Rmult_le_compat_l; auto).
    assert (Hbel : value L k < l_cmax L').
    { pose proof (P9 k Hkn) as A. pose proof (P5 x (grid_point g k) Dx Dg) as B.
      apply Rabs_le_inv in A. apply Rabs_le_inv in B. unfold c in HV. lra. }
    pose proof (Hbelow k Hkn Hbel) as Hsafe.
    assert (Hcases : initially_safe L k \/ ~ initially_safe L k).
    { rewrite initially_safe_omask. destruct (omask (l_init L) k); auto. }
    assert (Hdec : ~ initially_safe L k -> V (F x) < V x).
    { intros Hni.
      destruct (C15_sublevel_set _ _ _ _ _ _ HL Hs Hact EU k Hkn) as (_ & HC).
      destruct (HC Hsafe Hni) as (Hneg & _).
      pose proof (P10 k Hkn Hneg) as N.
      assert (Ht : dist1 x (pt k) <= cell_radius g + r).
      { eapply Rle_trans; [ apply (dist1_triangle x (grid_point g k) (pt k)) | ].
        - rewrite Hx. symmetry. apply Hv.
        - rewrite Lp. symmetry. apply Hv.
        - rewrite (dist1_sym (grid_point g k) (pt k)). lra. }
      pose proof (P5 x (pt k) Dx Dp) as A. pose proof (P5' x (pt k) Dx Dp) as B.
      pose proof (P6 x (pt k) Dx Dp) as E.
      apply Rabs_le_inv in A. apply Rabs_le_inv in B.
      pose proof (dist1_nonneg x (pt k)) as N0.
      assert (lv * dist1 (F x) (F (pt k)) <= lv * (lf * dist1 x (pt k)))
        by (apply Rmult_le_compat_l; auto).
      assert (lv * (1 + lf) * dist1 x (pt k) <= lv * (1 + lf) * (cell_radius g + r)).
      { apply Rmult_le_compat_l; [ apply Rmult_le_pos; lra | exact Ht ]. }
      lra. }
    split.
    - destruct Hcases as [Hi|Hni]; [ eapply P12; eauto | ]. specialize (Hdec Hni). lra.
    - intros k' Ek' Hni. rewrite Ek in Ek'. injection Ek' as Ek'.
      apply Nat2Z.inj in Ek'. subst k'. auto. }
  assert (Inv : forall n x, length x = dims g -> V x < c ->
    length (iterate n F x) = dims g /\ V (iterate n F x) < c).
  { induction n as [|n IH]; intros x Hx HV; simpl; auto.
    destruct (IH x Hx HV) as (A & B). split; [apply P7; auto|]. apply Step; auto. }
  intros x n Hx HV. destruct (Inv n x Hx HV) as (A & B). split; auto.
  intros k Ek Hni. simpl. destruct (Step (iterate n F x) A B) as (_ & E). eauto.
Qed.
Print Assumptions C84_inexact_values.

Lemma quad_ext P d x y : (forall j, (j < d)%nat -> x j = y j) -> quad P d x = quad P d y.
Proof.
  intros H. unfold quad. apply rsum_ext. intros j Hj. rewrite (H j Hj). f_equal.
  apply rsum_ext. intros k Hk. now rewrite (H k Hk).
Qed.
Lemma loop_ext K D d m x y j : (forall l, (l < d)%nat -> x l = y l) -> loop K D d m x j = loop K D d m y j.
Proof.
  intros H. unfold loop, apply. apply rsum_ext. intros k Hk. f_equal. unfold join.
  destruct (Nat.ltb_spec k d); [ auto | ]. apply rsum_ext. intros l Hl. now rewrite (H l Hl).
Qed.
Lemma linF_vec K D d m x j : (j < d)%nat -> vec (linF K D d m x) j = loop K D d m (vec x) j.
Proof.
  intros Hj. unfold vec at 1, linF. rewrite nth_map' with (d' := 0%nat) by (rewrite seq_length; auto).
  rewrite seq_nth by auto. reflexivity.
Qed.

Section Points.
Variable g : grid.
Hypothesis RG : resolved_grid g.

Lemma vertex_coordinate k j : (Z.of_nat k < nindex g)%Z -> (j < dims g)%nat ->
  coordinate (grid_point g k) j = lower g j + IZR (nth j (unravel (Z.of_nat k) (num_points g)) 0%Z) * spacing g j.
Proof using RG.
  intros Hk Hj. pose proof (rg_valid g RG) as VG. unfold grid_point.
  destruct (index_to_state_ok g VG (Z.of_nat k) ltac:(lia)) as [-> M].
  apply (multi_nth g VG) in M as [L _]. now apply state_of_nth.
Qed.

Lemma radius_rsum : cell_radius g = rsum (dims g) (fun j => spacing g j / 2).
Proof using RG.
  pose proof (rg_valid g RG) as VG. unfold cell_radius. rewrite sum_map_rsum, unit_len by auto.
  apply rsum_ext. intros j Hj. now rewrite unit_nth.
Qed.

(** Points whose coordinates are within 1/128 spacing of a grid state. *)
Lemma close_dist p k : (Z.of_nat k < nindex g)%Z -> length p = dims g ->
  (forall j, (j < dims g)%nat ->
     Rabs (coordinate p j - coordinate (grid_point g k) j) <= / 128 * spacing g j) ->
  near_box g p /\ dist1 p (grid_point g k) <= cell_radius g / 64.
Proof using RG.
  intros Hk HL H. pose proof (rg_valid g RG) as VG.
  destruct (grid_point_vertex g k VG Hk) as (Hv & _). pose proof (vertex_inside g _ VG Hv) as HI.
  split.
  - split; [ exact HL | ]. intros j Hj. specialize (H j Hj). specialize (HI j Hj).
    apply Rabs_le_inv in H. lra.
  - rewrite dist1_rsum by (rewrite HL; symmetry; apply Hv). rewrite HL, radius_rsum.
    replace (rsum (dims g) (fun j => spacing g j / 2) / 64)
      with (/ 64 * rsum (dims g) (fun j => spacing g j / 2)) by lra.
    rewrite <- rsum_scal. apply rsum_le. intros j Hj. specialize (H j Hj). unfold coordinate in H. lra.
Qed.

Lemma indexed_close k s : (Z.of_nat k < nindex g)%Z -> f_index_to_state g (Z.of_nat k) = Ok s ->
  length s = dims g /\ near_box g s /\ dist1 s (grid_point g k) <= cell_radius g / 64.
Proof using RG.
  intros Hk E. pose proof (rg_valid g RG) as VG.
  rewrite (f_index_to_state_ok g RG) in E by lia. injection E as <-.
  destruct (index_to_state_ok g VG (Z.of_nat k) ltac:(lia)) as (_ & M).
  apply (multi_nth g VG) in M as [L H].
  assert (LS : length (f_state_of g (unravel (Z.of_nat k) (num_points g))) = dims g) by (now apply f_state_of_len).
  split; [ exact LS | ]. apply close_dist; auto. intros j Hj.
  rewrite vertex_coordinate, f_state_of_nth by auto.
  pose proof (ax_pt_err _ _ (rg_axis g RG j Hj) (nth j (unravel (Z.of_nat k) (num_points g)) 0%Z)
    ltac:(specialize (H j Hj); lia)) as A.
  rewrite gap_spacing in A. exact A.
Qed.

Lemma listed_close k : (Z.of_nat k < nindex g)%Z ->
  let p := nth k (f_all_points g) [] in
  length p = dims g /\ near_box g p /\ dist1 p (grid_point g k) <= cell_radius g / 64.
Proof using RG.
  intros Hk. pose proof (rg_valid g RG) as VG.
  destruct (index_to_state_ok g VG (Z.of_nat k) ltac:(lia)) as (_ & M).
  pose proof M as M'. apply (multi_nth g VG) in M' as [L H].
  cbv zeta. rewrite <- (Nat2Z.id k) at 1 2 3. rewrite (f_all_points_nth g RG) by lia.
  assert (LS : length (f_listed g (unravel (Z.of_nat k) (num_points g))) = dims g) by (now apply f_listed_len).
  split; [ exact LS | ]. apply close_dist; auto. intros j Hj.
  rewrite vertex_coordinate, f_listed_nth by auto.
  destruct (Z.eqb_spec (nth j (unravel (Z.of_nat k) (num_points g)) 0%Z) (npts g j - 1)) as [-> | _].
  - rewrite (spacing_width g VG j Hj). replace (upper g j - (lower g j + (upper g j - lower g j))) with 0 by ring.
    rewrite Rabs_R0. pose proof (spacing_pos g VG j Hj). lra.
  - pose proof (ax_pt_err _ _ (rg_axis g RG j Hj) (nth j (unravel (Z.of_nat k) (num_points g)) 0%Z)
      ltac:(specialize (H j Hj); lia)) as A.
    rewrite gap_spacing in A. exact A.
Qed.
End Points.

Definition f_point (g : grid) (k : nat) : list R :=
  match f_index_to_state g (Z.of_nat k) with Ok s => s | Err _ => [] end.

(** The program unchanged, in double precision: a [tau] that exceeds 65/64 of the cell
    radius by enough for the rounding errors makes the computed level set
    forward invariant for the exact linear closed loop. *)
Theorem C84_double_precision_safe_set :
  forall g P policy dynamics m lv lf tau ev C L L' mr bs order x0,
  resolved_grid g -> consistent L -> Z.of_nat (size L) = nindex g ->
  INR (dims g + m) <= 4503599627370496 ->
  0 <= lv -> 0 <= lf -> 0 <= tau ->
  let d := dims g in let V := quadV P d in let F := linF policy dynamics d m in
  (forall x y, near_box g x -> near_box g y -> Rabs (V x - V y) <= lv * dist1 x y) ->
  (forall x y, near_box g x -> near_box g y -> Rabs (V (F x) - V (F y)) <= lv * dist1 (F x) (F y)) ->
  (forall x y, near_box g x -> near_box g y -> dist1 (F x) (F y) <= lf * dist1 x y) ->
  (forall k, (k < size L)%nat -> value_computed g P ev lv L k) ->
  (forall k, (k < size L)%nat -> check_computed g P policy dynamics m lv lf tau C k) ->
  l_adaptive L = false \/ (mr <= 1)%Z ->
  sorts (l_vals L) order -> update_safe_set L C true mr bs order = Ok L' ->
  at_position order 0 x0 -> neg C x0 = true \/ initially_safe L x0 ->
  let level := l_cmax L' - lv * cell_radius g - ev in
  (forall x, length x = d -> V x < level -> inside g x) ->
  (forall k x, initially_safe L k -> length x = d -> dist1 x (grid_point g k) <= cell_radius g ->
     V x < level -> V (F x) < level) ->
  forall x n, length x = d -> V x < level ->
    V (iterate n F x) < level /\
    (forall k, state_to_index g (iterate n F x) = Ok (Z.of_nat k) -> ~ initially_safe L k ->
       V (iterate (1 + n) F x) < V (iterate n F x)).
Proof.
  intros g P K D m lv lf tau ev C L L' mr bs order x0 RG HL Hsz Hd P1 P2 P3 d V F HV HVF HF Hval Hchk
    Hact Hs EU Hp0 Hx0 level Hin Hini.
  assert (Hds : INR d <= 4503599627370496) by (eapply Rle_trans; [ apply le_INR | exact Hd ]; unfold d; lia).
  apply (C84_inexact_values g V F (near_box g) lv lf (cell_radius g / 64) ev (f_point g) C L L' mr bs order x0);
    auto using rg_valid.
  constructor; auto.
  - intros x Lx HI. split; [ exact Lx | ]. intros j Hj. specialize (HI j Hj).
    pose proof (spacing_pos g (rg_valid g RG) j Hj). lra.
  - intros k Hk. unfold f_point.
    rewrite (f_index_to_state_ok g RG) by lia.
    destruct (indexed_close g RG k _ ltac:(lia) (f_index_to_state_ok g RG (Z.of_nat k) ltac:(lia))) as (A & B & E).
    auto.
  - intros x _. unfold F, linF. rewrite map_length, seq_length. reflexivity.
  - intros k Hk. destruct (Hval k Hk) as (pts & v & i & Q & (Ri & Rc & Re) & -> & Hev).
    destruct (listed_close g RG k ltac:(lia)) as (A & B & E). set (p := nth k (f_all_points g) []) in *.
    rewrite A in Rc, Re.
    pose proof (f_quadratic_err P pts v i Q Ri ltac:(rewrite Rc; exact Hds)) as E1. rewrite Rc in E1.
    fold d in E1, Hev, Rc, Re.
    rewrite (quad_ext P d (entry pts i) (vec p)) in E1 by (intros; now apply Re). fold (quadV P d p) in E1. fold V in E1.
    assert (Hv := grid_point_vertex g k (rg_valid g RG) ltac:(lia)). destruct Hv as (Hv & _).
    assert (NB : near_box g (grid_point g k)).
    { split; [ apply Hv | ]. intros j Hj. pose proof (vertex_inside g _ (rg_valid g RG) Hv j Hj).
      pose proof (spacing_pos g (rg_valid g RG) j Hj). lra. }
    pose proof (HV p (grid_point g k) B NB) as E2.
    assert (lv * dist1 p (grid_point g k) <= lv * (cell_radius g / 64)) by (apply Rmult_le_compat_l; auto).
    replace (entry v i 0%nat - V (grid_point g k)) with ((entry v i 0%nat - V p) + (V p - V (grid_point g k))) by ring.
    eapply Rle_trans; [ apply Rabs_triang | ]. lra.
  - intros k Hk Hn. destruct (Hchk k Hk) as (s & st & ac & nx & dec & i & Es & (Ri & Rc & Re) & Em & FD & Hiff & Hsl).
    destruct (indexed_close g RG k s ltac:(lia) Es) as (A & B & E).
    unfold f_point. rewrite Es. rewrite A in Rc, Re. fold d in Rc, Re.
    pose proof (proj1 Hiff Hn) as Hlt.
    pose proof (C83_decrease_error P K D st ac nx dec i FD Ri ltac:(rewrite Rc, Em; exact Hd)) as E1.
    pose proof (threshold_err lv lf tau P1 P2 P3) as E2.
    rewrite Rc, Em in E1. fold d in Hsl.
    rewrite (quad_ext P d (entry st i) (vec s)) in E1 by (intros; now apply Re).
    rewrite (quad_ext P d (loop K D d m (entry st i)) (vec (F s))) in E1.
    2:{ intros j Hj. unfold F. rewrite linF_vec by exact Hj. apply loop_ext. intros; now apply Re. }
    fold (quadV P d s) in E1. fold (quadV P d (F s)) in E1. fold V in E1.
    apply Rabs_le_inv in E1. apply Rabs_le_inv in E2.
    replace (- lv * (1 + lf) * (cell_radius g + cell_radius g / 64))
      with (- (lv * (1 + lf) * (65 / 64 * cell_radius g))) by field.
    replace (lv * (1 + lf) * (tau - 65 / 64 * cell_radius g))
      with (lv * (1 + lf) * tau - lv * (1 + lf) * (65 / 64 * cell_radius g)) in Hsl by ring.
    lra.
Qed.

(** *** An instance: V = x^2 and x+ = x + u, u = -x / 2 on the grid -4, -3, ..., 4, with
    the initial set -3, ..., 3, lv = 9, lf = 1/2 and tau = 5/8 *)
Definition K84 : tensor := t11 (-1 / 2).
Definition D84 : tensor := t12 1 1.
Definition mask84 : list bool := [false; true; true; true; true; true; true; true; false].
Definition vals84 : list R := [16; 9; 4; 1; 0; 1; 4; 9; 16].
Definition L84 (safe : list bool) (ref : list Z) (c : R) : lyap :=
  {| l_init := Some mask84; l_adaptive := false; l_vals := vals84; l_safe := safe; l_ref := ref; l_cmax := c |}.
Definition C84c : cert :=
  {| neg := fun k => nth k [true; false; false; false; false; false; false; false; true] false;
     nreq := fun _ => 0%Z; passes := fun _ _ _ => false |}.

Lemma update84 : update_safe_set (L84 mask84 [0; 1; 1; 1; 1; 1; 1; 1; 0]%Z 0) C84c true 1 4 order9 =
  Ok (L84 (repeat true 9) (repeat 1%Z 9) 16).
Proof. reflexivity. Qed.

Lemma sorts84 : sorts vals84 order9.
Proof.
  split.
  - pose proof (proj1 order9_sorts) as A. simpl l_vals in A. now rewrite vals9_length in A.
  - change (length vals84) with 9%nat. intros p q H1 H2.
    set (f := fun k => nth (nth k order9 0%nat) vals84 0).
    assert (B : forall k, (k < 8)%nat -> f k <= f (Datatypes.S k)).
    { intros k Hk. unfold f. do 8 (destruct k as [|k]; [simpl; lra|]). lia. }
    change (f p <= f q). induction q as [|q IH]; [lia|].
    destruct (Nat.eq_dec p q) as [->|]; [apply B; lia|].
    apply Rle_trans with (f q); [apply IH; lia|]. apply B; lia.
Qed.

Lemma resolved9 : resolved_grid g9.
Proof.
  constructor; [ | constructor ]. unfold resolved; simpl fst; simpl snd.
  assert (E : (4 - -4) / IZR (9 - 1) = 1) by (simpl; lra). rewrite E.
  split; [ lia | ]. split; [ apply (f64_small (-4)); lia | ]. split; [ apply (f64_small 4); lia | ].
  assert (A : 1 <= 2 ^ 40) by (apply pow_R1_Rle; lra).
  assert (B : 1 <= 2 ^ 400) by (apply pow_R1_Rle; lra).
  assert (A4 : 4 <= 2 ^ 40).
  { replace 4 with (2 ^ 2) by (simpl; lra). apply Rle_pow; [ lra | lia ]. }
  split; [ split; [ rewrite <- Rinv_1; apply Rinv_le_contravar; lra | exact B ] | ].
  rewrite Rmult_1_r. split; unfold Rabs; destruct Rcase_abs; lra.
Qed.

Lemma unit84 : f_unit (-4, 4) 9 = 1.
Proof.
  unfold f_unit. simpl fst; simpl snd. replace (4 - -4) with (IZR 8) by lra.
  rewrite (rnd_id (IZR 8)) by (apply f64_small; lia). change (9 - 1)%Z with 8%Z.
  replace (8 / 8) with (IZR 1) by lra. apply rnd_id, f64_small. lia.
Qed.

Lemma pt84 n : (0 <= n <= 8)%Z -> rnd (rnd (IZR n * 1) + -4) = IZR (n - 4).
Proof.
  intros H. rewrite Rmult_1_r, (rnd_id (IZR n)) by (apply f64_small; lia).
  replace (IZR n + -4) with (IZR (n - 4)) by (rewrite minus_IZR; lra).
  apply rnd_id, f64_small. lia.
Qed.

Lemma index84 k : (k < 9)%nat -> f_index_to_state g9 (Z.of_nat k) = Ok [IZR (Z.of_nat k - 4)].
Proof.
  intros H. unfold f_index_to_state.
  replace (np_unravel_index (Z.of_nat k) (num_points g9)) with (@Ok (list Z) [Z.of_nat k]).
  2:{ do 9 (destruct k as [|k]; [ reflexivity | ]). lia. }
  cbn [bind]. change (f_unit_maxes g9) with [f_unit (-4, 4) 9]. rewrite unit84.
  change (offset g9) with [-4]. cbn [map3]. rewrite pt84 by lia. reflexivity.
Qed.

Lemma listed84 k : (k < 9)%nat -> nth k (f_all_points g9) [] = [IZR (Z.of_nat k - 4)].
Proof.
  intros H. rewrite <- (Nat2Z.id k) at 1. rewrite (f_all_points_nth g9 resolved9).
  2:{ change (nindex g9) with 9%Z. lia. }
  unfold f_listed. replace (unravel (Z.of_nat k) (num_points g9)) with [Z.of_nat k].
  2:{ do 9 (destruct k as [|k]; [ reflexivity | ]). lia. }
  change (map2 f_linspace (limits g9) (num_points g9)) with [f_linspace (-4, 4) 9]. cbn [map2].
  rewrite f_linspace_nth by lia. simpl fst; simpl snd. f_equal.
  destruct (Z.eqb_spec (Z.of_nat k) (9 - 1)) as [-> | N].
  - reflexivity.
  - unfold ax_pt. rewrite unit84. simpl fst. apply pt84. lia.
Qed.

(** One row of a batch. *)
Lemma quad_t11 x y : rnd (x * 1) = x -> rnd (x * x) = y -> f_quadratic (t11 1) (t11 x) (t11 y).
Proof.
  intros E E'. exists (t11 x). repeat split; try reflexivity.
  - intros i j Hi Hj. simpl. unfold pairs; simpl. rewrite <- E at 2. constructor.
  - intros i Hi. simpl. unfold pairs; simpl. rewrite <- E'. constructor.
Qed.

Lemma quad84 n : (-4 <= n <= 4)%Z -> f_quadratic (t11 1) (t11 (IZR n / 2)) (t11 (IZR (n * n) / 4)).
Proof.
  intros H. apply quad_t11.
  - replace (IZR n / 2 * 1) with (IZR (4 * n) / 8) by (rewrite mult_IZR; lra).
    rewrite rnd_id by (apply f64_eighth; lia). rewrite mult_IZR; lra.
  - replace (IZR n / 2 * (IZR n / 2)) with (IZR (2 * (n * n)) / 8) by (rewrite !mult_IZR; lra).
    rewrite rnd_id by (apply f64_eighth; nia). rewrite !mult_IZR; lra.
Qed.

Lemma quad84' n : (-4 <= n <= 4)%Z -> f_quadratic (t11 1) (t11 (IZR n)) (t11 (IZR (n * n))).
Proof.
  intros H. apply quad_t11.
  - rewrite Rmult_1_r. apply rnd_id, f64_small. lia.
  - rewrite <- mult_IZR. apply rnd_id, f64_small. nia.
Qed.

Lemma decrease84 n : (-4 <= n <= 4)%Z ->
  f_decrease (t11 1) K84 D84 (t11 (IZR n)) (t11 (- IZR n / 2)) (t11 (IZR n / 2)) (t11 (IZR (-3 * (n * n)) / 4)).
Proof.
  intros H.
  assert (E : rnd (IZR n * (-1 / 2)) = - IZR n / 2).
  { replace (IZR n * (-1 / 2)) with (IZR (- 4 * n) / 8) by (rewrite mult_IZR; lra).
    rewrite rnd_id by (apply f64_eighth; lia). rewrite mult_IZR; lra. }
  assert (E' : rnd (IZR n * 1 + rnd (- IZR n / 2 * 1)) = IZR n / 2).
  { replace (- IZR n / 2 * 1) with (IZR (- 4 * n) / 8) by (rewrite mult_IZR; lra).
    rewrite (rnd_id (IZR (- 4 * n) / 8)) by (apply f64_eighth; lia).
    replace (IZR n * 1 + IZR (- 4 * n) / 8) with (IZR (4 * n) / 8) by (rewrite !mult_IZR; lra).
    rewrite rnd_id by (apply f64_eighth; lia). rewrite mult_IZR; lra. }
  split; [ | split ].
  - repeat split; try reflexivity. intros i j Hi Hj. simpl. unfold pairs; simpl. rewrite <- E. constructor.
  - eexists. split; [ reflexivity | ]. repeat split; try reflexivity.
    intros i j Hi Hj. simpl. unfold pairs; simpl. rewrite <- E'. apply fdot_fma. constructor.
  - exists (t11 (IZR (n * n))), (t11 (IZR (n * n) / 4)). split; [ now apply quad84 | ]. split.
    + now apply quad84'.
    + repeat split; try reflexivity. intros i Hi. cbn [entry t11].
      replace (IZR (n * n) / 4 - IZR (n * n)) with (IZR (- 6 * (n * n)) / 8) by (rewrite !mult_IZR; lra).
      rewrite Rplus_0_r, !(rnd_id (IZR (- 6 * (n * n)) / 8)) by (apply f64_eighth; nia).
      rewrite !mult_IZR. lra.
Qed.

Lemma threshold84 : f_threshold 9 (1 / 2) (5 / 8) = - 135 / 16.
Proof.
  unfold f_threshold. replace (1 + 1 / 2) with (IZR 12 / 8) by lra.
  rewrite (rnd_id (IZR 12 / 8)) by (apply f64_eighth; lia).
  replace (- (9) * (IZR 12 / 8)) with (IZR (-108) / 8) by lra.
  rewrite (rnd_id (IZR (-108) / 8)) by (apply f64_eighth; lia).
  replace (IZR (-108) / 8 * (5 / 8)) with (IZR (-135) * bpow radix2 (-4)) by (simpl; lra).
  rewrite rnd_id by (apply f64_F2R; lia). simpl. lra.
Qed.

Lemma mul_bound p q P Q : 0 <= p <= P -> 0 <= q <= Q -> 0 <= p * q <= P * Q.
Proof. intros A B. split; [ apply Rmult_le_pos; lra | apply Rmult_le_compat; lra ]. Qed.

Lemma dot_bound n s S : 0 <= s <= S -> 0 <= dot_slack n s <= INR n * (S + 1) / 1000000.
Proof.
  intros H. unfold dot_slack. destruct tiny as (T1 & T2 & T3 & T4 & T5).
  replace (INR n * (S + 1) / 1000000) with (INR n * ((S + 1) / 1000000)) by lra.
  apply mul_bound; [ split; [ apply pos_INR | lra ] | ].
  destruct (mul_bound (bpow radix2 (-52)) s (/ 1000000) S ltac:(lra) H). lra.
Qed.

Lemma slack84 x dec : Rabs x <= 4 -> Rabs dec <= 12 ->
  quad_slack (t11 1) 1 (fun _ => x) <= 1 / 2 /\
  decrease_slack (t11 1) K84 D84 1 1 (fun _ => x) (fun _ => - x / 2) (fun _ => x / 2) dec +
  threshold_slack 9 (1 / 2) (5 / 8) <= 1.
Proof.
  intros Hx Hd.
  unfold decrease_slack, threshold_slack, quad_slack, move_slack, next_slack, action_slack, join, K84, D84.
  unfold rsum. simpl seq. cbn [map fold_right Nat.ltb Nat.leb Nat.sub Nat.add t11 t12 entry rows cols].
  rewrite !Rplus_0_r, !Rmult_1_r, !Rabs_R1.
  assert (E1 : Rabs (x * (-1 / 2)) = Rabs x / 2).
  { rewrite Rabs_mult, (Rabs_left (-1 / 2)) by lra. lra. }
  assert (E2 : Rabs (- x / 2) = Rabs x / 2).
  { unfold Rdiv. rewrite Rabs_mult, Rabs_Ropp, (Rabs_pos_eq (/ 2)) by lra. reflexivity. }
  assert (E3 : Rabs (x / 2) = Rabs x / 2).
  { unfold Rdiv. rewrite Rabs_mult, (Rabs_pos_eq (/ 2)) by lra. reflexivity. }
  rewrite E1, E2, E3. pose proof (Rabs_pos x) as Px. pose proof (Rabs_pos dec) as Pd.
  set (a := Rabs x) in *. set (b := Rabs dec) in *. clearbody a b. clear E1 E2 E3.
  destruct tiny as (T1 & T2 & T3 & T4 & T5).
  pose proof (dot_bound 1 a 4 ltac:(lra)) as B1.
  pose proof (dot_bound 1 (a / 2) 2 ltac:(lra)) as B2.
  pose proof (dot_bound 2 (a + a / 2) 6 ltac:(lra)) as B3.
  simpl INR in B1, B2, B3.
  set (q1 := dot_slack 1 a) in *. set (q2 := dot_slack 1 (a / 2)) in *. set (q3 := dot_slack 2 (a + a / 2)) in *.
  clearbody q1 q2 q3.
  pose proof (mul_bound (a + q1) a 5 4 ltac:(lra) ltac:(lra)) as B4.
  pose proof (mul_bound (a / 2 + q2) (a / 2) 5 4 ltac:(lra) ltac:(lra)) as B5.
  pose proof (dot_bound 1 _ _ B4) as B6. pose proof (dot_bound 1 _ _ B5) as B7. simpl INR in B6, B7.
  set (q4 := dot_slack 1 ((a + q1) * a)) in *. set (q5 := dot_slack 1 ((a / 2 + q2) * (a / 2))) in *.
  clearbody q4 q5.
  pose proof (mul_bound q1 a (5 / 1000000) 4 ltac:(lra) ltac:(lra)) as B8.
  pose proof (mul_bound q2 (a / 2) (5 / 1000000) 2 ltac:(lra) ltac:(lra)) as B9.
  rewrite !Rmult_1_l.
  pose proof (mul_bound (q3 + q2) (a / 2) (20 / 1000000) 2 ltac:(lra) ltac:(lra)) as B10.
  pose proof (mul_bound (a / 2 + (q3 + q2)) (q3 + q2) 3 (20 / 1000000) ltac:(lra) ltac:(lra)) as B11.
  pose proof (mul_bound (bpow radix2 (-52)) b (/ 1000000) 12 ltac:(lra) ltac:(lra)) as B12.
  lra.
Qed.

Lemma V84 x : quadV (t11 1) 1 [x] = x * x.
Proof. unfold quadV, quad, rsum, vec. simpl. ring. Qed.
Lemma F84 x : linF K84 D84 1 1 [x] = [x / 2].
Proof. unfold linF, loop, F64CertSpec.apply, join, rsum, vec. simpl. f_equal. field. Qed.
Lemma list1 (x : list R) : length x = 1%nat -> exists v, x = [v].
Proof. destruct x as [|v [|w x]]; simpl; intros H; try lia. now exists v. Qed.
Lemma radius84 : cell_radius g9 = / 2.
Proof. unfold cell_radius, unit_maxes. simpl. lra. Qed.
Lemma near84 v : near_box g9 [v] -> -9 / 2 <= v <= 9 / 2.
Proof.
  intros (_ & H). specialize (H 0%nat Nat.lt_0_1). unfold spacing in H.
  unfold lower, upper, coordinate in H. simpl in H. lra.
Qed.
Example C84_ex : forall x n, x * x < 21 / 2 ->
  exists y, iterate n (linF K84 D84 1 1) [x] = [y] /\ y * y < 21 / 2.
Proof.
  intros x n Hx.
  set (L := L84 mask84 [0; 1; 1; 1; 1; 1; 1; 1; 0]%Z 0). set (L' := L84 (repeat true 9) (repeat 1%Z 9) 16).
  assert (HL : consistent L).
  { repeat split; try reflexivity. simpl. intros m E. injection E as <-. reflexivity. }
  assert (Lev : l_cmax L' - 9 * cell_radius g9 - 1 = 21 / 2).
  { rewrite radius84. unfold L', L84; simpl. lra. }
  assert (Two : forall a b : list R, near_box g9 a -> near_box g9 b ->
    exists v w, a = [v] /\ b = [w] /\ -9 / 2 <= v <= 9 / 2 /\ -9 / 2 <= w <= 9 / 2).
  { intros a b Ha Hb. destruct (list1 a (proj1 Ha)) as (v & ->). destruct (list1 b (proj1 Hb)) as (w & ->).
    exists v, w. repeat split; auto using near84; [ now apply near84 | now apply near84 | now apply near84 | now apply near84 ]. }
  assert (VL : forall v w, -9 / 2 <= v <= 9 / 2 -> -9 / 2 <= w <= 9 / 2 ->
    Rabs (v * v - w * w) <= 9 * (Rabs (v - w) + 0)).
  { intros v w Hv Hw. replace (v * v - w * w) with ((v + w) * (v - w)) by ring. rewrite Rabs_mult, Rplus_0_r.
    apply Rmult_le_compat_r; [ apply Rabs_pos | ]. apply Rabs_le. lra. }
  destruct (C84_double_precision_safe_set g9 (t11 1) K84 D84 1 9 (1 / 2) (5 / 8) 1 C84c L L' 1 4 order9 4)
    with (x := [x]) (n := n) as (R & _); try exact HL; try exact resolved9; try reflexivity; try lra.
  - simpl. lra.
  - intros a b Ha Hb. destruct (Two a b Ha Hb) as (v & w & -> & -> & Hv & Hw).
    change (dims g9) with 1%nat. rewrite !V84. now apply VL.
  - intros a b Ha Hb. destruct (Two a b Ha Hb) as (v & w & -> & -> & Hv & Hw).
    change (dims g9) with 1%nat. rewrite !F84, !V84. apply VL; lra.
  - intros a b Ha Hb. destruct (Two a b Ha Hb) as (v & w & -> & -> & Hv & Hw).
    change (dims g9) with 1%nat. rewrite !F84. unfold dist1; simpl.
    replace (v / 2 - w / 2) with ((v - w) * / 2) by field. rewrite Rabs_mult, (Rabs_pos_eq (/ 2)) by lra. lra.
  - intros k Hk. change (size L) with 9%nat in Hk. set (z := (Z.of_nat k - 4)%Z).
    assert (Hz : (-4 <= z <= 4)%Z) by (unfold z; lia).
    exists (t11 (IZR z)), (t11 (IZR (z * z))), 0%nat. split; [ now apply quad84' | ].
    rewrite listed84 by lia. fold z. split; [ | split ].
    + split; [ simpl; lia | ]. split; [ reflexivity | ]. intros j Hj. simpl in Hj. replace j with 0%nat by lia. reflexivity.
    + unfold z. do 9 (destruct k as [|k]; [ reflexivity | ]). lia.
    + rewrite radius84. change (dims g9) with 1%nat.
      destruct (slack84 (IZR z) 0) as (A & _); [ | rewrite Rabs_R0; lra | ].
      * apply Rabs_le. assert (IZR (-4) <= IZR z <= IZR 4) by (split; apply IZR_le; lia). lra.
      * change (entry (t11 (IZR z)) 0%nat) with (fun _ : nat => IZR z). lra.
  - intros k Hk. change (size L) with 9%nat in Hk. set (z := (Z.of_nat k - 4)%Z).
    assert (Hz : (-4 <= z <= 4)%Z) by (unfold z; lia).
    exists [IZR z], (t11 (IZR z)), (t11 (- IZR z / 2)), (t11 (IZR z / 2)), (t11 (IZR (-3 * (z * z)) / 4)), 0%nat.
    split; [ now apply index84 | ]. split; [ | split; [ reflexivity | split; [ now apply decrease84 | ] ] ].
    + split; [ simpl; lia | ]. split; [ reflexivity | ]. intros j Hj. simpl in Hj. replace j with 0%nat by lia. reflexivity.
    + split.
      * rewrite threshold84. cbn [entry t11]. unfold z.
        do 9 (destruct k as [|k]; [ split; [ simpl; intros E; try discriminate E; lra | simpl; intros E; try reflexivity; exfalso; lra ] | ]). lia.
      * rewrite radius84. change (dims g9) with 1%nat. cbn [entry t11].
        destruct (slack84 (IZR z) (IZR (-3 * (z * z)) / 4)) as (_ & A).
        -- apply Rabs_le. assert (IZR (-4) <= IZR z <= IZR 4) by (split; apply IZR_le; lia). lra.
        -- apply Rabs_le. assert (IZR (-48) <= IZR (-3 * (z * z)) <= IZR 0) by (split; apply IZR_le; nia). lra.
        -- change (entry (t11 (IZR z)) 0%nat) with (fun _ : nat => IZR z).
           change (entry (t11 (- IZR z / 2)) 0%nat) with (fun _ : nat => - IZR z / 2).
           change (entry (t11 (IZR z / 2)) 0%nat) with (fun _ : nat => IZR z / 2).
           eapply Rle_trans; [ exact A | ]. lra.
  - now left.
  - exact sorts84.
  - split; [ simpl; lia | reflexivity ].
  - right. rewrite initially_safe_omask. reflexivity.
  - rewrite Lev. intros a Ha Hva. destruct (list1 a Ha) as (v & ->). change (dims g9) with 1%nat in Hva. rewrite V84 in Hva.
    intros j Hj. assert (j = 0%nat) as -> by (change (dims g9) with 1%nat in Hj; lia).
    unfold lower, upper, coordinate. simpl. nra.
  - rewrite Lev. intros k a _ Ha _ Hva. destruct (list1 a Ha) as (v & ->). change (dims g9) with 1%nat in Hva |- *.
    rewrite F84, V84. rewrite V84 in Hva. nra.
  - rewrite Lev. change (dims g9) with 1%nat. now rewrite V84.
  - rewrite Lev in R. change (dims g9) with 1%nat in R.
    assert (Len : length (iterate n (linF K84 D84 1 1) [x]) = 1%nat).
    { destruct n; [ reflexivity | ]. simpl. reflexivity. }
    destruct (list1 _ Len) as (y & E). rewrite E in R |- *. rewrite V84 in R. now exists y.
Qed.
