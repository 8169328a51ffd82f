(** Properties C20-C25: what the certificate means for the continuous system. *)
From Coq Require Import Reals List Bool Arith ZArith Lia Lra Permutation.
From Verif Require Import Prelude ListFacts NumModel NumProofs GridModel GridSpec GridProofs
  SafeModel SafeSpec SafeProofs SafeProofs2 Properties.SafeProps CertModel CertSpec CertProofs.
Import ListNotations.
Local Open Scope R_scope.

(** ** C20: a certified state certifies its neighbourhood *)

(** [V] is lv-Lipschitz and the closed loop [F] is lf-Lipschitz for some distance
    [d]; the dynamics model is exact.  If the decrease condition holds at [c],
    then [V] strictly decreases from every state within distance [tau] of [c]. *)
Theorem C20_certified_neighbourhood : forall S F (d : list R -> list R -> R) lv lf c x,
  lip_v S = LvConst lv -> lip_f S = LfConst lf -> 0 <= lv -> 0 <= lf ->
  (forall a b, Rabs (lyapunov_function S a - lyapunov_function S b) <= lv * d a b) ->
  (forall a b, d (F a) (F b) <= lf * d a b) ->
  (forall a, dynamics S a (policy S a) = Exact (F a)) ->
  decrease S c < threshold S c (tau S) ->
  d x c <= tau S ->
  lyapunov_function S (F x) < lyapunov_function S x.
Proof.
  intros S F d lv lf c x Elv Elf Hlv Hlf HV HF HE Hdec Hd.
  apply (neighbourhood S F d c x); auto; unfold lv_scalar, lf_scalar; rewrite ?Elv, ?Elf; auto.
  apply model_right_decrease. unfold model_right. now rewrite HE.
Qed.
Print Assumptions C20_certified_neighbourhood.

(** The closed loop x -> x/2 on the line with V = |x|, tau = 1/8, at state 1. *)
Definition absV (x : list R) : R := Rabs (nth 0 x 0).
Definition half : setup :=
  {| lyapunov_function := absV; policy := fun _ => [];
     dynamics := fun x _ => Exact [nth 0 x 0 / 2];
     lip_v := LvConst 1; lip_f := LfConst (1 / 2); tau := 1 / 8 |}.
Definition d1 (a b : list R) : R := Rabs (nth 0 a 0 - nth 0 b 0).

Example C20_ex : forall e, Rabs e <= 1 / 8 -> absV [(1 + e) / 2] < absV [1 + e].
Proof.
  intros e He.
  apply (C20_certified_neighbourhood half (fun x => [nth 0 x 0 / 2]) d1 1 (1 / 2) [1] [1 + e]);
    auto; try lra.
  - intros a b. simpl. unfold absV, d1. pose proof (Rabs_triang_inv2 (nth 0 a 0) (nth 0 b 0)). lra.
  - intros a b. unfold d1; simpl. rewrite <- (Rabs_pos_eq (1 / 2)) by lra.
    rewrite <- Rabs_mult. right. f_equal. field.
  - unfold decrease, threshold, v_decrease_bound, lv_scalar, lf_scalar; simpl.
    unfold absV; simpl. rewrite !Rabs_pos_eq by lra. lra.
  - unfold d1; simpl. replace (1 + e - 1) with e by ring. exact He.
Qed.

(** The same with callables (local constants) and uncertain dynamics.  The local
    constant at [c] has to hold around [c] *and* around the successor of [c]. *)
Theorem C20_local_constants : forall S F (d : list R -> list R -> R) c x,
  model_right S F c ->
  0 <= lv_scalar S c -> 0 <= lf_scalar S c ->
  Rabs (lyapunov_function S x - lyapunov_function S c) <= lv_scalar S c * d x c ->
  Rabs (lyapunov_function S (F x) - lyapunov_function S (F c))
    <= lv_scalar S c * d (F x) (F c) ->
  d (F x) (F c) <= lf_scalar S c * d x c ->
  decrease S c < threshold S c (tau S) ->
  d x c <= tau S ->
  lyapunov_function S (F x) < lyapunov_function S x.
Proof.
  intros. eapply neighbourhood; eauto. now apply model_right_decrease.
Qed.
Print Assumptions C20_local_constants.

(** Two columns of constants: V = |x1| + 2|x2|, mean x/4 with error 1/16. *)
Definition V12 (x : list R) : R := Rabs (nth 0 x 0) + 2 * Rabs (nth 1 x 0).
Definition S12 : setup :=
  {| lyapunov_function := V12; policy := fun _ => [];
     dynamics := fun x _ => Uncertain [nth 0 x 0 / 4; nth 1 x 0 / 4] [1 / 16; 1 / 16];
     lip_v := LvFun (fun _ => [1; 2]); lip_f := LfFun (fun _ => 1 / 4); tau := 1 / 8 |}.

Example C20_local_ex :
  model_right S12 (fun x => [nth 0 x 0 / 4 + 1 / 20; nth 1 x 0 / 4]) [1; 1] /\
  threshold S12 [1; 1] (tau S12) = - (15 / 32) /\
  decrease S12 [1; 1] = - (33 / 16).
Proof.
  split; [|split].
  - unfold model_right; simpl. split; [|split; [reflexivity|split]].
    + split; [reflexivity|split; [reflexivity|]]. simpl.
      intros [|[|j]] Hj; simpl; try lia; unfold Rabs; destruct Rcase_abs; lra.
    + repeat constructor; lra.
    + unfold V12, wdist; simpl. unfold Rabs; repeat destruct Rcase_abs; lra.
  - unfold threshold, lv_scalar, lf_scalar, norm1; simpl.
    rewrite !Rabs_pos_eq by lra. field.
  - unfold decrease, v_decrease_bound; simpl. unfold weighted_error, V12; simpl.
    rewrite !Rabs_pos_eq by lra. field.
Qed.

(** When [lipschitz_lyapunov] returns one constant per coordinate, the certified
    neighbourhood consists of the points that differ from the grid state by at
    most [tau] in each coordinate. *)
Theorem C20_coordinate_constants : forall S F f c x,
  lip_v S = LvFun f -> length (f c) = length c -> (1 < length c)%nat ->
  Forall (Rle 0) (f c) -> 0 <= lf_scalar S c ->
  length x = length c -> length (F x) = length c -> length (F c) = length c ->
  model_right S F c ->
  Rabs (lyapunov_function S x - lyapunov_function S c) <= wdist (f c) x c ->
  Rabs (lyapunov_function S (F x) - lyapunov_function S (F c)) <= wdist (f c) (F x) (F c) ->
  (forall j, (j < length c)%nat -> Rabs (nth j x 0 - nth j c 0) <= tau S) ->
  (forall j, (j < length c)%nat ->
     Rabs (nth j (F x) 0 - nth j (F c) 0) <= lf_scalar S c * tau S) ->
  decrease S c < threshold S c (tau S) ->
  lyapunov_function S (F x) < lyapunov_function S x.
Proof.
  intros S F f c x Hf Lf Lc HP Hlf Lx LFx LFc HM HV HVF Hx HF Hd.
  assert (Elv : lv_scalar S c = norm1 (f c)).
  { unfold lv_scalar. rewrite Hf. cbv zeta. rewrite Lf.
    destruct (Nat.ltb_spec 1 (length c)); [reflexivity|lia]. }
  pose proof (wdist_norm1 (f c) x c (tau S) ltac:(lia) ltac:(lia) HP ltac:(rewrite Lx; auto)) as A.
  pose proof (wdist_norm1 (f c) (F x) (F c) (lf_scalar S c * tau S) ltac:(lia) ltac:(lia) HP
                ltac:(rewrite LFx; auto)) as B.
  apply model_right_decrease in HM. unfold threshold in Hd. rewrite Elv in Hd.
  pose proof (Rle_abs (lyapunov_function S (F x) - lyapunov_function S (F c))).
  pose proof (Rle_abs (- (lyapunov_function S x - lyapunov_function S c))) as H'.
  rewrite Rabs_Ropp in H'.
  assert (norm1 (f c) * (1 + lf_scalar S c) * tau S
          = norm1 (f c) * tau S + norm1 (f c) * (lf_scalar S c * tau S)) by ring.
  lra.
Qed.
Print Assumptions C20_coordinate_constants.

Example C20_coordinate_ex : forall x,
  length x = 2%nat ->
  (forall j, (j < 2)%nat -> Rabs (nth j x 0 - 1) <= 1 / 8) ->
  let F := fun x => [nth 0 x 0 / 4 + 1 / 20; nth 1 x 0 / 4] in
  lyapunov_function S12 (F x) < lyapunov_function S12 x.
Proof.
  intros x Lx Hx F. apply (C20_coordinate_constants S12 F (fun _ => [1; 2]) [1; 1] x); auto.
  - repeat constructor; lra.
  - unfold lf_scalar; simpl; lra.
  - apply C20_local_ex.
  - unfold S12, V12, wdist; simpl. destruct x as [|a [|b [|]]]; try discriminate. simpl.
    unfold Rabs; repeat destruct Rcase_abs; lra.
  - unfold S12, V12, wdist, F; simpl. destruct x as [|a [|b [|]]]; try discriminate. simpl.
    unfold Rabs; repeat destruct Rcase_abs; lra.
  - intros [|[|j]] Hj; simpl in Hj; try lia; simpl; [apply (Hx 0%nat)|apply (Hx 1%nat)]; lia.
  - intros [|[|j]] Hj; simpl in Hj; try lia; unfold F, lf_scalar; simpl;
      [pose proof (Hx 0%nat ltac:(lia)) as B|pose proof (Hx 1%nat ltac:(lia)) as B];
      revert B; unfold Rabs; repeat destruct Rcase_abs; lra.
  - destruct C20_local_ex as (_ & -> & ->). lra.
Qed.

(** With a constant that only holds within [tau] of the grid state itself, as the
    docstring of the class allows (lines 158-161), the certificate is not sound:
    the constant is also used for the change of [V] around the successor. *)
Theorem C20_local_around_state_only_refuted :
  ~ (forall S F (d : list R -> list R -> R) c x,
       (forall a, dynamics S a (policy S a) = Exact (F a)) ->
       0 <= lv_scalar S c -> 0 <= lf_scalar S c ->
       (forall y, d y c <= tau S ->
          Rabs (lyapunov_function S y - lyapunov_function S c) <= lv_scalar S c * d y c) ->
       (forall a b, d (F a) (F b) <= lf_scalar S c * d a b) ->
       decrease S c < threshold S c (tau S) ->
       d x c <= tau S ->
       lyapunov_function S (F x) < lyapunov_function S x).
Proof.
  intros H.
  set (V := fun x : list R => let a := nth 0 x 0 in
     if Rle_dec (Rabs a) 1 then 10 * Rabs a else 10 + (Rabs a - 1) / 10).
  set (F := fun x : list R => [9 / 10 + 9 * (nth 0 x 0 - 2)]).
  specialize (H {| lyapunov_function := V; policy := fun _ => []; dynamics := fun x _ => Exact (F x);
     lip_v := LvFun (fun _ => [1 / 10]); lip_f := LfConst 9; tau := 1 |} F d1 [2] [5 / 2]).
  unfold lv_scalar, lf_scalar in H; simpl in H.
  assert (A : V (F [5 / 2]) < V [5 / 2]).
  { apply H; try lra; auto.
    - intros y Hy. unfold d1 in *. simpl in *. unfold V; simpl.
      unfold Rabs in *. repeat destruct Rcase_abs; repeat destruct Rle_dec; try lra.
    - intros a b. unfold d1, F; simpl. unfold Rabs; repeat destruct Rcase_abs; lra.
    - unfold decrease, v_decrease_bound, threshold, lv_scalar, lf_scalar; simpl.
      unfold V, F; simpl. unfold Rabs; repeat destruct Rcase_abs; repeat destruct Rle_dec; try lra.
    - unfold d1; simpl. unfold Rabs; destruct Rcase_abs; lra. }
  unfold V, F in A; simpl in A. revert A.
  unfold Rabs; repeat destruct Rcase_abs; repeat destruct Rle_dec; lra.
Qed.
Print Assumptions C20_local_around_state_only_refuted.

(** ** C21: uncertain dynamics *)

(** For every true successor [y] within the error bounds, the computed bound is
    at least the change of [V], given per-coordinate constants between the mean
    and [y]; for deterministic dynamics it is the change. *)
Theorem C21_bound_covers_all_successors : forall S x,
  match dynamics S x (policy S x) with
  | Exact y => decrease S x = lyapunov_function S y - lyapunov_function S x
  | Uncertain mean err =>
    forall y, within y mean err ->
      length (coordinate_constants S mean) = length mean ->
      Forall (Rle 0) (coordinate_constants S mean) ->
      Rabs (lyapunov_function S y - lyapunov_function S mean)
        <= wdist (coordinate_constants S mean) y mean ->
      lyapunov_function S y - lyapunov_function S x <= decrease S x
  end.
Proof.
  intros S x. destruct (dynamics S x (policy S x)) as [y|mean err] eqn:E.
  - unfold decrease, v_decrease_bound. rewrite E. simpl. ring.
  - intros y Hw HL HP HV.
    apply (model_right_decrease S (fun _ => y) x). unfold model_right. rewrite E. auto.
Qed.
Print Assumptions C21_bound_covers_all_successors.

(** The bound is attained in the example: error 1/16 per coordinate, constants
    1 and 2, so the correction is 3/16. *)
Example C21_ex :
  decrease S12 [1; 1] = V12 [1 / 4; 1 / 4] - V12 [1; 1] + 3 / 16 /\
  V12 [1 / 4 + 1 / 16; 1 / 4 + 1 / 16] - V12 [1; 1] = decrease S12 [1; 1].
Proof.
  unfold decrease, v_decrease_bound; simpl. unfold weighted_error, V12; simpl.
  rewrite !Rabs_pos_eq by lra. split; field.
Qed.

(** ** C22: forward invariance *)

(** If all premises hold, trajectories of the true closed loop that start in
    {V < c_max - lv*tau} stay there for ever, and [V] strictly decreases in every
    step from a state whose nearest grid state is not in the initial set. *)
Theorem C22_forward_invariance :
  forall g S F lv lf sf L L' mr bs order x0,
  valid_grid g -> consistent L -> premises g S F lv lf L L' ->
  l_adaptive L = false \/ (mr <= 1)%Z ->
  sorts (l_vals L) order ->
  update_safe_set L (certificate S sf (grid_point g)) true mr bs order = Ok L' ->
  at_position order 0 x0 ->
  neg (certificate S sf (grid_point g)) x0 = true \/ initially_safe L x0 ->
  forall x n, length x = dims g ->
    lyapunov_function S x < l_cmax L' - lv * tau S ->
    lyapunov_function S (iterate n F x) < l_cmax L' - lv * tau S /\
    (forall k, state_to_index g (iterate n F x) = Ok (Z.of_nat k) ->
       ~ initially_safe L k ->
       lyapunov_function S (iterate (1 + n) F x) < lyapunov_function S (iterate n F x)).
Proof.
  intros g S F lv lf sf L L' mr bs order x0 VG HL PR Hact Hs EU Hp0 Hx0.
  destruct PR as [P1 P2 P3 P4 P5 P6 P7 P8 P9 P10 P11 P12].
  assert (Hsz : size L = length (all_points g)) by (unfold size; now rewrite P10, map_length).
  pose proof (all_points_length g VG) as AL.
  destruct (C17_below_level_is_safe _ _ _ _ _ _ _ _ HL Hs EU Hp0 Hx0) as (Hbelow & _).
  assert (Htau : 0 <= tau S).
  { apply Rle_trans with (sum (map (fun h => h / 2) (unit_maxes g))); auto.
    assert (Hu : forall l, (forall j, (j < length l)%nat -> 0 < nth j l 0) ->
              0 <= sum (map (fun h => h / 2) l)).
    { induction l as [|a l IHl]; intros Hl; simpl; [lra|].
      pose proof (Hl 0%nat ltac:(simpl; lia)) as Ha; simpl in Ha.
      assert (0 <= sum (map (fun h => h / 2) l)).
      { apply IHl. intros j Hj. apply (Hl (Datatypes.S j)). simpl; lia. }
      lra. }
    apply Hu. intros j Hj. rewrite unit_len in Hj by auto.
    rewrite unit_nth by auto. apply spacing_pos; auto. }
  (* one step *)
  assert (Step : forall x, length x = dims g ->
    lyapunov_function S x < l_cmax L' - lv * tau S ->
    lyapunov_function S (F x) < l_cmax L' - lv * tau S /\
    (forall k, state_to_index g x = Ok (Z.of_nat k) -> ~ initially_safe L k ->
       lyapunov_function S (F x) < lyapunov_function S x)).
  { intros x Hx HV.
    assert (Hlt : 0 <= lv * tau S) by (apply Rmult_le_pos; auto).
    assert (HI : inside g x) by (apply P11; auto; lra).
    destruct (nearest_cell g x VG Hx HI) as (k & Ek & Hk & Hd).
    destruct (grid_point_vertex g k VG Hk) as (Hv & Ep).
    assert (Hkn : (k < size L)%nat) by lia.
    assert (Hdt : dist1 x (grid_point g k) <= tau S) by lra.
    pose proof (vertex_inside g (grid_point g k) VG Hv) as HIp.
    assert (Rx : reached g F x) by (split; auto).
    assert (Rp : reached g F (grid_point g k)) by (split; [apply Hv | auto]).
    assert (Hval : value L k = lyapunov_function S (grid_point g k)).
    { unfold value. rewrite P10, nth_map' with (d' := []) by lia. now rewrite Ep. }
    assert (Hlvd : lv * dist1 x (grid_point g k) <= lv * tau S)
      by (apply Rmult_le_compat_l; auto).
    assert (Hbel : value L k < l_cmax L').
    { rewrite Hval. pose proof (P5 x (grid_point g k) Rx Rp) as HL1.
      pose proof (Rle_abs (- (lyapunov_function S x - lyapunov_function S (grid_point g k)))) as HA.
      rewrite Rabs_Ropp in HA. lra. }
    pose proof (Hbelow k Hkn Hbel) as Hsafe.
    assert (Hcases : initially_safe L k \/ ~ initially_safe L k).
    { rewrite initially_safe_omask. destruct (omask (l_init L) k); auto. }
    assert (Hdec : ~ initially_safe L k -> lyapunov_function S (F x) < lyapunov_function S x).
    { intros Hni.
      destruct (C15_sublevel_set _ _ _ _ _ _ HL Hs Hact EU k Hkn) as (_ & HC).
      destruct (HC Hsafe Hni) as (Hneg & _). simpl in Hneg. apply Rltb_true in Hneg.
      apply (neighbourhood S F dist1 (grid_point g k) x); auto;
        unfold lv_scalar, lf_scalar; rewrite ?P1, ?P2; auto.
      - apply model_right_decrease. apply P8; auto.
      - pose proof (proj1 Hv). apply P5; apply reached_succ; auto.
      - apply P6; auto. apply Hv. }
    split.
    - destruct Hcases as [Hi|Hni]; [eapply P12; eauto|]. specialize (Hdec Hni). lra.
    - intros k' Ek' Hni. rewrite Ek in Ek'. injection Ek' as Ek'.
      apply Nat2Z.inj in Ek'. subst k'. auto. }
  assert (Inv : forall n x, length x = dims g ->
    lyapunov_function S x < l_cmax L' - lv * tau S ->
    length (iterate n F x) = dims g /\
    lyapunov_function S (iterate n F x) < l_cmax L' - lv * tau S).
  { induction n as [|n IH]; intros x Hx HV; simpl; auto.
    destruct (IH x Hx HV) as (A & B). split; [apply P7; auto|]. apply Step; auto. }
  intros x n Hx HV. destruct (Inv n x Hx HV) as (A & B). split; auto.
  intros k Ek Hni. simpl. destruct (Step (iterate n F x) A B) as (_ & D). eauto.
Qed.
Print Assumptions C22_forward_invariance.

(** An instance: the grid -4, -3, ..., 4, V = |x|, a closed loop that maps
    [-3, oo) to 0 and is steep to the left of -3.  The initial set is -2..2. *)
Definition g9 : grid := Grid [(-4, 4)] [9%Z].
Definition F9 (x : list R) : list R :=
  [if Rle_dec (-3) (nth 0 x 0) then 0 else 24 / 5 * (nth 0 x 0 + 3)].
Definition S9 : setup :=
  {| lyapunov_function := absV; policy := fun _ => []; dynamics := fun x _ => Exact (F9 x);
     lip_v := LvConst 1; lip_f := LfConst (24 / 5); tau := 1 / 2 |}.
Definition vals9 : list R := map absV (all_points g9).
Definition mask9 : list bool := [false; false; true; true; true; true; true; false; false].
Definition L9 : lyap :=
  {| l_init := Some mask9; l_adaptive := false; l_vals := vals9; l_safe := mask9;
     l_ref := [0; 0; 1; 1; 1; 1; 1; 0; 0]%Z; l_cmax := 0 |}.
Definition order9 : list nat := [4; 3; 5; 2; 6; 1; 7; 8; 0]%nat.
Definition L9' : lyap :=
  {| l_init := Some mask9; l_adaptive := false; l_vals := vals9;
     l_safe := [false; true; true; true; true; true; true; true; true];
     l_ref := [0; 1; 1; 1; 1; 1; 1; 1; 1]%Z; l_cmax := nth 8 vals9 0 |}.

Lemma g9_valid : valid_grid g9.
Proof. unfold valid_grid, g9; simpl. repeat constructor; simpl; try lra; lia. Qed.

Lemma point9 k : (k < 9)%nat -> grid_point g9 k = [-4 + INR k].
Proof.
  intros H. do 9 (destruct k as [|k]; [unfold grid_point, index_to_state; simpl;
    rewrite Z.div_1_r; f_equal; lra|]). lia.
Qed.

Lemma vals9_nth k : (k < 9)%nat -> nth k vals9 0 = Rabs (-4 + INR k).
Proof.
  intros H. unfold vals9. pose proof (all_points_length g9 g9_valid) as AL.
  change (nindex g9) with 9%Z in AL.
  rewrite nth_map' with (d' := []) by lia.
  destruct (grid_point_vertex g9 k g9_valid) as (_ & <-).
  { change (nindex g9) with 9%Z. lia. }
  rewrite point9 by auto. reflexivity.
Qed.

Lemma vals9_length : length vals9 = 9%nat.
Proof.
  unfold vals9. rewrite map_length. pose proof (all_points_length g9 g9_valid) as AL.
  change (nindex g9) with 9%Z in AL. lia.
Qed.

Lemma order9_sorts : sorts vals9 order9.
Proof.
  split.
  - rewrite vals9_length. apply NoDup_Permutation.
    + repeat constructor; simpl; intuition lia.
    + apply seq_NoDup.
    + intros x. rewrite in_seq. unfold order9; simpl. lia.
  - rewrite vals9_length. intros p q H1 H2.
    assert (A : forall k, (k < 9)%nat -> (nth k order9 0 < 9)%nat).
    { intros k Hk. do 9 (destruct k as [|k]; [simpl; lia|]). lia. }
    rewrite !vals9_nth by (apply A; lia).
    assert (B : forall k, (k < 8)%nat ->
       Rabs (-4 + INR (nth k order9 0%nat)) <= Rabs (-4 + INR (nth (Datatypes.S k) order9 0%nat))).
    { intros k Hk. do 8 (destruct k as [|k]; [simpl; unfold Rabs; repeat destruct Rcase_abs; lra|]).
      lia. }
    clear A. induction q as [|q IH]; [lia|].
    destruct (Nat.eq_dec p q) as [->|]; [apply B; lia|].
    apply Rle_trans with (Rabs (-4 + INR (nth q order9 0%nat))); [apply IH; lia|].
    apply B; lia.
Qed.

Lemma neg9 k : (k < 9)%nat -> neg (certificate S9 1 (grid_point g9)) k =
  nth k [false; true; false; false; false; false; false; true; true] false.
Proof.
  intros H. simpl. rewrite point9 by auto.
  unfold decrease, v_decrease_bound, threshold, lv_scalar, lf_scalar; simpl.
  unfold absV, F9; simpl.
  do 9 (destruct k as [|k]; [simpl;
     first [apply Rltb_true | apply Rltb_false];
     unfold Rabs; repeat destruct Rcase_abs; repeat destruct Rle_dec; lra|]). lia.
Qed.

Lemma update_ext L C1 C2 sh mr bs order :
  (forall x, In x order -> neg C1 x = neg C2 x) ->
  l_adaptive L = false ->
  update_safe_set L C1 sh mr bs order = update_safe_set L C2 sh mr bs order.
Proof.
  intros H Ha. rewrite !update_safe_set_eq. destruct (start_sets L sh) as [[s r]|]; simpl; auto.
  assert (E : forall b s r last,
    verify C1 (l_adaptive L) (l_init L) mr order bs b s r last =
    verify C2 (l_adaptive L) (l_init L) mr order bs b s r last).
  { clear s r. induction b as [|i b IH]; intros s r last; simpl; auto.
    assert (E : forall sb rb,
      batch_pass C1 (l_adaptive L) (l_init L) mr (slice i (i + bs) order) sb rb =
      batch_pass C2 (l_adaptive L) (l_init L) mr (slice i (i + bs) order) sb rb).
    { intros sb rb. unfold batch_pass. rewrite Ha. simpl.
      assert (E : map (neg C1) (slice i (i + bs) order) = map (neg C2) (slice i (i + bs) order)).
      { apply map_ext_in. intros x Hx. apply H. unfold slice in Hx.
        assert (Hi : In x (skipn i order)).
        { rewrite <- (firstn_skipn (i + bs - i) (skipn i order)). apply in_or_app; auto. }
        rewrite <- (firstn_skipn i order). apply in_or_app; auto. }
      rewrite E. reflexivity. }
    rewrite E. destruct (batch_pass C2 _ _ _ _ _ _) as [p|]; simpl; auto.
    destruct (p_break p); auto. }
  rewrite E. reflexivity.
Qed.

Lemma update9 :
  update_safe_set L9 (certificate S9 1 (grid_point g9)) true 1 4 order9 = Ok L9'.
Proof.
  rewrite (update_ext _ _ {| neg := fun k => nth k [false; true; false; false; false; false; false; true; true] false;
     nreq := fun _ => 0%Z; passes := fun _ _ _ => false |}).
  - rewrite update_safe_set_eq. unfold L9, L9'. simpl l_vals.
    remember vals9 as v eqn:Ev. pose proof vals9_length as E. rewrite <- Ev in E.
    destruct v as [|v0 [|v1 [|v2 [|v3 [|v4 [|v5 [|v6 [|v7 [|v8 [|]]]]]]]]]]; try discriminate E.
    reflexivity.
  - intros x Hx. rewrite neg9; [reflexivity|].
    unfold order9 in Hx; simpl in Hx. lia.
  - reflexivity.
Qed.

Lemma L9_consistent : consistent L9.
Proof.
  assert (E : size L9 = 9%nat) by exact vals9_length.
  constructor; rewrite E; auto. intros m Em; injection Em as <-; reflexivity.
Qed.

Lemma cmax9 : l_cmax L9' = 4.
Proof. change (nth 8 vals9 0 = 4). rewrite vals9_nth by lia. simpl. unfold Rabs; destruct Rcase_abs; lra. Qed.

Lemma one_dim (x : list R) : length x = 1%nat -> x = [nth 0 x 0].
Proof. destruct x as [|a [|]]; try discriminate; auto. Qed.

Lemma premises9 : premises g9 S9 F9 1 (24 / 5) L9 L9'.
Proof.
  constructor; try reflexivity; try lra.
  - intros x y (Hx & _) (Hy & _). simpl. apply one_dim in Hx, Hy. rewrite Hx, Hy. simpl.
    unfold absV, dist1; simpl. rewrite Rplus_0_r.
    pose proof (Rabs_triang_inv2 (nth 0 x 0) (nth 0 y 0)). lra.
  - intros x y Hx _ Hy _. apply one_dim in Hx, Hy. rewrite Hx, Hy. simpl.
    unfold dist1, F9; simpl. rewrite !Rplus_0_r.
    unfold Rabs; repeat destruct Rcase_abs; repeat destruct Rle_dec; lra.
  - simpl. unfold upper, lower; simpl. lra.
  - intros x Hx HV. rewrite cmax9 in HV. intros j Hj. change (dims g9) with 1%nat in Hj.
    assert (j = 0%nat) by lia. subst j. unfold lower, upper; simpl.
    simpl in HV. unfold absV in HV. unfold coordinate.
    apply Rabs_def2 in HV. lra.
  - intros k x (m & Em & Hk) Hx Hd HV. rewrite cmax9 in *. simpl in Em.
    injection Em as <-.
    assert (Hk9 : (2 <= k <= 6)%nat).
    { destruct (Nat.lt_ge_cases k 9); [|rewrite nth_overflow in Hk by (simpl; lia); discriminate].
      do 9 (destruct k as [|k]; [simpl in Hk; try discriminate; lia|]). lia. }
    rewrite point9 in Hd by lia. apply one_dim in Hx. rewrite Hx in *. simpl in *.
    unfold dist1 in Hd; simpl in Hd. unfold F9, absV in *; simpl in *.
    assert (HR : 2 <= INR k <= 6).
    { split; [replace 2 with (INR 2) by (simpl; lra)|replace 6 with (INR 6) by (simpl; lra)];
        apply le_INR; lia. }
    destruct (Rle_dec (-3) (nth 0 x 0)) as [|Hn].
    + rewrite Rabs_R0. lra.
    + exfalso. unfold Rabs in Hd. destruct Rcase_abs; lra.
Qed.

Example C22_ex : forall a n, Rabs a < 7 / 2 -> absV (iterate n F9 [a]) < 7 / 2.
Proof.
  intros a n Ha.
  pose proof (C22_forward_invariance g9 S9 F9 1 (24 / 5) 1 L9 L9' 1 4 order9 4
    g9_valid L9_consistent premises9 (or_introl eq_refl) order9_sorts update9) as H.
  destruct (H (conj (Nat.lt_0_succ _) eq_refl)
     (or_intror (ex_intro _ mask9 (conj eq_refl eq_refl))) [a] n eq_refl) as (A & _).
  - rewrite cmax9. simpl. unfold absV; simpl. lra.
  - rewrite cmax9 in A. simpl in A. lra.
Qed.

(** Within a number of steps that does not depend on the start, trajectories reach a
    state whose nearest grid state is in the initial set.  This holds for the states
    below c_max - lv*tau and for the safe grid states up to c_max. *)
Theorem C22_reaches_initial_set :
  forall g S F lv lf sf L L' mr bs order x0,
  valid_grid g -> consistent L -> premises g S F lv lf L L' ->
  l_adaptive L = false \/ (mr <= 1)%Z ->
  sorts (l_vals L) order ->
  update_safe_set L (certificate S sf (grid_point g)) true mr bs order = Ok L' ->
  at_position order 0 x0 ->
  neg (certificate S sf (grid_point g)) x0 = true \/ initially_safe L x0 ->
  exists N, forall x, length x = dims g ->
    lyapunov_function S x < l_cmax L' - lv * tau S \/
    (exists k, (k < size L)%nat /\ x = grid_point g k /\ safe L' k /\ lyapunov_function S x <= l_cmax L') ->
    exists n k, (n <= N)%nat /\ state_to_index g (iterate n F x) = Ok (Z.of_nat k) /\ initially_safe L k.
Proof.
  intros g S F lv lf sf L L' mr bs order x0 VG HL PR Hact Hs EU Hp0 Hx0.
  pose proof (C22_forward_invariance g S F lv lf sf L L' mr bs order x0 VG HL PR Hact Hs EU Hp0 Hx0) as INV.
  pose proof PR as [P1 P2 P3 P4 P5 P6 P7 P8 P9 P10 P11 P12].
  assert (Hsz : size L = length (all_points g)) by (unfold size; now rewrite P10, map_length).
  pose proof (all_points_length g VG) as AL.
  destruct (C17_below_level_is_safe _ _ _ _ _ _ _ _ HL Hs EU Hp0 Hx0) as (Hbelow & _).
  set (V := lyapunov_function S) in *. set (c := l_cmax L') in *.
  set (margin := fun k => threshold S (grid_point g k) (tau S) - decrease S (grid_point g k)).
  destruct (common_margin (fun k => 0 < margin k) margin (fun k H => H) (size L)) as (e & He & Hm).
  destruct (lower_bound (fun k => V (grid_point g k)) (size L)) as (b & Hb).
  assert (Hval : forall k, (k < size L)%nat -> value L k = V (grid_point g k)).
  { intros k Hk. destruct (grid_point_vertex g k VG ltac:(lia)) as (_ & Ep).
    unfold value. rewrite P10, nth_map' with (d' := []) by lia. now rewrite Ep. }
  assert (Hpos : forall k, (k < size L)%nat -> safe L' k -> ~ initially_safe L k -> e <= margin k).
  { intros k Hk Hsafe Hni.
    destruct (C15_sublevel_set _ _ _ _ _ _ HL Hs Hact EU k Hk) as (_ & HC).
    destruct (HC Hsafe Hni) as (Hneg & _). cbn in Hneg. apply Rltb_true in Hneg.
    apply Hm; auto. unfold margin. lra. }
  assert (Hcase : forall k, initially_safe L k \/ ~ initially_safe L k).
  { intros k. rewrite initially_safe_omask. destruct (omask (l_init L) k); auto. }
  assert (Hdt : forall x, length x = dims g -> inside g x ->
     exists k, (k < size L)%nat /\ state_to_index g x = Ok (Z.of_nat k) /\ dist1 x (grid_point g k) <= tau S).
  { intros x Hx HI. destruct (nearest_cell g x VG Hx HI) as (k & Ek & Hk & Hd).
    exists k. split; [lia|]. split; [auto|lra]. }
  assert (Htau : 0 <= tau S).
  { assert (Hu : forall l, (forall j, (j < length l)%nat -> 0 < nth j l 0) ->
              0 <= sum (map (fun h => h / 2) l)).
    { induction l as [|a l IHl]; intros Hl; simpl; [lra|].
      pose proof (Hl 0%nat ltac:(simpl; lia)) as Ha; simpl in Ha.
      assert (0 <= sum (map (fun h => h / 2) l)).
      { apply IHl. intros j Hj. apply (Hl (Datatypes.S j)). simpl; lia. }
      lra. }
    apply Rle_trans with (sum (map (fun h => h / 2) (unit_maxes g))); auto.
    apply Hu. intros j Hj. rewrite unit_len in Hj by auto.
    rewrite unit_nth by auto. apply spacing_pos; auto. }
  assert (Hlt : 0 <= lv * tau S) by (apply Rmult_le_pos; auto).
  (* one step decreases V by at least e *)
  assert (Step : forall x k, length x = dims g -> V x < c - lv * tau S ->
     state_to_index g x = Ok (Z.of_nat k) -> ~ initially_safe L k -> V (F x) <= V x - e).
  { intros x k Hx HV Ek Hni. assert (HI : inside g x) by (apply P11; auto; fold V c; lra).
    destruct (Hdt x Hx HI) as (k' & Hk & Ek' & Hd). rewrite Ek in Ek'. injection Ek' as Ek'.
    apply Nat2Z.inj in Ek'. subst k'.
    destruct (grid_point_vertex g k VG ltac:(lia)) as (Hv & _).
    pose proof (vertex_inside g (grid_point g k) VG Hv) as HIp.
    assert (Rx : reached g F x) by (split; auto).
    assert (Rp : reached g F (grid_point g k)) by (split; [apply Hv | auto]).
    pose proof (P5 x (grid_point g k) Rx Rp) as HL1. fold V in HL1.
    assert (Hlvd : lv * dist1 x (grid_point g k) <= lv * tau S) by (apply Rmult_le_compat_l; auto).
    assert (Hbel : value L k < c).
    { rewrite Hval by auto.
      pose proof (Rle_abs (- (V x - V (grid_point g k)))) as HA. rewrite Rabs_Ropp in HA. lra. }
    pose proof (Hpos k Hk (Hbelow k Hk Hbel) Hni) as HM. unfold margin, threshold in HM.
    unfold lv_scalar, lf_scalar in HM. rewrite P1, P2 in HM.
    pose proof (model_right_decrease S F _ (P8 _ Hv)) as HD. fold V in HD.
    pose proof (proj1 Hv) as LP.
    assert (HL2 : Rabs (V (F x) - V (F (grid_point g k))) <= lv * dist1 (F x) (F (grid_point g k)))
      by (apply P5; apply reached_succ; auto).
    pose proof (P6 x (grid_point g k) Hx HI LP HIp) as HF.
    assert (A2 : lv * dist1 (F x) (F (grid_point g k)) <= lv * (lf * tau S)).
    { apply Rmult_le_compat_l; auto. apply Rle_trans with (lf * dist1 x (grid_point g k)); auto.
      apply Rmult_le_compat_l; auto. }
    pose proof (Rle_abs (V (F x) - V (F (grid_point g k)))) as B1.
    pose proof (Rle_abs (- (V x - V (grid_point g k)))) as B2. rewrite Rabs_Ropp in B2.
    assert (lv * (1 + lf) * tau S = lv * tau S + lv * (lf * tau S)) by ring. lra. }
  (* below c - lv tau *)
  destruct (archimed ((c - b) / e)) as (HN & _).
  set (M := Z.to_nat (up ((c - b) / e))).
  assert (HMe : c - b < INR M * e).
  { assert (HNM : (c - b) / e < INR M).
    { unfold M. destruct (Z_le_gt_dec 0 (up ((c - b) / e))) as [Z|Z].
      - rewrite INR_IZR_INZ, Z2Nat.id by auto. exact HN.
      - apply Rlt_le_trans with (IZR (up ((c - b) / e))); [exact HN|].
        apply Rle_trans with 0; [|apply pos_INR]. apply IZR_le. lia. }
    apply Rmult_lt_compat_r with (r := e) in HNM; auto. unfold Rdiv in HNM.
    rewrite Rmult_assoc, Rinv_l, Rmult_1_r in HNM by lra. exact HNM. }
  assert (Reach : forall x, length x = dims g -> V x < c - lv * tau S ->
     exists n k, (n <= M)%nat /\ state_to_index g (iterate n F x) = Ok (Z.of_nat k) /\ initially_safe L k).
  { intros x Hx HV.
    assert (LF : forall n, length (iterate n F x) = dims g).
    { induction n; cbn; auto. }
    assert (IDX : forall n, exists k, (k < size L)%nat /\ state_to_index g (iterate n F x) = Ok (Z.of_nat k) /\
               b - lv * tau S <= V (iterate n F x)).
    { intros n. destruct (INV x n Hx HV) as (HVn & _). fold V in HVn.
      assert (HI : inside g (iterate n F x)) by (apply P11; auto; fold V c; lra).
      destruct (Hdt _ (LF n) HI) as (k & Hk & Ek & Hd). exists k. split; [auto|]. split; [auto|].
      destruct (grid_point_vertex g k VG ltac:(lia)) as (Hv & _).
      pose proof (vertex_inside g (grid_point g k) VG Hv) as HIp.
      assert (Rx : reached g F (iterate n F x)) by (split; auto).
      assert (Rp : reached g F (grid_point g k)) by (split; [apply Hv | auto]).
      pose proof (P5 _ (grid_point g k) Rx Rp) as HL1. fold V in HL1.
      assert (Hlvd : lv * dist1 (iterate n F x) (grid_point g k) <= lv * tau S) by (apply Rmult_le_compat_l; auto).
      pose proof (Rle_abs (- (V (iterate n F x) - V (grid_point g k)))) as HA. rewrite Rabs_Ropp in HA.
      pose proof (Hb k Hk). cbn in *. lra. }
    (* either found, or V has decreased *)
    assert (Go : forall n, (exists m k, (m < n)%nat /\ state_to_index g (iterate m F x) = Ok (Z.of_nat k) /\ initially_safe L k) \/
                 V (iterate n F x) <= V x - INR n * e).
    { induction n as [|n IH]; [right; cbn; lra|].
      destruct IH as [(m & k & Hm' & Hk)|IH]; [left; exists m, k; split; [lia|auto]|].
      destruct (IDX n) as (k & Hk & Ek & _). destruct (Hcase k) as [Hi|Hi].
      - left. exists n, k. auto.
      - right. destruct (INV x n Hx HV) as (HVn & _). fold V in HVn.
        pose proof (Step _ k (LF n) HVn Ek Hi) as ST. cbn [iterate]. rewrite S_INR. lra. }
    destruct (Go M) as [(m & k & Hm' & Hk)|G]; [exists m, k; split; [lia|auto]|].
    destruct (IDX M) as (_ & _ & _ & HB). lra. }
  exists (Datatypes.S M). intros x Hx [HV|(k & Hk & Ex & Hsafe & HV)].
  { destruct (Reach x Hx HV) as (n & k & Hn & R). exists n, k. split; [lia|auto]. }
  destruct (grid_point_vertex g k VG ltac:(lia)) as (Hv & _).
  destruct (Hcase k) as [Hi|Hi].
  { exists 0%nat, k. split; [lia|]. split; auto. cbn. rewrite Ex. unfold grid_point.
    destruct (round_trip g VG (Z.of_nat k) ltac:(lia)) as (s & Es & Ei). rewrite Es. exact Ei. }
  pose proof (Hpos k Hk Hsafe Hi) as HM. unfold margin, threshold in HM.
  unfold lv_scalar, lf_scalar in HM. rewrite P1, P2 in HM.
  pose proof (model_right_decrease S F _ (P8 _ Hv)) as HD. rewrite <- Ex in HD, HM. fold V in HD.
  assert (0 <= lv * (lf * tau S)) by (apply Rmult_le_pos; auto; apply Rmult_le_pos; auto).
  assert (lv * (1 + lf) * tau S = lv * tau S + lv * (lf * tau S)) by ring.
  destruct (Reach (F x) (P7 x Hx) ltac:(lra)) as (n & k' & Hn & R).
  exists (Datatypes.S n), k'. split; [lia|].
  assert (IT : forall m, iterate (Datatypes.S m) F x = iterate m F (F x)).
  { induction m as [|m IHm]; [reflexivity|]. cbn [iterate] in *. now rewrite IHm. }
  rewrite IT. exact R.
Qed.
Print Assumptions C22_reaches_initial_set.

Example C22_reaches_initial_set_ex : exists N, forall a, Rabs a < 7 / 2 ->
  exists n k, (n <= N)%nat /\ state_to_index g9 (iterate n F9 [a]) = Ok (Z.of_nat k) /\ (2 <= k <= 6)%nat.
Proof.
  destruct (C22_reaches_initial_set g9 S9 F9 1 (24 / 5) 1 L9 L9' 1 4 order9 4
    g9_valid L9_consistent premises9 (or_introl eq_refl) order9_sorts update9
    (conj (Nat.lt_0_succ _) eq_refl) (or_intror (ex_intro _ mask9 (conj eq_refl eq_refl)))) as (N & H).
  exists N. intros a Ha. destruct (H [a] eq_refl) as (n & k & Hn & E & m & Em & Hk).
  - left. rewrite cmax9. simpl. unfold absV; simpl. lra.
  - exists n, k. split; [exact Hn|]. split; [exact E|]. cbn in Em. injection Em as <-.
    destruct (Nat.lt_ge_cases k 9); [|rewrite nth_overflow in Hk by (simpl; lia); discriminate].
    do 9 (destruct k as [|k]; [simpl in Hk; try discriminate; lia|]). lia.
Qed.

(** An instance with a quadratic function, whose constant is valid on the box only:
    V = x^2 on the same grid, the closed loop x -> x / 2. *)
Definition sqV (x : list R) : R := nth 0 x 0 * nth 0 x 0.
Definition Fq (x : list R) : list R := [nth 0 x 0 / 2].
Definition Sq : setup :=
  {| lyapunov_function := sqV; policy := fun _ => []; dynamics := fun x _ => Exact (Fq x);
     lip_v := LvConst 8; lip_f := LfConst (1 / 2); tau := 1 / 2 |}.
Definition valsq : list R := map sqV (all_points g9).
Definition Lq (safe : list bool) (ref : list Z) (c : R) : lyap :=
  {| l_init := Some mask9; l_adaptive := false; l_vals := valsq; l_safe := safe;
     l_ref := ref; l_cmax := c |}.
Definition Lq0 : lyap := Lq mask9 [0; 0; 1; 1; 1; 1; 1; 0; 0]%Z 0.
Definition Lq1 : lyap := Lq (repeat true 9) (repeat 1%Z 9) (nth 8 valsq 0).

Lemma valsq_length : length valsq = 9%nat.
Proof.
  unfold valsq. rewrite map_length. pose proof (all_points_length g9 g9_valid) as AL.
  change (nindex g9) with 9%Z in AL. lia.
Qed.

Lemma valsq_nth k : (k < 9)%nat -> nth k valsq 0 = (-4 + INR k) * (-4 + INR k).
Proof.
  intros H. pose proof valsq_length as AL. unfold valsq in *. rewrite map_length in AL.
  rewrite nth_map' with (d' := []) by lia.
  destruct (grid_point_vertex g9 k g9_valid) as (_ & <-).
  - change (nindex g9) with 9%Z. lia.
  - rewrite point9 by auto. reflexivity.
Qed.

Lemma orderq_sorts : sorts (l_vals Lq0) order9.
Proof.
  simpl l_vals. split.
  - rewrite valsq_length. pose proof (proj1 order9_sorts) as A. simpl l_vals in A.
    now rewrite vals9_length in A.
  - rewrite valsq_length. intros p q H1 H2.
    assert (A : forall k, (k < 9)%nat -> (nth k order9 0 < 9)%nat).
    { intros k Hk. do 9 (destruct k as [|k]; [simpl; lia|]). lia. }
    rewrite !valsq_nth by (apply A; lia).
    set (sq := fun k => (-4 + INR (nth k order9 0%nat)) * (-4 + INR (nth k order9 0%nat))).
    assert (B : forall k, (k < 8)%nat -> sq k <= sq (Datatypes.S k)).
    { intros k Hk. unfold sq. do 8 (destruct k as [|k]; [simpl; lra|]). lia. }
    clear A. change (sq p <= sq q). induction q as [|q IH]; [lia|].
    destruct (Nat.eq_dec p q) as [->|]; [apply B; lia|].
    apply Rle_trans with (sq q); [apply IH; lia|]. apply B; lia.
Qed.

Lemma negq k : (k < 9)%nat -> neg (certificate Sq 1 (grid_point g9)) k =
  nth k [true; true; false; false; false; false; false; true; true] false.
Proof.
  intros H. simpl. rewrite point9 by auto.
  unfold decrease, v_decrease_bound, threshold, lv_scalar, lf_scalar; simpl.
  unfold sqV, Fq; simpl.
  do 9 (destruct k as [|k]; [simpl; first [apply Rltb_true | apply Rltb_false]; lra|]). lia.
Qed.

Lemma updateq :
  update_safe_set Lq0 (certificate Sq 1 (grid_point g9)) true 1 4 order9 = Ok Lq1.
Proof.
  rewrite (update_ext _ _ {| neg := fun k => nth k [true; true; false; false; false; false; false; true; true] false;
     nreq := fun _ => 0%Z; passes := fun _ _ _ => false |}).
  - rewrite update_safe_set_eq. unfold Lq0, Lq1, Lq. simpl l_vals.
    remember valsq as v eqn:Ev. pose proof valsq_length as E. rewrite <- Ev in E.
    destruct v as [|v0 [|v1 [|v2 [|v3 [|v4 [|v5 [|v6 [|v7 [|v8 [|]]]]]]]]]]; try discriminate E.
    reflexivity.
  - intros x Hx. rewrite negq; [reflexivity|].
    unfold order9 in Hx; simpl in Hx. lia.
  - reflexivity.
Qed.

Lemma cmaxq : l_cmax Lq1 = 16.
Proof. change (nth 8 valsq 0 = 16). rewrite valsq_nth by lia. simpl. lra. Qed.

Lemma premisesq : premises g9 Sq Fq 8 (1 / 2) Lq0 Lq1.
Proof.
  assert (I9 : forall x, inside g9 x -> -4 <= nth 0 x 0 <= 4).
  { intros x H. specialize (H 0%nat). unfold lower, upper, coordinate in H; simpl in H.
    apply H. apply Nat.lt_0_1. }
  assert (I9' : forall x, reached g9 Fq x -> length x = 1%nat /\ -4 <= nth 0 x 0 <= 4).
  { intros x (HL & [H | (z & _ & H & ->)]); apply I9 in H; split; auto. simpl. lra. }
  constructor; try reflexivity; try lra.
  - intros x y Hx Hy. apply I9' in Hx as (Lx & Hx), Hy as (Ly & Hy). simpl.
    apply one_dim in Lx, Ly. rewrite Lx, Ly. unfold sqV, dist1; simpl.
    set (a := nth 0 x 0) in *. set (b := nth 0 y 0) in *.
    replace (a * a - b * b) with ((a + b) * (a - b)) by ring.
    rewrite Rabs_mult, Rplus_0_r. apply Rmult_le_compat_r; [apply Rabs_pos|].
    unfold Rabs; destruct Rcase_abs; lra.
  - intros x y Hx _ Hy _. apply one_dim in Hx, Hy. rewrite Hx, Hy. simpl.
    unfold dist1, Fq; simpl. unfold Rabs; repeat destruct Rcase_abs; lra.
  - simpl. unfold upper, lower; simpl. lra.
  - intros x Hx HV. rewrite cmaxq in HV. intros j Hj. change (dims g9) with 1%nat in Hj.
    assert (j = 0%nat) by lia. subst j. unfold lower, upper; simpl.
    simpl in HV. unfold sqV in HV. unfold coordinate. nra.
  - intros k x _ Hx _ HV. rewrite cmaxq in *. simpl in *. unfold sqV, Fq in *; simpl in *. nra.
Qed.

Example C22_quadratic_ex : forall a n, a * a < 12 -> sqV (iterate n Fq [a]) < 12.
Proof.
  intros a n Ha.
  pose proof (C22_forward_invariance g9 Sq Fq 8 (1 / 2) 1 Lq0 Lq1 1 4 order9 4
    g9_valid) as H.
  assert (CL : consistent Lq0).
  { assert (E : size Lq0 = 9%nat) by exact valsq_length.
    constructor; rewrite E; auto. intros m Em; injection Em as <-; reflexivity. }
  destruct (H CL premisesq (or_introl eq_refl) orderq_sorts updateq (conj (Nat.lt_0_succ _) eq_refl)
     (or_intror (ex_intro _ mask9 (conj eq_refl eq_refl))) [a] n eq_refl) as (A & _).
  - rewrite cmaxq. simpl. unfold sqV; simpl. lra.
  - rewrite cmaxq in A. simpl in A. lra.
Qed.

(** The larger set {V < c_max} of continuous states is not invariant. *)
Theorem C22_full_level_set_refuted :
  ~ (forall g S F lv lf sf L L' mr bs order x0,
     valid_grid g -> consistent L -> premises g S F lv lf L L' ->
     l_adaptive L = false -> sorts (l_vals L) order ->
     update_safe_set L (certificate S sf (grid_point g)) true mr bs order = Ok L' ->
     at_position order 0 x0 ->
     neg (certificate S sf (grid_point g)) x0 = true \/ initially_safe L x0 ->
     forall x, length x = dims g ->
       lyapunov_function S x < l_cmax L' -> lyapunov_function S (F x) < l_cmax L').
Proof.
  intros H.
  specialize (H g9 S9 F9 1 (24 / 5) 1 L9 L9' 1%Z 4%nat order9 4%nat
    g9_valid L9_consistent premises9 eq_refl order9_sorts update9
    (conj (Nat.lt_0_succ _) eq_refl) (or_intror (ex_intro _ mask9 (conj eq_refl eq_refl)))
    [- (79 / 20)] eq_refl).
  rewrite cmax9 in H. simpl in H. unfold absV, F9 in H; simpl in H.
  destruct (Rle_dec (-3) (- (79 / 20))); [lra|].
  assert (A : Rabs (- (79 / 20)) < 4) by (unfold Rabs; destruct Rcase_abs; lra).
  specialize (H A). revert H. unfold Rabs; destruct Rcase_abs; lra.
Qed.
Print Assumptions C22_full_level_set_refuted.

(** ** C23: more conservative inputs *)

(** Larger error bounds, Lipschitz constants and tau certify fewer states.  With
    [C23_fewer_certificates_smaller_set] this gives smaller safe sets. *)
Theorem C23_conservative_inputs : forall S1 S2 sf pt lv1 lv2 lf1 lf2 mean e1 e2 k,
  lyapunov_function S1 = lyapunov_function S2 ->
  lip_v S1 = LvConst lv1 -> lip_v S2 = LvConst lv2 -> 0 <= lv2 <= lv1 ->
  lip_f S1 = LfConst lf1 -> lip_f S2 = LfConst lf2 -> 0 <= lf2 <= lf1 ->
  0 <= tau S2 <= tau S1 ->
  dynamics S1 (pt k) (policy S1 (pt k)) = Uncertain mean e1 ->
  dynamics S2 (pt k) (policy S2 (pt k)) = Uncertain mean e2 ->
  Forall2 (fun a b => 0 <= b <= a) e1 e2 ->
  neg (certificate S1 sf pt) k = true -> neg (certificate S2 sf pt) k = true.
Proof.
  intros S1 S2 sf pt lv1 lv2 lf1 lf2 mean e1 e2 k EV V1 V2 Hlv F1 F2 Hlf Ht D1 D2 He.
  simpl. rewrite !Rltb_true. unfold decrease, v_decrease_bound. rewrite D1, D2. simpl.
  unfold weighted_error, threshold, lv_scalar, lf_scalar. rewrite V1, V2, F1, F2, EV.
  assert (A : 0 <= sum (map (fun e => lv2 * e) e2) <= sum (map (fun e => lv1 * e) e1)).
  { induction He as [|a b e1 e2 Hab He IH] in |- *; simpl; [lra|].
    assert (B : 0 <= sum (map (fun e => lv2 * e) e2) <= sum (map (fun e => lv1 * e) e1)).
    { clear -He Hlv. induction He as [|a b e1 e2 Hab He IH]; simpl; [lra|].
      assert (0 <= lv2 * b) by (apply Rmult_le_pos; lra).
      assert (lv2 * b <= lv1 * a) by (apply Rmult_le_compat; lra). lra. }
    assert (0 <= lv2 * b) by (apply Rmult_le_pos; lra).
    assert (lv2 * b <= lv1 * a) by (apply Rmult_le_compat; lra). lra. }
  assert (B : lv2 * (1 + lf2) * tau S2 <= lv1 * (1 + lf1) * tau S1).
  { apply Rmult_le_compat; try lra.
    - apply Rmult_le_pos; lra.
    - apply Rmult_le_compat; lra. }
  intros H. lra.
Qed.
Print Assumptions C23_conservative_inputs.

(** Error bounds 1/16 and 1/8 around the mean x/2 at state 1, tau = 1/16 and 1/8. *)
Example C23_conservative_inputs_ex :
  let mk e t lf := {| lyapunov_function := absV; policy := fun _ => [];
     dynamics := fun x _ => Uncertain [nth 0 x 0 / 2] [e];
     lip_v := LvConst 1; lip_f := LfConst lf; tau := t |} in
  neg (certificate (mk (1 / 8) (1 / 8) (1 / 2)) 1 (fun _ => [1])) 0 = true /\
  neg (certificate (mk (1 / 16) (1 / 16) (1 / 4)) 1 (fun _ => [1])) 0 = true.
Proof.
  simpl. split; apply Rltb_true; unfold decrease, v_decrease_bound, threshold, lv_scalar,
    lf_scalar; simpl; unfold weighted_error, absV; simpl; rewrite !Rabs_pos_eq by lra; lra.
Qed.

(** ** C24: adaptive refinement *)

(** What an accepted refinement [N] means: the decrease condition with tau/N at
    the grid state itself, and 1 <= N <= max_refinement (or N = 1). *)
Theorem C24_refined_condition_at_centre : forall S sf pt L mr bs order L',
  consistent L -> sorts (l_vals L) order ->
  update_safe_set L (certificate S sf pt) true mr bs order = Ok L' ->
  forall x, (x < size L)%nat -> safe L' x -> ~ initially_safe L x ->
    let N := refinement L' x in
    (1 <= N <= Z.max 1 mr)%Z /\
    decrease S (pt x) < threshold S (pt x) (tau S / IZR N).
Proof.
  intros S sf pt L mr bs order L' HL Hs EU x Hx Hsafe Hni N.
  destruct (update_run _ _ _ _ _ _ _ HL Hs EU) as (Hbs & Hn & K & E & RO).
  destruct (order_onto L order Hs x Hx) as (p & Hp & <-).
  assert (Eo : omask (l_init L) (nth p order 0%nat) = false).
  { destruct (omask _ _) eqn:Eo; auto. exfalso; apply Hni. now apply initially_safe_omask. }
  apply (safe_run _ _ _ _ _ _ _ _ _ HL Hs Hbs Hn RO p Hp) in Hsafe.
  destruct Hsafe as [|[HK|(_ & HS)]]; [tauto| |].
  2:{ rewrite S0_init_shrink in HS. congruence. }
  pose proof (ro_acc _ _ _ _ _ _ _ _ _ RO p HK Eo) as A. cbv zeta in A.
  unfold refinement in N. fold N in A.
  assert (T1 : tau S / 1 = tau S) by field.
  destruct A as [(A & ->)|[(_ & A & _)|(_ & _ & A & B & _)]].
  - simpl in A. apply Rltb_true in A. split; [lia|]. now rewrite T1.
  - rewrite S0_init_shrink in A. congruence.
  - simpl in B. apply Rltb_true in B. split; [lia|auto].
Qed.
Print Assumptions C24_refined_condition_at_centre.

(** With safety factor 1, the recorded [N] is the least integer for which the
    condition holds at the grid state. *)
Theorem C24_least_refinement : forall S pt L mr bs order L',
  consistent L -> sorts (l_vals L) order ->
  update_safe_set L (certificate S 1 pt) true mr bs order = Ok L' ->
  forall x, (x < size L)%nat -> safe L' x -> ~ initially_safe L x ->
    0 <= lv_scalar S (pt x) -> 0 <= lf_scalar S (pt x) -> 0 <= tau S ->
    forall M, (1 <= M < refinement L' x)%Z ->
      ~ decrease S (pt x) < threshold S (pt x) (tau S / IZR M).
Proof.
  intros S pt L mr bs order L' HL Hs EU x Hx Hsafe Hni Hlv Hlf Ht M HM.
  pose proof (C24_refined_condition_at_centre _ _ _ _ _ _ _ _ HL Hs EU x Hx Hsafe Hni) as (_ & HC).
  destruct (update_run _ _ _ _ _ _ _ HL Hs EU) as (Hbs & Hn & K & E & RO).
  destruct (order_onto L order Hs x Hx) as (p & Hp & <-).
  assert (Eo : omask (l_init L) (nth p order 0%nat) = false).
  { destruct (omask _ _) eqn:Eo; auto. exfalso; apply Hni. now apply initially_safe_omask. }
  apply (safe_run _ _ _ _ _ _ _ _ _ HL Hs Hbs Hn RO p Hp) in Hsafe.
  destruct Hsafe as [|[HK|(_ & HS)]]; [tauto| |].
  2:{ rewrite S0_init_shrink in HS. congruence. }
  pose proof (ro_acc _ _ _ _ _ _ _ _ _ RO p HK Eo) as A. cbv zeta in A.
  unfold refinement in *.
  destruct A as [(_ & A)|[(_ & A & _)|(_ & _ & _ & _ & [(A & _)|(A & _)])]].
  - rewrite A in HM. lia.
  - rewrite S0_init_shrink in A. congruence.
  - rewrite A in HM, HC. simpl in HM, HC.
    set (y := pt (nth p order 0%nat)) in *.
    assert (HN : 0 < IZR (n_req S 1 y)) by (apply IZR_lt; lia).
    assert (Hneg : decrease S y < 0).
    { apply Rlt_le_trans with (1 := HC). unfold threshold.
      assert (0 <= lv_scalar S y * (1 + lf_scalar S y) * (tau S / IZR (n_req S 1 y))).
      { apply Rmult_le_pos; [apply Rmult_le_pos; lra|].
        apply Rmult_le_pos; [auto|]. left. now apply Rinv_0_lt_compat. }
      lra. }
    pose proof (n_req_least S y M HM Hneg). lra.
  - rewrite A in HM. lia.
Qed.
Print Assumptions C24_least_refinement.

(** An instance with a refined state: the grid 0, 1 with V(x) = x (constant 1),
    the closed loop x -> -3/2 - 3x (constant 3), tau = 1/2. *)
Definition g2 : grid := Grid [(0, 1)] [2%Z].
Definition F2 (x : list R) : list R := [- (3 / 2) - 3 * nth 0 x 0].
Definition S2 : setup :=
  {| lyapunov_function := fun x => nth 0 x 0; policy := fun _ => [];
     dynamics := fun x _ => Exact (F2 x);
     lip_v := LvConst 1; lip_f := LfConst 3; tau := 1 / 2 |}.
Definition L2 (s : list bool) (r : list Z) (c : R) : lyap :=
  {| l_init := Some [false; false]; l_adaptive := true; l_vals := [0; 1];
     l_safe := s; l_ref := r; l_cmax := c |}.

Lemma g2_valid : valid_grid g2.
Proof. unfold valid_grid, g2; simpl. repeat constructor; simpl; try lra; lia. Qed.

Lemma point2 k : (k < 2)%nat -> grid_point g2 k = [INR k].
Proof.
  intros H. do 2 (destruct k as [|k]; [unfold grid_point, index_to_state; simpl;
    rewrite Z.div_1_r; f_equal; lra|]). lia.
Qed.

Lemma n_req2 : n_req S2 1 [0] = 2%Z.
Proof.
  unfold n_req.
  assert (D : decrease S2 [0] = - (3 / 2)).
  { unfold decrease, v_decrease_bound; simpl. lra. }
  assert (T : threshold S2 [0] (tau S2) = -2).
  { unfold threshold, lv_scalar, lf_scalar; simpl. lra. }
  rewrite D, T. destruct Req_EM_T; [lra|].
  rewrite (Rmax_left 1 1) by lra.
  replace (1 * -2 / - (3 / 2)) with (4 / 3) by field.
  rewrite Rmax_left by lra.
  pose proof (ceilR_spec (4 / 3)) as (A & B).
  assert (ceilR (4 / 3) < 3)%Z by (apply lt_IZR; lra).
  assert (1 < ceilR (4 / 3))%Z by (apply lt_IZR; lra). lia.
Qed.

Lemma update2 :
  update_safe_set (L2 [false; false] [0; 0]%Z 0) (certificate S2 1 (grid_point g2))
    true 5 1 [0; 1]%nat = Ok (L2 [true; true] [2; 1]%Z 0).
Proof.
  assert (G : forall C, neg C 0%nat = false -> neg C 1%nat = true -> nreq C 0%nat = 2%Z ->
     passes C 0%nat 0%nat 2%Z = true ->
     update_safe_set (L2 [false; false] [0; 0]%Z 0) C true 5 1 [0; 1]%nat
     = Ok (L2 [true; true] [2; 1]%Z 0)).
  { intros C H1 H2 H3 H4.
    rewrite update_safe_set_eq. unfold L2; simpl. unfold batch_pass; simpl.
    rewrite H1; simpl. rewrite H3; simpl. rewrite H4; simpl. rewrite H2. reflexivity. }
  apply G; simpl; rewrite ?point2 by lia.
  - apply Rltb_false. unfold decrease, v_decrease_bound, threshold, lv_scalar, lf_scalar; simpl. lra.
  - apply Rltb_true. unfold decrease, v_decrease_bound, threshold, lv_scalar, lf_scalar; simpl. lra.
  - apply n_req2.
  - apply Rltb_true. unfold decrease, v_decrease_bound, threshold, lv_scalar, lf_scalar; simpl. lra.
Qed.

Lemma sorts2 : sorts [0; 1] [0; 1]%nat.
Proof.
  split; [simpl; apply Permutation_refl|].
  intros p q H1 H2. simpl in H2. assert (p = 0 /\ q = 1)%nat as (-> & ->) by lia. simpl. lra.
Qed.

Lemma consistent2 s r c : length s = 2%nat -> length r = 2%nat -> consistent (L2 s r c).
Proof.
  intros A B. constructor; auto. intros m E; injection E as <-; reflexivity.
Qed.

Example C24_ex :
  update_safe_set (L2 [false; false] [0; 0]%Z 0) (certificate S2 1 (grid_point g2))
    true 5 1 [0; 1]%nat = Ok (L2 [true; true] [2; 1]%Z 0) /\
  decrease S2 [0] < threshold S2 [0] (tau S2 / 2) /\
  ~ decrease S2 [0] < threshold S2 [0] (tau S2 / 1).
Proof.
  split; [apply update2|].
  unfold decrease, v_decrease_bound, threshold, lv_scalar, lf_scalar; simpl. split; lra.
Qed.

(** The condition need not hold at the refined points (line 475 compares the
    decrease of the centre, not of the refined points) ... *)
Theorem C24_holds_at_refined_points_refuted :
  ~ (forall g S sf L mr bs order L',
     valid_grid g -> consistent L -> sorts (l_vals L) order ->
     update_safe_set L (certificate S sf (grid_point g)) true mr bs order = Ok L' ->
     forall x, (x < size L)%nat -> safe L' x -> ~ initially_safe L x ->
       forall y, In y (refined_points g (grid_point g x) (refinement L' x)) ->
         decrease S y < threshold S y (tau S / IZR (refinement L' x))).
Proof.
  intros H.
  specialize (H g2 S2 1 _ 5%Z 1%nat _ _ g2_valid
    (consistent2 [false; false] [0; 0]%Z 0 eq_refl eq_refl) sorts2 update2
    0%nat ltac:(unfold size; simpl; lia) eq_refl).
  assert (Hni : ~ initially_safe (L2 [false; false] [0; 0]%Z 0) 0).
  { intros (m & E & Hm). injection E as <-. discriminate. }
  specialize (H Hni [- (1 / 4)]).
  change (refinement (L2 [true; true] [2; 1]%Z 0) 0) with 2%Z in H.
  assert (Hin : In [- (1 / 4)] (refined_points g2 (grid_point g2 0) 2)).
  { rewrite point2 by lia. unfold refined_points, refined_axis; simpl.
    left. f_equal. lra. }
  specialize (H Hin). revert H.
  unfold decrease, v_decrease_bound, threshold, lv_scalar, lf_scalar; simpl. lra.
Qed.
Print Assumptions C24_holds_at_refined_points_refuted.

(** ... and therefore V can increase inside of the cell of a state that the
    refinement has added, although all constants are right and tau covers it. *)
Theorem C24_cell_decrease_refuted :
  ~ (forall g S F lv lf sf L mr bs order L',
     valid_grid g -> consistent L -> sorts (l_vals L) order ->
     lip_v S = LvConst lv -> lip_f S = LfConst lf -> 0 <= lv -> 0 <= lf ->
     (forall a b, length a = dims g -> length b = dims g ->
        Rabs (lyapunov_function S a - lyapunov_function S b) <= lv * dist1 a b) ->
     (forall a b, length a = dims g -> length b = dims g ->
        dist1 (F a) (F b) <= lf * dist1 a b) ->
     (forall a, dynamics S a (policy S a) = Exact (F a)) ->
     sum (map (fun h => h / 2) (unit_maxes g)) <= tau S ->
     l_vals L = map (lyapunov_function S) (all_points g) ->
     update_safe_set L (certificate S sf (grid_point g)) true mr bs order = Ok L' ->
     forall x, (x < size L)%nat -> safe L' x -> ~ initially_safe L x ->
       forall y, length y = dims g -> dist1 y (grid_point g x) <= tau S ->
         lyapunov_function S (F y) < lyapunov_function S y).
Proof.
  intros H.
  specialize (H g2 S2 F2 1 3 1 _ 5%Z 1%nat _ (L2 [true; true] [2; 1]%Z 0) g2_valid
    (consistent2 [false; false] [0; 0]%Z 0 eq_refl eq_refl) sorts2 eq_refl eq_refl
    ltac:(lra) ltac:(lra)).
  assert (A : lyapunov_function S2 (F2 [- (1 / 2)]) < lyapunov_function S2 [- (1 / 2)]).
  { apply H with (x := 0%nat); auto.
    - intros a b Ha Hb. apply one_dim in Ha, Hb. rewrite Ha, Hb. unfold dist1; simpl. lra.
    - intros a b Ha Hb. apply one_dim in Ha, Hb. rewrite Ha, Hb. unfold dist1, F2; simpl.
      unfold Rabs; repeat destruct Rcase_abs; lra.
    - unfold unit_maxes; simpl. lra.
    - simpl. f_equal; lra.
    - apply update2.
    - unfold size; simpl; lia.
    - reflexivity.
    - intros (m & E & Hm). injection E as <-. discriminate.
    - rewrite point2 by lia. unfold dist1; simpl. unfold Rabs; destruct Rcase_abs; lra. }
  revert A. unfold F2; simpl. lra.
Qed.
Print Assumptions C24_cell_decrease_refuted.

(** ** C25: is_safe *)

(** [is_safe] answers for a continuous state with the entry of the nearest grid
    state; a state of the wrong dimension raises. *)
Theorem C25_is_safe_nearest : forall g L x,
  valid_grid g -> Z.of_nat (length (l_safe L)) = nindex g ->
  (length x = dims g ->
   exists k b, is_safe g L x = Ok b /\ (Z.of_nat k < nindex g)%Z /\
     (b = true <-> safe L k) /\
     is_vertex g (grid_point g k) /\
     forall v, is_vertex g v -> forall j, (j < dims g)%nat ->
       Rabs (coordinate x j - coordinate (grid_point g k) j)
         <= Rabs (coordinate x j - coordinate v j)) /\
  (length x <> dims g -> is_safe g L x = Err DimensionError).
Proof.
  intros g L x VG HL. split.
  - intros Hx. destruct (nearest g VG x Hx) as (i & p & Ei & Hi & Ep & Hv & Hn & _).
    exists (Z.to_nat i), (nth (Z.to_nat i) (l_safe L) false).
    unfold is_safe. rewrite Ei. simpl bind. rewrite (py_nth_Z _ i false) by lia.
    split; auto. rewrite Z2Nat.id by lia. split; [lia|]. split; [reflexivity|].
    unfold grid_point. rewrite Z2Nat.id by lia. rewrite Ep. auto.
  - intros Hx. unfold is_safe. rewrite state_to_index_err by auto. reflexivity.
Qed.
Print Assumptions C25_is_safe_nearest.

(** After any history of calls, [is_safe] is true in all of the cells around
    states of the initial set. *)
Theorem C25_initial_cells_safe : forall g vals ini adaptive L cs x k,
  valid_grid g -> Z.of_nat (length vals) = nindex g ->
  lyap_init vals ini adaptive = Ok L -> history L cs ->
  initially_safe L k -> length x = dims g ->
  state_to_index g x = Ok (Z.of_nat k) ->
  is_safe g (exec_all L cs) x = Ok true.
Proof.
  intros g vals ini ad L cs x k VG Hn HI HH Hk Hx Ek.
  pose proof (C16_initial_set_kept _ _ _ _ _ HI HH k Hk) as (Hs & _).
  apply invariant_init in HI as (HI & Hsz & _).
  destruct (invariant_history cs L HI HH) as ((HC & _ & _) & E & _).
  destruct (nearest g VG x Hx) as (i & p & Ei & Hi & _).
  rewrite Ek in Ei. injection Ei as <-.
  unfold is_safe. rewrite Ek. simpl bind.
  rewrite (py_nth_Z _ _ false), Nat2Z.id.
  - unfold safe in Hs. now rewrite Hs.
  - rewrite (cons_safe _ HC), E, Hsz. lia.
Qed.
Print Assumptions C25_initial_cells_safe.

(** On the grid -4, ..., 4 after the update of C22: 3.4 is safe, -3.6 is not. *)
Example C25_ex :
  is_safe g9 L9' [17 / 5] = Ok true /\ is_safe g9 L9' [- (18 / 5)] = Ok false /\
  is_safe g9 L9' [0; 0] = Err DimensionError.
Proof.
  assert (G : forall a k, (0 <= k < 9)%Z -> -4 <= a <= 4 -> Rabs (a + 4 - IZR k) < 1 / 2 ->
     is_safe g9 L9' [a] = py_nth (l_safe L9') k).
  { intros a k Hk Ha Hr. unfold is_safe. rewrite state_to_index_ok by (auto using g9_valid).
    simpl bind. f_equal. unfold rounded, unit_maxes, offset, g9; cbn -[rint].
    rewrite (rint_eq _ k); [lia|].
    rewrite clipR_id by lra.
    replace ((a - -4) * (1 / ((4 - -4) / 8))) with (a + 4) by field. exact Hr. }
  rewrite (G _ 7%Z), (G _ 0%Z); try lia; try lra;
    try (unfold Rabs; destruct Rcase_abs; lra).
  repeat split; reflexivity.
Qed.
