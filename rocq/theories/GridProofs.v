(** Lemmas about the grid model. *)
From Coq Require Import List ZArith Reals Lia Lra Bool Psatz.
Import ListNotations.
From Verif Require Import Prelude NumModel NumProofs GridModel GridSpec.

Lemma Forall2_nth {A B} (P : A -> B -> Prop) l m da db :
  Forall2 P l m <-> (length l = length m /\ forall j, (j < length l)%nat -> P (nth j l da) (nth j m db)).
Proof.
  split.
  - induction 1 as [|a b l m H H0 [IH1 IH2]]; simpl; [split; [auto|lia]|].
    split; [lia|]. intros [|j] Hj; auto. apply IH2; lia.
  - revert m; induction l as [|a l IH]; destruct m as [|b m]; simpl; intros [L H]; try lia; constructor.
    + apply (H 0%nat); lia.
    + apply IH; split; [lia|]. intros j Hj; apply (H (S j)); lia.
Qed.

Section Valid.
Variable g : grid.
Hypothesis V : valid_grid g.

Lemma valid_len : length (num_points g) = length (limits g).
Proof. symmetry. eapply Forall2_len; exact V. Qed.

Lemma valid_axis j : (j < dims g)%nat -> (lower g j < upper g j)%R /\ (2 <= npts g j)%Z.
Proof.
  intros Hj. apply (Forall2_nth _ _ _ (0,0)%R 0%Z) in V as [_ H]. apply H; exact Hj.
Qed.

Lemma spacing_pos j : (j < dims g)%nat -> (0 < spacing g j)%R.
Proof.
  intros Hj. destruct (valid_axis j Hj). unfold spacing.
  apply Rdiv_lt_0_compat; [lra|]. apply IZR_lt; lia.
Qed.

Lemma spacing_width j : (j < dims g)%nat ->
  (IZR (npts g j - 1) * spacing g j = upper g j - lower g j)%R.
Proof.
  intros Hj. destruct (valid_axis j Hj). unfold spacing.
  assert (0 < IZR (npts g j - 1))%R by (apply IZR_lt; lia). field. lra.
Qed.

Lemma pos_points : pos_shape (num_points g).
Proof.
  unfold pos_shape. pose proof V as W; clear -W; unfold valid_grid in W. induction W; constructor; auto. lia.
Qed.

Lemma pos_rects : pos_shape (map (fun n => n - 1)%Z (num_points g)).
Proof.
  unfold pos_shape. pose proof V as W; clear -W; unfold valid_grid in W. induction W; simpl; constructor; auto. lia.
Qed.

Lemma offset_nth j : nth j (offset g) 0%R = lower g j.
Proof. unfold offset, lower. now rewrite (map_nth fst _ (0,0)%R). Qed.

Lemma offset_len : length (offset g) = dims g.
Proof. unfold offset. now rewrite map_length. Qed.

Lemma unit_len : length (unit_maxes g) = dims g.
Proof. unfold unit_maxes. rewrite map2_length, valid_len. apply Nat.min_id. Qed.

Lemma unit_nth j : (j < dims g)%nat -> nth j (unit_maxes g) 0%R = spacing g j.
Proof.
  intros Hj. unfold unit_maxes.
  rewrite (nth_map2 _ _ _ _ (0,0)%R 0%Z); auto; rewrite ?valid_len; auto.
Qed.

Lemma discrete_len : length (discrete_points g) = dims g.
Proof. unfold discrete_points. rewrite map2_length, valid_len. apply Nat.min_id. Qed.

Lemma discrete_nth j : (j < dims g)%nat ->
  nth j (discrete_points g) [] = linspace (lower g j) (upper g j) (npts g j).
Proof.
  intros Hj. unfold discrete_points.
  rewrite (nth_map2 _ _ _ _ (0,0)%R 0%Z); auto; rewrite ?valid_len; auto.
Qed.

(** The state of a multi-index. *)
Definition state_of (ks : list Z) : list R :=
  map3 (fun k u o => (IZR k * u + o)%R) ks (unit_maxes g) (offset g).

Lemma nth_map3 {A B C D} (f : A -> B -> C -> D) l m k i da db dc dd :
  (i < length l)%nat -> (i < length m)%nat -> (i < length k)%nat ->
  nth i (map3 f l m k) dd = f (nth i l da) (nth i m db) (nth i k dc).
Proof.
  revert m k i; induction l; destruct m, k, i; simpl; intros; try lia; auto.
  apply IHl; lia.
Qed.

Lemma state_of_len ks : length ks = dims g -> length (state_of ks) = dims g.
Proof. intros H. unfold state_of. rewrite map3_length, unit_len, offset_len, H. lia. Qed.

Lemma state_of_nth ks j : length ks = dims g -> (j < dims g)%nat ->
  coordinate (state_of ks) j = (lower g j + IZR (nth j ks 0%Z) * spacing g j)%R.
Proof.
  intros H Hj. unfold coordinate, state_of.
  rewrite (nth_map3 _ _ _ _ _ 0%Z 0%R 0%R) by (rewrite ?unit_len, ?offset_len, ?H; auto).
  rewrite offset_nth, unit_nth by auto. lra.
Qed.

Definition multi (ks : list Z) : Prop := Forall2 (fun k n => (0 <= k < n)%Z) ks (num_points g).
Definition multi_rect (ks : list Z) : Prop :=
  Forall2 (fun k n => (0 <= k < n)%Z) ks (map (fun n => n - 1)%Z (num_points g)).

Lemma multi_nth ks : multi ks <->
  (length ks = dims g /\ forall j, (j < dims g)%nat -> (0 <= nth j ks 0 < npts g j)%Z).
Proof.
  unfold multi. rewrite (Forall2_nth _ _ _ 0%Z 0%Z). rewrite valid_len. unfold dims, npts.
  split; intros [L H]; split; auto; intros j Hj; apply H; rewrite ?L in *; auto.
Qed.

Lemma multi_rect_nth ks : multi_rect ks <->
  (length ks = dims g /\ forall j, (j < dims g)%nat -> (0 <= nth j ks 0 < npts g j - 1)%Z).
Proof.
  unfold multi_rect. rewrite (Forall2_nth _ _ _ 0%Z 0%Z). rewrite map_length, valid_len.
  unfold dims, npts.
  split; intros [L H]; split; auto; intros j Hj.
  - specialize (H j ltac:(lia)). rewrite (nth_map_lt _ _ _ 0%Z) in H by (rewrite valid_len; auto). auto.
  - rewrite (nth_map_lt _ _ _ 0%Z) by (rewrite valid_len; lia). apply H; lia.
Qed.

Lemma multi_rect_multi ks : multi_rect ks -> multi ks.
Proof.
  rewrite multi_rect_nth, multi_nth. intros [L H]; split; auto. intros j Hj; specialize (H j Hj); lia.
Qed.

Lemma index_to_state_ok i : (0 <= i < nindex g)%Z ->
  index_to_state g i = Ok (state_of (unravel i (num_points g))) /\
  multi (unravel i (num_points g)).
Proof.
  intros H. unfold index_to_state. rewrite np_unravel_ok; auto using pos_points.
  split; auto. apply unravel_ok; auto using pos_points.
Qed.

Lemma index_to_state_multi ks : multi ks ->
  index_to_state g (ravel ks (num_points g)) = Ok (state_of ks).
Proof.
  intros H. pose proof (ravel_bound _ _ H).
  destruct (index_to_state_ok (ravel ks (num_points g))) as [-> _]; auto.
  rewrite unravel_ravel; auto using pos_points.
Qed.

Lemma index_to_state_err i : ~ (0 <= i < nindex g)%Z -> index_to_state g i = Err ValueError.
Proof. intros H. unfold index_to_state. now rewrite np_unravel_err. Qed.

Lemma rectangle_to_state_multi ks : multi_rect ks ->
  rectangle_to_state g (ravel ks (map (fun n => n - 1)%Z (num_points g))) = Ok (state_of ks).
Proof.
  intros H. unfold rectangle_to_state.
  rewrite np_unravel_ok by (auto using pos_rects; apply ravel_bound; auto).
  simpl. rewrite unravel_ravel; auto using pos_rects.
Qed.

Lemma rectangle_corner_multi ks : multi_rect ks ->
  rectangle_corner_index g (ravel ks (map (fun n => n - 1)%Z (num_points g))) =
  Ok (ravel ks (num_points g)).
Proof.
  intros H. unfold rectangle_corner_index.
  rewrite np_unravel_ok by (auto using pos_rects; apply ravel_bound; auto).
  simpl. rewrite unravel_ravel by (auto using pos_rects).
  apply np_ravel_ok. apply multi_rect_multi in H. exact H.
Qed.

Lemma rect_multi r : (0 <= r < nrectangles g)%Z ->
  exists ks, multi_rect ks /\ r = ravel ks (map (fun n => n - 1)%Z (num_points g)).
Proof.
  intros H. exists (unravel r (map (fun n => n - 1)%Z (num_points g))). split.
  - apply unravel_ok; auto using pos_rects.
  - symmetry; apply ravel_unravel; auto using pos_rects.
Qed.

Lemma index_multi i : (0 <= i < nindex g)%Z ->
  exists ks, multi ks /\ i = ravel ks (num_points g).
Proof.
  intros H. exists (unravel i (num_points g)). split.
  - apply unravel_ok; auto using pos_points.
  - symmetry; apply ravel_unravel; auto using pos_points.
Qed.

Lemma vertex_iff p : is_vertex g p <-> exists ks, multi ks /\ p = state_of ks.
Proof.
  split.
  - intros [L H].
    assert (exists ks, length ks = dims g /\ forall j, (j < dims g)%nat ->
       (0 <= nth j ks 0 < npts g j)%Z /\ coordinate p j = (lower g j + IZR (nth j ks 0%Z) * spacing g j)%R)
      as (ks & Lk & Hk).
    { clear L. induction (dims g) as [|d IH].
      - exists []; split; auto; lia.
      - destruct IH as (ks & Lk & Hk); [intros; apply H; lia|].
        destruct (H d) as (k & Hkr & Hkc); [lia|].
        exists (ks ++ [k]). split; [rewrite app_length; simpl; lia|].
        intros j Hj. destruct (Nat.eq_dec j d) as [->|N].
        + rewrite app_nth2, Lk, Nat.sub_diag by lia. simpl. auto.
        + rewrite app_nth1 by lia. apply Hk; lia. }
    exists ks. assert (M : multi ks) by (apply multi_nth; split; auto; intros; now apply Hk).
    split; auto. apply (nth_ext _ _ 0%R 0%R); [rewrite state_of_len; auto|].
    intros j Hj. rewrite L in Hj. destruct (Hk j Hj) as [_ E].
    unfold coordinate in E. rewrite E. symmetry. now apply state_of_nth.
  - intros (ks & M & ->). apply multi_nth in M as [L H]. split; [now apply state_of_len|].
    intros j Hj. exists (nth j ks 0%Z). split; [auto|]. now apply state_of_nth.
Qed.

(** state_to_index in terms of per-axis rounding. *)
Definition rounded (s : list R) : list Z :=
  map rint (map3 (fun x o u => ((x - o) * (1 / u))%R)
     (map2 (fun x l => clipR x (fst l) (snd l)) s (limits g)) (offset g) (unit_maxes g)).

Lemma rounded_len s : length s = dims g -> length (rounded s) = dims g.
Proof.
  intros H. unfold rounded. rewrite map_length, map3_length, map2_length, offset_len, unit_len, H.
  unfold dims. lia.
Qed.

Lemma rounded_nth s j : length s = dims g -> (j < dims g)%nat ->
  nth j (rounded s) 0%Z =
  rint ((clipR (coordinate s j) (lower g j) (upper g j) - lower g j) * (1 / spacing g j)).
Proof.
  intros H Hj. unfold rounded.
  rewrite (nth_indep _ _ (rint 0)).
  2:{ pose proof (rounded_len s H) as L. unfold rounded in L. rewrite L. auto. }
  rewrite map_nth. f_equal.
  rewrite (nth_map3 _ _ _ _ _ 0%R 0%R 0%R).
  - rewrite offset_nth, unit_nth by auto.
    rewrite (nth_map2 _ _ _ _ 0%R (0,0)%R) by (rewrite ?H; auto). reflexivity.
  - rewrite map2_length, H. unfold dims in *. lia.
  - rewrite offset_len; auto.
  - rewrite unit_len; auto.
Qed.

Lemma rounded_multi s : length s = dims g -> multi (rounded s).
Proof.
  intros H. apply multi_nth. split; [now apply rounded_len|]. intros j Hj.
  rewrite rounded_nth by auto.
  destruct (valid_axis j Hj) as [H1 H2]. pose proof (spacing_pos j Hj) as Hu.
  pose proof (spacing_width j Hj) as W.
  pose proof (clipR_range (coordinate s j) (lower g j) (upper g j) ltac:(lra)) as C.
  set (x := clipR _ _ _) in *. set (u := spacing g j) in *.
  assert (0 <= rint ((x - lower g j) * (1 / u)) <= npts g j - 1)%Z; [|lia].
  apply rint_range. assert (0 < 1 / u)%R by (apply Rdiv_lt_0_compat; lra). split; [nra|].
  apply Rmult_le_reg_r with u; [lra|]. replace ((x - lower g j) * (1 / u) * u)%R with (x - lower g j)%R by (field; lra).
  rewrite W. lra.
Qed.

Lemma state_to_index_ok s : length s = dims g ->
  state_to_index g s = Ok (ravel (rounded s) (num_points g)).
Proof.
  intros H. unfold state_to_index, check_dimensions, ndim. unfold dims in H. rewrite H, Nat.eqb_refl.
  simpl. apply np_ravel_ok. now apply rounded_multi.
Qed.

Lemma state_to_index_err s : length s <> dims g -> state_to_index g s = Err DimensionError.
Proof.
  intros H. unfold state_to_index, check_dimensions, ndim.
  apply Nat.eqb_neq in H. unfold dims in H. now rewrite H.
Qed.

Lemma rounded_state_of ks : multi ks -> rounded (state_of ks) = ks.
Proof.
  intros M. pose proof M as M'. apply multi_nth in M' as [L H].
  apply (nth_ext _ _ 0%Z 0%Z); [rewrite rounded_len, L; auto; now apply state_of_len|].
  intros j Hj. rewrite rounded_len in Hj by (now apply state_of_len).
  rewrite rounded_nth, state_of_nth by (auto; now apply state_of_len).
  pose proof (spacing_pos j Hj) as Hu. pose proof (spacing_width j Hj) as W.
  specialize (H j Hj). set (k := nth j ks 0%Z) in *.
  assert (0 <= IZR k)%R by (apply IZR_le; lia).
  assert (IZR k <= IZR (npts g j - 1))%R by (apply IZR_le; lia).
  rewrite clipR_id by (split; nra).
  replace ((lower g j + IZR k * spacing g j - lower g j) * (1 / spacing g j))%R with (IZR k) by (field; lra).
  apply rint_IZR.
Qed.

Lemma round_trip i : (0 <= i < nindex g)%Z ->
  exists s, index_to_state g i = Ok s /\ state_to_index g s = Ok i.
Proof.
  intros H. destruct (index_multi i H) as (ks & M & ->).
  exists (state_of ks). split; [now apply index_to_state_multi|].
  rewrite state_to_index_ok; [now rewrite rounded_state_of|].
  apply state_of_len. apply multi_nth in M; tauto.
Qed.

(** Distance of the rounded coordinate. *)
Lemma clip_round_nearest x lo u n k :
  (0 < u)%R -> (1 <= n)%Z -> (0 <= k < n)%Z ->
  let up := (lo + IZR (n - 1) * u)%R in
  let k' := rint ((clipR x lo up - lo) * (1 / u)) in
  (Rabs (x - (lo + IZR k' * u)) <= Rabs (x - (lo + IZR k * u)))%R.
Proof.
  intros Hu Hn Hk up k'.
  assert (0 <= IZR (n - 1))%R by (apply IZR_le; lia).
  assert (Hup : (lo <= up)%R) by (unfold up; nra).
  assert (K0 : (0 <= IZR k)%R) by (apply IZR_le; lia).
  assert (K1 : (IZR k <= IZR (n - 1))%R) by (apply IZR_le; lia).
  pose proof (clipR_range x lo up Hup) as C.
  destruct (Rlt_dec x lo) as [Hx|Hx].
  { assert (clipR x lo up = lo) by (unfold clipR, Rmin, Rmax; repeat destruct Rle_dec; lra).
    unfold k'. rewrite H0. replace ((lo - lo) * (1 / u))%R with (IZR 0) by lra. rewrite rint_IZR.
    rewrite !Rabs_left1 by nra. nra. }
  destruct (Rlt_dec up x) as [Hx'|Hx'].
  { assert (clipR x lo up = up) by (unfold clipR, Rmin, Rmax; repeat destruct Rle_dec; lra).
    unfold k'. rewrite H0.
    replace ((up - lo) * (1 / u))%R with (IZR (n - 1)) by (unfold up; field; lra). rewrite rint_IZR.
    unfold up in *. rewrite !Rabs_right by nra. nra. }
  assert (clipR x lo up = x) by (apply clipR_id; lra).
  unfold k'. rewrite H0. set (y := ((x - lo) * (1 / u))%R).
  assert (E : forall z, (x - (lo + IZR z * u) = u * (y - IZR z))%R) by (intros; unfold y; field; lra).
  rewrite !E, !Rabs_mult. apply Rmult_le_compat_l; [apply Rabs_pos|]. apply rint_nearest.
Qed.

Lemma upper_eq j : (j < dims g)%nat -> upper g j = (lower g j + IZR (npts g j - 1) * spacing g j)%R.
Proof. intros Hj. rewrite spacing_width by auto. lra. Qed.

Lemma nearest s : length s = dims g ->
  exists i p, state_to_index g s = Ok i /\ (0 <= i < nindex g)%Z /\ index_to_state g i = Ok p /\
    is_vertex g p /\
    (forall q, is_vertex g q -> forall j, (j < dims g)%nat ->
       (Rabs (coordinate s j - coordinate p j) <= Rabs (coordinate s j - coordinate q j))%R) /\
    (forall j, (j < dims g)%nat -> (lower g j <= coordinate s j <= upper g j)%R ->
       (Rabs (coordinate s j - coordinate p j) <= spacing g j / 2)%R).
Proof.
  intros L. pose proof (rounded_multi s L) as M.
  exists (ravel (rounded s) (num_points g)), (state_of (rounded s)).
  split; [now apply state_to_index_ok|]. split; [now apply ravel_bound|].
  split; [now apply index_to_state_multi|]. split; [apply vertex_iff; eauto|].
  pose proof (rounded_len s L) as Lr. split.
  - intros q [_ Hq] j Hj. destruct (Hq j Hj) as (k & Hk & ->).
    rewrite state_of_nth, rounded_nth by auto. rewrite (upper_eq j Hj).
    apply clip_round_nearest; auto using spacing_pos. destruct (valid_axis j Hj); lia.
  - intros j Hj Hin. rewrite state_of_nth, rounded_nth by auto.
    rewrite clipR_id by lra. pose proof (spacing_pos j Hj) as Hu.
    set (y := ((coordinate s j - lower g j) * (1 / spacing g j))%R).
    replace (coordinate s j - (lower g j + IZR (rint y) * spacing g j))%R
      with (spacing g j * (y - IZR (rint y)))%R by (unfold y; field; lra).
    rewrite Rabs_mult, (Rabs_right (spacing g j)) by lra.
    pose proof (rint_half y). nra.
Qed.

(** ** all_points *)

Lemma lengths_discrete : map (fun a => Z.of_nat (length a)) (discrete_points g) = num_points g.
Proof.
  unfold discrete_points. pose proof V as W; clear -W; unfold valid_grid in W.
  induction W as [|l n ls ns H H0 IH]; [reflexivity|]. simpl. rewrite IH. f_equal.
  rewrite linspace_length. lia.
Qed.

Lemma all_points_length : Z.of_nat (length (all_points g)) = nindex g.
Proof. unfold all_points. rewrite meshgrid_length, lengths_discrete. reflexivity. Qed.

Lemma all_points_nth i : (0 <= i < nindex g)%Z ->
  index_to_state g i = Ok (nth (Z.to_nat i) (all_points g) []).
Proof.
  intros H. destruct (index_to_state_ok i H) as [-> M]. f_equal.
  unfold all_points. rewrite (meshgrid_nth _ 0%R) by (rewrite lengths_discrete; auto using pos_points).
  rewrite lengths_discrete. set (ks := unravel i (num_points g)) in *.
  apply multi_nth in M as [L M].
  apply (nth_ext _ _ 0%R 0%R).
  - rewrite state_of_len by auto. rewrite map2_length, discrete_len, L. lia.
  - intros j Hj. rewrite state_of_len in Hj by auto.
    change (nth j (state_of ks) 0%R) with (coordinate (state_of ks) j). rewrite state_of_nth by auto.
    rewrite (nth_map2 _ _ _ _ 0%Z []) by (rewrite ?discrete_len, ?L; auto).
    rewrite discrete_nth by auto. rewrite linspace_nth; [|apply valid_axis; auto|auto].
    unfold spacing. reflexivity.
Qed.

Lemma all_points_In p : In p (all_points g) <-> is_vertex g p.
Proof.
  unfold all_points. rewrite meshgrid_In. rewrite (Forall2_nth _ _ _ 0%R []). rewrite discrete_len.
  unfold is_vertex. split; intros [L H]; split; auto; intros j Hj.
  - specialize (H j ltac:(lia)). rewrite discrete_nth in H by auto.
    apply linspace_In in H; [|apply valid_axis; auto]. exact H.
  - rewrite L in Hj. rewrite discrete_nth by auto. apply linspace_In; [apply valid_axis; auto|].
    apply H; auto.
Qed.

Lemma all_points_NoDup : NoDup (all_points g).
Proof.
  unfold all_points. apply meshgrid_NoDup. unfold discrete_points. pose proof V as W; clear -W; unfold valid_grid in W.
  induction W as [|l n ls ns H H0 IH]; simpl; constructor; auto. apply linspace_NoDup; tauto.
Qed.

(** ** rectangles *)

Definition cell_of (s : list R) : list Z :=
  map3 (fun x l n => clipZ (floorR ((x - fst l) / ((snd l - fst l) / IZR (n - 1)))) 0 (n - 2))
    s (limits g) (num_points g).

Lemma rect_indices_ok s : (dims g <= length s)%nat ->
  rect_indices s (discrete_points g) (num_points g) = Ok (cell_of s).
Proof.
  unfold cell_of, discrete_points, dims. pose proof V as W; clear -W; unfold valid_grid in W. revert s.
  induction W as [|l n ls ns H H0 IH]; intros s Hs; [destruct s; reflexivity|].
  destruct s as [|x s]; simpl in Hs; [lia|]. simpl. rewrite IH by lia. simpl.
  rewrite digitize_linspace by tauto. reflexivity.
Qed.

Lemma cell_of_len s : (dims g <= length s)%nat -> length (cell_of s) = dims g.
Proof. intros. unfold cell_of. rewrite map3_length, valid_len. unfold dims in *. lia. Qed.

Lemma cell_of_nth s j : (dims g <= length s)%nat -> (j < dims g)%nat ->
  nth j (cell_of s) 0%Z = clipZ (floorR ((coordinate s j - lower g j) / spacing g j)) 0 (npts g j - 2).
Proof.
  intros H Hj. unfold cell_of.
  rewrite (nth_map3 _ _ _ _ _ 0%R (0,0)%R 0%Z); auto; rewrite ?valid_len; auto. lia.
Qed.

Lemma cell_of_multi s : (dims g <= length s)%nat -> multi_rect (cell_of s).
Proof.
  intros H. apply multi_rect_nth. split; [now apply cell_of_len|]. intros j Hj.
  rewrite cell_of_nth by auto. destruct (valid_axis j Hj). unfold clipZ. lia.
Qed.

Lemma state_to_rectangle_ok s : (dims g <= length s)%nat ->
  state_to_rectangle g s = Ok (ravel (cell_of s) (map (fun n => n - 1)%Z (num_points g))).
Proof.
  intros H. unfold state_to_rectangle. rewrite rect_indices_ok by auto. simpl.
  apply np_ravel_ok. now apply cell_of_multi.
Qed.

Lemma rect_indices_short s discs ns :
  length discs = length ns -> (length s < length discs)%nat ->
  rect_indices s discs ns = Err IndexError.
Proof.
  revert discs ns; induction s as [|x s IH]; intros [|d ds] [|n ns] E H; simpl in *; try lia; auto.
  rewrite IH by lia. reflexivity.
Qed.

Lemma state_to_rectangle_short s : (length s < dims g)%nat -> state_to_rectangle g s = Err IndexError.
Proof.
  intros H. unfold state_to_rectangle. rewrite rect_indices_short; auto.
  - now rewrite discrete_len, valid_len.
  - now rewrite discrete_len.
Qed.

Lemma floor_div_bounds x u : (0 < u)%R -> (IZR (floorR (x / u)) * u <= x < (IZR (floorR (x / u)) + 1) * u)%R.
Proof.
  intros Hu. pose proof (floorR_spec (x / u)) as [A B].
  assert (E : x = (x / u * u)%R) by (field; lra).
  set (f := IZR (floorR (x / u))) in *. set (q := (x / u)%R) in *. nra.
Qed.

Lemma cell_bounds x lo u n :
  (0 < u)%R -> (2 <= n)%Z ->
  let k := clipZ (floorR ((x - lo) / u)) 0 (n - 2) in
  let up := (lo + IZR (n - 1) * u)%R in
  (0 <= k < n - 1)%Z /\
  ((lo <= x < up)%R -> (lo + IZR k * u <= x < lo + IZR k * u + u)%R) /\
  ((x < lo)%R -> k = 0%Z) /\
  ((up <= x)%R -> k = (n - 2)%Z).
Proof.
  intros Hu Hn k up. pose proof (floor_div_bounds (x - lo) u Hu) as F.
  set (f := floorR ((x - lo) / u)) in *.
  split; [unfold k, clipZ; lia|]. split; [|split].
  - intros H. assert (0 <= f <= n - 2)%Z.
    { split.
      - assert (-1 < f)%Z; [|lia]. apply lt_IZR. nra.
      - assert (f < n - 1)%Z; [|lia]. apply lt_IZR. unfold up in H. nra. }
    unfold k, clipZ. replace (Z.min (Z.max f 0) (n - 2))%Z with f by lia. nra.
  - intros H. assert (f < 0)%Z by (apply lt_IZR; nra). unfold k, clipZ. lia.
  - intros H. assert (n - 2 < f)%Z; [|unfold k, clipZ; lia].
    apply lt_IZR. rewrite (minus_IZR n 2). unfold up in H. rewrite minus_IZR in H. nra.
Qed.

End Valid.

(** ** Statements used by the property files *)
From Verif Require Import SparseSpec.

Lemma Forall_shape_prod ns d0 :
  prodZ ns = product (fun j => nth j ns d0) (length ns).
Proof.
  induction ns as [|n ns IH] using rev_ind; [reflexivity|].
  unfold prodZ in *. rewrite fold_right_app. simpl. rewrite app_length. simpl.
  rewrite Nat.add_1_r. simpl. rewrite app_nth2, Nat.sub_diag by lia. simpl.
  assert (E : product (fun j => nth j (ns ++ [n]) d0) (length ns) = product (fun j => nth j ns d0) (length ns)).
  { assert (forall m, (m <= length ns)%nat -> product (fun j => nth j (ns ++ [n]) d0) m = product (fun j => nth j ns d0) m).
    { induction m; intros; simpl; auto. rewrite IHm by lia. rewrite app_nth1 by lia. reflexivity. }
    apply H; lia. }
  rewrite E, <- IH.
  clear. induction ns as [|a ns IHns]; cbn [fold_right]; [ring|]. rewrite IHns. ring.
Qed.

Lemma cell_lookup g s : valid_grid g -> length s = dims g ->
  exists r c, state_to_rectangle g s = Ok r /\ (0 <= r < nrectangles g)%Z /\
    rectangle_to_state g r = Ok c /\ is_cell_corner g c /\
    forall j, (j < dims g)%nat ->
      ((lower g j <= coordinate s j < upper g j)%R ->
         (coordinate c j <= coordinate s j < coordinate c j + spacing g j)%R) /\
      ((coordinate s j < lower g j)%R -> coordinate c j = lower g j) /\
      ((upper g j <= coordinate s j)%R -> (coordinate c j + spacing g j = upper g j)%R).
Proof.
  intros V L. assert (M : multi_rect g (cell_of g s)) by (apply cell_of_multi; auto; lia).
  exists (ravel (cell_of g s) (map (fun n => n - 1)%Z (num_points g))), (state_of g (cell_of g s)).
  split; [apply state_to_rectangle_ok; auto; lia|].
  split; [apply ravel_bound, M|]. split; [now apply rectangle_to_state_multi|].
  pose proof M as M'. apply multi_rect_nth in M' as [Lk Mk]; auto.
  split.
  - split; [now apply state_of_len|]. intros j Hj. exists (nth j (cell_of g s) 0%Z).
    split; [auto|now apply state_of_nth].
  - intros j Hj. rewrite state_of_nth by auto. rewrite cell_of_nth by (auto; lia).
    pose proof (spacing_pos g V j Hj) as Hu. destruct (valid_axis g V j Hj) as [H1 H2].
    destruct (cell_bounds (coordinate s j) (lower g j) (spacing g j) (npts g j) Hu H2) as (B1 & B2 & B3 & B4).
    rewrite <- (upper_eq g V j Hj) in B2, B4.
    split; [exact B2|]. split.
    + intros H. rewrite B3 by auto. lra.
    + intros H. rewrite B4 by auto. rewrite (upper_eq g V j Hj).
      rewrite !minus_IZR. lra.
Qed.

Lemma rect_in_cell g r c s : valid_grid g -> rectangle_to_state g r = Ok c ->
  length s = dims g ->
  (forall j, (j < dims g)%nat -> (coordinate c j <= coordinate s j < coordinate c j + spacing g j)%R) ->
  state_to_rectangle g s = Ok r.
Proof.
  intros V Hr L H.
  assert (Hrange : (0 <= r < nrectangles g)%Z).
  { destruct (Z_le_dec 0 r), (Z_lt_dec r (nrectangles g)); try lia;
    unfold rectangle_to_state in Hr; rewrite np_unravel_err in Hr; try discriminate; unfold nrectangles in *; lia. }
  destruct (rect_multi g V r Hrange) as (ks & M & ->).
  rewrite rectangle_to_state_multi in Hr by auto. injection Hr; intros <-.
  rewrite state_to_rectangle_ok by (auto; lia). f_equal. f_equal.
  pose proof M as M'. apply multi_rect_nth in M' as [Lk Mk]; auto.
  apply (nth_ext _ _ 0%Z 0%Z); [rewrite cell_of_len; auto; lia|].
  intros j Hj. rewrite cell_of_len in Hj by (auto; lia). rewrite cell_of_nth by (auto; lia).
  specialize (H j Hj). specialize (Mk j Hj). rewrite state_of_nth in H by auto.
  set (k := nth j ks 0%Z) in *. pose proof (spacing_pos g V j Hj) as Hu.
  replace (floorR ((coordinate s j - lower g j) / spacing g j)) with k; [unfold clipZ; lia|].
  symmetry. apply floorR_unique. set (u := spacing g j) in *. set (x := coordinate s j) in *.
  assert (E : (x - lower g j = (x - lower g j) / u * u)%R) by (field; lra).
  set (q := ((x - lower g j) / u)%R) in *. split; nra.
Qed.

Lemma rectangle_out_of_range g r : ~ (0 <= r < nrectangles g)%Z ->
  rectangle_to_state g r = Err ValueError /\ rectangle_corner_index g r = Err ValueError.
Proof.
  intros H. unfold rectangle_to_state, rectangle_corner_index.
  rewrite np_unravel_err by exact H. auto.
Qed.

Lemma rect_corner_agree g r : valid_grid g -> (0 <= r < nrectangles g)%Z ->
  exists c i, rectangle_to_state g r = Ok c /\ rectangle_corner_index g r = Ok i /\
    (0 <= i < nindex g)%Z /\ index_to_state g i = Ok c.
Proof.
  intros V H. destruct (rect_multi g V r H) as (ks & M & ->).
  pose proof (multi_rect_multi g V ks M) as M'.
  exists (state_of g ks), (ravel ks (num_points g)).
  split; [now apply rectangle_to_state_multi|]. split; [now apply rectangle_corner_multi|].
  split; [now apply ravel_bound|now apply index_to_state_multi].
Qed.

(** PiecewiseConstant *)

Lemma mapM_length {A B} (f : A -> res B) l bs : mapM f l = Ok bs -> length bs = length l.
Proof. intros H. apply mapM_inv in H. symmetry. eapply Forall2_len; eauto. Qed.

Lemma mapM_nth {A B} (f : A -> res B) l bs k da db :
  mapM f l = Ok bs -> (k < length l)%nat -> f (nth k l da) = Ok (nth k bs db).
Proof.
  intros H Hk. apply mapM_inv in H. apply (Forall2_nth _ _ _ da db) in H as [_ H]. now apply H.
Qed.

Definition index_of (g : grid) (s : list R) : Z :=
  match state_to_index g s with Ok i => i | Err _ => 0%Z end.

Lemma index_of_ok g s : valid_grid g -> length s = dims g ->
  state_to_index g s = Ok (index_of g s) /\ (0 <= index_of g s < nindex g)%Z.
Proof.
  intros V L. unfold index_of. destruct (nearest g V s L) as (i & p & -> & H & _). auto.
Qed.

Lemma mapM_index g points : valid_grid g -> Forall (fun s => length s = dims g) points ->
  mapM (state_to_index g) points = Ok (map (index_of g) points).
Proof.
  intros V H. apply mapM_ok. intros a Ha. rewrite Forall_forall in H. now apply index_of_ok; auto.
Qed.

Lemma py_nth_Z {A} (l : list A) i d : (0 <= i < Z.of_nat (length l))%Z -> py_nth l i = Ok (nth (Z.to_nat i) l d).
Proof.
  intros H. rewrite <- (Z2Nat.id i) at 1 by lia. apply py_nth_nonneg.
  apply nth_error_nth'. lia.
Qed.

Lemma pwc_eval_ok g values points f : valid_grid g -> make_pwc g values = Ok f ->
  Forall (fun s => length s = dims g) points ->
  pwc_eval f points = Ok (map (fun s => nth (Z.to_nat (index_of g s)) values []) points).
Proof.
  intros V Hf H. unfold make_pwc in Hf. destruct (Z.eqb_spec (Z.of_nat (length values)) (nindex g)) as [E|]; [|discriminate].
  injection Hf; intros <-. unfold pwc_eval; simpl. rewrite mapM_index by auto. simpl.
  rewrite (mapM_ok _ _ (fun i => nth (Z.to_nat i) values [])).
  - now rewrite map_map.
  - intros i Hi. apply in_map_iff in Hi as (s & <- & Hs). rewrite Forall_forall in H.
    apply py_nth_Z. rewrite E. apply index_of_ok; auto.
Qed.

Lemma sum_select (c : nat -> R) n s k :
  (s <= k < s + n)%nat ->
  sumR (map (fun j => if (Z.of_nat j =? Z.of_nat k)%Z then c j else 0%R) (seq s n)) = c k.
Proof.
  revert s; induction n as [|n IH]; intros s H; [lia|]. simpl.
  destruct (Z.eqb_spec (Z.of_nat s) (Z.of_nat k)) as [E|N].
  - assert (s = k) by lia. subst s.
    assert (Z0 : sumR (map (fun j => if (Z.of_nat j =? Z.of_nat k)%Z then c j else 0%R) (seq (S k) n)) = 0%R).
    { assert (forall m t, (k < t)%nat -> sumR (map (fun j => if (Z.of_nat j =? Z.of_nat k)%Z then c j else 0%R) (seq t m)) = 0%R).
      { induction m as [|m IHm]; intros t Ht; simpl; auto.
        rewrite IHm by lia. destruct (Z.eqb_spec (Z.of_nat t) (Z.of_nat k)); [lia|lra]. }
      apply H0; lia. }
    rewrite Z0. lra.
  - rewrite IH by lia. lra.
Qed.

Lemma map2_seq_map {A B} (h : nat -> A -> B) l s d :
  map2 h (seq s (length l)) l = map (fun j => h j (nth (j - s) l d)) (seq s (length l)).
Proof.
  revert s; induction l as [|a l IH]; intros s; [reflexivity|]. simpl. rewrite Nat.sub_diag. f_equal.
  rewrite IH. apply map_ext_in. intros j Hj. apply in_seq in Hj.
  replace (j - s)%nat with (S (j - S s)) by lia. reflexivity.
Qed.

Lemma pwc_pd_data g values f points : valid_grid g -> make_pwc g values = Ok f ->
  Forall (fun s => length s = dims g) points ->
  pwc_parameter_derivative f points =
  Ok (Coo (Z.of_nat (length points)) (nindex g)
    (map (fun j => (1%R, (Z.of_nat j, index_of g (nth j points [])))) (seq 0 (length points)))).
Proof.
  intros V Hf H. unfold make_pwc in Hf. destruct (Z.eqb_spec (Z.of_nat (length values)) (nindex g)) as [E|]; [|discriminate].
  injection Hf; intros <-. unfold pwc_parameter_derivative; simpl. rewrite mapM_index by auto. simpl.
  f_equal. f_equal. rewrite <- (map_length (index_of g) points) at 1. rewrite (map2_seq_map _ _ _ 0%Z).
  rewrite map_length. apply map_ext_in. intros j Hj. apply in_seq in Hj. rewrite Nat.sub_0_r.
  rewrite (nth_map_lt _ _ _ []) by lia. reflexivity.
Qed.

Lemma nindex_product g : valid_grid g -> nindex g = product (npts g) (dims g).
Proof. intros V. unfold nindex. rewrite (Forall_shape_prod _ 0%Z), (valid_len g V). reflexivity. Qed.

Lemma product_ext f h d : (forall j, (j < d)%nat -> f j = h j) -> product f d = product h d.
Proof. intros H; induction d; simpl; auto. rewrite IHd, H by (auto; intros; apply H; lia). reflexivity. Qed.

Lemma nrect_product' g : length (num_points g) = dims g ->
  nrectangles g = product (fun j => npts g j - 1)%Z (dims g).
Proof.
  intros L. unfold nrectangles. rewrite (Forall_shape_prod _ 0%Z), map_length, L.
  apply product_ext. intros j Hj. rewrite (nth_map_lt _ _ _ 0%Z) by lia. reflexivity.
Qed.

Lemma nrectangles_product g : valid_grid g ->
  nrectangles g = product (fun j => npts g j - 1)%Z (dims g).
Proof. intros V. apply nrect_product'. apply valid_len, V. Qed.

Lemma rectangle_inj g r r' c : valid_grid g ->
  rectangle_to_state g r = Ok c -> rectangle_to_state g r' = Ok c -> r = r'.
Proof.
  intros V H H'.
  assert (L : length c = dims g).
  { unfold rectangle_to_state, np_unravel_index in H. destruct (_ && _) eqn:E; [|discriminate].
    injection H; intros <-. apply (state_of_len g V).
    apply andb_true_iff in E as [E1 E2]. apply Z.leb_le in E1. apply Z.ltb_lt in E2.
    apply (multi_rect_nth g V). apply unravel_ok; auto using pos_rects. }
  assert (forall j, (j < dims g)%nat -> (coordinate c j <= coordinate c j < coordinate c j + spacing g j)%R).
  { intros j Hj. pose proof (spacing_pos g V j Hj). lra. }
  pose proof (rect_in_cell g r c c V H L H0). pose proof (rect_in_cell g r' c c V H' L H0). congruence.
Qed.

Lemma broadcast_spec np d :
  (fits np d /\ exists ns, broadcast_np np d = Ok ns /\ length ns = d /\
     forall j, (j < d)%nat -> nth j ns 0%Z = requested np d j) \/
  (~ fits np d /\ broadcast_np np d = Err ValueError).
Proof.
  destruct np as [n|[|a [|b ns]]]; simpl.
  - left; split; auto. exists (repeat n d). split; auto. split; [apply repeat_length|].
    intros j Hj. rewrite (nth_indep _ _ n) by (rewrite repeat_length; lia). apply nth_repeat.
  - destruct d; simpl; [left|right]; split; auto; try lia.
    exists []; repeat split; auto; intros; lia.
  - left; split; auto. exists (repeat a d). split; auto. split; [apply repeat_length|].
    intros j Hj. rewrite (nth_indep _ _ a) by (rewrite repeat_length; lia). apply nth_repeat.
  - destruct d as [|[|d]]; simpl.
    + right; split; auto; lia.
    + right; split; auto; lia.
    + destruct (Nat.eqb_spec (length ns) d) as [E|N].
      * left; split; [right; lia|]. eexists; split; [reflexivity|]. split; [simpl; lia|reflexivity].
      * right; split; auto; lia.
Qed.

Lemma construction lims np :
  (make_grid lims np = Err ValueError <-> ~ fits np (length lims)) /\
  (make_grid lims np = Err DimensionError <->
     fits np (length lims) /\ exists j, (j < length lims)%nat /\ (requested np (length lims) j < 2)%Z) /\
  (forall e, make_grid lims np = Err e -> e = ValueError \/ e = DimensionError) /\
  (forall g, make_grid lims np = Ok g ->
     limits g = lims /\ length (num_points g) = length lims /\
     (forall j, (j < length lims)%nat -> npts g j = requested np (length lims) j /\ (2 <= npts g j)%Z) /\
     nindex g = product (npts g) (length lims) /\
     nrectangles g = product (fun j => npts g j - 1)%Z (length lims) /\
     grid_len g = nindex g /\
     (forall j, (j < length lims)%nat ->
        (IZR (npts g j - 1) * nth j (unit_maxes g) 0%R = upper g j - lower g j)%R)).
Proof.
  unfold make_grid.
  destruct (broadcast_spec np (length lims)) as [(F & ns & -> & L & N)|(F & ->)].
  2:{ simpl. repeat split; try discriminate; auto; try (intros; exfalso; tauto).
      intros e H; injection H; intros <-; auto. }
  simpl. destruct existsb eqn:E.
  - apply existsb_exists in E as (n & Hn & Hn2). apply Z.ltb_lt in Hn2.
    destruct (In_nth _ _ 0%Z Hn) as (j & Hj & Hjn).
    split; [split; [discriminate|tauto]|]. split; [|split; [|discriminate]].
    + split; auto. intros _. split; auto. exists j. split; [lia|]. rewrite <- N by lia. lia.
    + intros e H; injection H; intros <-; auto.
  - assert (G : forall j, (j < length lims)%nat -> (2 <= nth j ns 0)%Z).
    { intros j Hj. destruct (Z_lt_dec (nth j ns 0%Z) 2) as [Hlt|]; [|lia]. exfalso.
      assert (existsb (fun n => (n <? 2)%Z) ns = true); [|congruence].
      apply existsb_exists. exists (nth j ns 0%Z). split; [apply nth_In; lia|]. apply Z.ltb_lt; auto. }
    split; [split; [discriminate|tauto]|]. split; [|split; [discriminate|]].
    + split; [discriminate|]. intros [_ (j & Hj & Hlt)]. rewrite <- N in Hlt by auto. specialize (G j Hj); lia.
    + intros g H; injection H; intros <-. simpl.
      split; auto. split; auto. split; [|split; [|split; [|split; [reflexivity|]]]].
      * intros j Hj. unfold npts; simpl. auto.
      * unfold nindex; simpl. rewrite (Forall_shape_prod _ 0%Z), L. reflexivity.
      * apply nrect_product'. exact L.
      * intros j Hj. unfold unit_maxes; simpl. rewrite (nth_map2 _ _ _ _ (0,0)%R 0%Z) by lia.
        unfold upper, lower, npts; simpl. specialize (G j Hj).
        assert (0 < IZR (nth j ns 0%Z - 1))%R by (apply IZR_lt; lia). field. lra.
Qed.

Lemma coo_dot_row g (c : nat -> Z) N f k : (k < N)%nat ->
  coo_dot (Coo (Z.of_nat N) g (map (fun j => (1%R, (Z.of_nat j, c j))) (seq 0 N))) f (Z.of_nat k) = f (c k).
Proof.
  intros H. unfold coo_dot; simpl. rewrite map_map. simpl.
  rewrite (sum_select (fun j => (1 * f (c j))%R)) by lia. lra.
Qed.

Lemma pwc_spec g values f points :
  valid_grid g -> make_pwc g values = Ok f -> Forall (fun s => length s = dims g) points ->
  exists out B,
    pwc_eval f points = Ok out /\ length out = length points /\
    (forall k, (k < length points)%nat -> exists i,
       state_to_index g (nth k points []) = Ok i /\ nth k out [] = nth (Z.to_nat i) values []) /\
    pwc_parameter_derivative f points = Ok B /\ coo_wf B /\
    coo_rows B = Z.of_nat (length points) /\ coo_cols B = nindex g /\
    (forall k o, (k < length points)%nat ->
       coo_dot B (column values o) (Z.of_nat k) = nth o (nth k out []) 0%R) /\
    (forall k i c, (k < length points)%nat -> state_to_index g (nth k points []) = Ok i ->
       coo_entry B (Z.of_nat k) c = if (c =? i)%Z then 1%R else 0%R) /\
    pwc_gradient f points = repeat (repeat 0%R (dims g)) (length points).
Proof.
  intros V Hf H. do 2 eexists.
  split; [eapply pwc_eval_ok; eauto|].
  assert (Hk : forall k, (k < length points)%nat -> length (nth k points []) = dims g).
  { intros k Hk. rewrite Forall_forall in H. apply H, nth_In; auto. }
  split; [now rewrite map_length|].
  split. { intros k Hlt. exists (index_of g (nth k points [])). split; [apply index_of_ok; auto|].
           now rewrite (nth_map_lt _ _ _ []). }
  split; [eapply pwc_pd_data; eauto|].
  split. { unfold coo_wf; simpl. apply Forall_forall. intros t Ht. apply in_map_iff in Ht as (j & <- & Hj).
           apply in_seq in Hj. simpl. split; [lia|]. apply index_of_ok; auto. apply Hk; lia. }
  split; auto. split; auto.
  split. { intros k o Hlt. rewrite coo_dot_row by auto. unfold column.
           now rewrite (nth_map_lt _ _ _ []). }
  split. { intros k i c Hlt Hi. unfold coo_entry; simpl. rewrite map_map. simpl.
    destruct (index_of_ok g (nth k points []) V (Hk k Hlt)) as [E _]. rewrite E in Hi. injection Hi; intros <-.
    transitivity (sumR (map (fun j => if (Z.of_nat j =? Z.of_nat k)%Z then
       (if (c =? index_of g (nth j points []))%Z then 1%R else 0%R) else 0%R) (seq 0 (length points)))).
    - f_equal. apply map_ext. intros j. destruct (Z.of_nat j =? Z.of_nat k)%Z; simpl; auto. now rewrite Z.eqb_sym.
    - now rewrite sum_select by lia. }
  unfold make_pwc in Hf. destruct (_ =? _)%Z; [|discriminate]. injection Hf; intros <-.
  unfold pwc_gradient; simpl. clear. induction points; simpl; [auto|]. now rewrite IHpoints.
Qed.

Lemma pwc_vertex g values f i s :
  valid_grid g -> make_pwc g values = Ok f -> index_to_state g i = Ok s ->
  pwc_eval f [s] = Ok [nth (Z.to_nat i) values []].
Proof.
  intros V Hf Hi.
  assert (Hr : (0 <= i < nindex g)%Z).
  { destruct (Z_le_dec 0 i), (Z_lt_dec i (nindex g)); try lia; rewrite index_to_state_err in Hi; try discriminate; lia. }
  destruct (round_trip g V i Hr) as (s' & H1 & H2). assert (s' = s) by congruence. subst s'.
  assert (L : length s = dims g).
  { destruct (Nat.eq_dec (length s) (dims g)); auto. rewrite state_to_index_err in H2; [discriminate|auto]. }
  rewrite (pwc_eval_ok g values _ f V Hf) by auto. simpl. unfold index_of. now rewrite H2.
Qed.
