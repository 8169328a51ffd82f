(** Double precision grids: from one axis to the grid. *)
From Coq Require Import List ZArith Reals Bool Lra Lia Psatz.
From Flocq Require Import Core Relative.
From Verif Require Import Prelude ListFacts NumModel NumProofs GridModel GridSpec GridProofs
  TriModel F64Model F64Spec F64Facts.
Import ListNotations.
Local Open Scope R_scope.

Section Grid.
Variable g : grid.
Hypothesis Hg : resolved_grid g.

Lemma rg_valid : valid_grid g.
Proof.
  unfold valid_grid. unfold resolved_grid in Hg.
  induction Hg as [ | l n ls ns H H0 IH ]; constructor; auto.
  split; [ | destruct H as (H & _); lia ].
  pose proof (ax_Wle l n H). lra.
Qed.
Lemma rg_axis : forall j, (j < dims g)%nat ->
  resolved (nth j (limits g) (0, 0)) (npts g j).
Proof. intros j Hj. apply (Forall2_nth _ _ _ (0,0) 0%Z) in Hg as [_ H]. apply H; exact Hj. Qed.
Lemma rg_len : length (num_points g) = dims g.
Proof. apply valid_len, rg_valid. Qed.

Lemma f_unit_len : length (f_unit_maxes g) = dims g.
Proof. unfold f_unit_maxes. rewrite map2_length, rg_len. unfold dims. lia. Qed.
Lemma f_unit_nth : forall j, (j < dims g)%nat ->
  nth j (f_unit_maxes g) 0 = f_unit (nth j (limits g) (0, 0)) (npts g j).
Proof.
  intros j Hj. unfold f_unit_maxes. rewrite (nth_map2 _ _ _ _ (0,0) 0%Z); auto. rewrite rg_len; auto.
Qed.

(** [index_to_state] *)
Definition f_state_of (ks : list Z) : list R :=
  map3 (fun k u o => rnd (rnd (IZR k * u) + o)) ks (f_unit_maxes g) (offset g).
Lemma f_state_of_len : forall ks, length ks = dims g -> length (f_state_of ks) = dims g.
Proof. intros ks H. unfold f_state_of. rewrite map3_length, f_unit_len, offset_len, H. lia. Qed.
Lemma f_state_of_nth : forall ks j, length ks = dims g -> (j < dims g)%nat ->
  coordinate (f_state_of ks) j = ax_pt (nth j (limits g) (0, 0)) (npts g j) (nth j ks 0%Z).
Proof.
  intros ks j L Hj. unfold coordinate, f_state_of.
  rewrite (nth_map3 _ _ _ _ _ 0%Z 0%R 0%R) by (rewrite ?f_unit_len, ?offset_len, ?L; auto).
  rewrite offset_nth, f_unit_nth by auto. reflexivity.
Qed.
Lemma f_index_to_state_ok : forall i, (0 <= i < nindex g)%Z ->
  f_index_to_state g i = Ok (f_state_of (unravel i (num_points g))).
Proof.
  intros i H. unfold f_index_to_state. rewrite np_unravel_ok; auto using (pos_points g rg_valid).
Qed.

(** [state_to_index] *)
Definition f_rounded (s : list R) : list Z :=
  map rint (map3 (fun x o u => rnd (rnd (x - o) * rnd (1 / u)))
     (map2 (fun x l => clipR x (fst l) (snd l)) s (limits g)) (offset g) (f_unit_maxes g)).
Lemma f_rounded_len : forall s, length s = dims g -> length (f_rounded s) = dims g.
Proof.
  intros s H. unfold f_rounded. rewrite map_length, map3_length, map2_length, offset_len, f_unit_len, H.
  unfold dims. lia.
Qed.
Lemma f_rounded_nth : forall s j, length s = dims g -> (j < dims g)%nat ->
  nth j (f_rounded s) 0%Z = rint (ax_scaled (nth j (limits g) (0, 0)) (npts g j) (coordinate s j)).
Proof.
  intros s j H Hj. unfold f_rounded.
  rewrite (nth_indep _ _ (rint 0)).
  2:{ pose proof (f_rounded_len s H) as L. unfold f_rounded in L. rewrite L. auto. }
  rewrite map_nth. f_equal.
  rewrite (nth_map3 _ _ _ _ _ 0%R 0%R 0%R).
  - rewrite offset_nth, f_unit_nth by auto.
    rewrite (nth_map2 _ _ _ _ 0%R (0,0)%R) by (rewrite ?H; auto). reflexivity.
  - rewrite map2_length, H. unfold dims in *. lia.
  - rewrite offset_len; auto.
  - rewrite f_unit_len; auto.
Qed.
Lemma f_rounded_multi : forall s, length s = dims g -> multi g (f_rounded s).
Proof.
  intros s H. apply (multi_nth g rg_valid). split; [ now apply f_rounded_len | ]. intros j Hj.
  rewrite f_rounded_nth by auto.
  pose proof (ax_index _ _ (rg_axis j Hj) (coordinate s j)) as [ A _ ]. cbv zeta in A. lia.
Qed.
Lemma f_state_to_index_ok : forall s, length s = dims g ->
  f_state_to_index g s = Ok (ravel (f_rounded s) (num_points g)).
Proof.
  intros s H. unfold f_state_to_index, check_dimensions, ndim. unfold dims in H. rewrite H, Nat.eqb_refl.
  cbn [bind]. apply np_ravel_ok. now apply f_rounded_multi.
Qed.

Lemma f_rounded_state_of : forall ks, multi g ks -> f_rounded (f_state_of ks) = ks.
Proof.
  intros ks M. pose proof M as M'. apply (multi_nth g rg_valid) in M' as [ L H ].
  apply (nth_ext _ _ 0%Z 0%Z).
  - rewrite f_rounded_len; auto using f_state_of_len.
  - intros j Hj. rewrite f_rounded_len in Hj by auto using f_state_of_len.
    rewrite f_rounded_nth by auto using f_state_of_len.
    rewrite f_state_of_nth by auto. apply ax_roundtrip; [ apply rg_axis; auto | ].
    specialize (H j Hj). lia.
Qed.

(** [state_to_rectangle] *)
Definition f_cell_of (s : list R) : list Z :=
  map3 (fun x l n => clipZ (digitize x (f_linspace l n) - 1) 0 (n - 2)) s (limits g) (num_points g).
Lemma f_rect_indices_ok : forall s, length s = dims g ->
  rect_indices s (map2 f_linspace (limits g) (num_points g)) (num_points g) = Ok (f_cell_of s).
Proof.
  unfold f_cell_of, dims. unfold resolved_grid in Hg. 
  induction Hg as [ | l n ls ns H H0 IH ]; intros s Hs; [ destruct s; reflexivity | ].
  destruct s as [ | x s ]; cbn [length] in Hs; [ lia | ].
  cbn [map2 rect_indices map3]. rewrite IH by (auto; lia). reflexivity.
Qed.
Lemma f_cell_of_len : forall s, length s = dims g -> length (f_cell_of s) = dims g.
Proof. intros. unfold f_cell_of. rewrite map3_length, rg_len. unfold dims in *. lia. Qed.
Lemma f_cell_of_nth : forall s j, length s = dims g -> (j < dims g)%nat ->
  nth j (f_cell_of s) 0%Z =
  clipZ (digitize (coordinate s j) (f_linspace (nth j (limits g) (0, 0)) (npts g j)) - 1) 0 (npts g j - 2).
Proof.
  intros s j H Hj. unfold f_cell_of.
  rewrite (nth_map3 _ _ _ _ _ 0%R (0,0)%R 0%Z); auto; rewrite ?rg_len; auto. lia.
Qed.
Lemma f_cell_of_multi : forall s, length s = dims g -> multi_rect g (f_cell_of s).
Proof.
  intros s H. apply (multi_rect_nth g rg_valid). split; [ now apply f_cell_of_len | ]. intros j Hj.
  rewrite f_cell_of_nth by auto.
  destruct (ax_cell _ _ (coordinate s j) (rg_axis j Hj)) as [ A _ ]. lia.
Qed.
Lemma f_state_to_rectangle_ok : forall s, length s = dims g ->
  f_state_to_rectangle g s = Ok (ravel (f_cell_of s) (map (fun n => n - 1)%Z (num_points g))).
Proof.
  intros s H. unfold f_state_to_rectangle. rewrite f_rect_indices_ok by auto. cbn [bind].
  apply np_ravel_ok. now apply f_cell_of_multi.
Qed.

Lemma gap_spacing : forall j, gap (nth j (limits g) (0, 0)) (npts g j) = spacing g j.
Proof. reflexivity. Qed.

(** The statements used by the property file. *)
Lemma f_lookup : forall x, length x = dims g ->
  exists i e, f_state_to_index g x = Ok i /\ index_to_state g i = Ok e /\
    forall j, (j < dims g)%nat ->
      Rabs (clipR (coordinate x j) (lower g j) (upper g j) - coordinate e j)
        <= (1 / 2 + / 64) * spacing g j.
Proof.
  intros x L. eexists _, _. split; [ apply f_state_to_index_ok; exact L | ].
  split; [ apply index_to_state_multi; [ apply rg_valid | now apply f_rounded_multi ] | ].
  intros j Hj. rewrite (state_of_nth g rg_valid) by auto using f_rounded_len.
  rewrite f_rounded_nth by auto.
  apply (ax_index _ _ (rg_axis j Hj) (coordinate x j)).
Qed.

Lemma f_round_trip : forall i, (0 <= i < nindex g)%Z ->
  exists s e, f_index_to_state g i = Ok s /\ index_to_state g i = Ok e /\
    length s = dims g /\
    (forall j, (j < dims g)%nat -> Rabs (coordinate s j - coordinate e j) <= / 128 * spacing g j) /\
    f_state_to_index g s = Ok i /\
    f_state_to_rectangle g s = state_to_rectangle g e.
Proof.
  intros i Hi. pose proof rg_valid as V.
  assert (M : multi g (unravel i (num_points g))) by (apply unravel_ok; auto using pos_points).
  pose proof M as M'. apply (multi_nth g V) in M' as [ L H ].
  exists (f_state_of (unravel i (num_points g))), (state_of g (unravel i (num_points g))).
  split; [ now apply f_index_to_state_ok | ].
  split; [ now apply index_to_state_ok | ].
  split; [ now apply f_state_of_len | ].
  split; [ | split ].
  - intros j Hj. rewrite f_state_of_nth, (state_of_nth g V) by auto.
    apply (ax_pt_err _ _ (rg_axis j Hj)). specialize (H j Hj). lia.
  - rewrite f_state_to_index_ok by now apply f_state_of_len.
    rewrite f_rounded_state_of by exact M. now rewrite ravel_unravel by auto using pos_points.
  - rewrite f_state_to_rectangle_ok by now apply f_state_of_len.
    rewrite (state_to_rectangle_ok g V) by (rewrite state_of_len; auto).
    do 2 f_equal. apply (nth_ext _ _ 0%Z 0%Z).
    + rewrite f_cell_of_len, cell_of_len; auto using f_state_of_len; rewrite state_of_len; auto.
    + intros j Hj. rewrite f_cell_of_len in Hj by auto using f_state_of_len.
      rewrite f_cell_of_nth, (cell_of_nth g V) by (rewrite ?f_state_of_len, ?state_of_len; auto).
      rewrite f_state_of_nth, (state_of_nth g V) by auto.
      specialize (H j Hj). rewrite ax_cell_pt by (try lia; apply rg_axis; auto).
      pose proof (spacing_pos g V j Hj) as Sp.
      replace ((lower g j + IZR (nth j (unravel i (num_points g)) 0%Z) * spacing g j - lower g j) / spacing g j)
        with (IZR (nth j (unravel i (num_points g)) 0%Z)) by (field; lra).
      rewrite floorR_IZR. unfold clipZ. lia.
Qed.

Lemma f_cell_lookup : forall x, length x = dims g ->
  exists r c, f_state_to_rectangle g x = Ok r /\ rectangle_to_state g r = Ok c /\
    forall j, (j < dims g)%nat ->
      let p := clipR (coordinate x j) (lower g j) (upper g j) in
      coordinate c j - / 128 * spacing g j <= p <= coordinate c j + (1 + / 128) * spacing g j.
Proof.
  intros x L. pose proof rg_valid as V. pose proof (f_cell_of_multi x L) as M.
  eexists _, _. split; [ now apply f_state_to_rectangle_ok | ].
  split; [ apply (rectangle_to_state_multi g V); exact M | ].
  pose proof M as M'. apply (multi_rect_nth g V) in M' as [ L' H ].
  intros j Hj p. rewrite (state_of_nth g V) by auto. rewrite f_cell_of_nth by auto.
  pose proof (rg_axis j Hj) as A.
  destruct (ax_cell _ _ (coordinate x j) A) as (J & B & C).
  set (k := clipZ _ 0 (npts g j - 2)) in *.
  pose proof (spacing_pos g V j Hj) as Sp. pose proof (spacing_width g V j Hj) as SW.
  pose proof (ax_clip _ _ A (coordinate x j)) as Hp. change (lower g j <= p <= upper g j) in Hp.
  assert (n2 : (2 <= npts g j)%Z) by (apply (valid_axis g V j Hj)).
  split.
  - destruct B as [ B | B ]; [ rewrite B; lra | ].
    pose proof (ax_disc_err _ _ A (Z.to_nat k) ltac:(lia)) as E. rewrite Z2Nat.id in E by lia.
    apply Rabs_le_inv in E. rewrite gap_spacing in E. fold (lower g j) in E.
    assert (KW : IZR k * spacing g j <= upper g j - lower g j).
    { rewrite <- SW. apply Rmult_le_compat_r; [ lra | ]. apply IZR_le. lia. }
    unfold p, clipR, Rmin, Rmax. repeat destruct Rle_dec; lra.
  - destruct C as [ C | C ].
    + rewrite C, minus_IZR. rewrite minus_IZR in SW. lra.
    + pose proof (ax_disc_err _ _ A (Z.to_nat (k + 1)) ltac:(lia)) as E. rewrite Z2Nat.id in E by lia.
      apply Rabs_le_inv in E. rewrite gap_spacing in E. fold (lower g j) in E.
      rewrite plus_IZR in E.
      assert (K0 : 0 <= IZR k * spacing g j) by (apply Rmult_le_pos; [ apply IZR_le; lia | lra ]).
      unfold p, clipR, Rmin, Rmax. repeat destruct Rle_dec; lra.
Qed.

(** [all_points] *)
Lemma f_linspace_len : forall l n, length (f_linspace l n) = Z.to_nat n.
Proof. intros. unfold f_linspace. now rewrite map_length, seq_length. Qed.
Lemma f_linspace_nth : forall l n k, (0 <= k < n)%Z ->
  nth (Z.to_nat k) (f_linspace l n) 0 = if (k =? n - 1)%Z then snd l else ax_pt l n k.
Proof.
  intros l n k Hk. unfold f_linspace. rewrite (nth_map_lt _ _ _ 0%nat) by (rewrite seq_length; lia).
  rewrite seq_nth by lia. cbn [Nat.add]. rewrite Z2Nat.id by lia. reflexivity.
Qed.
Lemma f_lengths : map (fun a => Z.of_nat (length a)) (map2 f_linspace (limits g) (num_points g)) = num_points g.
Proof.
  unfold resolved_grid in Hg. induction Hg as [ | l n ls ns H H0 IH ]; [ reflexivity | ].
  cbn [map2 map]. rewrite IH by exact H0. f_equal. rewrite f_linspace_len. destruct H as (H & _). lia.
Qed.
Definition f_listed (ks : list Z) : list R :=
  map2 (fun k a => nth (Z.to_nat k) a 0) ks (map2 f_linspace (limits g) (num_points g)).
Lemma f_all_points_nth : forall i, (0 <= i < nindex g)%Z ->
  nth (Z.to_nat i) (f_all_points g) [] = f_listed (unravel i (num_points g)).
Proof.
  intros i Hi. unfold f_all_points. rewrite (meshgrid_nth _ 0).
  - rewrite f_lengths. reflexivity.
  - rewrite f_lengths. exact Hi.
  - rewrite f_lengths. apply pos_points, rg_valid.
Qed.
Lemma f_listed_len : forall ks, length ks = dims g -> length (f_listed ks) = dims g.
Proof. intros ks L. unfold f_listed. rewrite !map2_length, rg_len, L. unfold dims. lia. Qed.
Lemma f_listed_nth : forall ks j, multi g ks -> (j < dims g)%nat ->
  coordinate (f_listed ks) j =
  if (nth j ks 0 =? npts g j - 1)%Z then upper g j
  else ax_pt (nth j (limits g) (0, 0)) (npts g j) (nth j ks 0%Z).
Proof.
  intros ks j M Hj. apply (multi_nth g rg_valid) in M as [ L H ]. unfold coordinate, f_listed.
  rewrite (nth_map2 _ _ _ _ 0%Z []) by (rewrite ?map2_length, ?rg_len, ?L; unfold dims in *; lia).
  rewrite (nth_map2 _ _ _ _ (0,0) 0%Z) by (rewrite ?rg_len; unfold dims in *; lia).
  fold (npts g j). rewrite f_linspace_nth by (apply H; exact Hj). reflexivity.
Qed.

Lemma f_points_by_index : forall i, (0 <= i < nindex g)%Z ->
  exists s, f_index_to_state g i = Ok s /\
    let p := nth (Z.to_nat i) (f_all_points g) [] in
    length p = dims g /\
    (forall j, (j < dims g)%nat ->
       coordinate p j = coordinate s j \/
       (coordinate p j = upper g j /\ Rabs (coordinate s j - upper g j) <= / 128 * spacing g j)) /\
    f_state_to_index g p = Ok i.
Proof.
  intros i Hi. pose proof rg_valid as V.
  assert (M : multi g (unravel i (num_points g))) by (apply unravel_ok; auto using pos_points).
  pose proof M as M'. apply (multi_nth g V) in M' as [ L H ].
  exists (f_state_of (unravel i (num_points g))). split; [ now apply f_index_to_state_ok | ].
  rewrite f_all_points_nth by exact Hi. cbv zeta. set (ks := unravel i (num_points g)) in *.
  split; [ now apply f_listed_len | ]. split.
  - intros j Hj. rewrite f_listed_nth, f_state_of_nth by auto.
    destruct (Z.eqb_spec (nth j ks 0%Z) (npts g j - 1)) as [ E | E ]; [ right | now left ].
    split; [ reflexivity | ]. rewrite E.
    pose proof (ax_pt_err _ _ (rg_axis j Hj) (npts g j - 1) ltac:(specialize (H j Hj); lia)) as A.
    rewrite gap_spacing in A. fold (lower g j) in A. rewrite (spacing_width g V j Hj) in A.
    replace (lower g j + (upper g j - lower g j)) with (upper g j) in A by ring. exact A.
  - rewrite f_state_to_index_ok by now apply f_listed_len.
    replace (f_rounded (f_listed ks)) with ks.
    + unfold ks. now rewrite ravel_unravel by auto using pos_points.
    + apply (nth_ext _ _ 0%Z 0%Z); [ rewrite f_rounded_len; auto using f_listed_len | ].
      intros j Hj. rewrite L in Hj. rewrite f_rounded_nth by auto using f_listed_len.
      rewrite f_listed_nth by auto.
      destruct (Z.eqb_spec (nth j ks 0%Z) (npts g j - 1)) as [ E | E ].
      * rewrite E. symmetry. apply (ax_round_upper _ _ (rg_axis j Hj)).
      * symmetry. apply (ax_roundtrip _ _ (rg_axis j Hj)). specialize (H j Hj). lia.
Qed.
End Grid.
