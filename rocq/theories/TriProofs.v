(** Lemmas about the triangulation model. *)
From Coq Require Import List ZArith Reals Lia Lra Bool Psatz.
Import ListNotations.
From Verif Require Import Prelude NumModel NumProofs GridModel GridSpec SparseSpec GridProofs TriModel TriSpec.
Open Scope R_scope.

(** ** finite sums *)
Lemma sumn_ext n f h : (forall i, (i < n)%nat -> f i = h i) -> sumn n f = sumn n h.
Proof. induction n; intros H; simpl; auto. rewrite IHn, H; auto. Qed.
Lemma sumn_plus n f h : sumn n (fun i => f i + h i) = sumn n f + sumn n h.
Proof. induction n; simpl; [lra|]. rewrite IHn; lra. Qed.
Lemma sumn_minus n f h : sumn n (fun i => f i - h i) = sumn n f - sumn n h.
Proof. induction n; simpl; [lra|]. rewrite IHn; lra. Qed.
Lemma sumn_scal n c f : sumn n (fun i => c * f i) = c * sumn n f.
Proof. induction n; simpl; [lra|]. rewrite IHn; lra. Qed.
Lemma sumn_scal_r n c f : sumn n (fun i => f i * c) = sumn n f * c.
Proof. induction n; simpl; [lra|]. rewrite IHn; lra. Qed.
Lemma sumn_zero n : sumn n (fun _ => 0) = 0.
Proof. induction n; simpl; lra. Qed.
Lemma sumn_le n f h : (forall i, (i < n)%nat -> f i <= h i) -> sumn n f <= sumn n h.
Proof. induction n; intros H; simpl; [lra|]. assert (sumn n f <= sumn n h) by auto. specialize (H n); lra || (assert (f n <= h n) by (apply H; lia); lra). Qed.
Lemma sumn_swap n m f : sumn n (fun i => sumn m (fun j => f i j)) = sumn m (fun j => sumn n (fun i => f i j)).
Proof.
  induction n; simpl; [now rewrite sumn_zero|]. rewrite IHn, <- sumn_plus. reflexivity.
Qed.
Lemma sumn_delta n k f : (k < n)%nat -> sumn n (fun i => delta i k * f i) = f k.
Proof.
  induction n; intros H; [lia|]. simpl. unfold delta at 2. destruct (Nat.eqb_spec n k) as [->|N].
  - rewrite (sumn_ext _ _ (fun _ => 0)); [rewrite sumn_zero; lra|].
    intros i Hi. unfold delta. destruct (Nat.eqb_spec i k); [lia|lra].
  - rewrite IHn by lia. lra.
Qed.
Lemma delta_sym i j : delta i j = delta j i.
Proof. unfold delta. now rewrite Nat.eqb_sym. Qed.
Lemma sumn_S_l n f : sumn (S n) f = f O + sumn n (fun i => f (S i)).
Proof. induction n; simpl; [lra|]. simpl in IHn. rewrite IHn. lra. Qed.
Lemma sumn_abs n f : Rabs (sumn n f) <= sumn n (fun i => Rabs (f i)).
Proof. induction n; simpl; [rewrite Rabs_R0; lra|]. eapply Rle_trans; [apply Rabs_triang|]. lra. Qed.
Lemma sumn_nonneg n f : (forall i, (i < n)%nat -> 0 <= f i) -> 0 <= sumn n f.
Proof. intros H. rewrite <- (sumn_zero n). apply sumn_le; auto. Qed.
Lemma sumn_nonneg_term n f k : (forall i, (i < n)%nat -> 0 <= f i) -> (k < n)%nat -> f k <= sumn n f.
Proof.
  induction n; intros H Hk; [lia|]. simpl. assert (0 <= f n) by (apply H; lia).
  destruct (Nat.eq_dec k n) as [->|N].
  - assert (0 <= sumn n f) by (apply sumn_nonneg; auto). lra.
  - assert (f k <= sumn n f) by (apply IHn; auto; lia). lra.
Qed.

(** ** vectors *)
Lemma vsum_sumn v : vsum v = sumn (length v) (coordinate v).
Proof.
  unfold vsum. induction v as [|a v IH]; [reflexivity|].
  cbn [fold_right length]. rewrite sumn_S_l, IH. reflexivity.
Qed.

Lemma vsub_len a b : length a = length b -> length (vsub a b) = length a.
Proof. intros H. unfold vsub. rewrite map2_length. lia. Qed.
Lemma vsub_coord a b j : (j < length a)%nat -> (j < length b)%nat ->
  coordinate (vsub a b) j = coordinate a j - coordinate b j.
Proof. intros. unfold coordinate, vsub. now rewrite (nth_map2 _ _ _ _ 0 0). Qed.
Lemma vadd_len a b : length a = length b -> length (vadd a b) = length a.
Proof. intros H. unfold vadd. rewrite map2_length. lia. Qed.
Lemma vadd_coord a b j : (j < length a)%nat -> (j < length b)%nat ->
  coordinate (vadd a b) j = coordinate a j + coordinate b j.
Proof. intros. unfold coordinate, vadd. now rewrite (nth_map2 _ _ _ _ 0 0). Qed.
Lemma vscale_coord c a j : coordinate (vscale c a) j = c * coordinate a j.
Proof.
  unfold coordinate, vscale. destruct (lt_dec j (length a)).
  - now rewrite (nth_map_lt _ _ _ 0).
  - rewrite !nth_overflow by (rewrite ?map_length; lia). lra.
Qed.

Lemma vecmat_len m v rows : Forall (fun r => length r = m) rows -> length (vecmat m v rows) = m.
Proof.
  unfold vecmat. intros H. revert v. induction H as [|r rows Hr H IH]; intros [|a v]; simpl; try apply repeat_length.
  rewrite vadd_len; unfold vscale; rewrite map_length; auto. rewrite IH; auto.
Qed.

Lemma vecmat_coord m v rows j : Forall (fun r => length r = m) rows -> (j < m)%nat ->
  length v = length rows ->
  coordinate (vecmat m v rows) j = sumn (length rows) (fun i => coordinate v i * entry rows i j).
Proof.
  intros H Hj. revert v. induction H as [|r rows Hr H IH]; intros [|a v] L; try discriminate.
  - simpl. unfold vecmat; simpl. unfold coordinate. now rewrite nth_repeat.
  - cbn [length]. rewrite sumn_S_l. unfold vecmat; cbn [map2 fold_right].
    fold (vecmat m v rows). rewrite vadd_coord.
    + rewrite vscale_coord, IH by (simpl in L; lia). reflexivity.
    + unfold vscale. rewrite map_length. lia.
    + rewrite vecmat_len; auto.
Qed.

Lemma Forall_nth_len (M : mat) m i : Forall (fun r => length r = m) M -> (i < length M)%nat -> length (nth i M []) = m.
Proof. intros H Hi. rewrite Forall_forall in H. apply H, nth_In, Hi. Qed.

(** ** barycentric coordinates *)
Section Bary.
Variable d : nat.
Variable v0 : vec.
Variable vs : list vec.      (* d further vertices *)
Variable H : mat.
Hypothesis L0 : length v0 = d.
Hypothesis Lvs : Forall (fun v => length v = d) vs.
Hypothesis INV : inverse d (edges (v0 :: vs)) H.

Lemma bary_len : length vs = d.
Proof. destruct INV as [[L _] _]. simpl in L. now rewrite map_length in L. Qed.

Lemma edge_entry i j : (i < d)%nat -> (j < d)%nat ->
  entry (edges (v0 :: vs)) i j = entry vs i j - coordinate v0 j.
Proof.
  intros Hi Hj. unfold entry; simpl. pose proof bary_len.
  rewrite (nth_map_lt _ _ _ []) by lia.
  pose proof (Forall_nth_len vs d i Lvs ltac:(lia)).
  change (coordinate (vsub (nth i vs []) v0) j = nth j (nth i vs []) 0 - coordinate v0 j).
  rewrite vsub_coord by lia. reflexivity.
Qed.

Definition bw (p : vec) : vec := vecmat d (vsub p v0) H.
Definition weights (p : vec) : vec := (1 - vsum (bw p)) :: bw p.

Lemma H_square : length H = d /\ Forall (fun r => length r = d) H.
Proof. destruct INV as (_ & S & _). exact S. Qed.

Lemma bw_len p : length (bw p) = d.
Proof. apply vecmat_len. apply H_square. Qed.

Lemma bw_coord p k : length p = d -> (k < d)%nat ->
  coordinate (bw p) k = sumn d (fun j => (coordinate p j - coordinate v0 j) * entry H j k).
Proof.
  intros Lp Hk. unfold bw. destruct H_square as [LH FH].
  rewrite vecmat_coord; auto; [|rewrite vsub_len; lia]. rewrite LH.
  apply sumn_ext. intros j Hj. rewrite vsub_coord by lia. reflexivity.
Qed.

Lemma weights_len p : length (weights p) = S d.
Proof. unfold weights. simpl. now rewrite bw_len. Qed.

Lemma weights_sum p : sumn (S d) (coordinate (weights p)) = 1.
Proof.
  rewrite sumn_S_l. unfold weights at 1. unfold coordinate at 1; cbn [nth].
  rewrite vsum_sumn, bw_len. 
  rewrite (sumn_ext d (fun i => coordinate (weights p) (S i)) (coordinate (bw p))) by reflexivity. lra.
Qed.

(** The weighted vertices give back the point. *)
Lemma weights_point p j : length p = d -> (j < d)%nat ->
  sumn (S d) (fun k => coordinate (weights p) k * entry (v0 :: vs) k j) = coordinate p j.
Proof.
  intros Lp Hj. rewrite sumn_S_l.
  change (coordinate (weights p) 0) with (1 - vsum (bw p)).
  change (entry (v0 :: vs) 0 j) with (coordinate v0 j).
  rewrite (sumn_ext d _ (fun k => coordinate (bw p) k * coordinate v0 j
             + coordinate (bw p) k * entry (edges (v0 :: vs)) k j)).
  2:{ intros k Hk. rewrite edge_entry by auto.
      change (coordinate (weights p) (S k)) with (coordinate (bw p) k).
      change (entry (v0 :: vs) (S k) j) with (entry vs k j). lra. }
  rewrite sumn_plus, sumn_scal_r, vsum_sumn, bw_len.
  assert (E : sumn d (fun k => coordinate (bw p) k * entry (edges (v0 :: vs)) k j)
              = coordinate p j - coordinate v0 j).
  { rewrite (sumn_ext d _
     (fun k => sumn d (fun i => (coordinate p i - coordinate v0 i) * (entry H i k * entry (edges (v0 :: vs)) k j)))).
    2:{ intros k Hk. rewrite bw_coord by auto. rewrite <- sumn_scal_r. apply sumn_ext. intros; lra. }
    rewrite sumn_swap.
    rewrite (sumn_ext d _ (fun i => delta i j * (coordinate p i - coordinate v0 i))).
    2:{ intros i Hi. rewrite sumn_scal. destruct INV as (_ & _ & I). destruct (I i j Hi Hj) as [_ ->]. lra. }
    now rewrite sumn_delta by auto. }
  rewrite E. lra.
Qed.

(** Barycentric coordinates are unique. *)
Lemma weights_unique p (lam : nat -> R) : length p = d ->
  sumn (S d) lam = 1 ->
  (forall j, (j < d)%nat -> coordinate p j = sumn (S d) (fun k => lam k * entry (v0 :: vs) k j)) ->
  forall k, (k < S d)%nat -> coordinate (weights p) k = lam k.
Proof.
  intros Lp S1 SP.
  assert (OFF : forall j, (j < d)%nat -> coordinate p j - coordinate v0 j =
            sumn d (fun i => lam (S i) * entry (edges (v0 :: vs)) i j)).
  { intros j Hj. rewrite SP by auto. rewrite sumn_S_l.
    change (entry (v0 :: vs) 0 j) with (coordinate v0 j).
    rewrite (sumn_ext d (fun i => lam (S i) * entry (edges (v0 :: vs)) i j)
       (fun i => lam (S i) * entry (v0 :: vs) (S i) j - lam (S i) * coordinate v0 j)).
    2:{ intros i Hi. rewrite edge_entry by auto. change (entry (v0 :: vs) (S i) j) with (entry vs i j). lra. }
    rewrite sumn_minus, sumn_scal_r. rewrite sumn_S_l in S1.
    replace (lam 0%nat) with (1 - sumn d (fun i => lam (S i))) by lra. lra. }
  assert (W : forall k, (k < d)%nat -> coordinate (bw p) k = lam (S k)).
  { intros k Hk. rewrite bw_coord by auto.
    rewrite (sumn_ext d _ (fun j => sumn d (fun i => lam (S i) * (entry (edges (v0 :: vs)) i j * entry H j k)))).
    2:{ intros j Hj. rewrite OFF by auto. rewrite <- sumn_scal_r. apply sumn_ext; intros; lra. }
    rewrite sumn_swap.
    rewrite (sumn_ext d _ (fun i => delta i k * lam (S i))).
    2:{ intros i Hi. rewrite sumn_scal. destruct INV as (_ & _ & I). destruct (I i k Hi Hk) as [-> _]. lra. }
    now rewrite sumn_delta. }
  intros [|k] Hk.
  - change (coordinate (weights p) 0) with (1 - vsum (bw p)). rewrite vsum_sumn, bw_len.
    rewrite (sumn_ext d _ (fun i => lam (S i))) by auto. rewrite sumn_S_l in S1. lra.
  - change (coordinate (weights p) (S k)) with (coordinate (bw p) k). apply W. lia.
Qed.

(** A non-degenerate simplex has pairwise different vertices. *)
Lemma vertices_distinct : NoDup (v0 :: vs).
Proof.
  pose proof bary_len as Lv. destruct INV as (_ & _ & I).
  assert (ROW : forall i i', (i < d)%nat -> (i' < d)%nat -> nth i vs [] = nth i' vs [] -> i = i').
  { intros i i' Hi Hi' E. destruct (I i i Hi Hi) as [A _]. destruct (I i' i Hi' Hi) as [B _].
    rewrite (sumn_ext d _ (fun j => entry (edges (v0 :: vs)) i j * entry H j i)) in B.
    - rewrite A in B. unfold delta in B. rewrite Nat.eqb_refl in B.
      destruct (Nat.eqb_spec i' i); [auto|lra].
    - intros j Hj. rewrite !edge_entry by auto. unfold entry. now rewrite E. }
  assert (ZERO : forall i, (i < d)%nat -> nth i vs [] <> v0).
  { intros i Hi E. destruct (I i i Hi Hi) as [A _].
    rewrite (sumn_ext d _ (fun _ => 0)) in A.
    - rewrite sumn_zero in A. unfold delta in A. rewrite Nat.eqb_refl in A. lra.
    - intros j Hj. rewrite edge_entry by auto. unfold entry at 1. rewrite E. unfold coordinate. lra. }
  constructor.
  - intros IN. destruct (In_nth _ _ [] IN) as (i & Hi & E). apply (ZERO i); [lia|auto].
  - apply (NoDup_nth _ []). intros i j Hi Hj E. apply ROW; auto; lia.
Qed.

End Bary.

(** ** corners of the unit cell *)
Section Corners.
Variable g : grid.
Hypothesis V : valid_grid g.

Definition is_corner (p : vec) : Prop :=
  length p = dims g /\ forall j, (j < dims g)%nat -> coordinate p j = 0 \/ coordinate p j = spacing g j.

Lemma corners_ok p : In p (rectangle_corners g) -> is_corner p.
Proof.
  unfold rectangle_corners. pose proof (unit_len g V) as LU. destruct (limits g) as [|l [|l' ls]] eqn:E.
  - assert (dims g = 0%nat) by (unfold dims; now rewrite E).
    intros H0. split; [|lia]. rewrite H in LU. destruct (unit_maxes g); [|discriminate].
    simpl in H0. destruct H0 as [<-|[]]. now rewrite H.
  - assert (dims g = 1%nat) by (unfold dims; now rewrite E).
    intros [<-|[<-|[]]]; split; rewrite ?H; auto; try lia.
    + intros j Hj. left. destruct j; [reflexivity|lia].
    + intros j Hj. right. unfold coordinate. apply unit_nth; auto. lia.
  - intros H. apply meshgrid_In in H. apply (Forall2_nth _ _ _ 0 []) in H as [L H].
    unfold diag in L. rewrite map_length, seq_length, LU in L. split; auto.
    intros j Hj. specialize (H j ltac:(lia)). unfold diag in H.
    rewrite (nth_map_lt _ _ _ 0%nat) in H by (rewrite seq_length; lia).
    rewrite seq_nth in H by lia. simpl in H.
    apply in_map_iff in H as (i & E' & Hi). unfold coordinate. rewrite <- E'.
    destruct (Nat.eqb_spec j i) as [Eji|N]; [subst i; right; now apply unit_nth|now left].
Qed.

(** The 0/1 multi-index of a corner. *)
Definition bits (p : vec) : list Z :=
  map (fun j => if Req_EM_T (coordinate p j) 0 then 0%Z else 1%Z) (seq 0 (dims g)).

Lemma bits_len p : length (bits p) = dims g.
Proof. unfold bits. now rewrite map_length, seq_length. Qed.
Lemma bits_nth p j : (j < dims g)%nat -> nth j (bits p) 0%Z = if Req_EM_T (coordinate p j) 0 then 0%Z else 1%Z.
Proof.
  intros Hj. unfold bits. rewrite (nth_map_lt _ _ _ 0%nat) by (rewrite seq_length; auto).
  now rewrite seq_nth by auto.
Qed.
Lemma bits_coord p j : is_corner p -> (j < dims g)%nat -> coordinate p j = IZR (nth j (bits p) 0%Z) * spacing g j.
Proof.
  intros [L C] Hj. rewrite bits_nth by auto. destruct Req_EM_T as [E|N]; [rewrite E; lra|].
  destruct (C j Hj); [contradiction|lra].
Qed.

(** Adding a corner's multi-index to a cell's multi-index. *)
Definition shift (rs : list Z) (p : vec) : list Z := map2 Z.add (bits p) rs.

Lemma shift_multi rs p : multi_rect g rs -> multi g (shift rs p).
Proof.
  intros M. apply (multi_rect_nth g V) in M as [L M]. apply (multi_nth g V).
  unfold shift. rewrite map2_length, bits_len, L. split; [lia|]. intros j Hj.
  rewrite (nth_map2 _ _ _ _ 0%Z 0%Z) by (rewrite ?bits_len; lia). rewrite bits_nth by auto.
  specialize (M j Hj). destruct Req_EM_T; lia.
Qed.

Lemma shift_state rs p : multi_rect g rs -> is_corner p ->
  state_of g (shift rs p) = vadd (state_of g rs) p.
Proof.
  intros M C. pose proof (shift_multi rs p M) as M'.
  apply (multi_rect_nth g V) in M as [L M]. apply (multi_nth g V) in M' as [L' M'].
  pose proof C as [Lp _].
  apply (nth_ext _ _ 0 0); [rewrite vadd_len, !(state_of_len g V) by (rewrite ?(state_of_len g V); auto); auto|].
  intros j Hj. rewrite (state_of_len g V) in Hj by auto.
  change (coordinate (state_of g (shift rs p)) j = coordinate (vadd (state_of g rs) p) j).
  rewrite vadd_coord by (rewrite ?(state_of_len g V); auto; lia).
  rewrite !(state_of_nth g V) by auto. unfold shift. rewrite (nth_map2 _ _ _ _ 0%Z 0%Z) by (rewrite ?bits_len; lia).
  rewrite (bits_coord p j C Hj), plus_IZR. lra.
Qed.

Lemma zero_rect : multi_rect g (repeat 0%Z (dims g)).
Proof.
  apply (multi_rect_nth g V). split; [apply repeat_length|]. intros j Hj. rewrite nth_repeat.
  destruct (valid_axis g V j Hj). lia.
Qed.

Lemma corner_index p : is_corner p ->
  state_to_index g (vadd p (offset g)) = Ok (ravel (bits p) (num_points g)).
Proof.
  intros C. pose proof C as [Lp _].
  assert (M : multi g (bits p)).
  { apply (multi_nth g V). split; [apply bits_len|]. intros j Hj. rewrite bits_nth by auto.
    destruct (valid_axis g V j Hj). destruct Req_EM_T; lia. }
  assert (E : vadd p (offset g) = state_of g (bits p)).
  { apply (nth_ext _ _ 0 0); [rewrite vadd_len, (state_of_len g V) by (rewrite ?offset_len, ?bits_len; auto); auto|].
    intros j Hj. rewrite vadd_len in Hj by (rewrite offset_len; auto). rewrite Lp in Hj.
    change (coordinate (vadd p (offset g)) j = coordinate (state_of g (bits p)) j).
    rewrite vadd_coord by (rewrite ?offset_len; lia). rewrite (state_of_nth g V) by (rewrite ?bits_len; auto).
    rewrite (bits_coord p j C Hj). unfold coordinate. rewrite offset_nth. lra. }
  rewrite E, (state_to_index_ok g V) by (apply (state_of_len g V), bits_len).
  now rewrite (rounded_state_of g V).
Qed.

Lemma ravel_shift rs p : length rs = dims g ->
  ravel (shift rs p) (num_points g) = (ravel (bits p) (num_points g) + ravel rs (num_points g))%Z.
Proof. intros L. unfold shift. apply ravel_add. now rewrite bits_len. Qed.

(** ** The 1-D triangulation meets the contract *)
Lemma delaunay1d_good : dims g = 1%nat ->
  exists D, delaunay1d (rectangle_corners g) = Ok D /\
    good_delaunay (unit_maxes g) (rectangle_corners g) D.
Proof.
  intros D1. pose proof (unit_len g V) as LU. rewrite D1 in LU.
  destruct (unit_maxes g) as [|u [|]] eqn:EU; try discriminate.
  assert (Hu : 0 < u).
  { pose proof (spacing_pos g V 0 ltac:(lia)) as H. rewrite <- (unit_nth g V) in H by lia. rewrite EU in H. exact H. }
  assert (EC : rectangle_corners g = [[0]; [u]]).
  { unfold rectangle_corners. unfold dims in D1. destruct (limits g) as [|? [|]]; try discriminate. now rewrite EU. }
  rewrite EC. unfold delaunay1d; simpl. eexists; split; [reflexivity|].
  split; [reflexivity|]. split.
  - constructor; [|constructor]. split; [reflexivity|]. split; [repeat constructor|].
    exists [[/ u]]. unfold edges; simpl. unfold vsub; simpl.
    split; [split; [reflexivity|repeat constructor]|]. split; [split; [reflexivity|repeat constructor]|].
    intros [|i] [|k] Hi Hk; simpl in *; try lia. unfold entry, delta; simpl. split; field; lra.
  - intros p [Lp Hp]. simpl in *. destruct p as [|x [|]]; try discriminate.
    specialize (Hp 0%nat ltac:(lia)). unfold coordinate in Hp; simpl in Hp.
    exists 0%nat, [0%nat; 1%nat]. split; [|split; [reflexivity|]].
    + simpl. unfold Rmin, Rmax. repeat destruct Rle_dec; repeat destruct Rlt_dec; try lra; reflexivity.
    + exists (fun k => match k with O => 1 - x / u | _ => x / u end). simpl.
      assert (0 <= x / u) by (apply Rmult_le_pos; [lra|apply Rlt_le, Rinv_0_lt_compat; lra]).
      assert (x / u <= 1). { apply Rmult_le_reg_r with u; [lra|]. replace (x / u * u) with x by (field; lra). lra. }
      split; [intros [|k] _; lra|]. split; [lra|].
      intros [|j] Hj; [|lia]. unfold coordinate, entry; simpl. field. lra.
Qed.

End Corners.

(** ** Construction *)
Lemma edges_shift c v0 vs d : length c = d -> length v0 = d -> Forall (fun v => length v = d) vs ->
  edges (map (vadd c) (v0 :: vs)) = edges (v0 :: vs).
Proof.
  intros Lc L0 F. simpl. rewrite map_map. apply map_ext_in. intros v Hv.
  rewrite Forall_forall in F. specialize (F v Hv).
  apply (nth_ext _ _ 0 0); [rewrite !vsub_len, vadd_len; rewrite ?vadd_len; lia|].
  intros j Hj. rewrite vsub_len, vadd_len in Hj by (rewrite ?vadd_len; lia).
  change (coordinate (vsub (vadd c v) (vadd c v0)) j = coordinate (vsub v v0) j).
  rewrite !vsub_coord by (rewrite ?vadd_len; lia). rewrite !vadd_coord by lia. lra.
Qed.

(** What a successfully built triangulation looks like. *)
Record tri_wf (g : grid) (t : tri) : Prop := {
  wf_grid : t_grid t = g;
  wf_params : Z.of_nat (length (t_params t)) = nindex g;
  wf_dl : good_delaunay (unit_maxes g) (rectangle_corners g) (t_dl t);
  wf_unit : t_unit t = map (map (fun k => ravel (bits g (nth k (rectangle_corners g) [])) (num_points g)))
                           (dl_simplices (t_dl t));
  wf_hyper : Forall2 (fun s H => inverse (dims g) (edges (map (fun k => nth k (rectangle_corners g) []) s)) H)
                     (dl_simplices (t_dl t)) (t_hyper t)
}.

Section Make.
Variable g : grid.
Hypothesis V : valid_grid g.
Variables (dl : list vec -> delaunay) (inv : mat -> res mat).
Hypothesis DL : good_dl g dl.
Hypothesis INV : good_inv (dims g) inv.

Lemma corner_nth k : (k < length (rectangle_corners g))%nat -> is_corner g (nth k (rectangle_corners g) []).
Proof. intros H. apply corners_ok; auto. now apply nth_In. Qed.

Lemma simplex_indices_ok D : good_delaunay (unit_maxes g) (rectangle_corners g) D ->
  simplex_indices g D =
  Ok (map (map (fun k => ravel (bits g (nth k (rectangle_corners g) [])) (num_points g))) (dl_simplices D)).
Proof.
  intros (E & F & _). unfold simplex_indices. rewrite E.
  rewrite (mapM_ok _ _ (fun p => ravel (bits g p) (num_points g))).
  - simpl. f_equal. apply map_ext_in. intros s Hs. apply map_ext_in. intros k Hk.
    rewrite Forall_forall in F. destruct (F s Hs) as (_ & F2 & _). rewrite Forall_forall in F2.
    now rewrite (nth_map_lt _ _ _ []) by auto.
  - intros p Hp. apply corner_index; auto. now apply corners_ok.
Qed.

Lemma unit_states s : Forall (fun k => (k < length (rectangle_corners g))%nat) s ->
  mapM (index_to_state g) (map (fun k => ravel (bits g (nth k (rectangle_corners g) [])) (num_points g)) s)
  = Ok (map (vadd (state_of g (repeat 0%Z (dims g)))) (map (fun k => nth k (rectangle_corners g) []) s)).
Proof.
  intros F. rewrite (mapM_ok _ _ (fun i => match index_to_state g i with Ok s => s | Err _ => [] end)).
  - f_equal. rewrite !map_map. apply map_ext_in. intros k Hk. rewrite Forall_forall in F.
    pose proof (corner_nth k (F k Hk)) as C. pose proof (zero_rect g V) as Z0.
    rewrite <- (shift_state g V _ _ Z0 C).
    assert (E : shift g (repeat 0%Z (dims g)) (nth k (rectangle_corners g) []) = bits g (nth k (rectangle_corners g) [])).
    { unfold shift. set (b := bits g _). assert (Lb : length b = dims g) by apply bits_len. rewrite <- Lb.
      clear. induction b as [|a b IH]; simpl; [auto|]. rewrite IH. f_equal. lia. }
    rewrite E. rewrite <- E at 1. rewrite (index_to_state_multi g V); [now rewrite E|].
    apply shift_multi; auto.
  - intros i Hi. apply in_map_iff in Hi as (k & <- & Hk). rewrite Forall_forall in F.
    pose proof (corner_nth k (F k Hk)) as C. pose proof (zero_rect g V) as Z0.
    assert (M : multi g (bits g (nth k (rectangle_corners g) []))).
    { apply (multi_nth g V). split; [apply bits_len|]. intros j Hj. rewrite bits_nth by auto.
      destruct (valid_axis g V j Hj). destruct Req_EM_T; lia. }
    now rewrite (index_to_state_multi g V _ M).
Qed.

Lemma make_tri_ok values project : Z.of_nat (length values) = nindex g ->
  exists t, make_tri dl inv g values project = Ok t /\ tri_wf g t /\
    t_params t = values /\ t_project t = project.
Proof.
  intros L. unfold make_tri. rewrite (proj2 (Z.eqb_eq _ _) L).
  assert (exists D, (match limits g with [_] => delaunay1d (rectangle_corners g) | _ => Ok (dl (rectangle_corners g)) end) = Ok D
     /\ good_delaunay (unit_maxes g) (rectangle_corners g) D) as (D & -> & GD).
  { destruct (Nat.eq_dec (dims g) 1) as [E|N].
    - destruct (delaunay1d_good g V E) as (D & ED & GD). exists D. unfold dims in E.
      destruct (limits g) as [|? [|]]; try discriminate. auto.
    - exists (dl (rectangle_corners g)). split; [|apply DL, N]. unfold dims in N.
      destruct (limits g) as [|? [|]]; auto. simpl in N; lia. }
  simpl. rewrite (simplex_indices_ok D GD). simpl.
  pose proof GD as (EP & FS & FF). pose proof (unit_len g V) as LU. rewrite LU in FS.
  assert (exists hs, mapM (hyperplane inv g)
     (map (map (fun k => ravel (bits g (nth k (rectangle_corners g) [])) (num_points g))) (dl_simplices D)) = Ok hs /\
     Forall2 (fun s H => inverse (dims g) (edges (map (fun k => nth k (rectangle_corners g) []) s)) H) (dl_simplices D) hs)
    as (hs & -> & HI).
  { clear FF EP GD. induction (dl_simplices D) as [|s ss IH].
    - exists []. split; [reflexivity|constructor].
    - inversion FS; subst. destruct (IH H2) as (hs & E & F). destruct H1 as (Ls & Fs & NDG).
      cbn [map mapM]. unfold hyperplane at 1. rewrite unit_states by auto. cbn [bind].
      destruct s as [|k s]; [discriminate|].
      set (c := state_of g (repeat 0%Z (dims g))).
      assert (EE : edges (map (vadd c) (map (fun k => nth k (rectangle_corners g) []) (k :: s)))
                   = edges (map (fun k => nth k (rectangle_corners g) []) (k :: s))).
      { cbn [map]. apply (edges_shift c _ _ (dims g)).
        - apply (state_of_len g V), repeat_length.
        - inversion Fs; subst. apply corner_nth; auto.
        - inversion Fs; subst. apply Forall_forall. intros v Hv. apply in_map_iff in Hv as (k' & <- & Hk').
          rewrite Forall_forall in H3. apply corner_nth; auto. }
      cbn [map] in *. cbn [edges] in EE. rewrite EE.
      destruct NDG as [H NDG]. destruct (INV _ (proj1 NDG) (ex_intro _ H NDG)) as (H' & EI & II).
      cbn [edges] in EI. rewrite EI. cbn [bind]. rewrite E. cbn [bind].
      exists (H' :: hs). split; [reflexivity|]. constructor; auto. }
  simpl. eexists; split; [reflexivity|]. split; [|auto].
  constructor; simpl; auto.
Qed.
End Make.

(** ** Locating a point *)

(** The point whose simplex the code looks up: [p] moved by at most 2*eps into
    the interior (functions.py:709-714). *)
Definition margin_point (g : grid) (p q : vec) : Prop :=
  length q = dims g /\ forall j, (j < dims g)%nat ->
    coordinate q j = lower g j + clipR (coordinate p j - lower g j) (2 * EPS) (upper g j - lower g j - 2 * EPS).

Lemma EPS_pos : 0 < EPS.
Proof. unfold EPS. apply Rinv_0_lt_compat. apply pow_lt. lra. Qed.

Section Locate.
Variable g : grid.
Hypothesis V : valid_grid g.
Hypothesis C : coarse g.
Variable t : tri.
Hypothesis W : tri_wf g t.

Let pts := rectangle_corners g.
Let d := dims g.

Lemma centered_coord p j : length p = d -> (j < d)%nat ->
  coordinate (center_states g true p) j =
  clipR (coordinate p j - lower g j) (2 * EPS) (upper g j - lower g j - 2 * EPS).
Proof.
  intros L Hj. unfold center_states. unfold coordinate.
  rewrite (nth_map2 _ _ _ _ 0 (0, 0)).
  - rewrite (nth_map2 _ _ _ _ 0 0) by (rewrite ?offset_len, ?L; auto).
    unfold offset_limits. rewrite (nth_map_lt _ _ _ (0,0)) by exact Hj. simpl.
    rewrite offset_nth. unfold upper, lower. f_equal; lra.
  - rewrite map2_length, offset_len, L. fold d. lia.
  - unfold offset_limits. rewrite map_length. exact Hj.
Qed.

Lemma centered_len p : length p = d -> length (center_states g true p) = d.
Proof.
  intros L. unfold center_states. rewrite !map2_length, offset_len, L. unfold offset_limits. rewrite map_length.
  fold (dims g). fold d. lia.
Qed.

(** The cell of the moved point is the cell of the point. *)
Lemma centered_cell x lo u n :
  2 * EPS < u -> (2 <= n)%Z ->
  let L := IZR (n - 1) * u in
  floorR (clipR (x - lo) (2 * EPS) (L - 2 * EPS) / u) = clipZ (floorR ((x - lo) / u)) 0 (n - 2).
Proof.
  intros Hu Hn L. pose proof EPS_pos as HE.
  assert (U : 0 < u) by lra.
  destruct (cell_bounds x lo u n U Hn) as (B1 & B2 & B3 & B4).
  set (k := clipZ _ _ _) in *. fold L in B2, B4.
  assert (1 <= IZR (n - 1)) by (apply (IZR_le 1); lia).
  assert (LU : u <= L) by (unfold L; nra).
  apply floorR_unique.
  assert (Q : IZR k * u <= clipR (x - lo) (2 * EPS) (L - 2 * EPS) < (IZR k + 1) * u).
  { destruct (Rlt_dec x lo) as [Hx|Hx].
    - rewrite B3 by auto. unfold clipR, Rmin, Rmax. repeat destruct Rle_dec; simpl; lra.
    - destruct (Rle_dec (lo + L) x) as [Hx'|Hx'].
      + rewrite B4 by auto. rewrite minus_IZR.
        unfold L in *. rewrite minus_IZR in *. unfold clipR, Rmin, Rmax. repeat destruct Rle_dec; simpl; nra.
      + specialize (B2 ltac:(lra)). destruct B1 as [K0 K1].
        assert (0 <= IZR k) by (apply IZR_le; lia).
        assert (IZR k + 1 <= IZR (n - 1)) by (rewrite <- plus_IZR; apply IZR_le; lia).
        assert (KL : (IZR k + 1) * u <= L) by (unfold L; nra).
        assert (K2 : IZR k * u >= 0) by nra.
        assert (KZ : IZR k = 0 \/ u <= IZR k * u).
        { destruct (Z.eq_dec k 0) as [->|N]; [now left|]. right. assert (1 <= IZR k) by (apply (IZR_le 1); lia). nra. }
        assert (KN : (IZR k + 1) * u = L \/ (IZR k + 1) * u + u <= L).
        { destruct (Z.eq_dec k (n - 2)) as [E|N].
          - left. unfold L. rewrite E, !minus_IZR. lra.
          - right. assert (IZR k + 2 <= IZR (n - 1)) by (rewrite <- plus_IZR; apply IZR_le; lia). unfold L. nra. }
        set (ku := IZR k * u) in *. replace ((IZR k + 1) * u) with (ku + u) in * by (unfold ku; ring).
        assert (KZ' : ku = 0 \/ u <= ku).
        { destruct KZ as [E|]; [left; unfold ku; rewrite E; lra|now right]. }
        unfold clipR, Rmin, Rmax. repeat destruct Rle_dec; destruct KZ', KN; lra. }
  split.
  - apply Rmult_le_reg_r with u; auto. unfold Rdiv. rewrite Rmult_assoc, Rinv_l by lra. lra.
  - apply Rmult_lt_reg_r with u; auto. unfold Rdiv. rewrite Rmult_assoc, Rinv_l by lra. lra.
Qed.

Lemma upper_sub j : (j < d)%nat -> upper g j - lower g j = IZR (npts g j - 1) * spacing g j.
Proof. intros Hj. symmetry. now apply spacing_width. Qed.

Definition local (p : vec) : vec := map2 modR (center_states g true p) (unit_maxes g).

Lemma local_len p : length p = d -> length (local p) = d.
Proof. intros L. unfold local. rewrite map2_length, centered_len, (unit_len g V); auto. fold d. lia. Qed.

Lemma local_coord p j : length p = d -> (j < d)%nat ->
  coordinate (local p) j =
  clipR (coordinate p j - lower g j) (2 * EPS) (upper g j - lower g j - 2 * EPS)
  - IZR (nth j (cell_of g p) 0%Z) * spacing g j.
Proof.
  intros L Hj. unfold local. unfold coordinate at 1.
  rewrite (nth_map2 _ _ _ _ 0 0) by (rewrite ?centered_len, ?(unit_len g V); auto).
  rewrite (unit_nth g V) by auto.
  change (nth j (center_states g true p) 0) with (coordinate (center_states g true p) j).
  rewrite centered_coord by auto. unfold modR. rewrite (cell_of_nth g V) by (auto; unfold d in *; lia).
  rewrite (upper_sub j Hj).
  rewrite centered_cell; auto. apply (valid_axis g V j Hj).
Qed.

Lemma local_in_box p : length p = d -> in_box (unit_maxes g) (local p).
Proof.
  intros L. split; [rewrite local_len, (unit_len g V); auto|]. rewrite (unit_len g V). intros j Hj.
  unfold local. unfold coordinate.
  rewrite (nth_map2 _ _ _ _ 0 0) by (rewrite ?centered_len, ?(unit_len g V); auto).
  rewrite (unit_nth g V) by auto. unfold modR.
  pose proof (spacing_pos g V j Hj) as Hu.
  pose proof (floor_div_bounds (nth j (center_states g true p) 0) (spacing g j) Hu). lra.
Qed.

Lemma wf_len_unit : length (t_unit t) = length (dl_simplices (t_dl t)).
Proof. rewrite (wf_unit _ _ W). now rewrite map_length. Qed.

Lemma dl_pos : (0 < dl_nsimplex (t_dl t))%Z.
Proof.
  destruct (wf_dl _ _ W) as (_ & _ & F).
  destruct (F (repeat 0 d)) as (id & s & _ & H & _).
  - split; [rewrite repeat_length, (unit_len g V); auto|]. rewrite (unit_len g V). intros j Hj.
    unfold coordinate. rewrite nth_repeat, (unit_nth g V) by auto. pose proof (spacing_pos g V j Hj). lra.
  - unfold dl_nsimplex. assert (id < length (dl_simplices (t_dl t)))%nat by (apply nth_error_Some; congruence). lia.
Qed.

(** The vertices of simplex number [id] of the cell with multi-index [rs]. *)
Definition verts_idx (rs : list Z) (s : list nat) : list Z :=
  map (fun k => ravel (shift g rs (nth k pts [])) (num_points g)) s.
Definition verts_pos (rs : list Z) (s : list nat) : list vec :=
  map (fun k => vadd (state_of g rs) (nth k pts [])) s.

Lemma simplices_ok rs id s : multi_rect g rs -> nth_error (dl_simplices (t_dl t)) id = Some s ->
  simplices t (Z.of_nat id + ravel rs (map (fun n => n - 1)%Z (num_points g)) * dl_nsimplex (t_dl t))
  = Ok (verts_idx rs s).
Proof.
  intros M Hs. unfold simplices. pose proof dl_pos as P.
  assert (Hid : (id < length (dl_simplices (t_dl t)))%nat) by (apply nth_error_Some; congruence).
  set (r := ravel rs _). set (ns := dl_nsimplex (t_dl t)) in *.
  rewrite Z.mod_add, Z.mod_small by (unfold ns, dl_nsimplex in *; lia).
  rewrite Z.div_add, Z.div_small by (unfold ns, dl_nsimplex in *; lia).
  rewrite (py_nth_nonneg _ _ (map (fun k => ravel (bits g (nth k pts [])) (num_points g)) s)).
  2:{ rewrite (wf_unit _ _ W). now rewrite nth_error_map, Hs. }
  cbn [bind]. rewrite (wf_grid _ _ W). rewrite Z.add_0_l. unfold r. rewrite (rectangle_corner_multi g V rs M). cbn [bind].
  f_equal. unfold verts_idx. rewrite map_map. apply map_ext. intros k. rewrite ravel_shift; auto.
  apply (multi_rect_nth g V) in M. tauto.
Qed.

Lemma simplex_points s id : nth_error (dl_simplices (t_dl t)) id = Some s ->
  length s = S d /\ Forall (fun k => (k < length pts)%nat) s.
Proof.
  intros Hs. destruct (wf_dl _ _ W) as (_ & F & _). rewrite Forall_forall in F.
  destruct (F s (nth_error_In _ _ Hs)) as (A & B & _). rewrite (unit_len g V) in A. auto.
Qed.

Lemma vert_state rs k : multi_rect g rs -> (k < length pts)%nat ->
  multi g (shift g rs (nth k pts [])) /\
  index_to_state g (ravel (shift g rs (nth k pts [])) (num_points g)) = Ok (vadd (state_of g rs) (nth k pts [])).
Proof.
  intros M Hk. pose proof (shift_multi g V rs (nth k pts []) M) as M'. split; auto.
  rewrite (index_to_state_multi g V _ M'). f_equal. apply shift_state; auto. apply corner_nth; auto.
Qed.

Lemma verts_states rs s : multi_rect g rs -> Forall (fun k => (k < length pts)%nat) s ->
  mapM (index_to_state g) (verts_idx rs s) = Ok (verts_pos rs s).
Proof.
  intros M F. unfold verts_idx, verts_pos. induction F as [|k s Hk F IH]; [reflexivity|].
  cbn [map mapM]. rewrite (proj2 (vert_state rs k M Hk)). cbn [bind]. rewrite IH. reflexivity.
Qed.

Lemma verts_pos_len rs s : multi_rect g rs -> Forall (fun k => (k < length pts)%nat) s ->
  Forall (fun v => length v = d) (verts_pos rs s).
Proof.
  intros M F. apply Forall_forall. intros v Hv. apply in_map_iff in Hv as (k & <- & Hk).
  rewrite Forall_forall in F. destruct (corner_nth g V k (F k Hk)) as [L _].
  apply (multi_rect_nth g V) in M as [Lr _].
  rewrite vadd_len, (state_of_len g V); auto. rewrite (state_of_len g V); auto.
Qed.

Lemma verts_inverse rs s id H : multi_rect g rs -> nth_error (dl_simplices (t_dl t)) id = Some s ->
  nth_error (t_hyper t) id = Some H -> inverse d (edges (verts_pos rs s)) H.
Proof.
  intros M Hs HH. destruct (simplex_points s id Hs) as [Ls Fs].
  assert (I : inverse d (edges (map (fun k => nth k pts []) s)) H).
  { pose proof (wf_hyper _ _ W) as F2. clear - F2 Hs HH. revert id Hs HH.
    induction F2; intros [|id] Hs HH; simpl in *; try discriminate.
    - injection Hs; injection HH; intros; subst. auto.
    - eapply IHF2; eauto. }
  destruct s as [|k s]; [discriminate|]. unfold verts_pos.
  rewrite <- (map_map (fun k => nth k pts []) (vadd (state_of g rs))).
  change (map (fun k => nth k pts []) (k :: s)) with (nth k pts [] :: map (fun k => nth k pts []) s).
  rewrite (edges_shift (state_of g rs) (nth k pts []) (map (fun k => nth k pts []) s) d); auto.
  - apply (multi_rect_nth g V) in M as [Lr _]. now apply state_of_len.
  - inversion Fs; subst. apply corner_nth; auto.
  - inversion Fs; subst. apply Forall_forall. intros v Hv. apply in_map_iff in Hv as (k' & <- & Hk').
    rewrite Forall_forall in H3. apply corner_nth; auto.
Qed.

Lemma find_simplex_ok p : length p = d ->
  exists id s H, nth_error (dl_simplices (t_dl t)) id = Some s /\ nth_error (t_hyper t) id = Some H /\
    find_simplex t p = Ok (Z.of_nat id + ravel (cell_of g p) (map (fun n => n - 1)%Z (num_points g)) * dl_nsimplex (t_dl t))%Z /\
    convex_hull d (map (fun k => nth k pts []) s) (local p).
Proof.
  intros L. destruct (wf_dl _ _ W) as (_ & _ & F).
  destruct (F (local p) (local_in_box p L)) as (id & s & E1 & E2 & E3). rewrite (unit_len g V) in E3.
  assert (exists H, nth_error (t_hyper t) id = Some H) as [H HH].
  { assert (id < length (t_hyper t))%nat.
    { rewrite <- (Forall2_len _ _ _ (wf_hyper _ _ W)). apply nth_error_Some. congruence. }
    apply nth_error_Some in H. destruct (nth_error (t_hyper t) id); [eauto|congruence]. }
  exists id, s, H. repeat split; auto.
  unfold find_simplex. rewrite (wf_grid _ _ W). rewrite (state_to_rectangle_ok g V) by (unfold d in L; lia).
  cbn [bind]. unfold d in L. unfold ndim. unfold dims in L. rewrite L, Nat.eqb_refl.
  unfold local in E1. rewrite E1. reflexivity.
Qed.

(** The whole lookup for one point. *)
Lemma locate p : length p = d ->
  exists id rs s H v0 vs q,
    nth_error (dl_simplices (t_dl t)) id = Some s /\ rs = cell_of g p /\ multi_rect g rs /\
    find_simplex t p = Ok (Z.of_nat id + ravel rs (map (fun n => n - 1)%Z (num_points g)) * dl_nsimplex (t_dl t))%Z /\
    verts_pos rs s = v0 :: vs /\ length v0 = d /\ Forall (fun v => length v = d) vs /\
    inverse d (edges (v0 :: vs)) H /\
    margin_point g p q /\ convex_hull d (v0 :: vs) q /\
    weights_gradient1 t (Z.of_nat id + ravel rs (map (fun n => n - 1)%Z (num_points g)) * dl_nsimplex (t_dl t))%Z
      = Ok (map (fun row => (- vsum row) :: row) H, verts_idx rs s) /\
    get_weights t p = Ok (weights d v0 H (if t_project t then project_point g p else p), verts_idx rs s).
Proof.
  intros L. destruct (find_simplex_ok p L) as (id & s & H & Hs & HH & EF & CH).
  assert (M : multi_rect g (cell_of g p)) by (apply cell_of_multi; auto; unfold d in L; lia).
  set (rs := cell_of g p) in *. destruct (simplex_points s id Hs) as [Ls Fs].
  pose proof (verts_pos_len rs s M Fs) as LV. pose proof (verts_inverse rs s id H M Hs HH) as IH.
  destruct (verts_pos rs s) as [|v0 vs] eqn:EV.
  { unfold verts_pos in EV. destruct s; discriminate. }
  inversion LV; subst.
  assert (SRS : length (state_of g rs) = dims g).
  { apply (multi_rect_nth g V) in M as [Lr _]. now apply state_of_len. }
  exists id, rs, s, H, v0, vs, (vadd (state_of g rs) (local p)).
  assert (HI : (Z.of_nat id < dl_nsimplex (t_dl t))%Z).
  { unfold dl_nsimplex. assert (id < length (dl_simplices (t_dl t)))%nat by (apply nth_error_Some; congruence). lia. }
  do 8 (split; [assumption || reflexivity|]). split; [split|split; [|split]].
  - rewrite vadd_len; rewrite SRS; auto. now rewrite local_len.
  - intros j Hj. rewrite vadd_coord by (rewrite ?SRS, ?local_len; auto).
    rewrite local_coord by auto. apply (multi_rect_nth g V) in M as [Lr _].
    rewrite (state_of_nth g V) by auto. fold rs. lra.
  - destruct CH as (lam & A & B & D). exists lam. rewrite <- EV. unfold verts_pos. rewrite !map_length in *.
    split; [auto|]. split; [auto|]. intros j Hj.
    rewrite vadd_coord by (rewrite ?SRS, ?local_len; auto). rewrite D by auto.
    rewrite <- (Rmult_1_r (coordinate (state_of g rs) j)), <- B, <- sumn_scal, <- sumn_plus.
    apply sumn_ext. intros k Hk. unfold entry. rewrite !(nth_map_lt _ _ _ 0%nat) by auto.
    change (nth j (vadd (state_of g rs) (nth (nth k s 0%nat) pts [])) 0)
      with (coordinate (vadd (state_of g rs) (nth (nth k s 0%nat) pts [])) j).
    rewrite Forall_forall in Fs. destruct (corner_nth g V (nth k s 0%nat) (Fs _ (nth_In _ _ Hk))) as [Lc _].
    rewrite vadd_coord; [|rewrite SRS; auto|fold pts in Lc; rewrite Lc; auto].
    unfold coordinate. lra.
  - unfold weights_gradient1. rewrite (simplices_ok rs id s M Hs). cbn [bind].
    pose proof dl_pos. rewrite Z.mod_add, Z.mod_small by lia. now rewrite (py_nth_nonneg _ _ _ HH).
  - unfold get_weights. rewrite EF. cbn [bind]. rewrite (simplices_ok rs id s M Hs). cbn [bind].
    destruct s as [|k s]; [discriminate|].
    unfold verts_idx; cbn [map]. change 0%Z with (Z.of_nat 0).
    rewrite (py_nth_nonneg _ 0 (ravel (shift g rs (nth k pts [])) (num_points g))) by reflexivity. cbn [bind].
    rewrite (wf_grid _ _ W). inversion Fs; subst. rewrite (proj2 (vert_state rs k M H4)). cbn [bind].
    pose proof dl_pos. rewrite Z.mod_add, Z.mod_small by lia. rewrite (py_nth_nonneg _ _ _ HH). cbn [bind].
    unfold verts_pos in EV; cbn [map] in EV. injection EV; intros _ <-. reflexivity.
Qed.

End Locate.
