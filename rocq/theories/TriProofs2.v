(** Lemmas about evaluating the triangulation. *)
From Coq Require Import List ZArith Reals Lia Lra Bool.
Import ListNotations.
From Verif Require Import Prelude NumModel NumProofs GridModel GridSpec SparseSpec GridProofs TriModel TriSpec TriProofs.
Open Scope R_scope.

Lemma mapM_nth_ok {A B} (f : A -> res B) l l' dA dB : mapM f l = Ok l' ->
  length l' = length l /\ forall k, (k < length l)%nat -> f (nth k l dA) = Ok (nth k l' dB).
Proof.
  revert l'. induction l as [|a l IH]; intros l' E; cbn [mapM] in E.
  - injection E as <-. split; auto. simpl; lia.
  - destruct (f a) eqn:Ea; [|discriminate]. cbn [bind] in E.
    destruct (mapM f l) eqn:El; [|discriminate]. cbn [bind] in E. injection E as <-.
    destruct (IH _ eq_refl) as [A1 A2]. split; [simpl; lia|].
    intros [|k] Hk; simpl in *; auto. apply A2. lia.
Qed.

Lemma project_point_coord g p j : length p = dims g -> (j < dims g)%nat ->
  coordinate (project_point g p) j = clipR (coordinate p j) (lower g j) (upper g j).
Proof.
  intros L Hj. unfold project_point, coordinate. rewrite (nth_map2 _ _ _ _ 0 (0, 0)) by (auto; lia). reflexivity.
Qed.
Lemma project_point_len g p : length p = dims g -> length (project_point g p) = dims g.
Proof. intros L. unfold project_point. rewrite map2_length, L. unfold dims. lia. Qed.

Lemma clipR_min_max x a b : clipR x a b = Rmin (Rmax x a) b.
Proof. reflexivity. Qed.

Section Eval.
Variable g : grid.
Hypothesis V : valid_grid g.
Hypothesis C : coarse g.
Variable t : tri.
Hypothesis W : tri_wf g t.
Let d := dims g.

(** Everything about the lookup of one point, without model internals. *)
Record located (p : vec) (id : Z) (verts : list Z) (vp : list vec) (w : vec) (G : mat) (c q y : vec) (r : Z) : Prop := {
  lo_find : find_simplex t p = Ok id;
  lo_range : (0 <= id < nsimplex t)%Z;
  lo_simplices : simplices t id = Ok verts;
  lo_len : length verts = S d;
  lo_valid : Forall (fun v => 0 <= v < nindex g)%Z verts;
  lo_nodup : NoDup verts;
  lo_states : mapM (index_to_state g) verts = Ok vp;
  lo_rect : state_to_rectangle g p = Ok r;
  lo_corner : rectangle_to_state g r = Ok c;
  lo_cell : forall k j, (k < S d)%nat -> (j < d)%nat ->
     entry vp k j = coordinate c j \/ entry vp k j = coordinate c j + spacing g j;
  lo_margin : margin_point g p q;
  lo_hull : convex_hull d vp q;
  lo_query : query g (t_project t) p y;
  lo_ylen : length y = d;
  lo_weights : get_weights t p = Ok (w, verts);
  lo_wlen : length w = S d;
  lo_wsum : sumn (S d) (coordinate w) = 1;
  lo_wpoint : forall j, (j < d)%nat -> sumn (S d) (fun k => coordinate w k * entry vp k j) = coordinate y j;
  lo_wunique : forall x (lam : nat -> R), length x = d -> sumn (S d) lam = 1 ->
     (forall j, (j < d)%nat -> coordinate x j = sumn (S d) (fun k => lam k * entry vp k j)) ->
     (* coordinates differ by the gradient weights *)
     forall k, (k < S d)%nat ->
       coordinate w k = lam k + sumn d (fun j => (coordinate y j - coordinate x j) * entry G j k);
  lo_grad : weights_gradient1 t id = Ok (G, verts);
  lo_glen : length G = d /\ Forall (fun r => length r = S d) G;
  lo_gsum : forall j, (j < d)%nat -> sumn (S d) (entry G j) = 0;
  lo_gpoint : forall j i, (j < d)%nat -> (i < d)%nat -> sumn (S d) (fun k => entry G j k * entry vp k i) = delta j i
}.

Lemma located_ex p : length p = d -> exists id verts vp w G c q y r, located p id verts vp w G c q y r.
Proof.
  intros L.
  destruct (locate g V C t W p L) as (id & rs & s & H & v0 & vs & q & Hs & Ers & M & EF & EV & L0 & LV & INV & MP & CH & EG & EW).
  destruct (simplex_points g V t W s id Hs) as [Ls Fs].
  assert (SRS : length (state_of g rs) = dims g).
  { apply (multi_rect_nth g V) in M as [Lr _]. now apply state_of_len. }
  set (y := if t_project t then project_point g p else p) in *.
  assert (Ly : length y = d) by (unfold y; destruct (t_project t); [now apply project_point_len|auto]).
  exists (Z.of_nat id + ravel rs (map (fun n => n - 1) (num_points g)) * dl_nsimplex (t_dl t))%Z.
  exists (verts_idx g rs s), (v0 :: vs), (weights d v0 H y), (map (fun row => (- vsum row) :: row) H).
  exists (state_of g rs), q, y, (ravel rs (map (fun n => n - 1)%Z (num_points g))).
  pose proof (verts_states g V rs s M Fs) as VS. rewrite EV in VS.
  assert (Lvp : length (v0 :: vs) = S d) by (rewrite <- EV; unfold verts_pos; now rewrite map_length).
  assert (Lidx : length (verts_idx g rs s) = S d) by (unfold verts_idx; now rewrite map_length).
  pose proof (H_square d v0 vs H INV) as [LH FH].
  assert (EN : forall j k, (j < d)%nat -> entry (map (fun row => (- vsum row) :: row) H) j k =
        match k with O => - sumn d (entry H j) | S k' => entry H j k' end).
  { intros j k' Hj. unfold entry at 1. rewrite (nth_map_lt _ _ _ []) by lia. destruct k'; [|reflexivity].
    cbn [nth]. rewrite vsum_sumn, (Forall_nth_len H d j FH) by lia. reflexivity. }
  constructor.
  - auto.
  - assert (HI : (Z.of_nat id < dl_nsimplex (t_dl t))%Z).
    { unfold dl_nsimplex. assert (id < length (dl_simplices (t_dl t)))%nat by (apply nth_error_Some; congruence). lia. }
    unfold nsimplex. rewrite (wf_grid _ _ W). pose proof (ravel_bound _ _ M) as RB. 
    unfold nrectangles in *. nia.
  - apply (simplices_ok g V t W); auto.
  - auto.
  - apply Forall_forall. intros v Hv. apply in_map_iff in Hv as (k & <- & Hk). rewrite Forall_forall in Fs.
    apply ravel_bound. apply (vert_state g V rs k M (Fs k Hk)).
  - pose proof (vertices_distinct d v0 vs H L0 LV INV) as ND. 
    apply (NoDup_nth _ 0%Z). intros i j Hi Hj E. rewrite Lidx in *.
    rewrite (NoDup_nth _ []) in ND. apply ND; try lia.
    destruct (mapM_nth_ok _ _ _ 0%Z [] VS) as [_ N].
    pose proof (N i ltac:(lia)) as Ni. pose proof (N j ltac:(lia)) as Nj. rewrite E in Ni. congruence.
  - auto.
  - rewrite Ers. apply state_to_rectangle_ok; auto. unfold d in L; lia.
  - now apply rectangle_to_state_multi.
  - intros k j Hk Hj. rewrite <- EV. unfold verts_pos, entry. rewrite (nth_map_lt _ _ _ 0%nat) by lia.
    change (nth j (vadd (state_of g rs) (nth (nth k s 0%nat) (rectangle_corners g) [])) 0)
      with (coordinate (vadd (state_of g rs) (nth (nth k s 0%nat) (rectangle_corners g) [])) j).
    rewrite Forall_forall in Fs. 
    assert (Hk' : (k < length s)%nat) by (unfold d in Hk; lia).
    destruct (corner_nth g V (nth k s 0%nat) (Fs _ (nth_In _ _ Hk'))) as [Lc Cc].
    rewrite vadd_coord by (rewrite ?SRS, ?Lc; auto). unfold d in Hj. destruct (Cc j Hj) as [-> | ->]; [left|right]; lra.
  - auto.
  - auto.
  - unfold query, y. destruct (t_project t); [|reflexivity]. split; [now apply project_point_len|].
    intros j Hj. rewrite project_point_coord by auto. reflexivity.
  - auto.
  - auto.
  - apply (weights_len d v0 vs H INV).
  - apply (weights_sum d v0 vs H INV).
  - intros j Hj. apply (weights_point d v0 vs H); auto.
  - intros x lam Lx S1 SP k Hk. 
    pose proof (weights_unique d v0 vs H L0 LV INV x lam Lx S1 SP k Hk) as U. rewrite <- U. clear U.
    assert (B : forall k, (k < d)%nat -> coordinate (bw d v0 H y) k = coordinate (bw d v0 H x) k
        + sumn d (fun j => (coordinate y j - coordinate x j) * entry H j k)).
    { intros k' Hk'. rewrite !(bw_coord d v0 vs H) by auto. rewrite <- sumn_plus. apply sumn_ext. intros; lra. }
    destruct k as [|k].
    + unfold weights. unfold coordinate at 1 2; cbn [nth]. rewrite !vsum_sumn, !(bw_len d v0 vs H INV).
      rewrite (sumn_ext d (coordinate (bw d v0 H y)) _ B). rewrite sumn_plus.
      rewrite sumn_swap.
      rewrite (sumn_ext d (fun j => (coordinate y j - coordinate x j) * entry _ j 0)
        (fun j => - 1 * sumn d (fun i => (coordinate y j - coordinate x j) * entry H j i))).
      * rewrite sumn_scal. lra.
      * intros j Hj. rewrite EN by auto. rewrite sumn_scal. lra.
    + change (coordinate (weights d v0 H y) (S k)) with (coordinate (bw d v0 H y) k).
      change (coordinate (weights d v0 H x) (S k)) with (coordinate (bw d v0 H x) k).
      rewrite B by lia. f_equal. apply sumn_ext. intros j Hj. now rewrite EN.
  - auto.
  - rewrite map_length. split; auto. apply Forall_forall. intros r Hr. apply in_map_iff in Hr as (r' & <- & Hr').
    rewrite Forall_forall in FH. simpl. now rewrite (FH r' Hr').
  - intros j Hj. rewrite sumn_S_l, EN by auto.
    rewrite (sumn_ext d (fun i => entry (map _ H) j (S i)) (entry H j)) by (intros; now rewrite EN). lra.
  - intros j i Hj Hi. rewrite sumn_S_l, EN by auto.
    rewrite (sumn_ext d (fun k => entry (map _ H) j (S k) * _) (fun k => entry H j k * entry (edges (v0 :: vs)) k i + entry H j k * coordinate v0 i)).
    + rewrite sumn_plus, sumn_scal_r. destruct INV as (_ & _ & I). destruct (I j i Hj Hi) as [_ I2]. fold d in I2. rewrite I2.
      change (entry (v0 :: vs) 0 i) with (coordinate v0 i). lra.
    + intros k Hk. rewrite EN by auto. rewrite (edge_entry d v0 vs H) by auto.
      change (entry (v0 :: vs) (S k) i) with (entry vs k i). lra.
Qed.

Variable m : nat.
Hypothesis PM : columns m (t_params t).

Lemma nindex_pos : (0 < nindex g)%Z.
Proof. unfold nindex. apply prodZ_pos. now apply pos_points. Qed.

Lemma output_dim_m : output_dim t = m.
Proof.
  unfold output_dim. pose proof nindex_pos as P. rewrite <- (wf_params _ _ W) in P.
  destruct (t_params t) as [|r rs] eqn:E; [simpl in P; lia|]. unfold columns in PM.
  simpl. now inversion PM.
Qed.

Lemma gather verts : Forall (fun v => 0 <= v < nindex g)%Z verts ->
  mapM (py_nth (t_params t)) verts = Ok (map (fun v => nth (Z.to_nat v) (t_params t) []) verts).
Proof.
  intros F. apply mapM_ok. intros v Hv. rewrite Forall_forall in F. specialize (F v Hv).
  apply py_nth_Z. rewrite (wf_params _ _ W). auto.
Qed.

Lemma gather_columns verts : Forall (fun v => 0 <= v < nindex g)%Z verts ->
  Forall (fun r => length r = m) (map (fun v => nth (Z.to_nat v) (t_params t) []) verts).
Proof.
  intros F. apply Forall_forall. intros r Hr. apply in_map_iff in Hr as (v & <- & Hv).
  rewrite Forall_forall in F. specialize (F v Hv). apply Forall_nth_len; auto.
  pose proof (wf_params _ _ W). lia.
Qed.

Lemma eval1_ok p id verts vp w G c q y r : located p id verts vp w G c q y r ->
  exists out, tri_eval1 t p = Ok out /\ length out = m /\
    forall o, (o < m)%nat -> coordinate out o = combine_at w (value_at (t_params t) o) verts.
Proof.
  intros Lo. unfold tri_eval1. rewrite (lo_weights _ _ _ _ _ _ _ _ _ _ Lo). cbn [bind fst snd].
  pose proof (lo_valid _ _ _ _ _ _ _ _ _ _ Lo) as F.
  rewrite (gather verts F). cbn [bind]. rewrite output_dim_m.
  eexists; split; [reflexivity|]. split; [apply vecmat_len; now apply gather_columns|].
  intros o Ho. rewrite vecmat_coord; auto.
  - unfold combine_at. rewrite map_length. apply sumn_ext. intros k Hk. f_equal.
    unfold entry. rewrite (nth_map_lt _ _ _ 0%Z) by auto. reflexivity.
  - now apply gather_columns.
  - rewrite map_length, (lo_wlen _ _ _ _ _ _ _ _ _ _ Lo), (lo_len _ _ _ _ _ _ _ _ _ _ Lo). reflexivity.
Qed.

Lemma gradient_ok p id verts vp w G c q y r : located p id verts vp w G c q y r ->
  exists M, gradient_of t (G, verts) = Ok M /\ length M = m /\
    forall o j, (o < m)%nat -> (j < d)%nat ->
      entry M o j = combine_at (nth j G []) (value_at (t_params t) o) verts.
Proof.
  intros Lo. unfold gradient_of. cbn [fst snd].
  pose proof (lo_valid _ _ _ _ _ _ _ _ _ _ Lo) as F.
  pose proof (lo_len _ _ _ _ _ _ _ _ _ _ Lo) as LV.
  destruct (lo_glen _ _ _ _ _ _ _ _ _ _ Lo) as [LG FG].
  rewrite (gather verts F). cbn [bind]. rewrite output_dim_m.
  eexists; split; [reflexivity|]. split; [now rewrite map_length, seq_length|].
  intros o j Ho Hj. unfold entry. rewrite (nth_map_lt _ _ _ 0%nat) by (now rewrite seq_length).
  rewrite seq_nth by auto. rewrite (nth_map_lt _ _ _ []) by lia. cbn [Nat.add].
  rewrite vsum_sumn, map2_length, map_length, (Forall_nth_len G (S d) j FG) by lia. rewrite LV, Nat.min_id.
  unfold combine_at. rewrite LV. apply sumn_ext. intros k Hk. unfold coordinate.
  rewrite (nth_map2 _ _ _ _ 0 []) by (rewrite ?map_length, ?(Forall_nth_len G (S d) j FG); lia).
  now rewrite (nth_map_lt _ _ _ 0%Z) by lia.
Qed.

Lemma index_range i p : index_to_state g i = Ok p -> (0 <= i < nindex g)%Z.
Proof.
  intros Ei. destruct (Z_lt_dec i 0); [|destruct (Z_lt_dec i (nindex g)); [lia|]];
      (rewrite index_to_state_err in Ei by lia; discriminate).
Qed.
Lemma index_vertex i p : index_to_state g i = Ok p -> is_vertex g p.
Proof.
  intros Ei. destruct (index_multi g V i (index_range i p Ei)) as (ks & M & ->).
  rewrite (index_to_state_multi g V ks M) in Ei. injection Ei as <-. apply (vertex_iff g V). eauto.
Qed.

(** A query that is exactly given by coordinates [lam]. *)
Lemma weights_are p id verts vp w G c q y r lam : located p id verts vp w G c q y r ->
  sumn (S d) lam = 1 -> (forall j, (j < d)%nat -> coordinate y j = sumn (S d) (fun k => lam k * entry vp k j)) ->
  forall k, (k < S d)%nat -> coordinate w k = lam k.
Proof.
  intros Lo S1 SP k Hk. pose proof (lo_ylen _ _ _ _ _ _ _ _ _ _ Lo) as Ly.
  rewrite (lo_wunique _ _ _ _ _ _ _ _ _ _ Lo y lam Ly S1 SP k Hk).
  rewrite (sumn_ext d _ (fun _ => 0)) by (intros; lra). rewrite sumn_zero. lra.
Qed.

Lemma margin_well_inside p q : length p = d -> well_inside g p -> margin_point g p q -> q = p.
Proof.
  intros L WI [Lq MQ]. apply (nth_ext _ _ 0 0); [unfold d in L; congruence|]. intros j Hj. rewrite Lq in Hj.
  change (coordinate q j = coordinate p j). rewrite MQ by auto. specialize (WI j Hj).
  rewrite clipR_id; lra.
Qed.

Lemma query_inside b p y : length p = d -> inside g p -> query g b p y -> y = p.
Proof.
  intros L I Q. destruct b; [|exact Q]. destruct Q as [Ly Q].
  apply (nth_ext _ _ 0 0); [unfold d in L; congruence|]. intros j Hj. rewrite Ly in Hj.
  change (coordinate y j = coordinate p j). rewrite Q by auto. specialize (I j Hj).
  unfold Rmin, Rmax. repeat destruct Rle_dec; lra.
Qed.

Lemma well_inside_inside p : well_inside g p -> inside g p.
Proof. intros H j Hj. specialize (H j Hj). pose proof EPS_pos. lra. Qed.

Lemma project_close p q y : length p = d -> margin_point g p q -> is_projection g p y ->
  forall j, (j < d)%nat -> Rabs (coordinate y j - coordinate q j) <= 2 * EPS.
Proof.
  intros L [_ MQ] [_ Q] j Hj. rewrite MQ, Q by auto. pose proof EPS_pos.
  destruct (valid_axis g V j Hj) as [HL HN]. 
  pose proof (upper_sub g V j Hj) as U. pose proof (C j Hj) as Cj.
  assert (1 <= IZR (npts g j - 1)) by (apply (IZR_le 1); lia).
  assert (spacing g j <= upper g j - lower g j) by (rewrite U; nra).
  unfold clipR, Rmin, Rmax, Rabs. repeat destruct Rle_dec; destruct Rcase_abs; lra.
Qed.

(** Vertices are reproduced exactly. *)
Definition fine_margin : Prop := sumn d (fun j => 2 * EPS / spacing g j) < 1.

Lemma vertex_in_simplex p id verts vp w G c q y r i : located p id verts vp w G c q y r ->
  fine_margin -> index_to_state g i = Ok p ->
  exists k, (k < S d)%nat /\ nth k verts 0%Z = i.
Proof.
  intros Lo FM Ei.
  assert (PV : is_vertex g p) by (eapply index_vertex; eauto).
  destruct PV as [Lp PV].
  assert (CL : length c = d /\ forall j, (j < d)%nat -> coordinate p j = coordinate c j \/ coordinate p j = coordinate c j + spacing g j).
  { destruct (cell_lookup g p V Lp) as (r' & c' & E1 & _ & E2 & [Lc CC] & B).
    rewrite (lo_rect _ _ _ _ _ _ _ _ _ _ Lo) in E1. injection E1 as <-.
    rewrite (lo_corner _ _ _ _ _ _ _ _ _ _ Lo) in E2. injection E2 as <-.
    split; auto. intros j Hj. destruct (PV j Hj) as (k & Hk & Ep). destruct (CC j Hj) as (kc & Hkc & Ec).
    destruct (B j Hj) as (B1 & B2 & B3). pose proof (spacing_pos g V j Hj) as SP.
    pose proof (spacing_width g V j Hj) as SW.
    destruct (Z.eq_dec k (npts g j - 1)) as [->|N].
    - right. rewrite B3 by lra. lra.
    - left. assert (KN : IZR k + 1 <= IZR (npts g j - 1)) by (rewrite <- plus_IZR; apply IZR_le; lia).
      assert (0 <= IZR k) by (apply IZR_le; lia).
      destruct B1 as [B1a B1b]; [rewrite Ep; split; nra|].
      rewrite Ep, Ec in *. f_equal. f_equal.
      assert (Hl : (kc <= k)%Z). { apply le_IZR. apply Rmult_le_reg_r with (spacing g j); lra. }
      assert (Hu : (k < kc + 1)%Z). { apply lt_IZR. rewrite plus_IZR. apply Rmult_lt_reg_r with (spacing g j); lra. }
      f_equal. lia. }
  destruct CL as [Lc CL].
  destruct (lo_hull _ _ _ _ _ _ _ _ _ _ Lo) as (lam & P0 & S1 & SP).
  destruct (mapM_nth_ok _ _ _ 0%Z [] (lo_states _ _ _ _ _ _ _ _ _ _ Lo)) as [Lvp NV].
  rewrite (lo_len _ _ _ _ _ _ _ _ _ _ Lo) in *. rewrite Lvp in P0, S1, SP.
  (* some vertex agrees with p in all coordinates *)
  set (dist := fun (x : vec) => sumn d (fun j => (if Req_EM_T (coordinate p j) (coordinate c j) then 1 else -1)
                                   * (coordinate x j - coordinate p j) / spacing g j)).
  assert (DQ : dist q < 1).
  { apply Rle_lt_trans with (2 := FM). unfold dist. apply sumn_le. intros j Hj. unfold Rdiv.
    pose proof (spacing_pos g V j Hj) as SPj. apply Rmult_le_compat_r; [apply Rlt_le, Rinv_0_lt_compat; auto|].
    destruct (lo_margin _ _ _ _ _ _ _ _ _ _ Lo) as [_ MQ]. rewrite (MQ j Hj).
    pose proof EPS_pos. pose proof (upper_sub g V j Hj) as U. pose proof (C j Hj) as Cj.
    destruct (valid_axis g V j Hj) as [HL HN].
    assert (1 <= IZR (npts g j - 1)) by (apply (IZR_le 1); lia).
    assert (spacing g j <= upper g j - lower g j) by (rewrite U; nra).
    destruct (PV j Hj) as (k & Hk & Ep). 
    assert (lower g j <= coordinate p j <= upper g j).
    { rewrite Ep. assert (0 <= IZR k <= IZR (npts g j - 1)) by (split; apply IZR_le; lia). nra. }
    unfold clipR, Rmin, Rmax. destruct Req_EM_T; repeat destruct Rle_dec; lra. }
  assert (DV : forall k, (k < S d)%nat -> (exists j, (j < d)%nat /\ entry vp k j <> coordinate p j) -> 1 <= dist (nth k vp [])).
  { intros k Hk (j & Hj & N).
    assert (NN : forall j, (j < d)%nat -> let x := (if Req_EM_T (coordinate p j) (coordinate c j) then 1 else -1)
              * (coordinate (nth k vp []) j - coordinate p j) / spacing g j in 0 <= x /\ (entry vp k j <> coordinate p j -> x = 1)).
    { intros j' Hj'. cbn zeta. pose proof (spacing_pos g V j' Hj') as SPj.
      change (coordinate (nth k vp []) j') with (entry vp k j').
      destruct (lo_cell _ _ _ _ _ _ _ _ _ _ Lo k j' Hk Hj') as [Ee|Ee]; destruct (CL j' Hj') as [Ecl|Ecl]; rewrite Ee, Ecl;
        destruct Req_EM_T as [Er|Er]; try lra.
      - replace (-1 * _ / _) with 1 by (field; lra). split; lra.
      - replace (1 * _ / _) with 1 by (field; lra). split; lra. }
    destruct (NN j Hj) as [_ E1]. rewrite <- (E1 N). unfold dist.
    apply (sumn_nonneg_term d (fun j => (if Req_EM_T (coordinate p j) (coordinate c j) then 1 else -1)
              * (coordinate (nth k vp []) j - coordinate p j) / spacing g j)); auto.
    intros j' Hj'. apply NN; auto. }
  assert (DS : dist q = sumn (S d) (fun k => lam k * dist (nth k vp []))).
  { unfold dist. rewrite (sumn_ext (S d) _ (fun k => sumn d (fun j => lam k * ((if Req_EM_T (coordinate p j) (coordinate c j) then 1 else -1)
        * (coordinate (nth k vp []) j - coordinate p j) / spacing g j)))) by (intros; now rewrite sumn_scal).
    rewrite sumn_swap. apply sumn_ext. intros j Hj. set (sg := if Req_EM_T _ _ then 1 else -1).
    assert (E : sumn (S d) (fun k => lam k * (sg * (coordinate (nth k vp []) j - coordinate p j) / spacing g j))
       = sumn (S d) (fun k => (sg / spacing g j) * (lam k * entry vp k j - lam k * coordinate p j))).
    { apply sumn_ext. intros k Hk. unfold entry, coordinate, Rdiv. ring. }
    rewrite E, sumn_scal, sumn_minus, sumn_scal_r, S1, <- SP by auto. unfold Rdiv; ring. }
  assert (EX : exists k, (k < S d)%nat /\ forall j, (j < d)%nat -> entry vp k j = coordinate p j).
  { assert (DEC : forall n, (exists k, (k < n)%nat /\ forall j, (j < d)%nat -> entry vp k j = coordinate p j)
        \/ (forall k, (k < n)%nat -> exists j, (j < d)%nat /\ entry vp k j <> coordinate p j)).
    { assert (DJ : forall k n, (forall j, (j < n)%nat -> entry vp k j = coordinate p j) \/ (exists j, (j < n)%nat /\ entry vp k j <> coordinate p j)).
      { intros k n; induction n as [|n IH]; [left; lia|]. destruct IH as [A|(j & Hj & N)]; [|right; exists j; split; auto].
        destruct (Req_dec (entry vp k n) (coordinate p n)) as [E|N].
        - left. intros j Hj. destruct (Nat.eq_dec j n) as [->|]; auto. apply A. lia.
        - right. exists n. split; auto. }
      intros n. induction n as [|n IH]; [right; lia|]. destruct IH as [(k & Hk & A)|A]; [left; exists k; split; auto|].
      destruct (DJ n d) as [B|B]; [left; exists n; split; auto|right].
      intros k Hk. destruct (Nat.eq_dec k n) as [->|]; auto. apply A. lia. }
    destruct (DEC (S d)) as [A|A]; auto. exfalso.
    assert (1 <= dist q); [|lra]. rewrite DS, <- S1. apply sumn_le. intros k Hk.
    pose proof (DV k Hk (A k Hk)). pose proof (P0 k Hk). nra. }
  destruct EX as (k & Hk & Ek). exists k. split; auto.
  assert (nth k vp [] = p).
  { pose proof (NV k ltac:(lia)) as Es. 
    assert (is_vertex g (nth k vp [])) as [Lk _] by (eapply index_vertex; eauto).
    apply (nth_ext _ _ 0 0); [congruence|]. intros j Hj. rewrite Lk in Hj. apply (Ek j Hj). }
  pose proof (NV k ltac:(lia)) as Es. rewrite H in Es.
  pose proof (lo_valid _ _ _ _ _ _ _ _ _ _ Lo) as F. rewrite Forall_forall in F.
  assert (Rk : (0 <= nth k verts 0 < nindex g)%Z) by (apply F, nth_In; rewrite (lo_len _ _ _ _ _ _ _ _ _ _ Lo); auto).
  assert (Ri : (0 <= i < nindex g)%Z).
  { eapply index_range; eauto. }
  destruct (round_trip g V _ Rk) as (s1 & A1 & A2). destruct (round_trip g V _ Ri) as (s2 & B1 & B2). congruence.
Qed.

Lemma vertex_exact p id verts vp w G c q y r i : located p id verts vp w G c q y r ->
  fine_margin -> index_to_state g i = Ok p -> tri_eval1 t p = Ok (nth (Z.to_nat i) (t_params t) []).
Proof.
  intros Lo FM Ei. destruct (vertex_in_simplex _ _ _ _ _ _ _ _ _ _ _ Lo FM Ei) as (k & Hk & Ek).
  destruct (eval1_ok _ _ _ _ _ _ _ _ _ _ Lo) as (out & EO & LO & VO). rewrite EO. f_equal.
  assert (PV : is_vertex g p) by (eapply index_vertex; eauto).
  assert (IN : inside g p).
  { destruct PV as [_ PV]. intros j Hj. destruct (PV j Hj) as (kk & Hkk & ->).
    pose proof (spacing_pos g V j Hj). pose proof (spacing_width g V j Hj).
    assert (0 <= IZR kk <= IZR (npts g j - 1)) by (split; apply IZR_le; lia). nra. }
  assert (Y : y = p) by (apply (query_inside (t_project t)); auto; [apply PV|exact (lo_query _ _ _ _ _ _ _ _ _ _ Lo)]).
  destruct (mapM_nth_ok _ _ _ 0%Z [] (lo_states _ _ _ _ _ _ _ _ _ _ Lo)) as [Lvp NV].
  rewrite (lo_len _ _ _ _ _ _ _ _ _ _ Lo) in *. pose proof (NV k Hk) as Es. rewrite Ek, Ei in Es. injection Es as Es.
  assert (WK : forall k', (k' < S d)%nat -> coordinate w k' = delta k' k).
  { apply (weights_are _ _ _ _ _ _ _ _ _ _ _ Lo).
    - rewrite (sumn_ext (S d) _ (fun i => delta i k * 1)) by (intros; lra). now rewrite sumn_delta.
    - intros j Hj. rewrite sumn_delta by auto. unfold entry. rewrite <- Es, Y. reflexivity. }
  assert (Ri : (0 <= i < nindex g)%Z).
  { eapply index_range; eauto. }
  pose proof (wf_params _ _ W) as WP.
  apply (nth_ext _ _ 0 0).
  - rewrite LO. symmetry. apply Forall_nth_len; auto. lia.
  - intros o Ho. rewrite LO in Ho. change (coordinate out o = value_at (t_params t) o i). rewrite VO by auto.
    unfold combine_at. rewrite (lo_len _ _ _ _ _ _ _ _ _ _ Lo).
    rewrite (sumn_ext (S d) _ (fun k' => delta k' k * value_at (t_params t) o (nth k' verts 0%Z))).
    + rewrite sumn_delta by auto. now rewrite Ek.
    + intros k' Hk'. now rewrite WK.
Qed.

End Eval.

(** ** Sparse matrices assembled from blocks of equal length *)
Lemma map3_app {A B D E} (f : A -> B -> D -> E) a a' b b' c c' :
  length a = length b -> length a = length c ->
  map3 f (a ++ a') (b ++ b') (c ++ c') = map3 f a b c ++ map3 f a' b' c'.
Proof.
  revert b c. induction a as [|x a IH]; intros [|y b] [|z c] H1 H2; simpl in *; try discriminate; auto.
  f_equal. apply IH; lia.
Qed.

Lemma sumR_app a b : sumR (a ++ b) = sumR a + sumR b.
Proof. unfold sumR. induction a as [|x a IH]; simpl; [lra|]. rewrite IH. lra. Qed.

Definition triplet (v : R) (r c : Z) : R * (Z * Z) := (v, (r, c)).

Lemma block_dot (f : Z -> R) k r ds cs : length ds = length cs ->
  sumR (map (fun t => if (fst (snd t) =? r)%Z then fst t * f (snd (snd t)) else 0)
       (map3 (fun v r c => (v, (r, c))) ds (repeat (Z.of_nat k) (length ds)) cs)) =
  if (Z.of_nat k =? r)%Z then sumn (length cs) (fun i => coordinate ds i * f (nth i cs 0%Z)) else 0.
Proof.
  intros L. revert cs L. induction ds as [|v ds IH]; intros [|c cs] L; simpl in L; try discriminate.
  - simpl. now destruct (_ =? _)%Z.
  - cbn [length repeat map3 map sumR fold_right fst snd]. 
    change (fold_right Rplus 0) with sumR. rewrite IH by lia. 
    destruct (_ =? _)%Z; [|lra]. rewrite sumn_S_l. reflexivity.
Qed.

Lemma blocks_dot (f : Z -> R) m r ds cs k0 : length ds = length cs ->
  Forall (fun x => length x = m) ds -> Forall (fun x => length x = m) cs ->
  sumR (map (fun t => if (fst (snd t) =? r)%Z then fst t * f (snd (snd t)) else 0)
       (map3 (fun v r c => (v, (r, c))) (concat ds) (flat_map (fun i => repeat (Z.of_nat i) m) (seq k0 (length ds))) (concat cs))) =
  if ((Z.of_nat k0 <=? r) && (r <? Z.of_nat (k0 + length ds)))%Z
  then combine_at (nth (Z.to_nat r - k0) ds []) f (nth (Z.to_nat r - k0) cs []) else 0.
Proof.
  intros L FD FC. revert cs k0 L FC. induction FD as [|x ds Hx FD IH]; intros [|c cs] k0 L FC; simpl in L; try discriminate.
  - simpl. destruct (Z.leb_spec (Z.of_nat k0) r), (Z.ltb_spec r (Z.of_nat (k0 + 0))); simpl; try reflexivity; lia.
  - inversion FC; subst. cbn [concat length seq flat_map].
    rewrite map3_app; [|now rewrite repeat_length|congruence].
    rewrite map_app, sumR_app. rewrite block_dot by congruence. rewrite IH by (auto; lia).
    destruct (Z.eqb_spec (Z.of_nat k0) r) as [E|N].
    + subst r. rewrite Nat2Z.id, Nat.sub_diag. cbn [nth].
      destruct (Z.leb_spec (Z.of_nat (S k0)) (Z.of_nat k0)); [lia|].
      destruct (Z.leb_spec (Z.of_nat k0) (Z.of_nat k0)); [|lia].
      destruct (Z.ltb_spec (Z.of_nat k0) (Z.of_nat (k0 + S (length ds)))); [|lia].
      simpl. unfold combine_at. lra.
    + rewrite Rplus_0_l.
      replace ((Z.of_nat k0 <=? r) && (r <? Z.of_nat (k0 + S (length ds))))%Z
        with ((Z.of_nat (S k0) <=? r) && (r <? Z.of_nat (S k0 + length ds)))%Z.
      * destruct (Z.leb_spec (Z.of_nat (S k0)) r); [|reflexivity]. simpl.
        destruct (_ <? _)%Z; [|reflexivity].
        replace (Z.to_nat r - k0)%nat with (S (Z.to_nat r - S k0)) by lia. reflexivity.
      * replace (S k0 + length ds)%nat with (k0 + S (length ds))%nat by lia.
        destruct (Z.leb_spec (Z.of_nat (S k0)) r), (Z.leb_spec (Z.of_nat k0) r); simpl; try reflexivity; lia.
Qed.

Lemma blocks_wf m rows cols (ds : list (list R)) cs : length ds = length cs -> 
  Forall (fun x => length x = m) ds -> Forall (fun x => length x = m) cs ->
  (Z.of_nat (length ds) <= rows)%Z -> Forall (Forall (fun c => 0 <= c < cols)%Z) cs ->
  Forall (fun t : R * (Z * Z) => (0 <= fst (snd t) < rows)%Z /\ (0 <= snd (snd t) < cols)%Z)
    (map3 (fun v r c => (v, (r, c))) (concat ds) (repeat_arange (length ds) m) (concat cs)).
Proof.
  unfold repeat_arange. intros L FD FC LR FV.
  assert (G : forall k0, (Z.of_nat (k0 + length ds) <= rows)%Z ->
     Forall (fun t : R * (Z * Z) => (0 <= fst (snd t) < rows)%Z /\ (0 <= snd (snd t) < cols)%Z)
    (map3 (fun v r c => (v, (r, c))) (concat ds) (flat_map (fun i => repeat (Z.of_nat i) m) (seq k0 (length ds))) (concat cs))).
  2:{ apply G. simpl. lia. }
  clear LR. revert cs L FC FV. induction FD as [|x ds Hx FD IH]; intros [|c cs] L FC FV k0 Hk; simpl in L; try discriminate; [constructor|].
  inversion FC; subst. inversion FV; subst. cbn [concat length seq flat_map].
  rewrite map3_app; [|now rewrite repeat_length|congruence]. apply Forall_app. split.
  - assert (Lc : length c = length x) by auto. clear - H3 Hk Lc. cbn [length] in Hk. revert c Lc H3.
    induction x as [|v x IHx]; intros [|c0 c] Lc Fc; simpl in *; try discriminate; [constructor|].
    inversion Fc; subst. constructor; [simpl; lia|]. apply IHx; auto.
  - apply IH; auto. simpl in Hk |- *. lia.
Qed.

(** ** Property-level lemmas *)
Section Props.
Variables (dl : list vec -> delaunay) (inv : mat -> res mat) (g : grid) (values : mat) (m : nat) (project : bool) (t : tri).
Hypothesis SU : setup dl inv g values m project t.
Let V := su_grid _ _ _ _ _ _ _ SU.
Let C := su_coarse _ _ _ _ _ _ _ SU.
Let d := dims g.

Lemma setup_wf : tri_wf g t /\ t_params t = values /\ t_project t = project.
Proof.
  pose proof (su_made _ _ _ _ _ _ _ SU) as SM. unfold make_tri in SM. destruct (_ =? _)%Z eqn:E; [|discriminate].
  destruct (make_tri_ok g V dl inv (su_dl _ _ _ _ _ _ _ SU) (su_inv _ _ _ _ _ _ _ SU) values project) as (t' & A & B); [now apply Z.eqb_eq|].
  unfold make_tri in A. rewrite E in A. rewrite A in SM. injection SM as <-. auto.
Qed.

Lemma setup_len : Z.of_nat (length values) = nindex g.
Proof. destruct setup_wf as (W & <- & _). apply (wf_params _ _ W). Qed.

Lemma find p : length p = d -> exists id verts vp w G c q y r, located g t p id verts vp w G c q y r.
Proof. apply located_ex; auto. apply setup_wf. Qed.

Lemma values_m : columns m (t_params t).
Proof. destruct setup_wf as (_ & -> & _). apply SU. Qed.

Lemma combine_affine p id verts vp w G c q y r a b f : located g t p id verts vp w G c q y r ->
  (forall i s, index_to_state g i = Ok s -> f i = affine d a b s) ->
  combine_at w f verts = affine d a b y.
Proof.
  intros Lo Hf. unfold combine_at. rewrite (lo_len _ _ _ _ _ _ _ _ _ _ _ _ Lo).
  destruct (mapM_nth_ok _ _ _ 0%Z [] (lo_states _ _ _ _ _ _ _ _ _ _ _ _ Lo)) as [Lvp NV].
  rewrite (lo_len _ _ _ _ _ _ _ _ _ _ _ _ Lo) in NV.
  rewrite (sumn_ext _ _ (fun k => coordinate w k * b + sumn d (fun j => coordinate a j * (coordinate w k * entry vp k j)))).
  - rewrite sumn_plus, sumn_scal_r, (lo_wsum _ _ _ _ _ _ _ _ _ _ _ _ Lo), sumn_swap. unfold affine.
    rewrite Rmult_1_l. f_equal. apply sumn_ext. intros j Hj. rewrite sumn_scal.
    now rewrite (lo_wpoint _ _ _ _ _ _ _ _ _ _ _ _ Lo).
  - intros k Hk. rewrite (Hf _ _ (NV k Hk)). unfold affine. rewrite Rmult_plus_distr_l. f_equal.
    rewrite <- sumn_scal. apply sumn_ext. intros j Hj. unfold entry, coordinate. ring.
Qed.

Lemma combine_gradient p id verts vp w G c q y r a b f j : located g t p id verts vp w G c q y r ->
  (forall i s, index_to_state g i = Ok s -> f i = affine d a b s) -> (j < d)%nat ->
  combine_at (nth j G []) f verts = coordinate a j.
Proof.
  intros Lo Hf Hj. unfold combine_at. rewrite (lo_len _ _ _ _ _ _ _ _ _ _ _ _ Lo).
  destruct (mapM_nth_ok _ _ _ 0%Z [] (lo_states _ _ _ _ _ _ _ _ _ _ _ _ Lo)) as [Lvp NV].
  rewrite (lo_len _ _ _ _ _ _ _ _ _ _ _ _ Lo) in NV.
  rewrite (sumn_ext _ _ (fun k => entry G j k * b + sumn d (fun i => coordinate a i * (entry G j k * entry vp k i)))).
  - rewrite sumn_plus, sumn_scal_r. rewrite (lo_gsum _ _ _ _ _ _ _ _ _ _ _ _ Lo) by auto. rewrite sumn_swap.
    rewrite (sumn_ext d _ (fun i => delta i j * coordinate a i)).
    + rewrite sumn_delta by auto. lra.
    + intros i Hi. rewrite sumn_scal, (lo_gpoint _ _ _ _ _ _ _ _ _ _ _ _ Lo), delta_sym by auto. lra.
  - intros k Hk. rewrite (Hf _ _ (NV k Hk)). unfold affine. change (coordinate (nth j G []) k) with (entry G j k).
    rewrite Rmult_plus_distr_l. f_equal.
    rewrite <- sumn_scal. apply sumn_ext. intros i Hi. unfold entry, coordinate. ring.
Qed.

Lemma eval_located p id verts vp w G c q y r : located g t p id verts vp w G c q y r ->
  exists out, tri_eval1 t p = Ok out /\ length out = m /\
    forall o, (o < m)%nat -> coordinate out o = combine_at w (value_at values o) verts.
Proof.
  intros Lo. destruct setup_wf as (W & PE & _). rewrite <- PE.
  eapply eval1_ok; eauto using values_m.
Qed.

Lemma gradient_located p id verts vp w G c q y r : located g t p id verts vp w G c q y r ->
  exists M, gradient t [p] = Ok [M] /\ gradient_of t (G, verts) = Ok M /\ length M = m /\
    forall o j, (o < m)%nat -> (j < d)%nat ->
      entry M o j = combine_at (nth j G []) (value_at values o) verts.
Proof.
  intros Lo. destruct setup_wf as (W & PE & _). rewrite <- PE.
  destruct (gradient_ok g V t W m values_m _ _ _ _ _ _ _ _ _ _ Lo) as (M & EM & A & B).
  exists M. split; [|auto]. unfold gradient, get_weights_gradient. cbn [mapM].
  rewrite (lo_find _ _ _ _ _ _ _ _ _ _ _ _ Lo). cbn [bind mapM].
  rewrite (lo_grad _ _ _ _ _ _ _ _ _ _ _ _ Lo). cbn [bind mapM fst]. now rewrite EM.
Qed.

(** Two points in one simplex: same vertices, weights differ by the gradient. *)
Lemma same_simplex p id verts vp w G c q y r p' verts' vp' w' G' c' q' y' r' :
  located g t p id verts vp w G c q y r -> located g t p' id verts' vp' w' G' c' q' y' r' ->
  verts' = verts /\ vp' = vp /\ G' = G /\
  forall k, (k < S d)%nat -> coordinate w' k = coordinate w k + sumn d (fun j => (coordinate y' j - coordinate y j) * entry G j k).
Proof.
  intros Lo Lo'.
  assert (E1 : verts' = verts).
  { pose proof (lo_simplices _ _ _ _ _ _ _ _ _ _ _ _ Lo). pose proof (lo_simplices _ _ _ _ _ _ _ _ _ _ _ _ Lo'). congruence. }
  subst verts'.
  assert (E2 : vp' = vp).
  { pose proof (lo_states _ _ _ _ _ _ _ _ _ _ _ _ Lo). pose proof (lo_states _ _ _ _ _ _ _ _ _ _ _ _ Lo'). congruence. }
  subst vp'.
  assert (E3 : G' = G).
  { pose proof (lo_grad _ _ _ _ _ _ _ _ _ _ _ _ Lo). pose proof (lo_grad _ _ _ _ _ _ _ _ _ _ _ _ Lo'). congruence. }
  subst G'. repeat split; auto. intros k Hk.
  apply (lo_wunique _ _ _ _ _ _ _ _ _ _ _ _ Lo'); auto.
  - apply (lo_ylen _ _ _ _ _ _ _ _ _ _ _ _ Lo).
  - apply (lo_wsum _ _ _ _ _ _ _ _ _ _ _ _ Lo).
  - intros j Hj. symmetry. apply (lo_wpoint _ _ _ _ _ _ _ _ _ _ _ _ Lo); auto.
Qed.

Lemma combine_shift (w w' : vec) (G : mat) (dy : nat -> R) f verts : length verts = S d -> 
  (forall k, (k < S d)%nat -> coordinate w' k = coordinate w k + sumn d (fun j => dy j * entry G j k)) ->
  combine_at w' f verts = combine_at w f verts + sumn d (fun j => combine_at (nth j G []) f verts * dy j).
Proof.
  intros L H. unfold combine_at. rewrite L.
  rewrite (sumn_ext d _ (fun j => sumn (S d) (fun k => entry G j k * f (nth k verts 0%Z) * dy j))).
  2:{ intros j Hj. rewrite <- sumn_scal_r. apply sumn_ext. intros; unfold entry, coordinate; ring. }
  rewrite sumn_swap, <- sumn_plus. apply sumn_ext. intros k Hk. rewrite H by auto.
  rewrite Rmult_plus_distr_r. f_equal. rewrite <- sumn_scal_r. apply sumn_ext. intros; ring.
Qed.

Lemma convex_bounds n lam f lo hi : (forall k, (k < n)%nat -> 0 <= lam k) -> sumn n lam = 1 ->
  (forall k, (k < n)%nat -> lo <= f k <= hi) -> lo <= sumn n (fun k => lam k * f k) <= hi.
Proof.
  intros P S1 B. split.
  - replace lo with (sumn n (fun k => lam k * lo)) by (rewrite sumn_scal_r, S1; lra).
    apply sumn_le. intros k Hk. apply Rmult_le_compat_l; [auto|apply B; auto].
  - replace hi with (sumn n (fun k => lam k * hi)) by (rewrite sumn_scal_r, S1; lra).
    apply sumn_le. intros k Hk. apply Rmult_le_compat_l; [auto|apply B; auto].
Qed.

Lemma weights_nonneg p id verts vp w G c q y r : length p = d -> well_inside g p -> located g t p id verts vp w G c q y r ->
  y = p /\ forall k, (k < S d)%nat -> 0 <= coordinate w k <= 1.
Proof.
  intros L WI Lo.
  assert (Y : y = p).
  { apply (query_inside g (t_project t)); auto; [apply well_inside_inside; auto|exact (lo_query _ _ _ _ _ _ _ _ _ _ _ _ Lo)]. }
  split; auto.
  pose proof (margin_well_inside g p q L WI (lo_margin _ _ _ _ _ _ _ _ _ _ _ _ Lo)) as Q.
  destruct (lo_hull _ _ _ _ _ _ _ _ _ _ _ _ Lo) as (lam & P0 & S1 & SP).
  destruct (mapM_nth_ok _ _ _ 0%Z [] (lo_states _ _ _ _ _ _ _ _ _ _ _ _ Lo)) as [Lvp NV].
  rewrite (lo_len _ _ _ _ _ _ _ _ _ _ _ _ Lo) in Lvp. rewrite Lvp in *.
  intros k Hk.
  assert (EQ : forall k, (k < S d)%nat -> coordinate w k = lam k).
  { apply (weights_are g t _ _ _ _ _ _ _ _ _ _ lam Lo); auto. intros j Hj. rewrite Y, <- Q. auto. }
  rewrite EQ by auto. split; [auto|]. rewrite <- S1. apply sumn_nonneg_term; auto.
Qed.

(** The value up to the margin error. *)
Lemma value_bounds p o lo hi : length p = d -> project = true -> (o < m)%nat ->
  (forall i, (0 <= i < nindex g)%Z -> lo <= value_at values o i <= hi) ->
  exists out M, tri_eval1 t p = Ok out /\ gradient t [p] = Ok [M] /\
    lo - 2 * EPS * sumn d (fun j => Rabs (entry M o j)) <= coordinate out o
      <= hi + 2 * EPS * sumn d (fun j => Rabs (entry M o j)).
Proof.
  intros L PR Ho B. destruct (find p L) as (id & verts & vp & w & G & c & q & y & r & Lo).
  destruct (eval_located _ _ _ _ _ _ _ _ _ _ Lo) as (out & E1 & _ & E2).
  destruct (gradient_located _ _ _ _ _ _ _ _ _ _ Lo) as (M & E3 & _ & _ & E4).
  exists out, M. split; auto. split; auto. rewrite E2 by auto.
  destruct (lo_hull _ _ _ _ _ _ _ _ _ _ _ _ Lo) as (lam & P0 & S1 & SP).
  destruct (mapM_nth_ok _ _ _ 0%Z [] (lo_states _ _ _ _ _ _ _ _ _ _ _ _ Lo)) as [Lvp NV].
  rewrite (lo_len _ _ _ _ _ _ _ _ _ _ _ _ Lo) in Lvp. rewrite Lvp in *.
  pose proof (lo_margin _ _ _ _ _ _ _ _ _ _ _ _ Lo) as MP. pose proof MP as [Lq _].
  assert (QU : is_projection g p y).
  { pose proof (lo_query _ _ _ _ _ _ _ _ _ _ _ _ Lo) as QU. destruct setup_wf as (_ & _ & PE).
    rewrite PE, PR in QU. exact QU. }
  pose proof (project_close g V C p q y L MP QU) as CL.
  assert (LV := lo_len _ _ _ _ _ _ _ _ _ _ _ _ Lo).
  pose (wl := map lam (seq 0 (S d))).
  assert (WL : forall k, (k < S d)%nat -> coordinate wl k = lam k).
  { intros k Hk. unfold wl, coordinate. rewrite (nth_map_lt _ _ _ 0%nat) by (rewrite seq_length; auto). now rewrite seq_nth by auto. }
  rewrite (combine_shift wl w G (fun j => coordinate y j - coordinate q j)); auto.
  2:{ intros k Hk. rewrite WL by auto. apply (lo_wunique _ _ _ _ _ _ _ _ _ _ _ _ Lo); auto. }
  assert (B1 : lo <= combine_at wl (value_at values o) verts <= hi).
  { unfold combine_at. rewrite LV. rewrite (sumn_ext _ _ (fun k => lam k * value_at values o (nth k verts 0%Z)))
      by (intros; now rewrite WL). apply convex_bounds; auto. intros k Hk. apply B.
    pose proof (lo_valid _ _ _ _ _ _ _ _ _ _ _ _ Lo) as F. rewrite Forall_forall in F. apply F, nth_In. now rewrite LV. }
  assert (B2 : Rabs (sumn d (fun j => combine_at (nth j G []) (value_at values o) verts * (coordinate y j - coordinate q j)))
     <= 2 * EPS * sumn d (fun j => Rabs (entry M o j))).
  { eapply Rle_trans; [apply sumn_abs|]. rewrite <- sumn_scal. apply sumn_le. intros j Hj.
    rewrite Rabs_mult, E4 by auto. rewrite Rmult_comm. apply Rmult_le_compat_r; [apply Rabs_pos|auto]. }
  unfold Rabs in B2 at 1. destruct Rcase_abs; lra.
Qed.

(** The evaluation matrix. *)
Lemma weights_all points : Forall (fun p => length p = d) points ->
  exists ws, mapM (get_weights t) points = Ok ws /\ length ws = length points /\
    Forall (fun x => length x = S d) (map fst ws) /\ Forall (fun x => length x = S d) (map snd ws) /\
    Forall (Forall (fun c => 0 <= c < nindex g)%Z) (map snd ws) /\
    forall k, (k < length points)%nat -> exists out,
      tri_eval1 t (nth k points []) = Ok out /\
      forall o, (o < m)%nat -> coordinate out o =
         combine_at (nth k (map fst ws) []) (value_at values o) (nth k (map snd ws) []).
Proof.
  induction 1 as [|p points Hp F IH].
  - exists []. cbn. repeat split; auto. lia.
  - destruct IH as (ws & E & Lw & F1 & F2 & F3 & K).
    destruct (find p Hp) as (id & verts & vp & w & G & c & q & y & r & Lo).
    destruct (eval_located _ _ _ _ _ _ _ _ _ _ Lo) as (out & E1 & _ & E2).
    exists ((w, verts) :: ws). cbn [mapM]. rewrite (lo_weights _ _ _ _ _ _ _ _ _ _ _ _ Lo). cbn [bind]. rewrite E. cbn [bind].
    split; auto. split; [simpl; lia|]. cbn [map fst snd].
    split; [constructor; auto; apply (lo_wlen _ _ _ _ _ _ _ _ _ _ _ _ Lo)|].
    split; [constructor; auto; apply (lo_len _ _ _ _ _ _ _ _ _ _ _ _ Lo)|].
    split; [constructor; auto; apply (lo_valid _ _ _ _ _ _ _ _ _ _ _ _ Lo)|].
    intros [|k] Hk; cbn [nth]; [eauto|]. apply K. simpl in Hk. lia.
Qed.

Lemma parameter_derivative_ok points : Forall (fun p => length p = d) points ->
  exists B, parameter_derivative t points = Ok B /\ coo_wf B /\
    coo_rows B = Z.of_nat (length points) /\ coo_cols B = nindex g /\
    forall k, (k < length points)%nat -> exists out,
      tri_eval1 t (nth k points []) = Ok out /\
      forall o, (o < m)%nat -> coo_dot B (value_at values o) (Z.of_nat k) = coordinate out o.
Proof.
  intros F. destruct (weights_all points F) as (ws & E & Lw & F1 & F2 & F3 & K).
  unfold parameter_derivative. rewrite E. cbn [bind]. eexists; split; [reflexivity|].
  destruct setup_wf as (W & _ & _). rewrite (wf_grid _ _ W).
  assert (L1 : length (map fst ws) = length (map snd ws)) by (now rewrite !map_length).
  assert (L2 : length points = length (map fst ws)) by (now rewrite map_length).
  split; [|split; [|split]].
  - unfold coo_wf. cbn [coo_data coo_rows coo_cols]. rewrite L2. apply blocks_wf; auto.
    rewrite map_length. lia.
  - cbn. now rewrite Lw.
  - reflexivity.
  - intros k Hk. destruct (K k Hk) as (out & E1 & E2). exists out. split; auto. intros o Ho.
    rewrite E2 by auto. unfold coo_dot. cbn [coo_data]. rewrite L2. unfold repeat_arange.
    rewrite (blocks_dot _ (S (ndim g))); auto. cbn [Nat.add].
    destruct (Z.leb_spec (Z.of_nat 0) (Z.of_nat k)); [|lia].
    destruct (Z.ltb_spec (Z.of_nat k) (Z.of_nat (length (map fst ws)))); [|lia].
    cbn [andb]. now rewrite Nat2Z.id, Nat.sub_0_r.
Qed.

(** Gradients of a batch. *)
Lemma grad_all points : Forall (fun p => length p = d) points ->
  exists ids ws Ms, mapM (find_simplex t) points = Ok ids /\ mapM (weights_gradient1 t) ids = Ok ws /\
    mapM (gradient_of t) ws = Ok Ms /\ length ids = length points /\ length ws = length points /\ length Ms = length points /\
    Forall (fun w => length (fst w) = d /\ Forall (fun r => length r = S d) (fst w) /\ length (snd w) = S d /\
                     Forall (fun c => 0 <= c < nindex g)%Z (snd w)) ws /\
    (forall k o j, (k < length points)%nat -> (o < m)%nat -> (j < d)%nat ->
        entry (nth k Ms []) o j = combine_at (nth j (fst (nth k ws ([], []))) []) (value_at values o) (snd (nth k ws ([], [])))) /\
    (forall k, (k < length points)%nat -> gradient t [nth k points []] = Ok [nth k Ms []] /\ length (nth k Ms []) = m).
Proof.
  induction 1 as [|p points Hp F IH].
  - exists [], [], []. cbn. repeat split; auto; lia.
  - destruct IH as (ids & ws & Ms & E1 & E2 & E3 & L1 & L2 & L3 & FW & K & KG).
    destruct (find p Hp) as (id & verts & vp & w & G & c & q & y & r & Lo).
    destruct (gradient_located _ _ _ _ _ _ _ _ _ _ Lo) as (M & EM & EM' & LM & E4).
    exists (id :: ids), ((G, verts) :: ws), (M :: Ms). cbn [mapM].
    rewrite (lo_find _ _ _ _ _ _ _ _ _ _ _ _ Lo). cbn [bind]. rewrite E1.
    split; [reflexivity|]. rewrite (lo_grad _ _ _ _ _ _ _ _ _ _ _ _ Lo). cbn [bind]. rewrite E2.
    split; [reflexivity|]. rewrite EM'. cbn [bind]. rewrite E3. split; [reflexivity|].
    cbn [length]. do 3 (split; [congruence|]). split.
    { constructor; auto. cbn [fst snd]. destruct (lo_glen _ _ _ _ _ _ _ _ _ _ _ _ Lo). repeat split; auto.
      apply (lo_len _ _ _ _ _ _ _ _ _ _ _ _ Lo). apply (lo_valid _ _ _ _ _ _ _ _ _ _ _ _ Lo). }
    split.
    + intros [|k] o j Hk Ho Hj; cbn [nth fst snd]; [auto|]. apply K; auto; lia.
    + intros [|k] Hk; cbn [nth]; [auto|]. apply KG. lia.
Qed.

Lemma concat_const_length {A} (l : list (list A)) n : Forall (fun x => length x = n) l -> length (concat l) = (length l * n)%nat.
Proof. induction 1; simpl; [auto|]. rewrite app_length. lia. Qed.

Lemma concat_nth {A} (l : list (list A)) n k j (x : A) : Forall (fun x => length x = n) l -> (k < length l)%nat -> (j < n)%nat ->
  nth (k * n + j) (concat l) x = nth j (nth k l []) x.
Proof.
  intros F. revert k. induction F as [|a l Ha F IH]; intros k Hk Hj; simpl in *; [lia|].
  destruct k as [|k]; simpl.
  - rewrite app_nth1 by lia. reflexivity.
  - rewrite app_nth2 by lia. replace (n + k * n + j - length a)%nat with (k * n + j)%nat by lia. apply IH; lia.
Qed.

Lemma gradient_derivative_ok points : Forall (fun p => length p = d) points ->
  exists B Ms, gradient_parameter_derivative t (ByPoints points) = Ok (B, []) /\ gradient t points = Ok Ms /\
    coo_wf B /\ coo_rows B = Z.of_nat (d * length points) /\ coo_cols B = nindex g /\
    length Ms = length points /\
    forall k o j, (k < length points)%nat -> (o < m)%nat -> (j < d)%nat ->
      coo_dot B (value_at values o) (Z.of_nat (k * d + j)) = entry (nth k Ms []) o j.
Proof.
  intros F. destruct (grad_all points F) as (ids & ws & Ms & E1 & E2 & E3 & L1 & L2 & L3 & FW & K & KG).
  unfold gradient_parameter_derivative, gradient, get_weights_gradient. rewrite E1. cbn [bind]. rewrite E2. cbn [bind fst snd].
  destruct setup_wf as (W & _ & _). rewrite (wf_grid _ _ W).
  eexists; exists Ms; split; [reflexivity|]. split; [auto|].
  set (ds := concat (map fst ws)). set (cs := concat (map (fun w => repeat (snd w) (ndim g)) ws)).
  assert (ED : concat (map (fun w => concat (fst w)) ws) = concat ds).
  { unfold ds. clear. induction ws as [|w ws IH]; simpl; [auto|]. now rewrite concat_app, IH. }
  assert (EC : concat (map (fun w => concat (repeat (snd w) (ndim g))) ws) = concat cs).
  { unfold cs. clear. induction ws as [|w ws IH]; simpl; [auto|]. now rewrite concat_app, IH. }
  assert (FD : Forall (fun x => length x = d) (map fst ws)).
  { apply Forall_forall. intros x Hx. apply in_map_iff in Hx as (w & <- & Hw). rewrite Forall_forall in FW. now apply FW. }
  assert (FC : Forall (fun x => length x = d) (map (fun w => repeat (snd w) (ndim g)) ws)).
  { apply Forall_forall. intros x Hx. apply in_map_iff in Hx as (w & <- & Hw). apply repeat_length. }
  assert (LD : length ds = (length ws * d)%nat) by (unfold ds; rewrite (concat_const_length _ d), map_length; auto).
  assert (LC : length cs = (length ws * d)%nat) by (unfold cs; rewrite (concat_const_length _ d), map_length; auto).
  assert (FD' : Forall (fun x => length x = S d) ds).
  { unfold ds. apply Forall_forall. intros x Hx. apply in_concat in Hx as (l & Hl & Hx). apply in_map_iff in Hl as (w & <- & Hw).
    rewrite Forall_forall in FW. destruct (FW w Hw) as (_ & A & _). rewrite Forall_forall in A. auto. }
  assert (FC' : Forall (fun x => length x = S d) cs).
  { unfold cs. apply Forall_forall. intros x Hx. apply in_concat in Hx as (l & Hl & Hx). apply in_map_iff in Hl as (w & <- & Hw).
    rewrite Forall_forall in FW. destruct (FW w Hw) as (_ & _ & A & _). apply repeat_spec in Hx. now subst. }
  rewrite ED, EC. replace (length ws * ndim g)%nat with (length ds) by (rewrite LD; reflexivity).
  split; [|split; [|split; [|split]]].
  - unfold coo_wf. cbn [coo_data coo_rows coo_cols]. apply blocks_wf; auto; [congruence| |].
    + rewrite LD. unfold d, ndim, dims. nia.
    + unfold cs. apply Forall_forall. intros x Hx. apply in_concat in Hx as (l & Hl & Hx). apply in_map_iff in Hl as (w & <- & Hw).
      rewrite Forall_forall in FW. destruct (FW w Hw) as (_ & _ & _ & A). apply repeat_spec in Hx. now subst.
  - cbn [coo_rows]. rewrite L2. reflexivity.
  - reflexivity.
  - auto.
  - intros k o j Hk Ho Hj. rewrite K by auto. unfold coo_dot. cbn [coo_data]. unfold repeat_arange.
    change (S (ndim g)) with (S d). rewrite (blocks_dot _ (S d)); auto; [|congruence]. cbn [Nat.add].
    assert (k * d + j < length ds)%nat by (rewrite LD; nia).
    destruct (Z.leb_spec (Z.of_nat 0) (Z.of_nat (k * d + j))); [|lia].
    destruct (Z.ltb_spec (Z.of_nat (k * d + j)) (Z.of_nat (length ds))); [|lia].
    cbn [andb]. rewrite Nat2Z.id, Nat.sub_0_r. unfold ds, cs.
    rewrite !(concat_nth _ d) by (rewrite ?map_length; auto; lia).
    rewrite !(nth_map_lt _ _ _ ([], [])) by lia. f_equal. change (ndim g) with d. clear - Hj. revert j Hj. induction d; intros [|j] Hj; simpl; auto; try lia. apply IHn; lia.
Qed.

End Props.
