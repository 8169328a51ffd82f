(** Proofs about the derivatives of triangulations. *)
From Coq Require Import List ZArith Reals Lia Lra Bool.
From Verif Require Import Prelude ListFacts NumModel NumProofs GridModel GridSpec GridProofs TriModel TriSpec TriProofs TriProofs2.
From Verif Require Import AutoTriModel AutoTriSpec.
Import ListNotations.
Local Open Scope R_scope.

Definition passes (project : bool) (g : grid) (x : vec) (j : nat) (d : R) : R :=
  if project
  then maximum_grad (coordinate x j) (lower g j) (minimum_grad (Rmax (coordinate x j) (lower g j)) (upper g j) d)
  else d.

Section Back.
Variables (dl : list vec -> delaunay) (inv : mat -> res mat) (g : grid) (values : mat) (m : nat) (project : bool) (t : tri).
Hypothesis SU : setup dl inv g values m project t.
Variable T : tf_tri.
Hypothesis WR : wraps T t values.
Let d := dims g.

Lemma back_located p id verts vp w G c q y r dy : located g t p id verts vp w G c q y r ->
  length p = d -> length dy = m ->
  exists dx, tf_backprop1 T p dy = Ok (dx, combine verts (map (fun a => vscale a dy) w)) /\ length dx = d /\
    forall j, (j < d)%nat -> coordinate dx j =
      passes project g p j (sumn m (fun o => coordinate dy o * combine_at (nth j G []) (value_at values o) verts)).
Proof.
  intros Lo Lp Ld. destruct (setup_wf dl inv g values m project t SU) as (W & PE & PJ).
  destruct WR as (WV & old & WI).
  pose proof (lo_find _ _ _ _ _ _ _ _ _ _ _ _ Lo) as EF.
  pose proof (lo_simplices _ _ _ _ _ _ _ _ _ _ _ _ Lo) as ES.
  pose proof (lo_weights _ _ _ _ _ _ _ _ _ _ _ _ Lo) as EW.
  pose proof (lo_grad _ _ _ _ _ _ _ _ _ _ _ _ Lo) as EG.
  pose proof (lo_valid _ _ _ _ _ _ _ _ _ _ _ _ Lo) as FV.
  pose proof (lo_len _ _ _ _ _ _ _ _ _ _ _ _ Lo) as LV.
  destruct (lo_glen _ _ _ _ _ _ _ _ _ _ _ _ Lo) as [LG FG].
  unfold tf_backprop1, tf_get_hyperplanes. rewrite WI.
  change (find_simplex (with_params t old) p) with (find_simplex t p).
  rewrite EF. cbn [bind]. change (simplices (with_params t old) id) with (simplices t id).
  rewrite ES. cbn [bind]. unfold get_weights in EW. rewrite EF in EW. cbn [bind] in EW. rewrite ES in EW. cbn [bind] in EW.
  unfold weights_gradient1 in EG. rewrite ES in EG. cbn [bind] in EG.
  cbn [with_params t_grid t_hyper t_dl t_project].
  destruct (py_nth verts 0) as [o|]; [|discriminate]. cbn [bind] in EW |- *.
  destruct (index_to_state (t_grid t) o) as [origin|]; [|discriminate]. cbn [bind] in EW |- *.
  destruct (py_nth (t_hyper t) _) as [H|]; [|discriminate]. cbn [bind] in EW, EG |- *.
  injection EW as EW. injection EG as EG.
  rewrite (wf_grid _ _ W), PJ in *. rewrite WV, <- PE.
  rewrite (gather g t W verts FV). cbn [bind]. rewrite PE.
  set (rows := map (fun v => nth (Z.to_nat v) values []) verts).
  set (p' := if project then _ else p).
  assert (EP : p' = if project then project_point g p else p).
  { unfold p', project_point. destruct project; auto. }
  rewrite <- EP in EW. rewrite EW.
  eexists. split; [reflexivity|].
  (* the derivatives with respect to the weights *)
  set (dw := map (fun row => vsum (map2 Rmult row dy)) rows).
  assert (LH : length H = d) by (rewrite <- EG, map_length in LG; exact LG).
  assert (FH : Forall (fun r => length r = d) H).
  { rewrite <- EG in FG. clear - FG. induction H as [|h H IH]; constructor; inversion FG; subst; auto. }
  assert (Ldw : length dw = S d) by (unfold dw, rows; now rewrite !map_length).
  assert (Cdw : forall k, (k < S d)%nat -> coordinate dw k = sumn m (fun o => coordinate dy o * value_at values o (nth k verts 0%Z))).
  { intros k Hk. unfold dw, rows, coordinate.
    rewrite (nth_map_lt _ _ _ []) by (rewrite map_length; lia). rewrite (nth_map_lt _ _ _ 0%Z) by lia.
    assert (LR : length (nth (Z.to_nat (nth k verts 0%Z)) values []) = m).
    { apply Forall_nth_len; [exact (su_values _ _ _ _ _ _ _ SU)|].
      rewrite Forall_forall in FV. pose proof (FV _ (nth_In verts 0%Z (eq_ind_r (fun n => (k < n)%nat) Hk LV))).
      pose proof (setup_len dl inv g values m project t SU). lia. }
    rewrite vsum_sumn, map2_length, LR, Ld, Nat.min_id. apply sumn_ext. intros i Hi. unfold coordinate.
    rewrite (nth_map2 _ _ _ _ 0 0) by (rewrite ?LR, ?Ld; lia). unfold value_at. ring. }
  set (dw1 := map (fun a => a + - nth 0 dw 0) (tl dw)).
  assert (Ldw1 : length dw1 = d) by (unfold dw1; rewrite map_length; destruct dw; simpl in *; lia).
  assert (Cdw1 : forall k, (k < d)%nat -> coordinate dw1 k = coordinate dw (S k) - coordinate dw 0).
  { intros k Hk. unfold dw1, coordinate. rewrite (nth_map_lt _ _ _ 0) by (destruct dw; simpl in *; lia).
    destruct dw; simpl in *; [lia|]. ring. }
  set (doff := map (fun row => vsum (map2 Rmult row dw1)) H).
  assert (Ldoff : length doff = d) by (unfold doff; now rewrite map_length).
  assert (Cdoff : forall j, (j < d)%nat -> coordinate doff j =
            sumn m (fun o => coordinate dy o * combine_at (nth j G []) (value_at values o) verts)).
  { intros j Hj.
    assert (Lr : length (nth j H []) = d) by (apply Forall_nth_len; auto; lia).
    assert (EN : nth j G [] = (- vsum (nth j H [])) :: nth j H []).
    { rewrite <- EG. now rewrite (nth_map_lt _ _ _ []) by lia. }
    unfold doff, coordinate at 1. rewrite (nth_map_lt _ _ _ []) by lia.
    rewrite vsum_sumn, map2_length, Lr, Ldw1, Nat.min_id.
    transitivity (sumn (S d) (fun k => coordinate (nth j G []) k * coordinate dw k)).
    - rewrite sumn_S_l. rewrite EN at 1. unfold coordinate at 2. cbn [nth]. rewrite vsum_sumn, Lr.
      transitivity (sumn d (fun k => coordinate (nth j H []) k * coordinate dw (S k)) - sumn d (coordinate (nth j H [])) * coordinate dw 0).
      + rewrite <- sumn_scal_r, <- sumn_minus. apply sumn_ext. intros k Hk. unfold coordinate at 1.
        rewrite (nth_map2 _ _ _ _ 0 0) by (rewrite ?Lr, ?Ldw1; lia).
        fold (coordinate dw1 k). rewrite Cdw1 by auto. unfold coordinate. ring.
      + rewrite EN. unfold coordinate. cbn [nth]. ring.
    - rewrite (sumn_ext (S d) _ (fun k => sumn m (fun o => coordinate (nth j G []) k * (coordinate dy o * value_at values o (nth k verts 0%Z))))).
      + rewrite sumn_swap. apply sumn_ext. intros o' Ho. unfold combine_at. rewrite LV, <- sumn_scal. fold d.
        apply sumn_ext. intros; ring.
      + intros k Hk. rewrite Cdw by auto. now rewrite sumn_scal. }
  fold dw. fold dw1. fold doff. destruct project; cbn [passes].
  - assert (LL : length (GridModel.limits g) = d) by reflexivity.
    split.
    + clear - Ldoff Lp LL. clearbody doff. revert p Lp doff Ldoff. rewrite <- LL. clear.
      induction (GridModel.limits g) as [|l ls IH]; intros [|x p] L1 [|a dx] L2; cbn in *; try lia. f_equal. apply IH; lia.
    + intros j Hj. rewrite <- Cdoff by auto. unfold coordinate, lower, upper.
      clear - Ldoff Lp LL Hj. clearbody doff. revert j Hj p Lp doff Ldoff. rewrite <- LL. clear.
      induction (GridModel.limits g) as [|l ls IH]; intros j Hj [|x p] L1 [|a dx] L2; cbn in *; try lia.
      destruct j as [|j]; cbn; [reflexivity|]. apply IH; lia.
  - split; [exact Ldoff|exact Cdoff].
Qed.
End Back.

Lemma passes_inside project g x j d : (project = true -> within_limits g x j) -> passes project g x j d = d.
Proof.
  intros H. unfold passes. destruct project; auto. specialize (H eq_refl). unfold within_limits in H.
  unfold maximum_grad, minimum_grad. rewrite Rmax_left by lra.
  destruct Rle_dec; [|lra]. destruct Rle_dec; lra.
Qed.
Lemma passes_outside g x j d : lower g j <= upper g j -> ~ within_limits g x j -> passes true g x j d = 0.
Proof.
  intros L H. unfold within_limits in H. unfold passes, maximum_grad, minimum_grad.
  destruct Rle_dec; auto. rewrite Rmax_left by lra. destruct Rle_dec; lra.
Qed.
Lemma limits_ordered g j : valid_grid g -> (j < dims g)%nat -> lower g j <= upper g j.
Proof. intros V Hj. left. apply (valid_axis g V j Hj). Qed.

(** The slices of one point. *)
Lemma slices_point verts w dy f o : length verts = length w ->
  slices_dot (combine verts (map (fun a => vscale a dy) w)) f o = coordinate dy o * combine_at w f verts.
Proof.
  intros L. unfold slices_dot, combine_at. revert verts L. induction w as [|a w IH]; intros [|v verts] L; try discriminate.
  - cbn. ring.
  - cbn [map combine fold_right fst snd length]. rewrite IH by (simpl in L; lia). rewrite sumn_S_l.
    rewrite vscale_coord. cbn [nth]. unfold coordinate. cbn [nth]. ring.
Qed.
Lemma slices_app s s' f o : slices_dot (s ++ s') f o = slices_dot s f o + slices_dot s' f o.
Proof. unfold slices_dot. rewrite map_app. induction (map _ s) as [|a l IH]; cbn; [ring|]. rewrite IH. ring. Qed.

Section Batch.
Variables (dl : list vec -> delaunay) (inv : mat -> res mat) (g : grid) (values : mat) (m : nat) (project : bool) (t : tri).
Hypothesis SU : setup dl inv g values m project t.
Variable T : tf_tri.
Hypothesis WR : wraps T t values.
Let d := dims g.

Lemma back_all points : forall dys, Forall (fun p => length p = d) points -> length dys = length points ->
  Forall (fun y => length y = m) dys ->
  exists rs, mapM (fun pd => tf_backprop1 T (fst pd) (snd pd)) (combine points dys) = Ok rs /\
    length rs = length points /\
    (forall k, (k < length points)%nat -> exists id verts vp w G c q y r,
       located g t (nth k points []) id verts vp w G c q y r /\
       length (fst (nth k rs ([], []))) = d /\
       snd (nth k rs ([], [])) = combine verts (map (fun a => vscale a (nth k dys [])) w) /\
       forall j, (j < d)%nat -> coordinate (fst (nth k rs ([], []))) j =
         passes project g (nth k points []) j
           (sumn m (fun o => entry dys k o * combine_at (nth j G []) (value_at values o) verts))).
Proof.
  induction points as [|p points IH]; intros dys F L FY.
  - exists []. cbn. repeat split; auto. lia.
  - destruct dys as [|dy dys]; [discriminate|]. inversion F; subst. inversion FY; subst.
    destruct (IH dys) as (rs & E & Lr & K); auto.
    destruct (find dl inv g values _ project t SU p) as (id & verts & vp & w & G & c & q & y & r & Lo); auto.
    destruct (back_located dl inv g values _ project t SU T WR p id verts vp w G c q y r dy Lo) as (dx & E1 & L1 & C1); auto.
    exists ((dx, combine verts (map (fun a => vscale a dy) w)) :: rs). cbn [combine mapM fst snd]. rewrite E1. cbn [bind].
    rewrite E. cbn [bind]. split; auto. split; [simpl; lia|].
    intros [|k] Hk; cbn [nth fst snd].
    + exists id, verts, vp, w, G, c, q, y, r. auto.
    + destruct (K k) as (a & K'); [simpl in Hk; lia|]. now exists a.
Qed.
End Batch.


(** Objects made from other values look up the same weights. *)
Lemma same_weights dl inv g values values' m m' project t t' p :
  setup dl inv g values m project t -> setup dl inv g values' m' project t' ->
  get_weights t' p = get_weights t p.
Proof.
  intros SU SU'. pose proof (su_made _ _ _ _ _ _ _ SU) as M1. pose proof (su_made _ _ _ _ _ _ _ SU') as M2.
  unfold make_tri in M1, M2. destruct (_ =? _)%Z; [|discriminate]. destruct (_ =? _)%Z; [|discriminate].
  destruct (match limits g with [_] => _ | _ => _ end) as [D|]; [|discriminate]. cbn [bind] in *.
  destruct (simplex_indices g D); [|discriminate]. cbn [bind] in *. destruct (mapM (hyperplane inv g) _); [|discriminate].
  cbn [bind] in *. injection M1 as <-. injection M2 as <-. reflexivity.
Qed.

Lemma slices_sum {A} (rs : list (A * slices)) a0 f o :
  slices_dot (concat (map snd rs)) f o = sumn (length rs) (fun k => slices_dot (snd (nth k rs (a0, []))) f o).
Proof.
  induction rs as [|r rs IH]; [reflexivity|]. cbn [map concat length]. rewrite slices_app, IH, sumn_S_l. reflexivity.
Qed.
