(** Slopes of triangulations along segments, and triangulations of one axis. *)
From Coq Require Import List ZArith Reals Lia Lra Bool.
Import ListNotations.
From Verif Require Import Prelude ListFacts NumModel NumProofs GridModel GridSpec GridProofs
  TriModel TriSpec TriProofs TriProofs2 TriContSpec TriContProofs TriContProofs2.
Open Scope R_scope.

Section Segment.
Variables (dl : list vec -> delaunay) (inv : mat -> res mat) (g : grid) (values : mat) (m : nat) (project : bool) (t : tri).
Hypothesis SU : setup dl inv g values m project t.
Let V := su_grid _ _ _ _ _ _ _ SU.
Let W := proj1 (setup_wf dl inv g values m project t SU).
Local Notation d := (dims g).
Hypothesis MT : matching (unit_maxes g) (t_dl t).
Variable o : nat.
Hypothesis Ho : (o < m)%nat.
Local Notation f := (value_at values o).

(** The point a fraction [s] of the way from [y] to [x]. *)
Definition between (n : nat) (x y : vec) (s : R) : vec :=
  map (fun j => coordinate y j + s * (coordinate x j - coordinate y j)) (seq 0 n).

Lemma between_length n x y s : length (between n x y s) = n.
Proof. unfold between. now rewrite map_length, seq_length. Qed.

Lemma between_nth n x y s j : (j < n)%nat ->
  coordinate (between n x y s) j = coordinate y j + s * (coordinate x j - coordinate y j).
Proof.
  intros Hj. unfold between. unfold coordinate at 1.
  rewrite (nth_map_lt _ _ _ 0%nat) by (rewrite seq_length; auto). now rewrite seq_nth by auto.
Qed.

(** The affine pieces change by the product of the gradient and the step. *)
Lemma piece_step p id verts vp w G c q y r a b M :
  located g t p id verts vp w G c q y r -> gradient t [p] = Ok [M] ->
  piece g f w verts G y a - piece g f w verts G y b
  = sumn d (fun j => entry M o j * (coordinate a j - coordinate b j)).
Proof.
  intros Lo EM. unfold piece.
  destruct (gradient_located dl inv g values m project t SU _ _ _ _ _ _ _ _ _ _ Lo) as (M' & E3 & _ & _ & E4).
  rewrite E3 in EM. injection EM as ->.
  rewrite (sumn_ext d (fun j => entry M o j * (coordinate a j - coordinate b j))
      (fun j => combine_at (nth j G []) f verts * (coordinate a j - coordinate y j)
              - combine_at (nth j G []) f verts * (coordinate b j - coordinate y j))).
  - rewrite sumn_minus. lra.
  - intros j Hj. rewrite <- E4 by auto. lra.
Qed.

(** Near a point, the difference is that of the piece of the other point. *)
Lemma local_step x : length x = d -> well_inside g x ->
  exists dl, 0 < dl /\ forall y M, length y = d -> well_inside g y ->
    (forall j, (j < d)%nat -> Rabs (coordinate y j - coordinate x j) < dl) -> gradient t [y] = Ok [M] ->
    value t o y - value t o x = sumn d (fun j => entry M o j * (coordinate y j - coordinate x j)).
Proof.
  intros Lx Wx. destruct (near g t x Lx) as (dl0 & P & H). exists dl0. split; [auto|].
  intros y M Ly Wy Hy EM.
  destruct (find dl inv g values m project t SU x Lx) as (id & verts & vp & w & G & c & q & y0 & r & Lo).
  destruct (find dl inv g values m project t SU y Ly) as (id2 & verts2 & vp2 & w2 & G2 & c2 & q2 & y2 & r2 & Lo2).
  pose proof (H y _ _ _ _ _ _ _ _ _ Ly Wy Hy Lo2) as HX.
  rewrite (value_located dl inv g values m project t SU o Ho _ _ _ _ _ _ _ _ _ _ Lo), (value_located dl inv g values m project t SU o Ho _ _ _ _ _ _ _ _ _ _ Lo2).
  destruct (weights_nonneg g t y _ _ _ _ _ _ _ _ _ Ly Wy Lo2) as [-> _].
  pose proof (lo_hull _ _ _ _ _ _ _ _ _ _ _ _ Lo) as HQ.
  rewrite (margin_well_inside g x q Lx Wx (lo_margin _ _ _ _ _ _ _ _ _ _ _ _ Lo)) in HQ.
  destruct (weights_nonneg g t x _ _ _ _ _ _ _ _ _ Lx Wx Lo) as [-> _].
  rewrite (pieces_agree g V t W MT f _ _ _ _ _ _ _ _ _ _ _ _ _ _ _ _ _ _ _ _ x Lo Lo2 Lx HQ HX).
  exact (piece_step _ _ _ _ _ _ _ _ _ _ y x M Lo2 EM).
Qed.

(** The change along a segment is bounded by the slopes reported along it. *)
Lemma segment_slope x y K : length x = d -> length y = d -> well_inside g x -> well_inside g y ->
  (forall s M, 0 <= s <= 1 -> gradient t [between d x y s] = Ok [M] ->
     Rabs (sumn d (fun j => entry M o j * (coordinate x j - coordinate y j))) <= K) ->
  Rabs (value t o x - value t o y) <= K.
Proof.
  intros Lx Ly Wx Wy B.
  assert (Z0 : between d x y 0 = y).
  { apply (nth_ext _ _ 0 0); [rewrite between_length; auto|]. intros j Hj. rewrite between_length in Hj.
    change (coordinate (between d x y 0) j = coordinate y j). rewrite between_nth by auto. lra. }
  assert (Z1 : between d x y 1 = x).
  { apply (nth_ext _ _ 0 0); [rewrite between_length; auto|]. intros j Hj. rewrite between_length in Hj.
    change (coordinate (between d x y 1) j = coordinate x j). rewrite between_nth by auto. lra. }
  assert (Wz : forall s, 0 <= s <= 1 -> well_inside g (between d x y s)).
  { intros s Hs j Hj. rewrite between_nth by auto. specialize (Wx j Hj). specialize (Wy j Hj). nra. }
  assert (K1 : Rabs (value t o (between d x y 1) - value t o (between d x y 0)) <= K); [|now rewrite Z0, Z1 in K1].
  apply (locally_lipschitz (fun s => value t o (between d x y s))).
  intros s Hs. destruct (local_step (between d x y s) (between_length _ _ _ _) (Wz s Hs)) as (dl0 & P & H).
  set (rr := sumn d (fun j => Rabs (coordinate x j - coordinate y j))).
  assert (Pr : 0 <= rr) by (apply sumn_nonneg; intros; apply Rabs_pos).
  exists (dl0 / (1 + rr)). split; [apply Rdiv_lt_0_compat; lra|].
  intros s' Hs' D.
  assert (ST : forall j, (j < d)%nat -> coordinate (between d x y s') j - coordinate (between d x y s) j
                 = (coordinate x j - coordinate y j) * (s' - s)).
  { intros j Hj. rewrite !between_nth by auto. ring. }
  destruct (find dl inv g values m project t SU _ (between_length d x y s')) as (id & verts & vp & w & G & c & q & y0 & r & Lo).
  destruct (gradient_located dl inv g values m project t SU _ _ _ _ _ _ _ _ _ _ Lo) as (M & EM & _).
  rewrite (H _ M (between_length _ _ _ _) (Wz s' Hs')); auto.
  - rewrite (sumn_ext d _ (fun j => entry M o j * (coordinate x j - coordinate y j) * (s' - s))).
    + rewrite sumn_scal_r, Rabs_mult. apply Rmult_le_compat_r; [apply Rabs_pos|]. now apply (B s').
    + intros j Hj. rewrite ST by auto. ring.
  - intros j Hj. rewrite ST by auto. rewrite Rabs_mult.
    assert (Rabs (coordinate x j - coordinate y j) <= rr).
    { unfold rr. apply (sumn_nonneg_term d (fun j => Rabs (coordinate x j - coordinate y j)) j); auto. intros; apply Rabs_pos. }
    apply Rle_lt_trans with ((1 + rr) * Rabs (s' - s)).
    + apply Rmult_le_compat_r; [apply Rabs_pos|lra].
    + replace dl0 with ((1 + rr) * (dl0 / (1 + rr))) by (field; lra). apply Rmult_lt_compat_l; lra.
Qed.
End Segment.

(** The shape of gradients. *)
Lemma gradient_shape dl inv g values m project t x M : setup dl inv g values m project t ->
  length x = dims g -> gradient t [x] = Ok [M] -> length M = m /\ Forall (fun r => length r = dims g) M.
Proof.
  intros SU Lx EM.
  destruct (find dl inv g values m project t SU x Lx) as (id & verts & vp & w & G & c & q & y & r & Lo).
  destruct (gradient_located dl inv g values m project t SU _ _ _ _ _ _ _ _ _ _ Lo) as (M' & E1 & E2 & L1 & _).
  rewrite E1 in EM. injection EM as ->. split; [auto|].
  unfold gradient_of in E2. destruct (mapM _ _); [|discriminate]. injection E2 as <-.
  apply Forall_forall. intros row Hr. apply in_map_iff in Hr as (l0 & <- & _). rewrite map_length.
  apply (lo_glen _ _ _ _ _ _ _ _ _ _ _ _ Lo).
Qed.

(** ** One axis *)
Section Line.
Variables (dl : list vec -> delaunay) (inv : mat -> res mat) (lo up : R) (n : Z) (values : mat) (m : nat) (project : bool) (t : tri).
Let g := Grid [(lo, up)] [n].
Hypothesis SU : setup dl inv g values m project t.
Variable o : nat.
Hypothesis Ho : (o < m)%nat.
Local Notation f := (value_at values o).
Let h := (up - lo) / IZR (n - 1).

Lemma line_valid : lo < up /\ (2 <= n)%Z.
Proof using SU. pose proof (su_grid _ _ _ _ _ _ _ SU) as V. inversion V; subst. auto. Qed.

Lemma line_step : 0 < h /\ 2 * EPS < h /\ up = lo + IZR (n - 1) * h.
Proof using SU.
  clear Ho.
  destruct line_valid as [H1 H2]. pose proof (su_coarse _ _ _ _ _ _ _ SU 0%nat ltac:(cbv; lia)) as C.
  unfold spacing, upper, lower, npts in C. simpl in C. fold h in C. pose proof EPS_pos.
  assert (0 < IZR (n - 1)) by (apply IZR_lt; lia).
  split; [lra|]. split; [exact C|]. unfold h. field. lra.
Qed.

Lemma line_index i s : index_to_state g i = Ok s -> (0 <= i < n)%Z /\ s = [IZR i * h + lo].
Proof.
  unfold index_to_state, np_unravel_index. cbn [num_points g].
  destruct ((0 <=? i)%Z && (i <? prodZ [n])%Z)%bool eqn:E; [|discriminate].
  apply andb_prop in E as [E1 E2]. apply Z.leb_le in E1. apply Z.ltb_lt in E2.
  replace (prodZ [n]) with n in E2 by (unfold prodZ; simpl; lia).
  cbn [bind]. intros X. injection X as <-. split; [lia|].
  cbn [unravel]. unfold unit_maxes, offset. cbn [limits num_points g map map2 map3 fst snd]. fold h.
  change (prodZ []) with 1%Z. now rewrite Z.div_1_r.
Qed.

Lemma line_rect r c : rectangle_to_state g r = Ok c -> (0 <= r < n - 1)%Z /\ c = [IZR r * h + lo].
Proof.
  unfold rectangle_to_state, np_unravel_index. cbn [num_points g map].
  destruct ((0 <=? r)%Z && (r <? prodZ [n - 1])%Z)%bool eqn:E; [|discriminate].
  apply andb_prop in E as [E1 E2]. apply Z.leb_le in E1. apply Z.ltb_lt in E2.
  replace (prodZ [n - 1]%Z) with (n - 1)%Z in E2 by (unfold prodZ; simpl; lia).
  cbn [bind]. intros X. injection X as <-. split; [lia|].
  cbn [unravel]. unfold unit_maxes, offset. cbn [limits num_points g map map2 map3 fst snd]. fold h.
  change (prodZ []) with 1%Z. now rewrite Z.div_1_r.
Qed.

(** The value is that of the line through the values at the ends of the cell, the
    gradient its slope. *)
Lemma line_value x : exists k y q, (0 <= k < n - 1)%Z /\
  q = lo + clipR (x - lo) (2 * EPS) (up - lo - 2 * EPS) /\
  IZR k * h + lo <= q <= IZR (k + 1) * h + lo /\
  y = (if project then Rmin (Rmax x lo) up else x) /\
  value t o [x] = f k + (f (k + 1)%Z - f k) / h * (y - (IZR k * h + lo)) /\
  exists M, gradient t [[x]] = Ok [M] /\ entry M o 0 = (f (k + 1)%Z - f k) / h.
Proof.
  destruct line_step as (Ph & Ch & Eu).
  destruct (find dl inv g values m project t SU [x] eq_refl) as (id & verts & vp & w & G & c & q & y & r & Lo).
  destruct (eval_located dl inv g values m project t SU _ _ _ _ _ _ _ _ _ _ Lo) as (out & E1 & E2 & E3).
  destruct (gradient_located dl inv g values m project t SU _ _ _ _ _ _ _ _ _ _ Lo) as (M & EM & _ & _ & EG).
  destruct (line_rect _ _ (lo_corner _ _ _ _ _ _ _ _ _ _ _ _ Lo)) as [Hr Ec].
  assert (EP : t_project t = project) by apply (setup_wf dl inv g values m project t SU).
  pose proof (lo_query _ _ _ _ _ _ _ _ _ _ _ _ Lo) as Q. rewrite EP in Q.
  pose proof (lo_margin _ _ _ _ _ _ _ _ _ _ _ _ Lo) as [Lq MQ].
  pose proof (lo_hull _ _ _ _ _ _ _ _ _ _ _ _ Lo) as (lam & P0 & S1 & SP).
  destruct (mapM_nth_ok _ _ _ 0%Z [] (lo_states _ _ _ _ _ _ _ _ _ _ _ _ Lo)) as [Lvp NV].
  pose proof (lo_len _ _ _ _ _ _ _ _ _ _ _ _ Lo) as Lv.
  pose proof (lo_nodup _ _ _ _ _ _ _ _ _ _ _ _ Lo) as ND.
  pose proof (lo_cell _ _ _ _ _ _ _ _ _ _ _ _ Lo) as CE.
  pose proof (lo_wsum _ _ _ _ _ _ _ _ _ _ _ _ Lo) as WS.
  pose proof (lo_wpoint _ _ _ _ _ _ _ _ _ _ _ _ Lo 0%nat ltac:(cbv; lia)) as WP.
  pose proof (lo_gsum _ _ _ _ _ _ _ _ _ _ _ _ Lo 0%nat ltac:(cbv; lia)) as GS.
  pose proof (lo_gpoint _ _ _ _ _ _ _ _ _ _ _ _ Lo 0%nat 0%nat ltac:(cbv; lia) ltac:(cbv; lia)) as GP.
  specialize (EG o 0%nat Ho ltac:(cbv; lia)). specialize (E3 o Ho).
  specialize (MQ 0%nat ltac:(cbv; lia)). specialize (SP 0%nat ltac:(cbv; lia)).
  change (dims g) with 1%nat in *.
  destruct verts as [|v0 [|v1 [|]]]; try discriminate. destruct vp as [|s0 [|s1 [|]]]; try discriminate.
  pose proof (NV 0%nat ltac:(cbn; lia)) as N0. pose proof (NV 1%nat ltac:(cbn; lia)) as N1. cbn [nth] in N0, N1.
  apply line_index in N0 as [R0 ->]. apply line_index in N1 as [R1 ->].
  pose proof (CE 0%nat 0%nat ltac:(lia) ltac:(lia)) as C0. pose proof (CE 1%nat 0%nat ltac:(lia) ltac:(lia)) as C1.
  assert (SPC : spacing g 0 = h) by reflexivity. rewrite SPC in C0, C1. subst c.
  unfold entry, coordinate in C0, C1. cbn [nth] in C0, C1.
  assert (K0 : (v0 = r \/ v0 = r + 1)%Z).
  { destruct C0 as [C0|C0]; [left|right]; apply eq_IZR; rewrite ?plus_IZR; apply Rmult_eq_reg_r with h; lra. }
  assert (K1 : (v1 = r \/ v1 = r + 1)%Z).
  { destruct C1 as [C1|C1]; [left|right]; apply eq_IZR; rewrite ?plus_IZR; apply Rmult_eq_reg_r with h; lra. }
  assert (NE : v0 <> v1) by (intros E; apply NoDup_cons_iff in ND as [ND _]; apply ND; left; auto).
  assert (EY : coordinate y 0 = if project then Rmin (Rmax x lo) up else x).
  { clear - Q. unfold query in Q. destruct project; [destruct Q as [_ Q]; apply (Q 0%nat); cbv; lia|rewrite Q; reflexivity]. }
  exists r, (coordinate y 0), (coordinate q 0). split; [auto|]. split; [exact MQ|].
  assert (EV : value t o [x] = coordinate w 0 * f v0 + coordinate w 1 * f v1).
  { unfold value. rewrite E1, E3. unfold combine_at. cbn [length nth sumn]. lra. }
  assert (EG' : entry M o 0 = entry G 0 0 * f v0 + entry G 0 1 * f v1).
  { rewrite EG. unfold combine_at, entry, coordinate. cbn [length nth sumn]. lra. }
  cbn [length] in P0, S1, SP. pose proof (P0 0%nat ltac:(lia)) as L0. pose proof (P0 1%nat ltac:(lia)) as L1.
  assert (A0 : entry [[IZR v0 * h + lo]; [IZR v1 * h + lo]] 0 0 = IZR v0 * h + lo) by reflexivity.
  assert (A1 : entry [[IZR v0 * h + lo]; [IZR v1 * h + lo]] 1 0 = IZR v1 * h + lo) by reflexivity.
  unfold delta in GP. cbn [sumn Nat.eqb] in WS, WP, GS, GP, S1, SP. rewrite A0, A1 in WP, GP, SP. clear A0 A1.
  repeat rewrite plus_IZR in *.
  split; [|split; [exact EY|split]].
  - destruct K0 as [-> | ->]; destruct K1 as [-> | ->]; try (now destruct NE); rewrite ?plus_IZR in *; nra.
  - rewrite EV. destruct K0 as [-> | ->]; destruct K1 as [-> | ->]; try (now destruct NE); rewrite ?plus_IZR in *.
    + assert (A : coordinate w 1 = (coordinate y 0 - (IZR r * h + lo)) / h).
      { rewrite <- WP. replace (coordinate w 0) with (1 - coordinate w 1) by lra. field. lra. }
      replace (coordinate w 0) with (1 - coordinate w 1) by lra. rewrite A. field. lra.
    + assert (A : coordinate w 0 = (coordinate y 0 - (IZR r * h + lo)) / h).
      { rewrite <- WP. replace (coordinate w 1) with (1 - coordinate w 0) by lra. field. lra. }
      replace (coordinate w 1) with (1 - coordinate w 0) by lra. rewrite A. field. lra.
  - exists M. split; [auto|]. rewrite EG'. destruct K0 as [-> | ->]; destruct K1 as [-> | ->]; try (now destruct NE); rewrite ?plus_IZR in *.
    + assert (A : entry G 0 1 = / h).
      { apply Rmult_eq_reg_r with h; [|lra]. replace (/ h * h) with 1 by (field; lra). rewrite <- GP.
        replace (entry G 0 0) with (- entry G 0 1) by lra. ring. }
      replace (entry G 0 0) with (- entry G 0 1) by lra. rewrite A. field. lra.
    + assert (A : entry G 0 0 = / h).
      { apply Rmult_eq_reg_r with h; [|lra]. replace (/ h * h) with 1 by (field; lra). rewrite <- GP.
        replace (entry G 0 1) with (- entry G 0 0) by lra. ring. }
      replace (entry G 0 1) with (- entry G 0 0) by lra. rewrite A. field. lra.
Qed.

Variable L : R.
Hypothesis GB : forall x M, lo <= x <= up -> gradient t [[x]] = Ok [M] -> Rabs (entry M o 0) <= L.

Lemma line_slopes k : (0 <= k < n - 1)%Z -> Rabs (f (k + 1)%Z - f k) <= L * h.
Proof.
  intros Hk. destruct line_step as (Ph & Ch & Eu). destruct line_valid as [H1 H2].
  set (x := (IZR k + 1 / 2) * h + lo).
  destruct (line_value x) as (k' & y & q & Hk' & Eq & Hq & _ & _ & M & EM & EE).
  assert (B0 : 0 <= IZR k) by (apply IZR_le; lia).
  assert (B1 : IZR k + 1 <= IZR (n - 1)) by (rewrite <- plus_IZR; apply IZR_le; lia).
  assert (X : lo <= x <= up) by (unfold x; rewrite Eu; nra).
  pose proof (GB x M X EM) as B. rewrite EE in B.
  assert (Q : IZR k * h + lo < q < (IZR k + 1) * h + lo).
  { pose proof EPS_pos.
    assert (A : 0 <= IZR k * h) by nra. assert (A2 : (IZR k + 1) * h <= up - lo) by (rewrite Eu; nra).
    assert (A3 : x - lo = IZR k * h + h / 2) by (unfold x; field).
    rewrite Eq, A3. unfold clipR, Rmin, Rmax. repeat destruct Rle_dec; lra. }
  assert (k' = k) as ->.
  { rewrite plus_IZR in Hq.
    assert (IZR k' < IZR k + 1) by (apply Rmult_lt_reg_r with h; lra).
    assert (IZR k < IZR k' + 1) by (apply Rmult_lt_reg_r with h; lra).
    rewrite <- plus_IZR in *. apply lt_IZR in H. apply lt_IZR in H0. lia. }
  unfold Rdiv in B. rewrite Rabs_mult, (Rabs_pos_eq (/ h)) in B by (apply Rlt_le, Rinv_0_lt_compat; auto).
  apply Rmult_le_compat_r with (r := h) in B; [|lra].
  replace (Rabs (f (k + 1)%Z - f k) * / h * h) with (Rabs (f (k + 1)%Z - f k)) in B by (field; lra). exact B.
Qed.

Lemma line_steps (i : nat) k : (0 <= k)%Z -> (k + Z.of_nat i <= n - 1)%Z ->
  Rabs (f (k + Z.of_nat i)%Z - f k) <= L * (INR i * h).
Proof.
  intros P. induction i as [|i IH]; intros H.
  - simpl Z.of_nat. rewrite Z.add_0_r, Rminus_diag_eq, Rabs_R0 by auto. simpl. lra.
  - specialize (IH ltac:(lia)). pose proof (line_slopes (k + Z.of_nat i) ltac:(lia)) as S1.
    replace (k + Z.of_nat (S i))%Z with (k + Z.of_nat i + 1)%Z by lia. rewrite S_INR.
    replace (f (k + Z.of_nat i + 1)%Z - f k) with
      ((f (k + Z.of_nat i + 1)%Z - f (k + Z.of_nat i)%Z) + (f (k + Z.of_nat i)%Z - f k)) by ring.
    eapply Rle_trans; [apply Rabs_triang|]. lra.
Qed.

Lemma line_ordered x y : x < y -> Rabs (value t o [x] - value t o [y]) <= L * (y - x).
Proof.
  intros XY. destruct line_step as (Ph & Ch & Eu). destruct line_valid as [H1 H2]. pose proof EPS_pos as PE.
  destruct (line_value x) as (k & yx & qx & Hk & Eqx & Hqx & Ex & Vx & _).
  destruct (line_value y) as (k' & yy & qy & Hk' & Eqy & Hqy & Ey & Vy & _).
  rewrite plus_IZR in Hqx, Hqy.
  assert (QO : yx <= yy /\ yy - yx <= y - x).
  { rewrite Ex, Ey. destruct project; [|lra]. unfold Rmin, Rmax. repeat destruct Rle_dec; lra. }
  pose proof (line_slopes k Hk) as Sk. pose proof (line_slopes k' Hk') as Sk'.
  assert (PL : 0 <= L).
  { pose proof (Rabs_pos (f (k + 1)%Z - f k)). destruct (Rle_dec 0 L); [auto|]. nra. }
  assert (Le : L * (yy - yx) <= L * (y - x)) by (apply Rmult_le_compat_l; lra).
  apply Rle_trans with (L * (yy - yx)); [|exact Le].
  assert (D : forall i a, Rabs (f (i + 1)%Z - f i) <= L * h ->
     Rabs ((f (i + 1)%Z - f i) / h * a) <= L * Rabs a).
  { intros i a Hi. rewrite Rabs_mult. apply Rmult_le_compat_r; [apply Rabs_pos|].
    unfold Rdiv. rewrite Rabs_mult, (Rabs_pos_eq (/ h)) by (apply Rlt_le, Rinv_0_lt_compat; auto).
    apply Rmult_le_reg_r with h; [auto|].
    replace (Rabs (f (i + 1)%Z - f i) * / h * h) with (Rabs (f (i + 1)%Z - f i)) by (field; lra). exact Hi. }
  assert (Bk : 0 <= IZR k) by (apply IZR_le; lia). assert (Bk' : 0 <= IZR k') by (apply IZR_le; lia).
  assert (Ck : IZR k + 1 <= IZR (n - 1)) by (rewrite <- plus_IZR; apply IZR_le; lia).
  assert (Ck' : IZR k' + 1 <= IZR (n - 1)) by (rewrite <- plus_IZR; apply IZR_le; lia).
  destruct (Z.lt_trichotomy k k') as [Lt|[Eq|Gt]].
  - assert (J : IZR k + 1 <= IZR k') by (rewrite <- plus_IZR; apply IZR_le; lia).
    assert (J2 : (IZR k + 1) * h <= IZR k' * h) by (apply Rmult_le_compat_r; lra).
    assert (J3 : IZR k' * h + h <= up - lo) by (rewrite Eu; nra).
    assert (J4 : 0 <= IZR k * h) by nra.
    assert (X1 : yx <= (IZR k + 1) * h + lo).
    { assert (x <= (IZR k + 1) * h + lo).
      { destruct Hqx as [_ Hqx]. rewrite Eqx in Hqx. revert Hqx.
        unfold clipR, Rmin, Rmax. repeat destruct Rle_dec; lra. }
      rewrite Ex. destruct project; [|auto]. unfold Rmin, Rmax. repeat destruct Rle_dec; lra. }
    assert (Y1 : IZR k' * h + lo <= yy).
    { assert (IZR k' * h + lo <= y).
      { destruct Hqy as [Hqy _]. rewrite Eqy in Hqy. revert Hqy.
        unfold clipR, Rmin, Rmax. repeat destruct Rle_dec; lra. }
      rewrite Ey. destruct project; [|auto]. unfold Rmin, Rmax. repeat destruct Rle_dec; lra. }
    pose proof (line_steps (Z.to_nat (k' - (k + 1))) (k + 1) ltac:(lia) ltac:(lia)) as ST.
    replace (k + 1 + Z.of_nat (Z.to_nat (k' - (k + 1))))%Z with k' in ST by lia.
    rewrite INR_IZR_INZ, Z2Nat.id, minus_IZR, plus_IZR in ST by lia.
    pose proof (D k (yx - ((IZR k + 1) * h + lo)) Sk) as D1.
    pose proof (D k' (yy - (IZR k' * h + lo)) Sk') as D2.
    rewrite (Rabs_left1 (yx - _)) in D1 by lra. rewrite (Rabs_pos_eq (yy - _)) in D2 by lra.
    assert (EX : value t o [x] = f (k + 1)%Z + (f (k + 1)%Z - f k) / h * (yx - ((IZR k + 1) * h + lo))).
    { rewrite Vx. field. lra. }
    rewrite EX, Vy.
    replace (f (k + 1)%Z + (f (k + 1)%Z - f k) / h * (yx - ((IZR k + 1) * h + lo)) -
             (f k' + (f (k' + 1)%Z - f k') / h * (yy - (IZR k' * h + lo))))
      with ((f (k + 1)%Z - f k) / h * (yx - ((IZR k + 1) * h + lo)) +
            (- (f k' - f (k + 1)%Z) + - ((f (k' + 1)%Z - f k') / h * (yy - (IZR k' * h + lo))))) by ring.
    eapply Rle_trans; [apply Rabs_triang|]. eapply Rle_trans; [apply Rplus_le_compat_l, Rabs_triang|].
    rewrite !Rabs_Ropp.
    replace (L * (yy - yx)) with (L * - (yx - ((IZR k + 1) * h + lo)) +
      (L * ((IZR k' - (IZR k + 1)) * h) + L * (yy - (IZR k' * h + lo)))) by ring. lra.
  - subst k'. rewrite Vx, Vy.
    replace (_ - _) with ((f (k + 1)%Z - f k) / h * (yx - yy)) by (field; lra).
    eapply Rle_trans; [apply D, Sk|]. rewrite Rabs_left1 by lra. apply Req_le. ring.
  - exfalso. assert (J : IZR k' + 1 <= IZR k) by (rewrite <- plus_IZR; apply IZR_le; lia).
    assert (J2 : (IZR k' + 1) * h <= IZR k * h) by (apply Rmult_le_compat_r; lra).
    assert (J3 : IZR k * h + h <= up - lo) by (rewrite Eu; nra).
    assert (J4 : 0 <= IZR k' * h) by nra.
    rewrite Eqx in Hqx. rewrite Eqy in Hqy. revert Hqx Hqy. clear - PE Ch J2 J3 J4 XY.
    unfold clipR, Rmin, Rmax. repeat destruct Rle_dec; lra.
Qed.

Lemma line_lipschitz x y : Rabs (value t o [x] - value t o [y]) <= L * Rabs (x - y).
Proof.
  destruct (Rtotal_order x y) as [H|[->|H]].
  - rewrite (Rabs_left1 (x - y)) by lra. replace (- (x - y)) with (y - x) by ring. now apply line_ordered.
  - unfold Rminus. rewrite !Rplus_opp_r, Rabs_R0. lra.
  - rewrite (Rabs_pos_eq (x - y)) by lra. rewrite Rabs_minus_sym. now apply line_ordered.
Qed.
End Line.
