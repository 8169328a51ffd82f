(** Lipschitz continuity of triangulations. *)
From Coq Require Import List ZArith Reals Lia Lra Bool Classical.
Import ListNotations.
From Verif Require Import Prelude ListFacts NumModel NumProofs GridModel GridSpec GridProofs
  TriModel TriSpec TriProofs TriProofs2 TriContSpec TriContProofs.
Open Scope R_scope.

Section Lipschitz.
Variables (dl : list vec -> delaunay) (inv : mat -> res mat) (g : grid) (values : mat) (m : nat) (project : bool) (t : tri).
Hypothesis SU : setup dl inv g values m project t.
Let V := su_grid _ _ _ _ _ _ _ SU.
Let C := su_coarse _ _ _ _ _ _ _ SU.
Let W := proj1 (setup_wf dl inv g values m project t SU).
Local Notation d := (dims g).
Hypothesis MT : matching (unit_maxes g) (t_dl t).

(** The barycentric coordinate number [k] of [x] in a simplex that contains [y0]. *)
Definition bary (w0 y0 : vec) (G : mat) (k : nat) (x : vec) : R :=
  coordinate w0 k + sumn d (fun j => (coordinate x j - coordinate y0 j) * entry G j k).

Lemma bary_hull p id verts vp w G c q y r x : located g t p id verts vp w G c q y r ->
  (forall k, (k < S d)%nat -> 0 <= bary w y G k x) -> convex_hull d vp x.
Proof.
  intros Lo P. exists (fun k => bary w y G k x).
  destruct (mapM_nth_ok _ _ _ 0%Z [] (lo_states _ _ _ _ _ _ _ _ _ _ _ _ Lo)) as [Lvp _].
  rewrite (lo_len _ _ _ _ _ _ _ _ _ _ _ _ Lo) in Lvp. rewrite Lvp. split; [auto|]. unfold bary. split.
  - rewrite sumn_plus, (lo_wsum _ _ _ _ _ _ _ _ _ _ _ _ Lo), sumn_swap.
    rewrite (sumn_ext d _ (fun _ => 0)); [rewrite sumn_zero; lra|].
    intros j Hj. rewrite sumn_scal, (lo_gsum _ _ _ _ _ _ _ _ _ _ _ _ Lo) by auto. lra.
  - intros i Hi.
    rewrite (sumn_ext (S d) _ (fun k => coordinate w k * entry vp k i
       + sumn d (fun j => (coordinate x j - coordinate y j) * (entry G j k * entry vp k i)))).
    2:{ intros k Hk. rewrite Rmult_plus_distr_r. f_equal. rewrite <- sumn_scal_r. apply sumn_ext. intros; ring. }
    rewrite sumn_plus, (lo_wpoint _ _ _ _ _ _ _ _ _ _ _ _ Lo) by auto. rewrite sumn_swap.
    rewrite (sumn_ext d _ (fun j => delta j i * (coordinate x j - coordinate y j))).
    + rewrite (sumn_delta d i (fun j => coordinate x j - coordinate y j)) by auto. lra.
    + intros j Hj. rewrite sumn_scal, (lo_gpoint _ _ _ _ _ _ _ _ _ _ _ _ Lo) by auto. lra.
Qed.

(** Points close to [x] are located in simplices that contain [x]. *)
Lemma near_one x id : length x = d ->
  exists dl, 0 < dl /\ forall y verts vp w G c q y' r,
    length y = d -> well_inside g y -> (forall j, (j < d)%nat -> Rabs (coordinate y j - coordinate x j) < dl) ->
    located g t y id verts vp w G c q y' r -> convex_hull d vp x.
Proof.
  intros Lx.
  destruct (classic (exists y0 verts vp w G c q y' r, length y0 = d /\ well_inside g y0 /\
              located g t y0 id verts vp w G c q y' r)) as
    [(y0 & verts & vp & w & G & c & q & y' & r & L0 & W0 & Lo)|N].
  2:{ exists 1. split; [lra|]. intros. exfalso. apply N. exists y, verts, vp, w, G, c, q, y', r. auto. }
  destruct (classic (forall k, (k < S d)%nat -> 0 <= bary w y' G k x)) as [P|NP].
  { exists 1. split; [lra|]. intros y verts2 vp2 w2 G2 c2 q2 y2 r2 Ly Wy _ Lo2.
    destruct (same_simplex g t _ _ _ _ _ _ _ _ _ _ _ _ _ _ _ _ _ _ _ Lo Lo2) as (_ & -> & _).
    exact (bary_hull _ _ _ _ _ _ _ _ _ _ x Lo P). }
  apply not_all_ex_not in NP as (k & NP). apply imply_to_and in NP as (Hk & NP). apply Rnot_le_lt in NP.
  set (K := 1 + sumn d (fun j => Rabs (entry G j k))).
  assert (PK : 0 < K).
  { unfold K. pose proof (sumn_nonneg d (fun j => Rabs (entry G j k)) (fun i _ => Rabs_pos _)). lra. }
  exists (- bary w y' G k x / K). split; [apply Rdiv_lt_0_compat; lra|].
  intros y verts2 vp2 w2 G2 c2 q2 y2 r2 Ly Wy Hy Lo2. exfalso.
  destruct (same_simplex g t _ _ _ _ _ _ _ _ _ _ _ _ _ _ _ _ _ _ _ Lo Lo2) as (_ & _ & _ & KS).
  destruct (weights_nonneg g t y id verts2 vp2 w2 G2 c2 q2 y2 r2 Ly Wy Lo2) as [-> NN].
  specialize (KS k Hk). specialize (NN k Hk).
  assert (E : coordinate w2 k = bary w y' G k x + sumn d (fun j => (coordinate y j - coordinate x j) * entry G j k)).
  { rewrite KS. unfold bary. rewrite Rplus_assoc, <- sumn_plus. f_equal. apply sumn_ext. intros; ring. }
  assert (B : Rabs (sumn d (fun j => (coordinate y j - coordinate x j) * entry G j k))
              <= - bary w y' G k x / K * sumn d (fun j => Rabs (entry G j k))).
  { eapply Rle_trans; [apply sumn_abs|]. rewrite <- sumn_scal. apply sumn_le. intros j Hj.
    rewrite Rabs_mult. apply Rmult_le_compat_r; [apply Rabs_pos|]. apply Rlt_le, Hy; auto. }
  assert (B2 : - bary w y' G k x / K * sumn d (fun j => Rabs (entry G j k)) < - bary w y' G k x).
  { replace (sumn d (fun j => Rabs (entry G j k))) with (K - 1) by (unfold K; lra).
    replace (- bary w y' G k x / K * (K - 1)) with (- bary w y' G k x - (- bary w y' G k x / K)) by (field; lra).
    assert (0 < - bary w y' G k x / K) by (apply Rdiv_lt_0_compat; lra). lra. }
  pose proof (Rle_abs (sumn d (fun j => (coordinate y j - coordinate x j) * entry G j k))). lra.
Qed.

Lemma near_all x n : length x = d ->
  exists dl, 0 < dl /\ forall y id verts vp w G c q y' r,
    length y = d -> well_inside g y -> (forall j, (j < d)%nat -> Rabs (coordinate y j - coordinate x j) < dl) ->
    (0 <= id < Z.of_nat n)%Z ->
    located g t y id verts vp w G c q y' r -> convex_hull d vp x.
Proof.
  intros Lx. induction n as [|n (d1 & P1 & H1)].
  - exists 1. split; [lra|]. intros. lia.
  - destruct (near_one x (Z.of_nat n) Lx) as (d2 & P2 & H2).
    exists (Rmin d1 d2). split; [now apply Rmin_glb_lt|].
    intros y id verts vp w G c q y' r Ly Wy Hy Hid Lo.
    pose proof (Rmin_l d1 d2). pose proof (Rmin_r d1 d2).
    destruct (Z.eq_dec id (Z.of_nat n)) as [->|Ne].
    + eapply (H2 y); eauto. intros j Hj. specialize (Hy j Hj). lra.
    + eapply (H1 y id); eauto; [|lia]. intros j Hj. specialize (Hy j Hj). lra.
Qed.

Lemma near x : length x = d ->
  exists dl, 0 < dl /\ forall y id verts vp w G c q y' r,
    length y = d -> well_inside g y -> (forall j, (j < d)%nat -> Rabs (coordinate y j - coordinate x j) < dl) ->
    located g t y id verts vp w G c q y' r -> convex_hull d vp x.
Proof.
  intros Lx. destruct (near_all x (Z.to_nat (nsimplex t)) Lx) as (dl0 & P & H).
  exists dl0. split; [auto|]. intros. eapply H; eauto.
  pose proof (lo_range _ _ _ _ _ _ _ _ _ _ _ _ H3). lia.
Qed.

Variable o : nat.
Hypothesis Ho : (o < m)%nat.
Variable L : R.
Hypothesis GB : gradients_bounded t o L.

(** Output [o] at [x]. *)
Definition value (x : vec) : R :=
  match tri_eval1 t x with Ok out => coordinate out o | Err _ => 0 end.

Local Notation f := (value_at values o).

Lemma value_located p id verts vp w G c q y r : located g t p id verts vp w G c q y r ->
  value p = piece g f w verts G y y.
Proof.
  intros Lo. destruct (eval_located dl inv g values m project t SU _ _ _ _ _ _ _ _ _ _ Lo) as (out & E1 & _ & E2).
  unfold value. rewrite E1, E2 by auto. unfold piece.
  rewrite (sumn_ext d _ (fun _ => 0)) by (intros; lra). rewrite sumn_zero. lra.
Qed.

Lemma piece_slope p id verts vp w G c q y r a b rr :
  length p = d -> inside g p ->
  located g t p id verts vp w G c q y r -> 0 <= rr -> within d rr a b ->
  Rabs (piece g f w verts G y a - piece g f w verts G y b) <= L * rr.
Proof.
  intros Lp Ip Lo Pr B. unfold piece.
  destruct (gradient_located dl inv g values m project t SU _ _ _ _ _ _ _ _ _ _ Lo) as (M & E3 & _ & _ & E4).
  assert (WG : t_grid t = g) by apply (wf_grid _ _ W).
  pose proof (GB p M ltac:(rewrite WG; auto) ltac:(rewrite WG; auto) E3) as Bd. rewrite WG in Bd.
  replace (_ + _ - _) with (sumn d (fun j => entry M o j * (coordinate a j - coordinate b j))).
  - eapply Rle_trans; [apply sumn_abs|]. apply Rle_trans with (sumn d (fun j => Rabs (entry M o j)) * rr).
    + rewrite <- sumn_scal_r. apply sumn_le. intros j Hj. rewrite Rabs_mult.
      apply Rmult_le_compat_l; [apply Rabs_pos|]. now apply B.
    + apply Rmult_le_compat_r; auto.
  - rewrite (sumn_ext d (fun j => entry M o j * (coordinate a j - coordinate b j))
      (fun j => combine_at (nth j G []) f verts * (coordinate a j - coordinate y j)
              - combine_at (nth j G []) f verts * (coordinate b j - coordinate y j))).
    + rewrite sumn_minus. lra.
    + intros j Hj. rewrite <- E4 by auto. lra.
Qed.

(** Inside the margin: Lipschitz near every point. *)
Lemma local_slope x : length x = d -> well_inside g x ->
  exists dl, 0 < dl /\ forall y rr, length y = d -> well_inside g y ->
    (forall j, (j < d)%nat -> Rabs (coordinate y j - coordinate x j) < dl) -> 0 <= rr -> within d rr y x ->
    Rabs (value y - value x) <= L * rr.
Proof.
  intros Lx Wx. destruct (near x Lx) as (dl0 & P & H). exists dl0. split; [auto|].
  intros y rr Ly Wy Hy Pr B.
  destruct (find dl inv g values m project t SU x Lx) as (id & verts & vp & w & G & c & q & y0 & r & Lo).
  destruct (find dl inv g values m project t SU y Ly) as (id2 & verts2 & vp2 & w2 & G2 & c2 & q2 & y2 & r2 & Lo2).
  pose proof (H y _ _ _ _ _ _ _ _ _ Ly Wy Hy Lo2) as HX.
  rewrite (value_located _ _ _ _ _ _ _ _ _ _ Lo), (value_located _ _ _ _ _ _ _ _ _ _ Lo2).
  destruct (weights_nonneg g t y _ _ _ _ _ _ _ _ _ Ly Wy Lo2) as [-> _].
  pose proof (lo_hull _ _ _ _ _ _ _ _ _ _ _ _ Lo) as HQ.
  rewrite (margin_well_inside g x q Lx Wx (lo_margin _ _ _ _ _ _ _ _ _ _ _ _ Lo)) in HQ.
  destruct (weights_nonneg g t x _ _ _ _ _ _ _ _ _ Lx Wx Lo) as [-> _].
  rewrite (pieces_agree g V t W MT f _ _ _ _ _ _ _ _ _ _ _ _ _ _ _ _ _ _ _ _ x Lo Lo2 Lx HQ HX).
  apply (piece_slope _ _ _ _ _ _ _ _ _ _ y x rr Ly (well_inside_inside g y Wy) Lo2 Pr B).
Qed.

Lemma slope_inside x y rr : length x = d -> length y = d -> well_inside g x -> well_inside g y ->
  within d rr x y -> 0 <= rr -> Rabs (value x - value y) <= L * rr.
Proof.
  intros Lx Ly Wx Wy B Pr.
  set (z := fun s : R => map (fun j => coordinate y j + s * (coordinate x j - coordinate y j)) (seq 0 d)).
  assert (Lz : forall s, length (z s) = d) by (intros; unfold z; rewrite map_length, seq_length; auto).
  assert (Cz : forall s j, (j < d)%nat -> coordinate (z s) j = coordinate y j + s * (coordinate x j - coordinate y j)).
  { intros s j Hj. unfold z. unfold coordinate at 1.
    rewrite (nth_map_lt _ _ _ 0%nat) by (rewrite seq_length; auto). now rewrite seq_nth by auto. }
  assert (Z0 : z 0 = y).
  { apply (nth_ext _ _ 0 0); [rewrite Lz; auto|]. intros j Hj. rewrite Lz in Hj.
    change (coordinate (z 0) j = coordinate y j). rewrite Cz by auto. lra. }
  assert (Z1 : z 1 = x).
  { apply (nth_ext _ _ 0 0); [rewrite Lz; auto|]. intros j Hj. rewrite Lz in Hj.
    change (coordinate (z 1) j = coordinate x j). rewrite Cz by auto. lra. }
  assert (Wz : forall s, 0 <= s <= 1 -> well_inside g (z s)).
  { intros s Hs j Hj. rewrite Cz by auto. specialize (Wx j Hj). specialize (Wy j Hj). nra. }
  rewrite <- Z0, <- Z1. apply (locally_lipschitz (fun s => value (z s))).
  intros s Hs. destruct (local_slope (z s) (Lz s) (Wz s Hs)) as (dl0 & P & H).
  exists (dl0 / (1 + rr)). split; [apply Rdiv_lt_0_compat; lra|].
  intros s' Hs' D.
  assert (D2 : forall j, (j < d)%nat -> Rabs (coordinate (z s') j - coordinate (z s) j) <= rr * Rabs (s' - s)).
  { intros j Hj. rewrite !Cz by auto.
    replace (_ - _) with ((coordinate x j - coordinate y j) * (s' - s)) by ring.
    rewrite Rabs_mult. apply Rmult_le_compat_r; [apply Rabs_pos|]. apply B; auto. }
  rewrite Rmult_assoc. apply H; auto.
  - intros j Hj. specialize (D2 j Hj).
    assert (rr * Rabs (s' - s) < dl0).
    { apply Rle_lt_trans with ((1 + rr) * Rabs (s' - s)).
      - apply Rmult_le_compat_r; [apply Rabs_pos|lra].
      - replace dl0 with ((1 + rr) * (dl0 / (1 + rr))) by (field; lra). apply Rmult_lt_compat_l; lra. }
    lra.
  - apply Rmult_le_pos; [lra|apply Rabs_pos].
Qed.

(** Up to the border. *)
Hypothesis WD : forall j, (j < d)%nat -> 4 * EPS <= upper g j - lower g j.

Lemma margin_exists p : length p = d -> exists q, margin_point g p q /\ well_inside g q.
Proof.
  intros Lp. exists (map (fun j => lower g j + clipR (coordinate p j - lower g j) (2 * EPS) (upper g j - lower g j - 2 * EPS)) (seq 0 d)).
  assert (Cz : forall j, (j < d)%nat -> coordinate (map (fun j => lower g j + clipR (coordinate p j - lower g j) (2 * EPS) (upper g j - lower g j - 2 * EPS)) (seq 0 d)) j
    = lower g j + clipR (coordinate p j - lower g j) (2 * EPS) (upper g j - lower g j - 2 * EPS)).
  { intros j Hj. unfold coordinate at 1. rewrite (nth_map_lt _ _ _ 0%nat) by (rewrite seq_length; auto).
    now rewrite seq_nth by auto. }
  split; [split; [now rewrite map_length, seq_length|exact Cz]|].
  intros j Hj. rewrite Cz by auto. specialize (WD j Hj).
  pose proof (clipR_range (coordinate p j - lower g j) (2 * EPS) (upper g j - lower g j - 2 * EPS) ltac:(lra)). lra.
Qed.

Lemma margin_unique p q q' : margin_point g p q -> margin_point g p q' -> q = q'.
Proof.
  intros [L1 H1] [L2 H2]. apply (nth_ext _ _ 0 0); [congruence|]. intros j Hj. rewrite L1 in Hj.
  change (coordinate q j = coordinate q' j). rewrite H1, H2; auto.
Qed.

Lemma value_margin p q : length p = d -> inside g p -> margin_point g p q -> well_inside g q -> 0 <= L ->
  Rabs (value p - value q) <= L * (2 * EPS).
Proof.
  intros Lp Ip MQ WQ PL. pose proof MQ as [Lq HQ].
  destruct (find dl inv g values m project t SU p Lp) as (id & verts & vp & w & G & c & q' & y0 & r & Lo).
  destruct (find dl inv g values m project t SU q Lq) as (id2 & verts2 & vp2 & w2 & G2 & c2 & q2 & y2 & r2 & Lo2).
  pose proof (margin_unique p q' q (lo_margin _ _ _ _ _ _ _ _ _ _ _ _ Lo) MQ) as E. subst q'.
  rewrite (value_located _ _ _ _ _ _ _ _ _ _ Lo), (value_located _ _ _ _ _ _ _ _ _ _ Lo2).
  destruct (weights_nonneg g t q _ _ _ _ _ _ _ _ _ Lq WQ Lo2) as [-> _].
  pose proof (lo_hull _ _ _ _ _ _ _ _ _ _ _ _ Lo2) as HX.
  rewrite (margin_well_inside g q q2 Lq WQ (lo_margin _ _ _ _ _ _ _ _ _ _ _ _ Lo2)) in HX.
  pose proof (query_inside g (t_project t) p y0 Lp Ip (lo_query _ _ _ _ _ _ _ _ _ _ _ _ Lo)) as ->.
  rewrite <- (pieces_agree g V t W MT f _ _ _ _ _ _ _ _ _ _ _ _ _ _ _ _ _ _ _ _ q Lo Lo2 Lq
     (lo_hull _ _ _ _ _ _ _ _ _ _ _ _ Lo) HX).
  apply (piece_slope _ _ _ _ _ _ _ _ _ _ p q (2 * EPS) Lp Ip Lo).
  - pose proof EPS_pos. lra.
  - intros j Hj. rewrite HQ by auto. specialize (WD j Hj). specialize (Ip j Hj). pose proof EPS_pos.
    unfold clipR, Rmin, Rmax, Rabs. repeat destruct Rle_dec; destruct Rcase_abs; lra.
Qed.

Lemma slope_everywhere x y rr : length x = d -> length y = d -> inside g x -> inside g y ->
  within d rr x y -> 0 <= rr -> 0 <= L -> Rabs (value x - value y) <= L * (rr + 4 * EPS).
Proof.
  intros Lx Ly Ix Iy B Pr PL.
  destruct (margin_exists x Lx) as (q & MQ & WQ). destruct (margin_exists y Ly) as (q' & MQ' & WQ').
  pose proof (value_margin x q Lx Ix MQ WQ PL) as A1. pose proof (value_margin y q' Ly Iy MQ' WQ' PL) as A2.
  destruct MQ as [Lq HQ]. destruct MQ' as [Lq' HQ'].
  assert (A3 : Rabs (value q - value q') <= L * rr).
  { apply slope_inside; auto. intros j Hj. rewrite HQ, HQ' by auto. specialize (B j Hj). specialize (WD j Hj).
    revert B. unfold clipR, Rmin, Rmax, Rabs. repeat destruct Rle_dec; repeat destruct Rcase_abs; lra. }
  replace (value x - value y) with ((value x - value q) + (value q - value q') + - (value y - value q')) by ring.
  eapply Rle_trans; [apply Rabs_triang|]. eapply Rle_trans; [apply Rplus_le_compat_r, Rabs_triang|].
  rewrite Rabs_Ropp. lra.
Qed.
End Lipschitz.
