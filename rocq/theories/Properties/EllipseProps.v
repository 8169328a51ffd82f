(** C81: [ellipse_bounds]. *)
From Coq Require Import Reals List ZArith Lia Lra Psatz.
From Verif Require Import Prelude UtilModel EllipseModel EllipseSpec EllipseProofs.
Import ListNotations.
Local Open Scope R_scope.

(** With a numpy that accepts floats in slices, half of the (even) number of points
    is returned; the two y values belong to points of the level set, and they are
    different except for the first, so that they are both ends of the vertical
    line through x. *)
Theorem C81_points_on_level : forall P level e n,
  positive_definite P -> 0 < level -> eigen P e -> orthogonal_if_equal e -> (0 <= n)%Z ->
  exists x yu yl, ellipse_bounds true level e n = Ok (x, yu, yl) /\
    (Z.of_nat (length x) = (n + n mod 2) / 2)%Z /\
    length yu = length x /\ length yl = length x /\
    forall i, (i < length x)%nat ->
      on_level P level (nth i x 0, nth i yu 0) /\
      on_level P level (nth i x 0, nth i yl 0) /\
      (nth i yu 0 = nth i yl 0 <-> i = 0%nat).
Proof.
  intros P level e n HP Hl He Ho Hn.
  destruct (start P level e HP Hl He Ho) as (t0 & E0 & H0 & _).
  destruct (ellipse_bounds_values level e n t0 Hn E0 H0) as (x & yu & yl & E & L1 & L2 & L3 & H).
  cbv zeta in *. set (h := Z.to_nat ((n + n mod 2) / 2)) in *.
  pose proof (Z.mod_pos_bound n 2 ltac:(lia)) as Hm.
  assert (Hh : (0 <= (n + n mod 2) / 2)%Z) by (apply Z.div_pos; lia).
  exists x, yu, yl. split; [auto|]. split; [rewrite L1; unfold h; lia|].
  split; [congruence|]. split; [congruence|].
  intros i Hi. rewrite L1 in Hi. destruct (H i Hi) as (-> & -> & ->).
  split; [now apply on_level_pos|]. split.
  - pose proof (on_level_pos P level e HP Hl He Ho t0 H0 (- step h i)) as A.
    rewrite cos_neg, sin_neg in A. replace (mid level e t0 * cos (step h i) - wid level e t0 * sin (step h i))
      with (mid level e t0 * cos (step h i) + wid level e t0 * - sin (step h i)) by ring. exact A.
  - pose proof (step_range h i Hi) as Hr. split.
    + intros Eq. destruct i as [|i]; auto. exfalso.
      assert (Hp : 0 < step h (S i)).
      { pose proof (step_lt h 0 (S i) ltac:(lia) Hi) as A. unfold step in A at 1. simpl INR in A. lra. }
      assert (Hs : 0 < sin (step h (S i))) by (apply sin_gt_0; lra).
      assert (Hw : wid level e t0 * sin (step h (S i)) = 0) by lra.
      apply Rmult_integral in Hw as [Hw|Hw]; [|lra].
      pose proof (rad_wid level e t0 H0) as D. rewrite Hw, Rmult_0_r in D.
      now apply (det_scaled_nonzero P level e HP Hl He Ho).
    + intros ->. unfold step; simpl. rewrite Rmult_0_l, sin_0. ring.
Qed.
Print Assumptions C81_points_on_level.

(** The x values start at the extreme on the side given by the sign of [eigvec[0, 0]],
    move strictly towards the other extreme and never reach it. *)
Theorem C81_order : forall P level e n x yu yl,
  positive_definite P -> 0 < level -> eigen P e -> orthogonal_if_equal e -> (0 <= n)%Z ->
  ellipse_bounds true level e n = Ok (x, yu, yl) ->
  let towards := fun s t => if Rlt_dec (m00 (eigvec e)) 0 then s < t else t < s in
  (forall i j, (i < j)%nat -> (j < length x)%nat -> towards (nth i x 0) (nth j x 0)) /\
  (forall i, (i < length x)%nat -> towards (nth i x 0) (- nth 0 x 0)) /\
  (forall p, on_level P level p -> (0 < length x)%nat -> Rabs (fst p) <= Rabs (nth 0 x 0)).
Proof.
  intros P level e n x yu yl HP Hl He Ho Hn E towards.
  destruct (start P level e HP Hl He Ho) as (t0 & E0 & H0 & Hs).
  destruct (ellipse_bounds_values level e n t0 Hn E0 H0) as (x' & yu' & yl' & E' & L1 & _ & _ & H).
  cbv zeta in *. set (h := Z.to_nat ((n + n mod 2) / 2)) in *.
  rewrite E in E'. injection E' as <- <- <-. rewrite L1. fold (rad level e t0) in Hs.
  assert (Z0 : (0 < h)%nat -> nth 0 x 0 = rad level e t0).
  { intros Hh. destruct (H 0%nat Hh) as (-> & _). unfold step; simpl. rewrite Rmult_0_l, cos_0. ring. }
  assert (T : forall a b, b < a -> towards (rad level e t0 * a) (rad level e t0 * b)).
  { intros a b Hab. unfold towards. destruct Rlt_dec.
    - apply Ropp_lt_cancel. rewrite <- !Ropp_mult_distr_l_reverse.
      apply Rmult_lt_compat_l; lra.
    - apply Rmult_lt_compat_l; lra. }
  split; [|split].
  - intros i j Hij Hj. destruct (H i ltac:(lia)) as (-> & _), (H j Hj) as (-> & _).
    apply T. pose proof (step_range h i ltac:(lia)). pose proof (step_range h j Hj).
    pose proof (step_lt h i j Hij Hj). apply cos_decreasing_1; lra.
  - intros i Hi. rewrite (Z0 ltac:(lia)). destruct (H i Hi) as (-> & _).
    replace (- rad level e t0) with (rad level e t0 * -1) by ring. apply T.
    pose proof (step_range h i Hi). rewrite <- cos_PI. apply cos_decreasing_1; lra.
  - intros p Hp Hh. rewrite (Z0 Hh). apply Rsqr_le_abs_0. unfold Rsqr.
    pose proof (extreme P level e HP Hl He Ho t0 H0 p Hp) as X. simpl in X. lra.
Qed.
Print Assumptions C81_order.

(** Which of the two is the upper bound depends on the signs of the eigenvectors. *)
Theorem C81_upper_bound : forall P level e n x yu yl,
  positive_definite P -> 0 < level -> eigen P e -> orthogonal_if_equal e -> (0 <= n)%Z ->
  ellipse_bounds true level e n = Ok (x, yu, yl) ->
  let s := if Rlt_dec (m00 (eigvec e)) 0 then - det2 (eigvec e) else det2 (eigvec e) in
  (s = 1 \/ s = -1) /\
  (s = 1 -> forall i, (0 < i < length x)%nat -> nth i yl 0 < nth i yu 0) /\
  (s = -1 -> forall i, (0 < i < length x)%nat -> nth i yu 0 < nth i yl 0).
Proof.
  intros P level e n x yu yl HP Hl He Ho Hn E s.
  destruct (start P level e HP Hl He Ho) as (t0 & E0 & H0 & Hs).
  destruct (ellipse_bounds_values level e n t0 Hn E0 H0) as (x' & yu' & yl' & E' & L1 & _ & _ & H).
  cbv zeta in *. set (h := Z.to_nat ((n + n mod 2) / 2)) in *.
  rewrite E in E'. injection E' as <- <- <-. rewrite L1. fold (rad level e t0) in Hs.
  pose proof (det_square P e HP He Ho) as D.
  pose proof (rad_wid level e t0 H0) as RW. rewrite det_scaled in RW.
  pose proof (s0_pos P level e HP Hl He) as S0. pose proof (s1_pos P level e HP Hl He) as S1.
  assert (SS : 0 < sqrt (level / eigval0 e) * sqrt (level / eigval1 e)) by now apply Rmult_lt_0_compat.
  set (q := sqrt (level / eigval0 e) * sqrt (level / eigval1 e)) in *.
  assert (Hd : det2 (eigvec e) = 1 \/ det2 (eigvec e) = -1).
  { assert (F : (det2 (eigvec e) - 1) * (det2 (eigvec e) + 1) = 0) by (ring_simplify; simpl in D; lra).
    apply Rmult_integral in F as [|]; [left|right]; lra. }
  assert (G : exists r, 0 < r /\ r * wid level e t0 = s * q).
  { unfold s. destruct Rlt_dec.
    - exists (- rad level e t0). split; [lra|].
      rewrite !Ropp_mult_distr_l_reverse, RW. reflexivity.
    - exists (rad level e t0). split; [lra|]. exact RW. }
  destruct G as (r & Hr & G).
  assert (SP : forall i, (0 < i < h)%nat -> 0 < sin (step h i)).
  { intros i Hi. pose proof (step_range h i ltac:(lia)).
    pose proof (step_lt h 0 i ltac:(lia) ltac:(lia)) as A. unfold step in A at 1. simpl INR in A.
    apply sin_gt_0; lra. }
  split; [unfold s; destruct Rlt_dec; destruct Hd; lra|].
  split; intros Es i Hi; destruct (H i ltac:(lia)) as (_ & -> & ->); rewrite Es in G;
    specialize (SP i Hi).
  - assert (0 < wid level e t0).
    { apply Rmult_lt_reg_l with r; auto. lra. }
    assert (0 < wid level e t0 * sin (step h i)) by now apply Rmult_lt_0_compat. lra.
  - assert (wid level e t0 < 0).
    { apply Rmult_lt_reg_l with r; auto. lra. }
    assert (0 < - wid level e t0 * sin (step h i)) by (apply Rmult_lt_0_compat; lra). lra.
Qed.
Print Assumptions C81_upper_bound.

(** The identity matrix, with the eigenvectors of [np.linalg.eig] and with a sign
    changed. *)
Definition one2 : mat2 := Mat2 1 0 0 1.
Definition eig_one : eig := Eig 1 1 one2.
Definition eig_flip : eig := Eig 1 1 (Mat2 1 0 0 (-1)).
Lemma one2_pd : positive_definite one2.
Proof.
  split; [reflexivity|]. intros (x, y) Hp. exists (x * x + y * y). split.
  - pose proof (Rle_0_sqr x). pose proof (Rle_0_sqr y). unfold Rsqr in *.
    destruct (Req_dec x 0) as [->|Nx].
    + destruct (Req_dec y 0) as [->|Ny]; [congruence|].
      apply Rsqr_pos_lt in Ny. unfold Rsqr in Ny. lra.
    + apply Rsqr_pos_lt in Nx. unfold Rsqr in Nx. lra.
  - unfold on_level; simpl. ring.
Qed.
Lemma eig_one_ok : eigen one2 eig_one /\ orthogonal_if_equal eig_one.
Proof. split; [constructor; simpl; ring|]. intros _; simpl. ring. Qed.
Lemma eig_flip_ok : eigen one2 eig_flip /\ orthogonal_if_equal eig_flip.
Proof. split; [constructor; simpl; ring|]. intros _; simpl. ring. Qed.

Example C81_ex : exists x yu yl, ellipse_bounds true 4 eig_one 5 = Ok (x, yu, yl) /\
  length x = 3%nat /\ nth 2 yl 0 < nth 2 yu 0 /\ Rabs (nth 0 x 0) >= 2.
Proof.
  destruct (C81_points_on_level one2 4 eig_one 5 one2_pd ltac:(lra) (proj1 eig_one_ok)
    (proj2 eig_one_ok) ltac:(lia)) as (x & yu & yl & E & L & _).
  change ((5 + 5 mod 2) / 2)%Z with 3%Z in L. assert (L' : length x = 3%nat) by lia.
  exists x, yu, yl. split; [auto|]. split; [auto|]. split.
  - destruct (C81_upper_bound one2 4 eig_one 5 x yu yl one2_pd ltac:(lra) (proj1 eig_one_ok)
      (proj2 eig_one_ok) ltac:(lia) E) as (_ & A & _). apply A; [|lia].
    destruct Rlt_dec; simpl in *; unfold det2; simpl; lra.
  - destruct (C81_order one2 4 eig_one 5 x yu yl one2_pd ltac:(lra) (proj1 eig_one_ok)
      (proj2 eig_one_ok) ltac:(lia) E) as (_ & _ & A).
    specialize (A (2, 0)). simpl in A. rewrite (Rabs_pos_eq 2) in A by lra.
    apply Rle_ge, A; [|lia]. unfold on_level; simpl. ring.
Qed.

(** The second array is not always the upper bound. *)
Theorem C81_upper_bound_refuted :
  ~ (forall P level e n x yu yl,
       positive_definite P -> 0 < level -> eigen P e -> orthogonal_if_equal e -> (0 <= n)%Z ->
       ellipse_bounds true level e n = Ok (x, yu, yl) ->
       forall i, (i < length x)%nat -> nth i yl 0 <= nth i yu 0).
Proof.
  intros H.
  destruct (C81_points_on_level one2 4 eig_flip 4 one2_pd ltac:(lra) (proj1 eig_flip_ok)
    (proj2 eig_flip_ok) ltac:(lia)) as (x & yu & yl & E & L & _).
  change ((4 + 4 mod 2) / 2)%Z with 2%Z in L. assert (L' : length x = 2%nat) by lia.
  pose proof (H one2 4 eig_flip 4%Z x yu yl one2_pd ltac:(lra) (proj1 eig_flip_ok)
    (proj2 eig_flip_ok) ltac:(lia) E 1%nat ltac:(lia)) as G.
  destruct (C81_upper_bound one2 4 eig_flip 4 x yu yl one2_pd ltac:(lra) (proj1 eig_flip_ok)
    (proj2 eig_flip_ok) ltac:(lia) E) as (_ & _ & A).
  specialize (A ltac:(destruct Rlt_dec; simpl in *; unfold det2; simpl; lra) 1%nat ltac:(lia)). lra.
Qed.
Print Assumptions C81_upper_bound_refuted.

(** For a matrix that is not symmetric the points are not on the level set
    x' P x = level, although this is the level set of a symmetric matrix. *)
Theorem C81_unsymmetric_refuted :
  ~ (forall P level e n x yu yl,
       (forall p, p <> (0, 0) -> exists l, 0 < l /\ on_level P l p) ->
       0 < level -> eigen P e -> orthogonal_if_equal e -> (0 <= n)%Z ->
       ellipse_bounds true level e n = Ok (x, yu, yl) ->
       forall i, (i < length x)%nat -> on_level P level (nth i x 0, nth i yu 0)).
Proof.
  intros H.
  set (r := / sqrt 2).
  assert (S2 : sqrt 2 * sqrt 2 = 2) by (apply sqrt_sqrt; lra).
  assert (S2p : 0 < sqrt 2) by (apply sqrt_lt_R0; lra).
  assert (R2 : r * r = 1 / 2).
  { unfold r. rewrite <- Rinv_mult_distr, S2 by lra. lra. }
  set (e := Eig 1 2 (Mat2 1 r 0 r)). set (P := Mat2 1 1 0 2).
  assert (Hs0 : sqrt (4 / 1) = 2) by (replace (4 / 1) with (2 * 2) by lra; apply sqrt_square; lra).
  assert (Hs1 : sqrt (4 / 2) = sqrt 2) by (f_equal; lra).
  assert (Ev : scaled 4 e = Mat2 2 1 0 1).
  { unfold scaled, e; simpl. rewrite Hs0, Hs1. unfold r. f_equal; try ring; field; lra. }
  assert (E0 : arctan_quotient (m01 (scaled 4 e)) (m00 (scaled 4 e)) = Some (atan (1 / 2))).
  { rewrite Ev. unfold arctan_quotient; simpl. destruct Req_EM_T; [lra|reflexivity]. }
  set (t0 := atan (1 / 2)) in *.
  pose proof (atan_bound (1 / 2)) as B. fold t0 in B.
  assert (C : 0 < cos t0) by (apply cos_gt_0; lra).
  assert (T : sin t0 = 1 / 2 * cos t0).
  { assert (T : tan t0 = 1 / 2) by apply atan_right_inv. unfold tan in T. rewrite <- T. field. lra. }
  assert (H0 : m01 (scaled 4 e) * cos t0 - m00 (scaled 4 e) * sin t0 = 0).
  { rewrite Ev; simpl. rewrite T. lra. }
  destruct (ellipse_bounds_values 4 e 2 t0 ltac:(lia) E0 H0) as (x & yu & yl & E & L & _ & _ & V).
  change (Z.to_nat ((2 + 2 mod 2) / 2)) with 1%nat in *. cbv zeta in *.
  assert (G : on_level P 4 (nth 0 x 0, nth 0 yu 0)).
  { apply (H P 4 e 2%Z x yu yl); auto; try lra; try lia.
    - intros (p, q) Hp. exists (p * p + p * q + 2 * (q * q)). split; [|unfold on_level; simpl; ring].
      pose proof (Rle_0_sqr (p + q / 2)) as A1. pose proof (Rle_0_sqr q) as A2. unfold Rsqr in *.
      destruct (Req_dec q 0) as [->|Nq].
      + destruct (Req_dec p 0) as [->|Np]; [congruence|]. apply Rsqr_pos_lt in Np. unfold Rsqr in Np. lra.
      + apply Rsqr_pos_lt in Nq. unfold Rsqr in Nq. lra.
    - constructor; unfold P, e; simpl; try ring; rewrite ?Rmult_1_r; lra.
    - intros X. unfold e in X; simpl in X. lra. }
  destruct (V 0%nat ltac:(lia)) as (Vx & Vy & _). rewrite Vx, Vy in G.
  revert G. unfold on_level, rad, mid, wid, step, P. rewrite Ev. simpl.
  rewrite !Rmult_0_l, cos_0, sin_0, T.
  pose proof (sin2_cos2 t0) as SC. unfold Rsqr in SC. rewrite T in SC.
  intros G. assert (C2 : cos t0 * cos t0 = 4 / 5) by lra.
  match type of G with ?l = _ => replace l with (8 * (cos t0 * cos t0)) in G by field end.
  rewrite C2 in G. lra.
Qed.
Print Assumptions C81_unsymmetric_refuted.

(** With numpy 1.12 or later every call fails. *)
Theorem C81_recent_numpy_fails : forall P level e n,
  positive_definite P -> 0 < level -> eigen P e -> orthogonal_if_equal e -> (0 <= n)%Z ->
  ellipse_bounds false level e n = Err TypeError.
Proof.
  intros P level e n HP Hl He Ho Hn.
  destruct (start P level e HP Hl He Ho) as (t0 & E0 & _).
  unfold ellipse_bounds. rewrite E0.
  pose proof (Z.mod_pos_bound n 2 ltac:(lia)) as Hm.
  destruct (n + n mod 2 <? 0)%Z eqn:E; auto. apply Z.ltb_lt in E. lia.
Qed.
Print Assumptions C81_recent_numpy_fails.
