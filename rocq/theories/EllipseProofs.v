From Coq Require Import Reals List ZArith Lia Lra Psatz.
From Verif Require Import Prelude UtilModel EllipseModel EllipseSpec.
Import ListNotations.
Local Open Scope R_scope.

Section Ellipse.
Variables (P : mat2) (level : R) (e : eig).
Hypothesis (HP : positive_definite P) (Hl : 0 < level).
Hypothesis (He : eigen P e) (Ho : orthogonal_if_equal e).

Local Notation a := (m00 (eigvec e)).
Local Notation b := (m01 (eigvec e)).
Local Notation c := (m10 (eigvec e)).
Local Notation d := (m11 (eigvec e)).

Lemma eigval0_pos : 0 < eigval0 e.
Proof using HP He.
  destruct HP as (Hs & Hp). destruct He as [X0 Y0 X1 Y1 N0 N1].
  destruct (Hp (a, c)) as (l & Hl0 & E).
  - intros E. injection E as E1 E2. rewrite E1, E2 in N0. lra.
  - unfold on_level in E; simpl in E. rewrite X0, Y0 in E.
    replace (eigval0 e) with l; auto. rewrite <- E.
    replace (a * (eigval0 e * a) + c * (eigval0 e * c)) with (eigval0 e * (a ^ 2 + c ^ 2)) by ring.
    rewrite N0. ring.
Qed.

Lemma eigval1_pos : 0 < eigval1 e.
Proof using HP He.
  destruct HP as (Hs & Hp). destruct He as [X0 Y0 X1 Y1 N0 N1].
  destruct (Hp (b, d)) as (l & Hl0 & E).
  - intros E. injection E as E1 E2. rewrite E1, E2 in N1. lra.
  - unfold on_level in E; simpl in E. rewrite X1, Y1 in E.
    replace (eigval1 e) with l; auto. rewrite <- E.
    replace (b * (eigval1 e * b) + d * (eigval1 e * d)) with (eigval1 e * (b ^ 2 + d ^ 2)) by ring.
    rewrite N1. ring.
Qed.

Lemma orthogonal : a * b + c * d = 0.
Proof using HP He Ho.
  destruct (Req_dec (eigval0 e) (eigval1 e)) as [E|NE]; [now apply Ho|].
  destruct HP as (Hs & _). destruct He as [X0 Y0 X1 Y1 N0 N1].
  assert (E : (eigval0 e - eigval1 e) * (a * b + c * d) = 0).
  { replace ((eigval0 e - eigval1 e) * (a * b + c * d)) with
      ((eigval0 e * a) * b + (eigval0 e * c) * d - (a * (eigval1 e * b) + c * (eigval1 e * d))) by ring.
    rewrite <- X0, <- Y0, <- X1, <- Y1, Hs. ring. }
  apply Rmult_integral in E as [E|E]; [lra|auto].
Qed.

Lemma det_square : det2 (eigvec e) ^ 2 = 1.
Proof using HP He Ho.
  pose proof orthogonal as O. destruct He as [_ _ _ _ N0 N1]. unfold det2.
  replace ((a * d - b * c) ^ 2) with ((a ^ 2 + c ^ 2) * (b ^ 2 + d ^ 2) - (a * b + c * d) ^ 2) by ring.
  rewrite N0, N1, O. ring.
Qed.

Local Notation v := (scaled level e).
Local Notation s0 := (sqrt (level / eigval0 e)).
Local Notation s1 := (sqrt (level / eigval1 e)).

Lemma s0_pos : 0 < s0.
Proof using HP He Hl. apply sqrt_lt_R0, Rdiv_lt_0_compat; auto using eigval0_pos. Qed.
Lemma s1_pos : 0 < s1.
Proof using HP He Hl. apply sqrt_lt_R0, Rdiv_lt_0_compat; auto using eigval1_pos. Qed.

Lemma det_scaled : det2 v = det2 (eigvec e) * (s0 * s1).
Proof. unfold det2, scaled; simpl. ring. Qed.
Lemma det_scaled_nonzero : det2 v <> 0.
Proof using HP He Hl Ho.
  rewrite det_scaled. pose proof s0_pos. pose proof s1_pos. pose proof det_square as D.
  apply Rmult_integral_contrapositive. split.
  - intros E. rewrite E in D. lra.
  - apply Rmult_integral_contrapositive. lra.
Qed.

(** The quadratic form in the coordinates given by the scaled eigenvectors. *)
Lemma form (p q : R) :
  let x := p * m00 v + q * m01 v in
  let y := p * m10 v + q * m11 v in
  x * (m00 P * x + m01 P * y) + y * (m10 P * x + m11 P * y) = level * (p ^ 2 + q ^ 2).
Proof using HP He Hl Ho.
  pose proof orthogonal as O. pose proof eigval0_pos as P0. pose proof eigval1_pos as P1.
  assert (Q0 : s0 * s0 * eigval0 e = level).
  { rewrite sqrt_sqrt; [field; lra|]. apply Rlt_le, Rdiv_lt_0_compat; auto. }
  assert (Q1 : s1 * s1 * eigval1 e = level).
  { rewrite sqrt_sqrt; [field; lra|]. apply Rlt_le, Rdiv_lt_0_compat; auto. }
  cbv zeta. unfold scaled. cbn [m00 m01 m10 m11].
  destruct He as [X0 Y0 X1 Y1 N0 N1].
  set (r0 := s0) in *. set (r1 := s1) in *.
  replace (m00 P * (p * (a * r0) + q * (b * r1)) + m01 P * (p * (c * r0) + q * (d * r1)))
    with (p * r0 * (m00 P * a + m01 P * c) + q * r1 * (m00 P * b + m01 P * d)) by ring.
  replace (m10 P * (p * (a * r0) + q * (b * r1)) + m11 P * (p * (c * r0) + q * (d * r1)))
    with (p * r0 * (m10 P * a + m11 P * c) + q * r1 * (m10 P * b + m11 P * d)) by ring.
  rewrite X0, Y0, X1, Y1.
  replace ((p * (a * r0) + q * (b * r1)) * (p * r0 * (eigval0 e * a) + q * r1 * (eigval1 e * b)) +
    (p * (c * r0) + q * (d * r1)) * (p * r0 * (eigval0 e * c) + q * r1 * (eigval1 e * d)))
    with (p ^ 2 * (r0 * r0 * eigval0 e) * (a ^ 2 + c ^ 2) + q ^ 2 * (r1 * r1 * eigval1 e) * (b ^ 2 + d ^ 2)
      + p * q * r0 * r1 * (eigval0 e + eigval1 e) * (a * b + c * d)) by ring.
  rewrite Q0, Q1, N0, N1, O. ring.
Qed.

(** The angle of the first position and what it achieves. *)
Lemma start : exists t0, arctan_quotient (m01 v) (m00 v) = Some t0 /\
  m01 v * cos t0 - m00 v * sin t0 = 0 /\
  (if Rlt_dec a 0 then m00 v * cos t0 + m01 v * sin t0 < 0
   else 0 < m00 v * cos t0 + m01 v * sin t0).
Proof using HP He Hl Ho.
  pose proof s0_pos as S0. pose proof s1_pos as S1. pose proof det_scaled_nonzero as D.
  unfold arctan_quotient. destruct (Req_EM_T (m00 v) 0) as [E|NE].
  - assert (Ea : a = 0).
    { unfold scaled in E; simpl in E. apply Rmult_integral in E as [|]; [auto|lra]. }
    assert (B : m01 v <> 0) by (intros B; apply D; unfold det2; rewrite E, B; ring).
    destruct (Rlt_dec 0 (m01 v)); [|destruct (Rlt_dec (m01 v) 0); [|lra]].
    + exists (PI / 2). rewrite cos_PI2, sin_PI2, E. repeat split; [ring|].
      destruct Rlt_dec; lra.
    + exists (- (PI / 2)). rewrite cos_neg, sin_neg, cos_PI2, sin_PI2, E. repeat split; [ring|].
      destruct Rlt_dec; lra.
  - exists (atan (m01 v / m00 v)). split; auto.
    set (t0 := atan (m01 v / m00 v)). pose proof (atan_bound (m01 v / m00 v)) as B. fold t0 in B.
    assert (C : 0 < cos t0) by (apply cos_gt_0; lra).
    assert (T : sin t0 = m01 v / m00 v * cos t0).
    { assert (T : tan t0 = m01 v / m00 v) by apply atan_right_inv.
      unfold tan in T. rewrite <- T. field. lra. }
    rewrite T. split; [field; auto|].
    replace (m00 v * cos t0 + m01 v * (m01 v / m00 v * cos t0)) with
      ((m00 v * m00 v + m01 v * m01 v) * cos t0 * / m00 v) by (field; auto).
    assert (Q : 0 < (m00 v * m00 v + m01 v * m01 v) * cos t0).
    { apply Rmult_lt_0_compat; auto. pose proof (Rle_0_sqr (m01 v)). unfold Rsqr in *.
      assert (0 < m00 v * m00 v) by (apply Rsqr_pos_lt in NE; exact NE). lra. }
    assert (Hsgn : m00 v = a * s0) by reflexivity.
    destruct Rlt_dec as [Na|Na].
    + assert (m00 v < 0).
      { rewrite Hsgn. replace 0 with (0 * s0) by ring. apply Rmult_lt_compat_r; auto. }
      replace 0 with ((m00 v * m00 v + m01 v * m01 v) * cos t0 * 0) by ring.
      apply Rmult_lt_compat_l; auto. now apply Rinv_lt_0_compat.
    + assert (0 < m00 v).
      { assert (0 <= a * s0) by (apply Rmult_le_pos; lra). rewrite Hsgn in *. lra. }
      apply Rmult_lt_0_compat; auto. now apply Rinv_0_lt_compat.
Qed.

Section Start.
Variable t0 : R.
Hypothesis H0 : m01 v * cos t0 - m00 v * sin t0 = 0.
Definition rad := m00 v * cos t0 + m01 v * sin t0.
Definition mid := m10 v * cos t0 + m11 v * sin t0.
Definition wid := m11 v * cos t0 - m10 v * sin t0.

Lemma pos_x t : cos (t + t0) * m00 v + sin (t + t0) * m01 v = rad * cos t.
Proof using H0.
  rewrite cos_plus, sin_plus. unfold rad.
  replace ((cos t * cos t0 - sin t * sin t0) * m00 v + (sin t * cos t0 + cos t * sin t0) * m01 v)
    with ((m00 v * cos t0 + m01 v * sin t0) * cos t + sin t * (m01 v * cos t0 - m00 v * sin t0)) by ring.
  rewrite H0. ring.
Qed.
Lemma pos_y t : cos (t + t0) * m10 v + sin (t + t0) * m11 v = mid * cos t + wid * sin t.
Proof. rewrite cos_plus, sin_plus. unfold mid, wid. ring. Qed.

Lemma rad_wid : rad * wid = det2 v.
Proof using H0.
  unfold rad, wid, det2. pose proof (sin2_cos2 t0) as E. unfold Rsqr in E.
  replace ((m00 v * cos t0 + m01 v * sin t0) * (m11 v * cos t0 - m10 v * sin t0)) with
    ((m00 v * m11 v - m01 v * m10 v) * (sin t0 * sin t0 + cos t0 * cos t0)
     + (m10 v * cos t0 + m11 v * sin t0) * (m01 v * cos t0 - m00 v * sin t0)) by ring.
  rewrite E, H0. ring.
Qed.
Lemma rad_square : rad ^ 2 = m00 v ^ 2 + m01 v ^ 2.
Proof using H0.
  unfold rad. pose proof (sin2_cos2 t0) as E. unfold Rsqr in E.
  replace ((m00 v * cos t0 + m01 v * sin t0) ^ 2) with
    ((m00 v ^ 2 + m01 v ^ 2) * (sin t0 * sin t0 + cos t0 * cos t0)
     - (m01 v * cos t0 - m00 v * sin t0) ^ 2) by ring.
  rewrite E, H0. ring.
Qed.

Lemma on_level_pos t : on_level P level (rad * cos t, mid * cos t + wid * sin t).
Proof using HP He Hl Ho H0.
  unfold on_level. cbn [fst snd]. rewrite <- pos_x, <- pos_y.
  pose proof (form (cos (t + t0)) (sin (t + t0))) as F. cbv zeta in F. rewrite F.
  pose proof (sin2_cos2 (t + t0)) as E. unfold Rsqr in E. simpl.
  replace (cos (t + t0) * (cos (t + t0) * 1) + sin (t + t0) * (sin (t + t0) * 1)) with 1 by lra. ring.
Qed.

(** No point of the level set is further to the left or right. *)
Lemma extreme p : on_level P level p -> fst p ^ 2 <= rad ^ 2.
Proof using HP He Hl Ho H0.
  intros Hp. pose proof det_scaled_nonzero as D. rewrite rad_square.
  set (al := (fst p * m11 v - snd p * m01 v) / det2 v).
  set (be := (snd p * m00 v - fst p * m10 v) / det2 v).
  assert (Ex : al * m00 v + be * m01 v = fst p) by (unfold al, be, det2 in *; field; exact D).
  assert (Ey : al * m10 v + be * m11 v = snd p) by (unfold al, be, det2 in *; field; exact D).
  pose proof (form al be) as F. cbv zeta in F. rewrite Ex, Ey in F.
  unfold on_level in Hp. rewrite Hp in F.
  assert (N : al ^ 2 + be ^ 2 = 1).
  { apply Rmult_eq_reg_l with level; lra. }
  rewrite <- Ex. assert (0 <= (al * m01 v - be * m00 v) ^ 2) by apply pow2_ge_0.
  replace (m00 v ^ 2 + m01 v ^ 2) with ((al ^ 2 + be ^ 2) * (m00 v ^ 2 + m01 v ^ 2)) by (rewrite N; ring).
  replace ((al ^ 2 + be ^ 2) * (m00 v ^ 2 + m01 v ^ 2)) with
    ((al * m00 v + be * m01 v) ^ 2 + (al * m01 v - be * m00 v) ^ 2) by ring. lra.
Qed.
End Start.
End Ellipse.

(** The lists that are returned. *)
Definition step (h i : nat) : R := INR i * (2 * PI / INR (2 * h - 1)).

Lemma step_mirror h i : (i < h)%nat -> step h (2 * h - 1 - i) = 2 * PI - step h i.
Proof.
  intros H. unfold step. rewrite minus_INR by lia.
  assert (INR (2 * h - 1) <> 0) by (apply not_0_INR; lia). field. auto.
Qed.
Lemma step_range h i : (i < h)%nat -> 0 <= step h i < PI.
Proof.
  intros H. unfold step. pose proof PI_RGT_0.
  assert (Hp : 0 < INR (2 * h - 1)) by (apply lt_0_INR; lia).
  assert (Hi : 0 <= INR i) by apply pos_INR.
  assert (0 < / INR (2 * h - 1)) by now apply Rinv_0_lt_compat.
  split.
  - apply Rmult_le_pos; auto. unfold Rdiv. apply Rmult_le_pos; lra.
  - apply Rmult_lt_reg_r with (INR (2 * h - 1)); auto.
    replace (INR i * (2 * PI / INR (2 * h - 1)) * INR (2 * h - 1)) with (PI * (2 * INR i)) by (field; lra).
    apply Rmult_lt_compat_l; auto. rewrite <- (mult_INR 2). apply lt_INR. lia.
Qed.
Lemma step_lt h i j : (i < j)%nat -> (j < h)%nat -> step h i < step h j.
Proof.
  intros H1 H2. unfold step. apply Rmult_lt_compat_r; [|now apply lt_INR].
  pose proof PI_RGT_0. apply Rdiv_lt_0_compat; [lra|]. apply lt_0_INR. lia.
Qed.

Lemma nth_map_seq {A} (f : nat -> A) n i (x : A) : (i < n)%nat -> nth i (map f (seq 0 n)) x = f i.
Proof.
  intros H. rewrite nth_indep with (d' := f 0%nat) by (rewrite map_length, seq_length; lia).
  rewrite map_nth, seq_nth by auto. reflexivity.
Qed.

Lemma ellipse_bounds_values level e n t0 : (0 <= n)%Z ->
  arctan_quotient (m01 (scaled level e)) (m00 (scaled level e)) = Some t0 ->
  m01 (scaled level e) * cos t0 - m00 (scaled level e) * sin t0 = 0 ->
  let h := Z.to_nat ((n + n mod 2) / 2) in
  exists x yu yl, ellipse_bounds true level e n = Ok (x, yu, yl) /\
    length x = h /\ length yu = h /\ length yl = h /\
    forall i, (i < h)%nat ->
      nth i x 0 = rad level e t0 * cos (step h i) /\
      nth i yu 0 = mid level e t0 * cos (step h i) + wid level e t0 * sin (step h i) /\
      nth i yl 0 = mid level e t0 * cos (step h i) - wid level e t0 * sin (step h i).
Proof.
  intros Hn E0 H0 h. unfold ellipse_bounds. rewrite E0. cbv zeta.
  pose proof (Z.mod_pos_bound n 2 ltac:(lia)) as Hm.
  destruct (n + n mod 2 <? 0)%Z eqn:E; [apply Z.ltb_lt in E; lia|].
  fold h.
  assert (E2 : Z.to_nat (n + n mod 2) = (2 * h)%nat).
  { unfold h. assert (A : ((n + n mod 2) mod 2 = 0)%Z).
    { rewrite Z.add_mod, Z.mod_mod by lia.
      assert (n mod 2 = 0 \/ n mod 2 = 1)%Z as [->| ->] by lia; reflexivity. }
    pose proof (Z.div_mod (n + n mod 2) 2 ltac:(lia)).
    assert (0 <= (n + n mod 2) / 2)%Z by (apply Z.div_pos; lia). lia. }
  rewrite E2.
  set (f := fun k => (rad level e t0 * cos (step h k),
                      mid level e t0 * cos (step h k) + wid level e t0 * sin (step h k))).
  assert (EP : positions (scaled level e) (map (fun t => t + t0) (angles (2 * h)))
               = map f (seq 0 (2 * h))).
  { unfold positions, angles. rewrite !map_map. apply map_ext. intros k. unfold f.
    rewrite pos_x, pos_y by auto. reflexivity. }
  rewrite EP.
  assert (EF : firstn h (map f (seq 0 (2 * h))) = map f (seq 0 h)).
  { rewrite firstn_map. f_equal. replace (2 * h)%nat with (h + h)%nat by lia.
    rewrite seq_app, firstn_app, seq_length, Nat.sub_diag, firstn_O, app_nil_r.
    apply firstn_all2. rewrite seq_length. lia. }
  assert (ES : skipn h (map f (seq 0 (2 * h))) = map f (seq h h)).
  { rewrite skipn_map. f_equal. replace (2 * h)%nat with (h + h)%nat by lia.
    rewrite seq_app, skipn_app, seq_length, Nat.sub_diag, skipn_O.
    rewrite skipn_all2; [reflexivity|]. rewrite seq_length. lia. }
  rewrite EF, ES.
  eexists _, _, _. split; [reflexivity|].
  rewrite !map_length, rev_length, map_length, !seq_length. repeat split; auto.
  - rewrite map_map. rewrite (nth_map_seq (fun k => fst (f k))) by auto. reflexivity.
  - rewrite map_map. rewrite (nth_map_seq (fun k => snd (f k))) by auto. reflexivity.
  - rewrite map_rev, map_map, rev_nth by (rewrite map_length, seq_length; auto).
    rewrite map_length, seq_length.
    rewrite nth_indep with (d' := (fun k => snd (f k)) 0%nat) by (rewrite map_length, seq_length; lia).
    rewrite (map_nth (fun k => snd (f k))), seq_nth by lia.
    replace (h + (h - Datatypes.S i))%nat with (2 * h - 1 - i)%nat by lia.
    unfold f; cbn [snd]. rewrite step_mirror by auto.
    assert (C : cos (2 * PI - step h i) = cos (step h i)).
    { rewrite cos_minus, cos_2PI, sin_2PI. ring. }
    assert (Sn : sin (2 * PI - step h i) = - sin (step h i)).
    { rewrite sin_minus, cos_2PI, sin_2PI. ring. }
    rewrite C, Sn. ring.
Qed.
