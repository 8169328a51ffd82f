(** Rounding error bounds for one axis of the grid. *)
From Coq Require Import List ZArith Reals Bool Lra Lia Psatz.
From Flocq Require Import Core Relative.
From Verif Require Import Prelude ListFacts NumModel NumProofs GridModel TriModel F64Model F64Spec.
Import ListNotations.
Local Open Scope R_scope.

#[local] Instance p53 : Prec_gt_0 53 := eq_refl.

Lemma rnd_err : forall x, Rabs (rnd x - x) <= / 9007199254740992 * Rabs x + bpow radix2 (-1075).
Proof.
  intros x. unfold rnd.
  destruct (error_N_FLT radix2 (-1074) 53 eq_refl (fun z => negb (Z.even z)) x) as (e & eta & He & Ht & _ & E).
  rewrite E.
  replace (x * (1 + e) + eta - x) with (x * e + eta) by ring.
  eapply Rle_trans; [ apply Rabs_triang | ]. rewrite Rabs_mult.
  apply Rplus_le_compat.
  - rewrite Rmult_comm. apply Rmult_le_compat_r; [ apply Rabs_pos | ].
    eapply Rle_trans; [ exact He | ]. simpl. lra.
  - eapply Rle_trans; [ exact Ht | ]. 
    replace (-1075)%Z with (-1 + -1074)%Z by reflexivity.
    rewrite bpow_plus. apply Rle_refl.
Qed.

Lemma bpow_neg_small : forall n, (n <= -500)%Z -> bpow radix2 n <= / 2 ^ 500.
Proof.
  intros n Hn. eapply Rle_trans; [ apply bpow_le; exact Hn | ].
  right. change (-500)%Z with (Z.opp 500). rewrite bpow_opp. f_equal.
  rewrite bpow_powerRZ. reflexivity.
Qed.

Lemma rnd_abs : forall x B, / 2 ^ 401 <= B -> Rabs x <= B ->
  Rabs (rnd x - x) <= / 4503599627370496 * B.
Proof.
  intros x B HB Hx. pose proof (rnd_err x) as E.
  pose proof (bpow_neg_small (-1075) ltac:(lia)) as S.
  assert (P : / 2 ^ 500 <= / 9007199254740992 * / 2 ^ 401).
  { rewrite <- Rinv_mult_distr; [ | lra | apply pow_nonzero; lra ].
    apply Rinv_le_contravar; [ apply Rmult_lt_0_compat; [ lra | apply pow_lt; lra ] | ].
    replace (2 ^ 500) with (2 ^ 99 * 2 ^ 401) by (rewrite <- pow_add; reflexivity).
    apply Rmult_le_compat_r; [ apply pow_le; lra | ]. lra. }
  lra.
Qed.

Lemma rnd_format : forall x, is_f64 (rnd x).
Proof. intros. unfold is_f64, rnd. apply generic_format_round; typeclasses eauto. Qed.
Lemma rnd_id : forall x, is_f64 x -> rnd x = x.
Proof. intros. apply round_generic; [ typeclasses eauto | assumption ]. Qed.
Lemma rnd_0 : rnd 0 = 0.
Proof. apply round_0. typeclasses eauto. Qed.
Lemma rnd_le : forall x y, x <= y -> rnd x <= rnd y.
Proof. intros. apply round_le; try typeclasses eauto; assumption. Qed.

Definition gap (l : R * R) (n : Z) : R := (snd l - fst l) / IZR (n - 1).

Section Axis.
Variables (l : R * R) (n : Z).
Hypothesis Hr : resolved l n.
Let D := gap l n.
Let N := IZR (n - 1).
Let W := snd l - fst l.
Let U := f_unit l n.

Lemma ax_N : 1 <= N.
Proof. unfold N. apply IZR_le. destruct Hr as (H & _). lia. Qed.
Lemma ax_W : W = N * D.
Proof. unfold W, D, gap, N. pose proof ax_N as HN. unfold N in HN. field. lra. Qed.
Lemma ax_Dsmall : / 2 ^ 40 <= D.
Proof. destruct Hr as (_ & _ & _ & H & _). apply H. Qed.
Lemma ax_D : 0 < D.
Proof. eapply Rlt_le_trans; [ | apply ax_Dsmall ]. lra. Qed.
Lemma ax_Dlow : / 2 ^ 401 <= / 4 * D.
Proof.
  eapply Rle_trans with (/ 2 ^ 42).
  - apply Rinv_le_contravar; [ apply pow_lt; lra | ]. apply Rle_pow; [ lra | lia ].
  - pose proof ax_Dsmall. lra.
Qed.
Lemma ax_l : Rabs (fst l) <= 1099511627776 * D.
Proof. destruct Hr as (_ & _ & _ & _ & H & _). change (Rabs (fst l) <= 2 ^ 40 * D) in H. lra. Qed.
Lemma ax_u : Rabs (snd l) <= 1099511627776 * D.
Proof. destruct Hr as (_ & _ & _ & _ & _ & H). change (Rabs (snd l) <= 2 ^ 40 * D) in H. lra. Qed.
Lemma ax_Wle : 0 < W <= 2199023255552 * D.
Proof.
  split. { rewrite ax_W. apply Rmult_lt_0_compat; [ pose proof ax_N; lra | apply ax_D ]. }
  pose proof ax_l as A. pose proof ax_u as B. unfold W. 
  apply Rabs_le_inv in A. apply Rabs_le_inv in B. lra.
Qed.
Lemma ax_DW : D <= W.
Proof. rewrite ax_W. pose proof ax_N. pose proof ax_D. nra. Qed.

Lemma ax_unit : Rabs (U - D) <= 6 * / 4503599627370496 * D.
Proof.
  pose proof ax_Dlow as L. pose proof ax_D as Dp. pose proof ax_DW as DW. pose proof ax_N as HN.
  assert (A : Rabs (rnd W - W) <= / 4503599627370496 * W).
  { apply rnd_abs; [ lra | ]. right. apply Rabs_pos_eq. lra. }
  assert (B : Rabs (rnd W / N - D) <= / 4503599627370496 * D).
  { replace (rnd W / N - D) with ((rnd W - W) / N) by (rewrite ax_W; field; lra).
    unfold Rdiv. rewrite Rabs_mult, (Rabs_pos_eq (/ N)) by (left; apply Rinv_0_lt_compat; lra).
    apply Rmult_le_reg_r with N; [ lra | ].
    rewrite Rmult_assoc, Rinv_l, Rmult_1_r by lra. eapply Rle_trans; [ exact A | ].
    rewrite ax_W. lra. }
  assert (C : Rabs (U - rnd W / N) <= / 4503599627370496 * (2 * D)).
  { unfold U, f_unit. fold W N. apply rnd_abs; [ lra | ].
    apply Rabs_le_inv in B. apply Rabs_le. lra. }
  apply Rabs_le_inv in B. apply Rabs_le_inv in C. apply Rabs_le. lra.
Qed.
Lemma ax_Upos : 999 / 1000 * D <= U <= 1001 / 1000 * D.
Proof. pose proof ax_unit as H. pose proof ax_D. apply Rabs_le_inv in H. lra. Qed.

Definition ax_pt (k : Z) : R := rnd (rnd (IZR k * f_unit l n) + fst l).

Lemma ax_pt_err : forall k, (0 <= k <= n - 1)%Z ->
  Rabs (ax_pt k - (fst l + IZR k * D)) <= / 128 * D.
Proof.
  intros k Hk. unfold ax_pt. fold U.
  assert (K : 0 <= IZR k <= N) by (unfold N; split; apply IZR_le; lia).
  pose proof ax_Dlow as L. pose proof ax_D as Dp. pose proof ax_Wle as WL. pose proof ax_unit as HU.
  pose proof ax_l as HL. rewrite ax_W in WL.
  assert (KD : 0 <= IZR k * D <= 2199023255552 * D) by (split; nra).
  assert (A : Rabs (IZR k * U - IZR k * D) <= 2199023255552 * (6 * / 4503599627370496 * D)).
  { rewrite <- Rmult_minus_distr_l, Rabs_mult, (Rabs_pos_eq (IZR k)) by lra.
    apply Rle_trans with (IZR k * (6 * / 4503599627370496 * D)).
    - apply Rmult_le_compat_l; [ lra | exact HU ].
    - lra. }
  apply Rabs_le_inv in A. apply Rabs_le_inv in HL.
  assert (B : Rabs (rnd (IZR k * U) - IZR k * U) <= / 4503599627370496 * (2 * 2199023255552 * D)).
  { apply rnd_abs; [ lra | ]. apply Rabs_le. lra. }
  apply Rabs_le_inv in B.
  assert (C : Rabs (rnd (rnd (IZR k * U) + fst l) - (rnd (IZR k * U) + fst l))
              <= / 4503599627370496 * (4 * 2199023255552 * D)).
  { apply rnd_abs; [ lra | ]. apply Rabs_le. lra. }
  apply Rabs_le_inv in C. apply Rabs_le. lra.
Qed.

Definition ax_scaled (x : R) : R :=
  rnd (rnd (clipR x (fst l) (snd l) - fst l) * rnd (1 / f_unit l n)).

Lemma ax_clip : forall x, fst l <= clipR x (fst l) (snd l) <= snd l.
Proof.
  intros x. pose proof ax_Wle as H. unfold W in H. unfold clipR, Rmin, Rmax.
  repeat destruct Rle_dec; lra.
Qed.

Lemma ax_scaled_err : forall x,
  Rabs (ax_scaled x - (clipR x (fst l) (snd l) - fst l) / D) <= / 64.
Proof.
  intros x. unfold ax_scaled. fold U. pose proof (ax_clip x) as Hc.
  set (c := clipR x (fst l) (snd l)) in *.
  pose proof ax_Dlow as L. pose proof ax_D as Dp. pose proof ax_Wle as WL. pose proof ax_unit as HU.
  pose proof ax_Upos as UP. pose proof ax_DW as DW.
  assert (CW : 0 <= c - fst l <= W) by (unfold W; lra).
  assert (A : Rabs (rnd (c - fst l) - (c - fst l)) <= / 4503599627370496 * W).
  { apply rnd_abs; [ lra | ]. rewrite Rabs_pos_eq; lra. }
  set (a := rnd (c - fst l)) in *.
  assert (ID : 0 < / D) by (apply Rinv_0_lt_compat; lra).
  assert (B : Rabs (1 / U - / D) <= 7 * / 4503599627370496 * / D).
  { replace (1 / U - / D) with ((D - U) * (/ U * / D)) by (field; lra).
    rewrite Rabs_mult, Rabs_minus_sym.
    assert (IU : 0 < / U <= 1002 / 1000 * / D).
    { split; [ apply Rinv_0_lt_compat; lra | ].
      apply Rmult_le_reg_r with U; [ lra | ]. rewrite Rinv_l by lra.
      apply Rle_trans with (1002 / 1000 * / D * (999 / 1000 * D)).
      - replace (1002 / 1000 * / D * (999 / 1000 * D)) with (1002 / 1000 * (999/1000)) by (field; lra). lra.
      - apply Rmult_le_compat_l; [ lra | apply UP ]. }
    rewrite (Rabs_pos_eq (/ U * / D)) by (apply Rmult_le_pos; lra).
    apply Rle_trans with ((6 * / 4503599627370496 * D) * (1002 / 1000 * / D * / D)).
    - apply Rmult_le_compat; [ apply Rabs_pos | apply Rmult_le_pos; lra | exact HU | ].
      apply Rmult_le_compat_r; lra.
    - replace (6 * / 4503599627370496 * D * (1002 / 1000 * / D * / D))
        with (6 * / 4503599627370496 * (1002 / 1000) * / D) by (field; lra).
      apply Rmult_le_compat_r; lra. }
  assert (IDlow : / 2 ^ 401 <= 2 * / D).
  { assert (/ 2 ^ 400 <= / D).
    { apply Rinv_le_contravar; [ lra | ]. destruct Hr as (_ & _ & _ & H & _). apply H. }
    assert (/ 2 ^ 401 <= / 2 ^ 400).
    { apply Rinv_le_contravar; [ apply pow_lt; lra | apply Rle_pow; [ lra | lia ] ]. }
    lra. }
  assert (C : Rabs (rnd (1 / U) - 1 / U) <= / 4503599627370496 * (2 * / D)).
  { apply rnd_abs; [ exact IDlow | ]. apply Rabs_le_inv in B. apply Rabs_le. lra. }
  set (b := rnd (1 / U)) in *.
  assert (BB : Rabs (b - / D) <= 9 * / 4503599627370496 * / D).
  { apply Rabs_le_inv in B. apply Rabs_le_inv in C. apply Rabs_le. lra. }
  (* scale by D *)
  set (q := (c - fst l) / D). set (a' := a / D). set (b' := b * D).
  assert (EP : a * b = a' * b') by (unfold a', b'; field; lra).
  assert (Q : 0 <= q <= 2199023255552).
  { unfold q. split; [ apply Rmult_le_pos; lra | ]. apply Rmult_le_reg_r with D; [ lra | ].
    unfold Rdiv. rewrite Rmult_assoc, Rinv_l by lra. lra. }
  assert (A' : Rabs (a' - q) <= / 4503599627370496 * 2199023255552).
  { unfold a', q. replace (a / D - (c - fst l) / D) with ((a - (c - fst l)) * / D) by (field; lra).
    rewrite Rabs_mult, (Rabs_pos_eq (/ D)) by lra.
    apply Rmult_le_reg_r with D; [ lra | ]. rewrite Rmult_assoc, Rinv_l by lra. lra. }
  assert (B' : Rabs (b' - 1) <= 9 * / 4503599627370496).
  { unfold b'. replace (b * D - 1) with ((b - / D) * D) by (field; lra).
    rewrite Rabs_mult, (Rabs_pos_eq D) by lra.
    apply Rmult_le_reg_r with (/ D); [ lra | ]. rewrite Rmult_assoc, Rinv_r by lra. lra. }
  rewrite EP.
  assert (PE : Rabs (a' * b' - q) <= / 100).
  { replace (a' * b' - q) with ((a' - q) * b' + q * (b' - 1)) by ring.
    eapply Rle_trans; [ apply Rabs_triang | ]. rewrite !Rabs_mult.
    assert (b2 : Rabs b' <= 2) by (apply Rabs_le_inv in B'; apply Rabs_le; lra).
    rewrite (Rabs_pos_eq q) by lra.
    assert (Rabs (a' - q) * Rabs b' <= / 4503599627370496 * 2199023255552 * 2)
      by (apply Rmult_le_compat; try apply Rabs_pos; assumption).
    assert (q * Rabs (b' - 1) <= 2199023255552 * (9 * / 4503599627370496))
      by (apply Rmult_le_compat; try apply Rabs_pos; lra).
    lra. }
  assert (R : Rabs (rnd (a' * b') - a' * b') <= / 4503599627370496 * 4398046511104).
  { apply rnd_abs.
    - apply Rle_trans with (/ 1); [ apply Rinv_le_contravar; [ lra | apply pow_R1_Rle; lra ] | lra ].
    - apply Rabs_le_inv in PE. apply Rabs_le. lra. }
  apply Rabs_le_inv in PE. apply Rabs_le_inv in R. apply Rabs_le. lra.
Qed.

Lemma ax_index : forall x, let k := rint (ax_scaled x) in
  (0 <= k <= n - 1)%Z /\
  Rabs (clipR x (fst l) (snd l) - (fst l + IZR k * D)) <= (1 / 2 + / 64) * D.
Proof.
  intros x k. pose proof (ax_scaled_err x) as E. pose proof (rint_half (ax_scaled x)) as H.
  fold k in H. pose proof (ax_clip x) as Hc. set (c := clipR x (fst l) (snd l)) in *.
  pose proof ax_D as Dp. set (q := (c - fst l) / D) in *.
  assert (EQ : c = fst l + q * D) by (unfold q; field; lra).
  assert (Q : 0 <= q <= N).
  { unfold q. split; [ apply Rmult_le_pos; [ lra | left; apply Rinv_0_lt_compat; lra ] | ].
    apply Rmult_le_reg_r with D; [ lra | ]. unfold Rdiv. rewrite Rmult_assoc, Rinv_l by lra.
    rewrite <- ax_W. unfold W. lra. }
  apply Rabs_le_inv in E. apply Rabs_le_inv in H.
  assert (K : IZR k - (1/2 + / 64) <= q <= IZR k + (1 / 2 + / 64)) by lra.
  split.
  - split.
    + assert (-1 < k)%Z; [ | lia ]. apply lt_IZR. lra.
    + assert (k < n)%Z; [ | lia ]. apply lt_IZR.
      replace n with ((n - 1) + 1)%Z by ring. rewrite plus_IZR. fold N. lra.
  - rewrite EQ. apply Rabs_le. nra.
Qed.

Lemma ax_clip_pt : forall k, (0 <= k <= n - 1)%Z ->
  Rabs (clipR (ax_pt k) (fst l) (snd l) - (fst l + IZR k * D)) <= / 128 * D.
Proof.
  intros k Hk. pose proof (ax_pt_err k Hk) as E. pose proof ax_D as Dp.
  assert (K : 0 <= IZR k <= N) by (unfold N; split; apply IZR_le; lia).
  assert (KW : 0 <= IZR k * D <= snd l - fst l).
  { change (snd l - fst l) with W. rewrite ax_W. split; nra. }
  apply Rabs_le_inv in E. apply Rabs_le. unfold clipR, Rmin, Rmax. repeat destruct Rle_dec; lra.
Qed.

Lemma ax_round_near : forall x k,
  Rabs (clipR x (fst l) (snd l) - (fst l + IZR k * D)) <= / 128 * D -> rint (ax_scaled x) = k.
Proof.
  intros x k C. apply rint_eq.
  pose proof (ax_scaled_err x) as E. pose proof ax_D as Dp.
  set (c := clipR x (fst l) (snd l)) in *.
  assert (Q : Rabs ((c - fst l) / D - IZR k) <= / 128).
  { replace ((c - fst l) / D - IZR k) with ((c - (fst l + IZR k * D)) * / D) by (field; lra).
    rewrite Rabs_mult, (Rabs_pos_eq (/ D)) by (left; apply Rinv_0_lt_compat; lra).
    apply Rmult_le_reg_r with D; [ lra | ]. rewrite Rmult_assoc, Rinv_l by lra. lra. }
  apply Rabs_le_inv in E. apply Rabs_le_inv in Q. apply Rabs_def1; lra.
Qed.
Lemma ax_roundtrip : forall k, (0 <= k <= n - 1)%Z -> rint (ax_scaled (ax_pt k)) = k.
Proof. intros k Hk. apply ax_round_near, ax_clip_pt, Hk. Qed.
Lemma ax_round_upper : rint (ax_scaled (snd l)) = (n - 1)%Z.
Proof.
  apply ax_round_near. pose proof ax_Wle as W0. unfold W in W0. rewrite clipR_id by lra.
  fold N. rewrite <- ax_W. unfold W. replace (snd l - (fst l + (snd l - fst l))) with 0 by ring.
  rewrite Rabs_R0. pose proof ax_D. lra.
Qed.

Definition ax_disc (k : nat) : R := if (Z.of_nat k =? n - 1)%Z then snd l else ax_pt (Z.of_nat k).

Lemma ax_disc_err : forall k, (k < Z.to_nat n)%nat ->
  Rabs (ax_disc k - (fst l + IZR (Z.of_nat k) * D)) <= / 128 * D.
Proof.
  intros k Hk. unfold ax_disc. destruct (Z.eqb_spec (Z.of_nat k) (n - 1)) as [E | E].
  - rewrite E. fold N. pose proof ax_W as HW. unfold W in HW.
    replace (snd l - (fst l + N * D)) with 0 by lra. rewrite Rabs_R0. pose proof ax_D. lra.
  - apply ax_pt_err. lia.
Qed.

Lemma ax_disc_incr : forall j k, (j < k)%nat -> (k < Z.to_nat n)%nat -> ax_disc j < ax_disc k.
Proof.
  intros j k H Hk. pose proof (ax_disc_err j ltac:(lia)) as A. pose proof (ax_disc_err k Hk) as B.
  pose proof ax_D. apply Rabs_le_inv in A. apply Rabs_le_inv in B.
  assert (IZR (Z.of_nat j) + 1 <= IZR (Z.of_nat k)) by (rewrite <- plus_IZR; apply IZR_le; lia).
  assert (IZR (Z.of_nat j) * D + D <= IZR (Z.of_nat k) * D) by nra. lra.
Qed.
End Axis.

Lemma count_incr : forall (f : nat -> R) x m,
  (forall j k, (j < k)%nat -> (k < m)%nat -> f j < f k) ->
  let c := length (filter (fun b => if Rle_dec b x then true else false) (map f (seq 0 m))) in
  (c <= m)%nat /\ forall k, (k < m)%nat -> ((k < c)%nat <-> f k <= x).
Proof.
  induction m as [ | m IH ]; intros Hf c; [ split; [ auto | intros; lia ] | ].
  destruct IH as [ I1 I2 ]. { intros; apply Hf; lia. }
  unfold c. clear c. rewrite seq_S, map_app, filter_app, app_length. cbn [map filter].
  set (c := length (filter _ (map f (seq 0 m)))) in *. cbn [Nat.add] in *.
  destruct (Rle_dec (f m) x) as [ L | L ]; cbn [length].
  - assert (c = m).
    { destruct (Nat.eq_dec m 0) as [ | Z ]; [ lia | ].
      assert (m - 1 < c)%nat; [ | lia ]. apply I2; [ lia | ].
      left. eapply Rlt_le_trans; [ apply (Hf (m - 1)%nat m); lia | exact L ]. }
    split; [ lia | ]. intros k Hk. destruct (Nat.eq_dec k m) as [ -> | Hn ].
    + split; [ auto | lia ].
    + rewrite <- I2 by lia. lia.
  - split; [ lia | ]. intros k Hk. destruct (Nat.eq_dec k m) as [ -> | Hn ].
    + split; [ lia | intros; contradiction ].
    + rewrite <- I2 by lia. lia.
Qed.

(** The cell found on one axis. *)
Lemma ax_cell : forall l n x, resolved l n ->
  let j := clipZ (digitize x (f_linspace l n) - 1) 0 (n - 2) in
  (0 <= j <= n - 2)%Z /\
  (j = 0%Z \/ ax_disc l n (Z.to_nat j) <= x) /\
  (j = (n - 2)%Z \/ x < ax_disc l n (Z.to_nat (j + 1))).
Proof.
  intros l n x Hr j. pose proof Hr as ((H2 & _) & _).
  destruct (count_incr (ax_disc l n) x (Z.to_nat n) (ax_disc_incr l n Hr)) as [ C1 C2 ].
  unfold digitize in j. change (f_linspace l n) with (map (ax_disc l n) (seq 0 (Z.to_nat n))) in j.
  set (c := length (filter _ (map (ax_disc l n) (seq 0 (Z.to_nat n))))) in *.
  assert (J : (0 <= j <= n - 2)%Z) by (unfold j, clipZ; lia).
  split; [ exact J | ]. split.
  - destruct (Z.eq_dec j 0) as [ | Hj ]; [ auto | right ].
    apply C2; [ lia | ]. unfold j, clipZ in *. lia.
  - destruct (Z.eq_dec j (n - 2)) as [ | Hj ]; [ auto | right ].
    apply Rnot_le_lt. intros A. apply C2 in A; [ | lia ]. unfold j, clipZ in *. lia.
Qed.

Lemma ax_cell_pt : forall l n k, resolved l n -> (0 <= k <= n - 1)%Z ->
  clipZ (digitize (ax_pt l n k) (f_linspace l n) - 1) 0 (n - 2) = Z.min k (n - 2).
Proof.
  intros l n k Hr Hk. destruct (ax_cell l n (ax_pt l n k) Hr) as (J & L & U).
  set (j := clipZ _ 0 (n - 2)) in *.
  pose proof (ax_pt_err l n Hr k Hk) as P. pose proof (ax_D l n Hr) as Dp. apply Rabs_le_inv in P.
  set (D := gap l n) in *. set (p := ax_pt l n k) in *.
  assert (A : (j <= k)%Z).
  { destruct L as [ L | L ]; [ lia | ].
    pose proof (ax_disc_err l n Hr (Z.to_nat j) ltac:(lia)) as E. apply Rabs_le_inv in E.
    rewrite Z2Nat.id in E by lia. fold D in E.
    assert (j < k + 1)%Z; [ | lia ]. apply lt_IZR. rewrite plus_IZR.
    apply Rmult_lt_reg_r with D; [ exact Dp | ]. lra. }
  destruct (Z.eq_dec j (n - 2)) as [ J2 | J2 ]; [ lia | ].
  destruct U as [ U | U ]; [ lia | ].
  destruct (Z.eq_dec k (j + 1)) as [ E | E ].
  - exfalso. unfold ax_disc in U. rewrite Z2Nat.id in U by lia.
    destruct (Z.eqb_spec (j + 1) (n - 1)) as [ E' | E' ].
    + lia.
    + rewrite <- E in U. apply (Rlt_irrefl _ U).
  - pose proof (ax_disc_err l n Hr (Z.to_nat (j + 1)) ltac:(lia)) as F. apply Rabs_le_inv in F.
    rewrite Z2Nat.id in F by lia. fold D in F.
    assert (k < j + 2)%Z; [ | lia ]. apply lt_IZR. rewrite plus_IZR in *.
    apply Rmult_lt_reg_r with D; [ exact Dp | ]. lra.
Qed.
