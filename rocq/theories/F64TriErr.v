(** Rounding errors of one-dimensional triangulations between the grid points. *)
From Coq Require Import List ZArith Reals Bool Lra Lia Psatz.
From Flocq Require Import Core Relative.
From Verif Require Import Prelude ListFacts NumModel NumProofs GridModel GridSpec GridProofs
  TriModel TriSpec F64Model F64Spec F64Facts F64Proofs F64Tri.
Import ListNotations.
Local Open Scope R_scope.

Lemma rnd_rnd x : rnd (rnd x) = rnd x.
Proof. apply rnd_id, rnd_format. Qed.

Section Axis.
Variables (l : R * R) (n : Z).
Hypothesis Hr : resolved l n.
Let D := gap l n.
Let A := Rmax (Rabs (fst l)) (Rabs (snd l)).
Let eta := / 4503599627370496 * (A / D).

Lemma te_sizes : 0 < D /\ D <= 2 * A /\ / 4503599627370496 <= 2 * eta /\ 0 < eta <= / 4096 /\
  snd l - fst l <= 2 * A /\ eta * D = / 4503599627370496 * A.
Proof.
  pose proof (ax_D l n Hr) as Dp. fold D in Dp. pose proof (ax_DW l n Hr) as DW. fold D in DW.
  pose proof (ax_l l n Hr) as HL. pose proof (ax_u l n Hr) as HU. fold D in HL, HU.
  pose proof (Rmax_l (Rabs (fst l)) (Rabs (snd l))) as M1. pose proof (Rmax_r (Rabs (fst l)) (Rabs (snd l))) as M2.
  fold A in M1, M2.
  assert (AU : A <= 1099511627776 * D) by (unfold A; apply Rmax_lub; auto).
  assert (W2 : snd l - fst l <= 2 * A).
  { pose proof (Rle_abs (snd l)). pose proof (Rle_abs (- fst l)). rewrite Rabs_Ropp in *. lra. }
  assert (DA : D <= 2 * A) by lra.
  assert (ID : 0 < / D) by (apply Rinv_0_lt_compat; lra).
  assert (Q1 : 1 / 2 <= A / D).
  { apply Rmult_le_reg_r with D; [lra|]. replace (A / D * D) with A by (field; lra). lra. }
  assert (Q2 : A / D <= 1099511627776).
  { apply Rmult_le_reg_r with D; [lra|]. replace (A / D * D) with A by (field; lra). lra. }
  unfold eta. repeat split; try lra. field. lra.
Qed.

(** Positions. *)
Lemma te_pt k : (0 <= k <= n - 1)%Z -> Rabs (ax_pt l n k - (fst l + IZR k * D)) <= 20 * (eta * D).
Proof.
  intros Hk. destruct te_sizes as (Dp & DA & _ & _ & WA & EE). rewrite EE.
  set (N := IZR (n - 1)). set (U := f_unit l n). unfold ax_pt. fold U.
  assert (K : 0 <= IZR k <= N) by (unfold N; split; apply IZR_le; lia).
  pose proof (ax_Dlow l n Hr) as L. fold D in L. pose proof (ax_W l n Hr) as HW. fold D N in HW.
  pose proof (ax_unit l n Hr) as HU. fold D U in HU.
  pose proof (Rmax_l (Rabs (fst l)) (Rabs (snd l))) as M1. fold A in M1.
  assert (KD : 0 <= IZR k * D <= 2 * A) by (split; nra).
  assert (B1 : Rabs (IZR k * U - IZR k * D) <= 6 * / 4503599627370496 * (2 * A)).
  { rewrite <- Rmult_minus_distr_l, Rabs_mult, (Rabs_pos_eq (IZR k)) by lra.
    apply Rle_trans with (IZR k * (6 * / 4503599627370496 * D)).
    - apply Rmult_le_compat_l; [lra|exact HU].
    - lra. }
  apply Rabs_le_inv in B1. apply Rabs_le_inv in M1.
  assert (B2 : Rabs (rnd (IZR k * U) - IZR k * U) <= / 4503599627370496 * (3 * A)).
  { apply rnd_abs; [lra|]. apply Rabs_le. lra. }
  apply Rabs_le_inv in B2.
  assert (B3 : Rabs (rnd (rnd (IZR k * U) + fst l) - (rnd (IZR k * U) + fst l)) <= / 4503599627370496 * (5 * A)).
  { apply rnd_abs; [lra|]. apply Rabs_le. lra. }
  apply Rabs_le_inv in B3. apply Rabs_le. lra.
Qed.

Lemma te_disc k : (0 <= k <= n - 1)%Z -> Rabs (ax_disc l n (Z.to_nat k) - (fst l + IZR k * D)) <= 20 * (eta * D).
Proof.
  intros Hk. destruct te_sizes as (Dp & _ & _ & (E1 & E2) & _).
  unfold ax_disc. rewrite Z2Nat.id by lia. destruct (Z.eqb_spec k (n - 1)) as [E|E].
  - rewrite E. pose proof (ax_W l n Hr) as HW. fold D in HW.
    replace (snd l - (fst l + IZR (n - 1) * D)) with 0 by lra. rewrite Rabs_R0. nra.
  - now apply te_pt.
Qed.

(** The cell that is found contains the point up to these errors. *)
Lemma te_cell x : fst l <= x <= snd l ->
  let k := clipZ (digitize x (f_linspace l n) - 1) 0 (n - 2) in
  (0 <= k <= n - 2)%Z /\ - 20 * eta <= (x - (fst l + IZR k * D)) / D <= 1 + 20 * eta.
Proof.
  intros Hx k. destruct te_sizes as (Dp & _ & _ & (E1 & E2) & _).
  destruct (ax_cell l n x Hr) as (R & C1 & C2). fold k in R, C1, C2. split; [exact R|].
  pose proof (ax_W l n Hr) as HW. fold D in HW.
  assert (P : forall u, u * D = x - (fst l + IZR k * D) -> (x - (fst l + IZR k * D)) / D = u).
  { intros u <-. field. lra. }
  set (u := (x - (fst l + IZR k * D)) / D).
  assert (EU : u * D = x - (fst l + IZR k * D)) by (unfold u; field; lra).
  split; apply Rmult_le_reg_r with D; auto; rewrite EU.
  - destruct C1 as [C1|C1].
    + rewrite C1. simpl. nra.
    + pose proof (te_disc k ltac:(lia)) as T. apply Rabs_le_inv in T. lra.
  - destruct C2 as [C2|C2].
    + replace (IZR (n - 1)) with (IZR k + 1) in HW by (rewrite <- plus_IZR; f_equal; lia). nra.
    + pose proof (te_disc (k + 1) ltac:(lia)) as T. apply Rabs_le_inv in T. rewrite plus_IZR in T. lra.
Qed.

(** The reciprocal of the width of a cell. *)
Lemma te_inverse b : Rabs (b * rnd (ax_pt l n 1 - ax_pt l n 0) - 1) <= / 1125899906842624 ->
  Rabs (b * D - 1) <= 56 * eta.
Proof.
  intros Hb. destruct te_sizes as (Dp & DA & E0 & (E1 & E2) & _ & EE). pose proof Hr as ((H2 & _) & _).
  pose proof (te_pt 0 ltac:(lia)) as T0. pose proof (te_pt 1 ltac:(lia)) as T1.
  rewrite Rmult_0_l in T0. rewrite Rmult_1_l in T1. apply Rabs_le_inv in T0. apply Rabs_le_inv in T1.
  pose proof (ax_Dlow l n Hr) as L. fold D in L.
  assert (ED : eta * D <= / 4096 * D) by (apply Rmult_le_compat_r; lra).
  assert (RB : Rabs (rnd (ax_pt l n 1 - ax_pt l n 0) - (ax_pt l n 1 - ax_pt l n 0)) <= / 4503599627370496 * (2 * D)).
  { apply rnd_abs; [lra|]. apply Rabs_le. lra. }
  apply Rabs_le_inv in RB. set (h := rnd (ax_pt l n 1 - ax_pt l n 0)) in *.
  assert (EQ : / 4503599627370496 * D <= 2 * (eta * D)) by (rewrite <- Rmult_assoc; apply Rmult_le_compat_r; lra).
  assert (Hh : Rabs (h - D) <= 44 * (eta * D)) by (apply Rabs_le; lra).
  assert (HB : Rabs (b * h - 1) <= 8 * eta) by (eapply Rle_trans; [exact Hb|]; lra).
  set (bd := b * D). set (r := h / D).
  assert (ER : b * h = bd * r) by (unfold bd, r; field; lra). rewrite ER in HB.
  assert (R1 : Rabs (r - 1) <= 44 * eta).
  { unfold r. replace (h / D - 1) with ((h - D) / D) by (field; lra). unfold Rdiv.
    rewrite Rabs_mult, (Rabs_pos_eq (/ D)) by (left; apply Rinv_0_lt_compat; lra).
    apply Rmult_le_reg_r with D; [lra|]. rewrite Rmult_assoc, Rinv_l by lra. lra. }
  apply Rabs_le_inv in HB. apply Rabs_le_inv in R1.
  assert (RP : 98 / 100 <= r <= 102 / 100) by lra.
  assert (BP : 0 <= bd).
  { destruct (Rle_dec 0 bd); [auto|]. nra. }
  assert (BU : bd <= 104 / 100) by nra.
  apply Rabs_le. nra.
Qed.

(** Weights. *)
Lemma te_weight k b x : (0 <= k <= n - 2)%Z ->
  - 20 * eta <= (x - (fst l + IZR k * D)) / D <= 1 + 20 * eta ->
  Rabs (b * D - 1) <= 56 * eta ->
  Rabs (rnd (rnd (x - ax_pt l n k) * b) - (x - (fst l + IZR k * D)) / D) <= 86 * eta.
Proof.
  intros Hk Hs Hb. destruct te_sizes as (Dp & DA & E0 & (E1 & E2) & _ & EE).
  pose proof (te_pt k ltac:(lia)) as T. pose proof (ax_Dlow l n Hr) as L. fold D in L.
  set (p := fst l + IZR k * D) in *. set (s := (x - p) / D) in *.
  assert (ES : x = p + s * D) by (unfold s; field; lra).
  apply Rabs_le_inv in T. set (o := ax_pt l n k) in *.
  assert (ED : eta * D <= / 4096 * D) by (apply Rmult_le_compat_r; lra).
  assert (RO : Rabs (rnd (x - o) - (x - o)) <= / 4503599627370496 * (2 * D)).
  { apply rnd_abs; [lra|]. apply Rabs_le. nra. }
  assert (EQ : / 4503599627370496 * D <= 2 * (eta * D)) by (rewrite <- Rmult_assoc; apply Rmult_le_compat_r; lra).
  apply Rabs_le_inv in RO. set (off := rnd (x - o)) in *.
  set (u := off / D). assert (EU : off = u * D) by (unfold u; field; lra).
  assert (U : Rabs (u - s) <= 24 * eta).
  { assert (X : - (24 * eta) * D <= (u - s) * D <= 24 * eta * D) by (rewrite Rmult_minus_distr_r, <- EU; lra).
    apply Rabs_le. split; apply Rmult_le_reg_r with D; lra. }
  apply Rabs_le_inv in U. apply Rabs_le_inv in Hb. set (bd := b * D) in *.
  replace (off * b) with (u * bd) by (unfold bd; rewrite EU; ring).
  assert (W : Rabs (u * bd - s) <= 82 * eta).
  { replace (u * bd - s) with ((u - s) * bd + s * (bd - 1)) by ring.
    apply Rabs_le. assert (- (102 / 100) * (24 * eta) <= (u - s) * bd <= 102 / 100 * (24 * eta)) by nra.
    assert (- (101 / 100) * (56 * eta) <= s * (bd - 1) <= 101 / 100 * (56 * eta)) by nra. lra. }
  apply Rabs_le_inv in W.
  assert (RW : Rabs (rnd (u * bd) - u * bd) <= / 4503599627370496 * 2).
  { apply rnd_abs; [lra|]. apply Rabs_le. lra. }
  apply Rabs_le_inv in RW. apply Rabs_le. lra.
Qed.

(** Values. *)
Lemma te_value w s f0 f1 B : - 20 * eta <= s <= 1 + 20 * eta -> Rabs (w - s) <= 86 * eta ->
  / 2 ^ 400 <= B -> Rabs f0 <= B -> Rabs f1 <= B ->
  Rabs (rnd (rnd (rnd (1 - w) * f0) + rnd (w * f1)) - ((1 - s) * f0 + s * f1)) <= 200 * eta * B.
Proof.
  intros Hs Hw HB F0 F1. destruct te_sizes as (Dp & DA & E0 & (E1 & E2) & _ & EE).
  assert (HB' : / 2 ^ 401 <= B).
  { eapply Rle_trans; [|exact HB]. apply Rinv_le_contravar; [apply pow_lt; lra|]. apply Rle_pow; [lra|lia]. }
  assert (BP : 0 < B) by (eapply Rlt_le_trans; [|exact HB]; apply Rinv_0_lt_compat, pow_lt; lra).
  assert (EB : / 4503599627370496 * B <= 2 * (eta * B)) by (rewrite <- Rmult_assoc; apply Rmult_le_compat_r; lra).
  assert (EB' : eta * B <= / 4096 * B) by (apply Rmult_le_compat_r; lra).
  apply Rabs_le_inv in Hw.
  assert (R1 : Rabs (rnd (1 - w) - (1 - w)) <= / 4503599627370496 * 2).
  { apply rnd_abs; [|apply Rabs_le; lra]. eapply Rle_trans; [apply Rinv_le_contravar with (x := 1); [lra|apply pow_R1_Rle; lra]|lra]. }
  apply Rabs_le_inv in R1. set (v := rnd (1 - w)) in *.
  assert (PR : forall a c f, Rabs (a - c) <= 90 * eta -> Rabs f <= B -> Rabs (a * f - c * f) <= 90 * (eta * B)).
  { intros a c f Ha Hf. rewrite <- Rmult_minus_distr_r, Rabs_mult.
    apply Rle_trans with (90 * eta * B); [|lra]. apply Rmult_le_compat; auto; apply Rabs_pos. }
  assert (AB : forall c f, Rabs c <= 101 / 100 -> Rabs f <= B -> Rabs (c * f) <= 101 / 100 * B).
  { intros c f Hc Hf. rewrite Rabs_mult. apply Rmult_le_compat; auto; apply Rabs_pos. }
  pose proof (PR v (1 - s) f0 ltac:(apply Rabs_le; lra) F0) as P0.
  pose proof (PR w s f1 ltac:(apply Rabs_le; lra) F1) as P1.
  pose proof (AB (1 - s) f0 ltac:(apply Rabs_le; lra) F0) as A0.
  pose proof (AB s f1 ltac:(apply Rabs_le; lra) F1) as A1.
  apply Rabs_le_inv in P0. apply Rabs_le_inv in P1. apply Rabs_le_inv in A0. apply Rabs_le_inv in A1.
  assert (Q0 : Rabs (rnd (v * f0) - v * f0) <= / 4503599627370496 * (2 * B)) by (apply rnd_abs; [lra|apply Rabs_le; lra]).
  assert (Q1 : Rabs (rnd (w * f1) - w * f1) <= / 4503599627370496 * (2 * B)) by (apply rnd_abs; [lra|apply Rabs_le; lra]).
  apply Rabs_le_inv in Q0. apply Rabs_le_inv in Q1.
  assert (Q2 : Rabs (rnd (rnd (v * f0) + rnd (w * f1)) - (rnd (v * f0) + rnd (w * f1))) <= / 4503599627370496 * (3 * B))
    by (apply rnd_abs; [lra|apply Rabs_le; lra]).
  apply Rabs_le_inv in Q2. apply Rabs_le. lra.
Qed.
End Axis.

Section OneDim.
Variables (l : R * R) (n : Z).
Hypothesis Hr : resolved l n.
Let g := Grid [l] [n].
Let D := gap l n.
Let A := Rmax (Rabs (fst l)) (Rabs (snd l)).
Variables (dl : list vec -> delaunay) (inv : mat -> res mat) (values : mat) (m : nat) (project : bool) (B : R).
Hypothesis LV : Z.of_nat (length values) = n.
Hypothesis HV : forall row, In row values -> length row = m /\ Forall (fun v => Rabs v <= B) row.
Hypothesis HB : / 2 ^ 400 <= B.
Hypothesis HI : forall a, a <> 0 -> exists b, inv [[a]] = Ok [[b]] /\ Rabs (b * a - 1) <= / 2 ^ 50.

Lemma acc_make : exists D b, Rabs (b * gap l n - 1) <= 56 * (/ 4503599627370496 * (A / gap l n)) /\
  f_make_tri dl inv g values project = Ok (Tri g values project D [[0; 1]]%Z [[[b]]]) /\
  dl_nsimplex D = 1%Z /\ (forall q, 0 <= q < f_unit l n -> dl_find D [q] = 0%Z).
Proof.
  pose proof Hr as ((H2 & _) & _).
  assert (NZ : rnd (ax_pt l n 1 - ax_pt l n 0) <> 0).
  { pose proof (ax_D l n Hr) as Dp. pose proof (ax_Dlow l n Hr) as L.
    pose proof (ax_pt_err l n Hr 0 ltac:(lia)) as T0. pose proof (ax_pt_err l n Hr 1 ltac:(lia)) as T1.
    rewrite Rmult_0_l in T0. rewrite Rmult_1_l in T1. apply Rabs_le_inv in T0. apply Rabs_le_inv in T1.
    assert (X : Rabs (rnd (ax_pt l n 1 - ax_pt l n 0) - (ax_pt l n 1 - ax_pt l n 0)) <= / 4503599627370496 * (2 * gap l n)).
    { apply rnd_abs; [lra|apply Rabs_le; lra]. }
    apply Rabs_le_inv in X. lra. }
  destruct (HI _ NZ) as (b & Eb & Hb).
  set (points := [[0]; [f_unit l n]]).
  assert (EM : exists D', delaunay1d points = Ok D' /\ dl_points D' = points /\ dl_simplices D' = [[0; 1]]%nat /\
    dl_nsimplex D' = 1%Z /\ (forall q, 0 <= q < f_unit l n -> dl_find D' [q] = 0%Z)).
  { eexists. split; [reflexivity|]. split; [reflexivity|]. split; [reflexivity|]. split; [reflexivity|].
    intros q Hq. cbn [dl_find points concat app nth fold_right].
    set (mx := Rmax 0 _). set (mn := Rmin 0 _).
    assert (Q1 : q <= mx) by (unfold mx; eapply Rle_trans; [ | apply Rmax_r ]; eapply Rle_trans; [ | apply Rmax_l ]; lra).
    assert (Q2 : mn <= q) by (unfold mn; eapply Rle_trans; [ apply Rmin_l | ]; lra).
    destruct (Rlt_dec mx q); [ lra | ]. destruct (Rlt_dec q mn); [ lra | reflexivity ]. }
  destruct EM as (D' & E1 & E2 & E3 & E4 & E5).
  exists D', b. split; [|split; [|split; auto]].
  - apply te_inverse; auto. eapply Rle_trans; [exact Hb|]. right. f_equal. lra.
  - unfold f_make_tri. replace (nindex g) with n by (unfold nindex, prodZ, g; cbn [num_points fold_right]; ring).
    rewrite LV, Z.eqb_refl. cbn [limits g]. change (f_corners g) with points. rewrite E1. cbn [bind].
    assert (F : f_simplex_indices (Grid [l] [n]) D' = Ok [[0; 1]]%Z).
    { unfold f_simplex_indices. rewrite E2, E3. unfold points. cbn [mapM].
      change (offset (Grid [l] [n])) with [fst l]. cbn [map2]. rewrite (od_pt0 l n), (od_pt1 l n).
      rewrite !(od_index l n Hr) by lia. reflexivity. }
    change (Grid [l] [n]) with g in F. rewrite F. cbn [bind mapM]. unfold f_hyperplane. cbn [mapM].
    rewrite !(od_state l n Hr) by lia. cbn [bind map map2]. rewrite Eb. reflexivity.
Qed.

Theorem acc_eval : exists t, f_make_tri dl inv g values project = Ok t /\
  forall x, fst l <= x <= snd l ->
  exists out, f_eval t [x] = Ok out /\ length out = m /\
  forall o k, (o < m)%nat -> (0 <= k <= n - 2)%Z -> fst l + IZR k * D <= x <= fst l + IZR (k + 1) * D ->
  let s := (x - (fst l + IZR k * D)) / D in
  Rabs (nth o out 0 - ((1 - s) * value_at values o k + s * value_at values o (k + 1)))
    <= / 2 ^ 43 * (A / D) * B.
Proof.
  destruct acc_make as (Q & b & Hb & EM & NS & F). eexists. split; [exact EM|]. intros x Hx.
  destruct (te_sizes l n Hr) as (Dp & DA & E0 & (E1 & E2) & WA & EE). fold D A in Dp, DA, E0, E1, E2, WA, EE.
  destruct (te_cell l n Hr x Hx) as [Hk Hs]. set (k := clipZ (digitize x (f_linspace l n) - 1) 0 (n - 2)) in *.
  set (t := Tri g values project Q [[0; 1]]%Z [[[b]]]).
  assert (RT : f_state_to_rectangle g [x] = Ok k).
  { rewrite (f_state_to_rectangle_ok g (od_resolved l n Hr)) by reflexivity.
    change (f_cell_of g [x]) with [k]. cbn [ravel num_points g map]. change (prodZ []) with 1%Z. f_equal. lia. }
  assert (MR : forall q, 0 <= modR q (f_unit l n) < f_unit l n).
  { intros q. apply modR_range. pose proof (ax_Upos l n Hr). fold D in H. lra. }
  assert (SM : simplices t k = Ok [k; (1 + k)%Z]).
  { unfold simplices. cbn [t_dl t_unit t_grid t]. rewrite NS, Z.mod_1_r, Z.div_1_r.
    change (py_nth [[0; 1]]%Z 0) with (@Ok (list Z) [0; 1]%Z). cbn [bind].
    unfold rectangle_corner_index, np_unravel_index. cbn [num_points g map].
    unfold prodZ. cbn [fold_right]. rewrite Z.mul_1_r.
    replace (0 <=? k)%Z with true by (symmetry; apply Z.leb_le; lia).
    replace (k <? n - 1)%Z with true by (symmetry; apply Z.ltb_lt; lia).
    cbn [andb bind unravel]. change (prodZ []) with 1%Z. rewrite Z.div_1_r.
    unfold np_ravel_multi_index. cbn [in_shape].
    replace (0 <=? k)%Z with true by (symmetry; apply Z.leb_le; lia).
    replace (k <? n)%Z with true by (symmetry; apply Z.ltb_lt; lia).
    cbn [andb bind ravel]. change (prodZ []) with 1%Z.
    cbn [map]. replace (k * 1 + 0)%Z with k by ring. reflexivity. }
  set (w := rnd (rnd (x - ax_pt l n k) * b)).
  assert (GW : f_get_weights t [x] = Ok ([rnd (1 - w); w], [k; (1 + k)%Z])).
  { unfold f_get_weights, f_find_simplex. cbn [t_grid t_dl t_hyper t_project t].
    rewrite RT. cbn [bind].
    change (map2 modR (f_center g [x]) (f_unit_maxes g)) with [modR (hd 0 (f_center g [x])) (f_unit l n)].
    rewrite F by apply MR. rewrite NS, Z.mul_1_r, Z.add_0_l, Z.mod_1_r.
    fold t. rewrite SM. cbn [bind].
    change (py_nth [k; (1 + k)%Z] 0) with (Ok k). cbn [bind].
    unfold g at 1. rewrite (od_state l n Hr) by lia. cbn [bind].
    change (py_nth [[[b]]] 0) with (Ok [[b]]). cbn [bind].
    assert (P : (if project then project_point g [x] else [x]) = [x]).
    { destruct project; [|reflexivity]. unfold project_point. cbn [map2 limits g]. now rewrite clipR_id. }
    rewrite P. change (ndim g) with 1%nat. cbn [seq map map2 nth]. unfold f_sum. cbn [fold_left].
    rewrite Rplus_0_l, rnd_rnd. fold w. rewrite Rplus_0_l.
    replace (rnd w) with w by (unfold w; now rewrite rnd_rnd). reflexivity. }
  assert (PN : forall i, (0 <= i < n)%Z -> py_nth values i = Ok (nth (Z.to_nat i) values [])).
  { intros i Hi. rewrite <- (Z2Nat.id i) at 1 by lia. apply py_nth_nonneg. apply nth_error_nth'. lia. }
  assert (OD : output_dim t = m).
  { unfold output_dim. cbn [t_params t]. destruct values as [|r0 vs] eqn:EV; [cbn in LV; lia|].
    apply HV. now left. }
  assert (VB : forall i o, (0 <= i < n)%Z -> (o < m)%nat -> Rabs (value_at values o i) <= B).
  { intros i o Hi Ho. unfold value_at. destruct (HV (nth (Z.to_nat i) values [])) as [L1 L2]; [apply nth_In; lia|].
    rewrite Forall_forall in L2. apply L2, nth_In. lia. }
  eexists. split; [|split].
  - unfold f_eval. rewrite GW. cbn [bind snd fst t_params t mapM]. rewrite !PN by lia. cbn [bind]. reflexivity.
  - now rewrite map_length, seq_length, OD.
  - intros o j Ho Hj Hxj s. rewrite OD.
    rewrite (nth_map_lt _ _ _ 0%nat) by (rewrite seq_length; exact Ho). rewrite seq_nth by exact Ho.
    cbn [Nat.add map2]. unfold f_sum. cbn [fold_left]. rewrite Rplus_0_l, rnd_rnd.
    change (nth o (nth (Z.to_nat k) values []) 0) with (value_at values o k).
    change (nth o (nth (Z.to_nat (1 + k)) values []) 0) with (value_at values o (1 + k)).
    rewrite (Z.add_comm 1 k). fold D A in Hs, Hb. change (gap l n) with D in Hb.
    set (u := (x - (fst l + IZR k * D)) / D) in *.
    set (eta := / 4503599627370496 * (A / D)) in *.
    pose proof (te_weight l n Hr k b x Hk Hs Hb) as W. fold D A in W. fold eta u w in W.
    pose proof (te_value l n Hr w u (value_at values o k) (value_at values o (k + 1)) B Hs W HB
      (VB k o ltac:(lia) Ho) (VB (k + 1)%Z o ltac:(lia) Ho)) as T. fold D A in T. fold eta in T.
    set (r := rnd (_ + _)) in *.
    assert (BP : 0 < B) by (eapply Rlt_le_trans; [|exact HB]; apply Rinv_0_lt_compat, pow_lt; lra).
    assert (EU : u * D = x - (fst l + IZR k * D)) by (unfold u; field; lra).
    assert (ES : s * D = x - (fst l + IZR j * D)) by (unfold s; field; lra).
    assert (SK : s = u + IZR k - IZR j) by (apply Rmult_eq_reg_r with D; [lra|lra]).
    rewrite plus_IZR in Hxj.
    assert (S01 : 0 <= s <= 1) by (split; apply Rmult_le_reg_r with D; lra).
    assert (KJ : (k - 1 <= j <= k + 1)%Z).
    { assert (X : IZR (k - 2) < IZR j < IZR (k + 2)) by (rewrite plus_IZR, minus_IZR; lra).
      destruct X as [X1 X2]. apply lt_IZR in X1. apply lt_IZR in X2. lia. }
    assert (EF : / 2 ^ 43 * (A / D) * B = 512 * eta * B) by (unfold eta; lra).
    rewrite EF. set (f := value_at values o) in *.
    assert (G : Rabs ((1 - u) * f k + u * f (k + 1)%Z - ((1 - s) * f j + s * f (j + 1)%Z)) <= 80 * eta * B).
    { assert (Cases : j = k \/ j = (k - 1)%Z \/ j = (k + 1)%Z) by lia.
      destruct Cases as [J | [J | J]].
      - assert (SU : s = u) by (rewrite SK, J; ring). rewrite SU, J.
        rewrite Rminus_diag_eq by ring. rewrite Rabs_R0. nra.
      - assert (SU : s = u + 1) by (rewrite SK, J, minus_IZR; ring). rewrite J in *.
        replace (k - 1 + 1)%Z with k in * by ring.
        pose proof (VB k o ltac:(lia) Ho) as B1. pose proof (VB (k + 1)%Z o ltac:(lia) Ho) as B2.
        pose proof (VB (k - 1)%Z o ltac:(lia) Ho) as B0. fold f in B0, B1, B2.
        replace ((1 - u) * f k + u * f (k + 1)%Z - ((1 - s) * f (k - 1)%Z + s * f k))
          with (u * (f (k + 1)%Z - 2 * f k + f (k - 1)%Z)) by (rewrite SU; ring).
        rewrite Rabs_mult. apply Rle_trans with (20 * eta * (4 * B)); [|lra].
        apply Rmult_le_compat; try apply Rabs_pos; apply Rabs_le; [lra|].
        apply Rabs_le_inv in B0. apply Rabs_le_inv in B1. apply Rabs_le_inv in B2. lra.
      - assert (SU : s = u - 1) by (rewrite SK, J, plus_IZR; ring). rewrite J in *.
        pose proof (VB k o ltac:(lia) Ho) as B1. pose proof (VB (k + 1)%Z o ltac:(lia) Ho) as B2.
        pose proof (VB (k + 1 + 1)%Z o ltac:(lia) Ho) as B0. fold f in B0, B1, B2.
        replace ((1 - u) * f k + u * f (k + 1)%Z - ((1 - s) * f (k + 1)%Z + s * f (k + 1 + 1)%Z))
          with ((1 - u) * (f k - 2 * f (k + 1)%Z + f (k + 1 + 1)%Z)) by (rewrite SU; ring).
        rewrite Rabs_mult. apply Rle_trans with (20 * eta * (4 * B)); [|lra].
        apply Rmult_le_compat; try apply Rabs_pos; apply Rabs_le; [lra|].
        apply Rabs_le_inv in B0. apply Rabs_le_inv in B1. apply Rabs_le_inv in B2. lra. }
    apply Rabs_le_inv in T. apply Rabs_le_inv in G.
    assert (0 <= eta * B) by (apply Rmult_le_pos; lra). apply Rabs_le. lra.
Qed.
End OneDim.
