(** Double precision triangulations: exact at the grid points of one-dimensional
    grids, wrong at a grid point of a two-dimensional one. *)
From Coq Require Import List ZArith Reals Bool Lra Lia Psatz.
From Flocq Require Import Core Relative.
From Verif Require Import Prelude ListFacts NumModel NumProofs GridModel GridSpec GridProofs
  TriModel F64Model F64Spec F64Facts F64Proofs.
Import ListNotations.
Local Open Scope R_scope.

#[local] Instance p53' : Prec_gt_0 53 := eq_refl.

Lemma rnd_opp : forall x, rnd (- x) = - rnd x.
Proof. intros x. unfold rnd. apply round_NE_opp. Qed.

(** Rounding to a given neighbour. *)
Lemma rnd_near : forall (m e : Z) (x : R),
  (2 ^ 52 <= m < 2 ^ 53)%Z -> (-1074 <= e)%Z ->
  IZR (2 ^ 52) * bpow radix2 e <= x ->
  Rabs (x - IZR m * bpow radix2 e) < / 2 * bpow radix2 e ->
  rnd x = IZR m * bpow radix2 e.
Proof.
  intros m e x Hm He Hx H.
  pose proof (bpow_gt_0 radix2 e) as B.
  assert (M : IZR m <= IZR (2 ^ 53) - 1).
  { replace (IZR (2 ^ 53) - 1) with (IZR (2 ^ 53 - 1)) by (rewrite minus_IZR; reflexivity). apply IZR_le. lia. }
  apply Rabs_def2 in H.
  assert (U : x < IZR (2 ^ 53) * bpow radix2 e) by nra.
  assert (G : mag radix2 x = (53 + e)%Z :> Z).
  { apply mag_unique_pos. split.
    - replace (53 + e - 1)%Z with (52 + e)%Z by ring. rewrite bpow_plus. exact Hx.
    - rewrite bpow_plus. exact U. }
  assert (C : cexp radix2 (FLT_exp (-1074) 53) x = e).
  { unfold cexp, FLT_exp. rewrite G. lia. }
  unfold rnd, round, F2R, scaled_mantissa. rewrite C. cbn [Fnum Fexp]. f_equal. apply f_equal.
  apply Znearest_imp.
  assert (E : bpow radix2 e * bpow radix2 (- e) = 1) by (rewrite <- bpow_plus, Z.add_opp_diag_r; reflexivity).
  pose proof (bpow_gt_0 radix2 (- e)) as B'.
  replace (x * bpow radix2 (- e) - IZR m) with ((x - IZR m * bpow radix2 e) * bpow radix2 (- e))
    by (ring_simplify; rewrite Rmult_assoc, E; ring).
  apply Rabs_def1; nra.
Qed.

(** Numbers with a mantissa of at most 53 bits are not changed. *)
Lemma f64_F2R : forall m e, (Z.abs m < 2 ^ 53)%Z -> (-1074 <= e)%Z -> is_f64 (IZR m * bpow radix2 e).
Proof.
  intros m e Hm He. apply generic_format_FLT.
  apply (FLT_spec radix2 (-1074) 53 _ (Float radix2 m e)); [ reflexivity | exact Hm | exact He ].
Qed.
Lemma f64_1 : is_f64 1.
Proof. replace 1 with (IZR 1 * bpow radix2 0) by (simpl; ring). apply f64_F2R; lia. Qed.

(** *** One dimension *)
Section OneDim.
Variables (l : R * R) (n : Z).
Hypothesis Hr : resolved l n.
Let g := Grid [l] [n].

Lemma od_resolved : resolved_grid g.
Proof. unfold resolved_grid, g. cbn. constructor; [ exact Hr | constructor ]. Qed.

Lemma od_index : forall k, (0 <= k <= n - 1)%Z -> f_state_to_index g [ax_pt l n k] = Ok k.
Proof.
  intros k Hk. rewrite (f_state_to_index_ok g od_resolved) by reflexivity.
  change (f_rounded g [ax_pt l n k]) with [rint (ax_scaled l n (ax_pt l n k))].
  rewrite (ax_roundtrip l n Hr k Hk). cbn [ravel num_points g]. change (prodZ []) with 1%Z. f_equal. ring.
Qed.
Lemma od_state : forall k, (0 <= k <= n - 1)%Z -> f_index_to_state g k = Ok [ax_pt l n k].
Proof.
  intros k Hk. rewrite (f_index_to_state_ok g od_resolved).
  - cbn [unravel num_points g]. change (prodZ []) with 1%Z. rewrite Z.div_1_r. reflexivity.
  - unfold nindex, g, prodZ. cbn [fold_right num_points]. lia.
Qed.
Lemma od_rect : forall k, (0 <= k < n - 1)%Z -> f_state_to_rectangle g [ax_pt l n k] = Ok k.
Proof.
  intros k Hk. rewrite (f_state_to_rectangle_ok g od_resolved) by reflexivity.
  change (f_cell_of g [ax_pt l n k]) with
    [clipZ (digitize (ax_pt l n k) (f_linspace l n) - 1) 0 (n - 2)].
  rewrite ax_cell_pt by (auto; lia). cbn [ravel num_points g map]. change (prodZ []) with 1%Z.
  f_equal. lia.
Qed.

Lemma od_pt0 : rnd (0 + fst l) = ax_pt l n 0.
Proof. unfold ax_pt. rewrite Rmult_0_l, rnd_0. reflexivity. Qed.
Lemma od_pt1 : rnd (f_unit l n + fst l) = ax_pt l n 1.
Proof. unfold ax_pt. rewrite Rmult_1_l. f_equal. f_equal. symmetry. apply rnd_id. apply rnd_format. Qed.

Lemma modR_range : forall x m, 0 < m -> 0 <= modR x m < m.
Proof. intros x m Hm. unfold modR. pose proof (floor_div_bounds x m Hm). lra. Qed.

Lemma od_make : forall dl inv values project t,
  f_make_tri dl inv g values project = Ok t ->
  exists D H, t = Tri g values project D [[0; 1]]%Z H /\ length H = 1%nat /\
    dl_nsimplex D = 1%Z /\ (forall m, 0 <= m < f_unit l n -> dl_find D [m] = 0%Z) /\
    Z.of_nat (length values) = n.
Proof.
  intros dl inv values project t E. unfold f_make_tri in E.
  destruct (Z.eqb_spec (Z.of_nat (length values)) (nindex g)) as [ L | L ]; [ | discriminate ].
  cbn [limits g] in E. change (f_corners g) with [[0]; [f_unit l n]] in E.
  unfold delaunay1d in E. cbn [existsb length Nat.ltb Nat.leb orb bind] in E.
  set (D := Delaunay _ _ _) in E.
  assert (F : f_simplex_indices g D = Ok [[0; 1]]%Z).
  { unfold f_simplex_indices, D. cbn [dl_points dl_simplices mapM].
    change (offset g) with [fst l]. cbn [map2]. rewrite od_pt0, od_pt1.
    pose proof Hr as ((H2 & _) & _).
    rewrite !od_index by lia. reflexivity. }
  change (match limits g with [_] => Ok D | _ => _ end) with (Ok D) in E.
  cbn [bind] in E. rewrite F in E. cbn [bind mapM] in E.
  destruct (f_hyperplane inv g [0; 1]%Z) as [ h | ]; [ | discriminate ]. cbn [bind] in E.
  injection E as <-. exists D, [h]. repeat split.
  - intros m Hm. unfold D. cbn [dl_find concat app nth fold_right].
    pose proof (ax_Upos l n Hr) as UP. pose proof (ax_D l n Hr) as Dp.
    set (mx := Rmax 0 _). set (mn := Rmin 0 _).
    assert (A : m <= mx) by (unfold mx; eapply Rle_trans; [ | apply Rmax_r ]; eapply Rle_trans; [ | apply Rmax_l ]; lra).
    assert (B : mn <= m) by (unfold mn; eapply Rle_trans; [ apply Rmin_l | ]; lra).
    destruct (Rlt_dec mx m); [ lra | ]. destruct (Rlt_dec m mn); [ lra | reflexivity ].
  - rewrite L. unfold nindex, prodZ, g. cbn [num_points fold_right]. ring.
Qed.

Lemma od_project : forall k, (0 <= k < n - 1)%Z -> clipR (ax_pt l n k) (fst l) (snd l) = ax_pt l n k.
Proof.
  intros k Hk. apply clipR_id.
  pose proof (ax_pt_err l n Hr k ltac:(lia)) as E. pose proof (ax_D l n Hr) as Dp.
  pose proof (ax_W l n Hr) as HW. apply Rabs_le_inv in E.
  assert (K : IZR k + 1 <= IZR (n - 1)) by (rewrite <- plus_IZR; apply IZR_le; lia).
  split; [ | nra ].
  destruct (Z.eq_dec k 0) as [ -> | Hk0 ].
  - rewrite <- od_pt0, Rplus_0_l, rnd_id; [ lra | ]. apply Hr.
  - assert (1 <= IZR k) by (apply IZR_le; lia). nra.
Qed.

Lemma od_eval : forall dl inv values project t k s,
  f_make_tri dl inv g values project = Ok t ->
  (forall row, In row values -> length row = output_dim t /\ Forall is_f64 row) ->
  (0 <= k < n - 1)%Z ->
  f_index_to_state g k = Ok s ->
  f_eval t s = Ok (nth (Z.to_nat k) values []).
Proof.
  intros dl inv values project t k s E Hv Hk Es.
  destruct (od_make _ _ _ _ _ E) as (D & H & -> & LH & NS & F & LV).
  rewrite od_state in Es by lia. injection Es as <-.
  unfold f_eval, f_get_weights, f_find_simplex. cbn [t_grid t_dl t_hyper t_project t_params].
  rewrite od_rect by lia. cbn [bind].
  change (map2 modR (f_center g [ax_pt l n k]) (f_unit_maxes g))
    with [modR (hd 0 (f_center g [ax_pt l n k])) (f_unit l n)].
  rewrite F; [ | apply modR_range; pose proof (ax_Upos l n Hr); pose proof (ax_D l n Hr); lra ].
  rewrite NS, Z.mul_1_r, Z.add_0_l, Z.mod_1_r.
  assert (SM : simplices (Tri g values project D [[0; 1]]%Z H) k = Ok [k; (1 + k)%Z]).
  { unfold simplices. cbn [t_dl t_unit t_grid]. rewrite NS, Z.mod_1_r, Z.div_1_r.
    change (py_nth [[0; 1]]%Z 0) with (@Ok (list Z) [0; 1]%Z). cbn [bind].
    unfold rectangle_corner_index, np_unravel_index. cbn [num_points g map].
    unfold prodZ. cbn [fold_right]. rewrite Z.mul_1_r.
    replace (0 <=? k)%Z with true by (symmetry; apply Z.leb_le; lia).
    replace (k <? n - 1)%Z with true by (symmetry; apply Z.ltb_lt; lia).
    cbn [andb bind unravel]. change (prodZ []) with 1%Z. rewrite Z.div_1_r.
    unfold np_ravel_multi_index. cbn [in_shape].
    replace (0 <=? k)%Z with true by (symmetry; apply Z.leb_le; lia).
    replace (k <? n)%Z with true by (symmetry; apply Z.ltb_lt; lia).
    cbn [andb bind ravel]. change (prodZ []) with 1%Z.
    cbn [map]. replace (k * 1 + 0)%Z with k by ring. reflexivity. }
  rewrite SM. cbn [bind].
  change (py_nth [k; (1 + k)%Z] 0) with (Ok k). cbn [bind].
  rewrite od_state by lia. cbn [bind].
  destruct H as [ | h [ | ? ? ] ]; try discriminate.
  change (py_nth [h] 0) with (Ok h). cbn [bind fst snd].
  assert (OFF : map2 (fun a b => rnd (a - b)) (if project then project_point g [ax_pt l n k] else [ax_pt l n k])
                  [ax_pt l n k] = [0]).
  { assert (P : (if project then project_point g [ax_pt l n k] else [ax_pt l n k]) = [ax_pt l n k]).
    { destruct project; [ | reflexivity ]. unfold project_point. cbn [map2 limits g]. now rewrite od_project. }
    rewrite P. cbn [map2]. rewrite Rminus_diag_eq by reflexivity. now rewrite rnd_0. }
  rewrite OFF. change (ndim g) with 1%nat. cbn [seq map].
  assert (W0 : f_sum (map2 (fun x row => rnd (x * nth 0 row 0)) [0] h) = 0).
  { destruct h as [ | r h ]; [ reflexivity | ]. cbn [map2]. unfold f_sum. cbn [fold_left].
    destruct h; cbn [map2 fold_left]; rewrite Rmult_0_l, rnd_0, Rplus_0_l, rnd_0; reflexivity. }
  rewrite W0. 
  assert (W1 : rnd (1 - f_sum [0]) = 1).
  { unfold f_sum. cbn [fold_left]. rewrite Rplus_0_l, rnd_0, Rminus_0_r. apply rnd_id, f64_1. }
  rewrite W1.
  assert (PN : forall i, (0 <= i < n)%Z -> py_nth values i = Ok (nth (Z.to_nat i) values [])).
  { intros i Hi. rewrite <- (Z2Nat.id i) at 1 by lia. apply py_nth_nonneg.
    apply nth_error_nth'. lia. }
  cbn [mapM]. rewrite !PN by lia. cbn [bind].
  set (r0 := nth (Z.to_nat k) values []). set (r1 := nth (Z.to_nat (1 + k)) values []).
  f_equal.
  destruct (Hv r0) as [ L0 Q0 ]; [ apply nth_In; lia | ].
  destruct (Hv r1) as [ L1 Q1 ]; [ apply nth_In; lia | ].
  apply (nth_ext _ _ 0 0).
  - rewrite map_length, seq_length. symmetry. exact L0.
  - intros j Hj. rewrite map_length, seq_length in Hj.
    rewrite (nth_map_lt _ _ _ 0%nat) by (rewrite seq_length; exact Hj).
    rewrite seq_nth by exact Hj. cbn [Nat.add map2].
    unfold f_sum. cbn [fold_left]. rewrite Rmult_1_l, Rmult_0_l, rnd_0, Rplus_0_l, Rplus_0_r.
    assert (Q : is_f64 (nth j r0 0)). { rewrite Forall_forall in Q0. apply Q0. apply nth_In. rewrite L0. exact Hj. }
    pose proof (rnd_id _ Q) as RQ. now rewrite !RQ.
Qed.
End OneDim.

(** *** The 7 x 7 grid on [-1, 1] x [-1, 1] *)
Definition ax7 : R * R := (-1, 1).

Lemma bp54 : bpow radix2 (-54) = / 18014398509481984.
Proof. reflexivity. Qed.
Lemma bp52 : bpow radix2 (-52) = / 4503599627370496.
Proof. reflexivity. Qed.

Lemma f64_IZR : forall z, (Z.abs z < 2 ^ 53)%Z -> is_f64 (IZR z).
Proof. intros z Hz. replace (IZR z) with (IZR z * bpow radix2 0) by (simpl; ring). apply f64_F2R; lia. Qed.

Lemma res7 : resolved ax7 7.
Proof.
  unfold resolved, ax7. cbn [fst snd].
  replace (1 - -1) with 2 by ring. change (7 - 1)%Z with 6%Z.
  split; [ lia | ]. split; [ apply (f64_IZR (-1)); lia | ]. split; [ apply (f64_IZR 1); lia | ].
  assert (P : 2 ^ 2 <= 2 ^ 400) by (apply Rle_pow; [ lra | lia ]).
  split; [ split; lra | ].
  rewrite (Rabs_left (-1)) by lra. rewrite Rabs_R1. lra.
Qed.
Lemma res77 : resolved_grid g77.
Proof. unfold resolved_grid, g77. cbn. repeat (constructor; [ apply res7 | ]). constructor. Qed.

Lemma unit7 : f_unit ax7 7 = 6004799503160661 * / 18014398509481984.
Proof.
  unfold f_unit, ax7. cbn [fst snd]. replace (1 - -1) with 2 by ring. change (7 - 1)%Z with 6%Z.
  rewrite (rnd_id 2) by (apply (f64_IZR 2); lia).
  rewrite (rnd_near 6004799503160661 (-54)).
  - rewrite bp54. reflexivity.
  - split; [ discriminate | reflexivity ].
  - lia.
  - rewrite bp54. change (2 ^ 52)%Z with 4503599627370496%Z. lra.
  - rewrite bp54. apply Rabs_def1; lra.
Qed.

Lemma pt5 : ax_pt ax7 7 5 = 3002399751580330 * / 4503599627370496.
Proof.
  unfold ax_pt. rewrite unit7.
  rewrite (rnd_near 7505999378950826 (-52) (5 * (6004799503160661 * / 18014398509481984))).
  - rewrite bp52. change (fst ax7) with (-1).
    replace (7505999378950826 * / 4503599627370496 + -1) with (IZR 3002399751580330 * bpow radix2 (-52))
      by (rewrite bp52; field).
    rewrite rnd_id by (apply f64_F2R; [ reflexivity | lia ]). rewrite bp52. reflexivity.
  - split; [ discriminate | reflexivity ].
  - lia.
  - rewrite bp52. change (2 ^ 52)%Z with 4503599627370496%Z. lra.
  - rewrite bp52. apply Rabs_def1; lra.
Qed.

Definition loc5 : R := 6004799503160660 * / 18014398509481984.

Lemma center5 : f_center g77 [ax_pt ax7 7 5; ax_pt ax7 7 5] =
  [7505999378950826 * / 4503599627370496; 7505999378950826 * / 4503599627370496].
Proof.
  assert (A : rnd (ax_pt ax7 7 5 - -1) = 7505999378950826 * / 4503599627370496).
  { rewrite pt5.
    replace (3002399751580330 * / 4503599627370496 - -1) with (IZR 7505999378950826 * bpow radix2 (-52))
      by (rewrite bp52; field).
    rewrite rnd_id by (apply f64_F2R; [ reflexivity | lia ]). rewrite bp52. reflexivity. }
  assert (E : rnd (2 * f_eps) = 2 * / 4503599627370496).
  { unfold f_eps. rewrite (rnd_id (2 * bpow radix2 (-52))) by (apply (f64_F2R 2); [ reflexivity | lia ]).
    rewrite bp52. reflexivity. }
  assert (C : clipR (7505999378950826 * / 4503599627370496) (rnd (0 + rnd (2 * f_eps)))
                (rnd (rnd (1 - -1) - rnd (2 * f_eps))) = 7505999378950826 * / 4503599627370496).
  { apply clipR_id. rewrite E. replace (1 - -1) with 2 by ring.
    rewrite (rnd_id 2) by (apply (f64_IZR 2); lia). split.
    - rewrite Rplus_0_l. rewrite rnd_id; [ lra | ].
      rewrite <- bp52. apply (f64_F2R 2); [ reflexivity | lia ].
    - rewrite rnd_id; [ lra | ].
      replace (2 - 2 * / 4503599627370496) with (IZR 9007199254740990 * bpow radix2 (-52))
        by (rewrite bp52; field).
      apply f64_F2R; [ reflexivity | lia ]. }
  unfold f_center, g77. cbn [limits map2 fst snd]. rewrite A, C. reflexivity.
Qed.

Lemma local5 : map2 modR (f_center g77 [ax_pt ax7 7 5; ax_pt ax7 7 5]) (f_unit_maxes g77) = [loc5; loc5].
Proof.
  rewrite center5. change (f_unit_maxes g77) with [f_unit ax7 7; f_unit ax7 7]. cbn [map2].
  assert (M : modR (7505999378950826 * / 4503599627370496) (f_unit ax7 7) = loc5).
  { unfold modR. rewrite unit7.
    rewrite (floorR_unique _ 4).
    - unfold loc5. lra.
    - set (q := 7505999378950826 * / 4503599627370496 / (6004799503160661 * / 18014398509481984)).
      assert (q * (6004799503160661 * / 18014398509481984) = 7505999378950826 * / 4503599627370496)
        by (unfold q; field).
      split; lra. }
  now rewrite M.
Qed.

Lemma idx77 : forall a b, (0 <= a <= 6)%Z -> (0 <= b <= 6)%Z ->
  f_state_to_index g77 [ax_pt ax7 7 a; ax_pt ax7 7 b] = Ok (a * 7 + b)%Z.
Proof.
  intros a b Ha Hb. rewrite (f_state_to_index_ok g77 res77) by reflexivity.
  change (f_rounded g77 [ax_pt ax7 7 a; ax_pt ax7 7 b])
    with [rint (ax_scaled ax7 7 (ax_pt ax7 7 a)); rint (ax_scaled ax7 7 (ax_pt ax7 7 b))].
  rewrite !(ax_roundtrip ax7 7 res7) by lia. cbn [ravel num_points g77].
  change (prodZ [7%Z]) with 7%Z. change (prodZ []) with 1%Z. f_equal. ring.
Qed.
Lemma rect77 : f_state_to_rectangle g77 [ax_pt ax7 7 5; ax_pt ax7 7 5] = Ok 35%Z.
Proof.
  rewrite (f_state_to_rectangle_ok g77 res77) by reflexivity.
  change (f_cell_of g77 [ax_pt ax7 7 5; ax_pt ax7 7 5]) with
    [clipZ (digitize (ax_pt ax7 7 5) (f_linspace ax7 7) - 1) 0 (7 - 2);
     clipZ (digitize (ax_pt ax7 7 5) (f_linspace ax7 7) - 1) 0 (7 - 2)].
  rewrite ax_cell_pt by (try lia; apply res7). reflexivity.
Qed.
Lemma state77 : f_index_to_state g77 40 = Ok [ax_pt ax7 7 5; ax_pt ax7 7 5].
Proof. reflexivity. Qed.


Lemma tri77 : forall dl inv find project,
  dl (f_corners g77) = split_cell (f_corners g77) find ->
  (forall A, exists B, inv A = Ok B) ->
  exists h0 h1, f_make_tri dl inv g77 hat40 project =
    Ok (Tri g77 hat40 project (split_cell (f_corners g77) find) [[0; 1; 7]; [1; 7; 8]]%Z [h0; h1]).
Proof.
  intros dl inv find project Hd Hi. unfold f_make_tri.
  change (Z.of_nat (length hat40) =? nindex g77)%Z with true. cbn [limits g77]. 
  change (Grid [(-1, 1); (-1, 1)] [7; 7]%Z) with g77.
  rewrite Hd. cbn [bind].
  assert (F : f_simplex_indices g77 (split_cell (f_corners g77) find) = Ok [[0; 1; 7]; [1; 7; 8]]%Z).
  { unfold f_simplex_indices, split_cell. cbn [dl_points dl_simplices].
    change (f_corners g77) with
      [[f_unit ax7 7; 0]; [f_unit ax7 7; f_unit ax7 7]; [0; 0]; [0; f_unit ax7 7]].
    change (offset g77) with [fst ax7; fst ax7]. cbn [mapM map2].
    rewrite !(od_pt0 ax7 7), !(od_pt1 ax7 7). rewrite !idx77 by lia. reflexivity. }
  rewrite F. cbn [bind mapM].
  assert (HP : forall s, (forall i, In i s -> (0 <= i < 49)%Z) -> s <> [] -> exists h, f_hyperplane inv g77 s = Ok h).
  { intros s Hs Hn. unfold f_hyperplane.
    assert (M : exists pts, mapM (f_index_to_state g77) s = Ok pts /\ length pts = length s).
    { clear Hn. induction s as [ | i s IH ]; [ exists []; auto | ].
      destruct IH as (pts & E & L). { intros; apply Hs; now right. }
      cbn [mapM]. rewrite (f_index_to_state_ok g77 res77) by (apply Hs; now left).
      cbn [bind]. rewrite E. cbn [bind]. eexists. split; [ reflexivity | ]. cbn [length]. now rewrite L. }
    destruct M as (pts & -> & L). cbn [bind].
    destruct pts as [ | p ps ]; [ destruct s; [ congruence | discriminate ] | ]. apply Hi. }
  destruct (HP [0; 1; 7]%Z) as (h0 & E0).
  { intros i [ <- | [ <- | [ <- | [] ] ] ]; lia. } { discriminate. }
  destruct (HP [1; 7; 8]%Z) as (h1 & E1).
  { intros i [ <- | [ <- | [ <- | [] ] ] ]; lia. } { discriminate. }
  rewrite E0. cbn [bind]. rewrite E1. cbn [bind]. exists h0, h1. reflexivity.
Qed.

Lemma eval77 : forall find project h0 h1,
  find [loc5; loc5] = 1%Z ->
  let t := Tri g77 hat40 project (split_cell (f_corners g77) find) [[0; 1; 7]; [1; 7; 8]]%Z [h0; h1] in
  f_eval t [ax_pt ax7 7 5; ax_pt ax7 7 5] = Ok [0].
Proof.
  intros find project h0 h1 Hf t. unfold f_eval, f_get_weights, f_find_simplex.
  cbn [t t_grid t_dl t_hyper t_project t_params]. rewrite rect77. cbn [bind]. rewrite local5.
  cbn [dl_find split_cell]. rewrite Hf.
  change (1 + 35 * dl_nsimplex (split_cell (f_corners g77) find))%Z with 71%Z.
  change (dl_nsimplex (split_cell (f_corners g77) find)) with 2%Z.
  assert (S : simplices t 71 = Ok [41; 47; 48]%Z) by reflexivity.
  fold t. rewrite S. cbn [bind].
  change (py_nth [41; 47; 48]%Z 0) with (@Ok Z 41%Z). cbn [bind].
  rewrite (f_index_to_state_ok g77 res77) by (change (nindex g77) with 49%Z; lia). cbn [bind].
  change (py_nth [h0; h1] (71 mod 2)) with (Ok h1). cbn [bind fst snd].
  set (off := map2 _ _ _).
  change (mapM (py_nth hat40) [41; 47; 48]%Z) with (@Ok (list (list R)) [[0]; [0]; [0]]). cbn [bind].
  change (ndim g77) with 2%nat. cbn [seq map].
  change (output_dim t) with 1%nat. cbn [seq map map2 nth].
  rewrite !Rmult_0_r, !rnd_0. unfold f_sum at 1. cbn [fold_left]. rewrite !Rplus_0_l, !rnd_0.
  repeat (rewrite Rplus_0_l || rewrite rnd_0). reflexivity.
Qed.

(** *** Limits which are too far from the origin *)
Lemma far_unit : f_unit (18014398509481984, 18014398509481988) 5 = 1.
Proof.
  unfold f_unit. cbn [fst snd]. replace (18014398509481988 - 18014398509481984) with 4 by ring.
  change (5 - 1)%Z with 4%Z. rewrite (rnd_id 4) by (apply (f64_IZR 4); lia).
  replace (4 / 4) with 1 by field. apply rnd_id, f64_1.
Qed.
Lemma bp2 : bpow radix2 2 = 4.
Proof. reflexivity. Qed.
Lemma far_pt : rnd (rnd (1 * 1) + 18014398509481984) = 18014398509481984.
Proof.
  rewrite Rmult_1_l, (rnd_id 1 f64_1).
  rewrite (rnd_near 4503599627370496 2).
  - rewrite bp2. lra.
  - split; [ discriminate | reflexivity ].
  - lia.
  - rewrite bp2. change (2 ^ 52)%Z with 4503599627370496%Z. lra.
  - rewrite bp2. apply Rabs_def1; lra.
Qed.
Lemma far_collapse : f_index_to_state gfar 1 = Ok [18014398509481984] /\
  f_state_to_index gfar [18014398509481984] = Ok 0%Z.
Proof.
  split.
  - unfold f_index_to_state. change (np_unravel_index 1 (num_points gfar)) with (@Ok (list Z) [1%Z]).
    cbn [bind]. change (f_unit_maxes gfar) with [f_unit (18014398509481984, 18014398509481988) 5].
    change (offset gfar) with [18014398509481984]. cbn [map3]. rewrite far_unit, far_pt. reflexivity.
  - unfold f_state_to_index. change (check_dimensions gfar [18014398509481984]) with (Ok tt). cbn [bind].
    change (f_unit_maxes gfar) with [f_unit (18014398509481984, 18014398509481988) 5].
    change (offset gfar) with [18014398509481984].
    change (limits gfar) with [(18014398509481984, 18014398509481988)]. cbn [map2 map3 fst snd map].
    rewrite clipR_id by lra. rewrite Rminus_diag_eq by reflexivity. rewrite rnd_0, Rmult_0_l, rnd_0.
    rewrite (rint_IZR 0). reflexivity.
Qed.

(** *** 50 points on [0, 1]: the last one *)
Lemma unit50 : f_unit (0, 1) 50 = 5882252574524729 * / 288230376151711744.
Proof.
  unfold f_unit. cbn [fst snd]. rewrite Rminus_0_r. change (50 - 1)%Z with 49%Z.
  rewrite (rnd_id 1 f64_1).
  rewrite (rnd_near 5882252574524729 (-58)).
  - reflexivity.
  - split; [ discriminate | reflexivity ].
  - lia.
  - change (bpow radix2 (-58)) with (/ 288230376151711744). change (2 ^ 52)%Z with 4503599627370496%Z. lra.
  - change (bpow radix2 (-58)) with (/ 288230376151711744). apply Rabs_def1; lra.
Qed.
Lemma pt49 : ax_pt (0, 1) 50 49 = 9007199254740991 / 9007199254740992.
Proof.
  unfold ax_pt. rewrite unit50. cbn [fst].
  rewrite (rnd_near 9007199254740991 (-53) (49 * (5882252574524729 * / 288230376151711744))).
  - rewrite Rplus_0_r, rnd_id by (apply f64_F2R; [ reflexivity | lia ]). reflexivity.
  - split; [ discriminate | reflexivity ].
  - lia.
  - change (bpow radix2 (-53)) with (/ 9007199254740992). change (2 ^ 52)%Z with 4503599627370496%Z. lra.
  - change (bpow radix2 (-53)) with (/ 9007199254740992). apply Rabs_def1; lra.
Qed.
Lemma res50 : resolved (0, 1) 50.
Proof.
  unfold resolved. cbn [fst snd]. rewrite Rminus_0_r. change (50 - 1)%Z with 49%Z.
  split; [ lia | ]. split; [ apply (f64_IZR 0); lia | ]. split; [ apply f64_1 | ].
  assert (P : 2 ^ 2 <= 2 ^ 400) by (apply Rle_pow; [ lra | lia ]).
  split; [ split; lra | ]. rewrite Rabs_R0, Rabs_R1. lra.
Qed.
