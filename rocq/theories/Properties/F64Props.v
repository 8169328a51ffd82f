(** C67, C68: grids and triangulations computed in double precision. *)
From Coq Require Import List ZArith Reals Lia Lra.
From Flocq Require Import Core.
From Verif Require Import Prelude NumModel NumProofs GridModel GridSpec GridProofs TriModel TriSpec
  F64Model F64Spec F64Facts F64Proofs F64Tri F64TriErr.
Import ListNotations.
Local Open Scope R_scope.

(** ** C67 *)
Theorem C67_double_precision_index_round_trip : forall (g : grid) (i : Z),
  resolved_grid g ->
  (0 <= i < product (npts g) (dims g))%Z ->
  exists s e, f_index_to_state g i = Ok s /\ index_to_state g i = Ok e /\
    length s = dims g /\
    (forall j, (j < dims g)%nat -> Rabs (coordinate s j - coordinate e j) <= / 128 * spacing g j) /\
    f_state_to_index g s = Ok i /\
    f_state_to_rectangle g s = state_to_rectangle g e.
Proof.
  intros g i R Hi. apply (f_round_trip g R).
  unfold nindex. rewrite (Forall_shape_prod _ 0%Z), (rg_len g R). exact Hi.
Qed.
Print Assumptions C67_double_precision_index_round_trip.

Theorem C67_double_precision_lookup : forall (g : grid) (x : list R),
  resolved_grid g -> length x = dims g ->
  (exists i e, f_state_to_index g x = Ok i /\ index_to_state g i = Ok e /\
     forall j, (j < dims g)%nat ->
       Rabs (clipR (coordinate x j) (lower g j) (upper g j) - coordinate e j)
         <= (1 / 2 + / 64) * spacing g j) /\
  (exists r c, f_state_to_rectangle g x = Ok r /\ rectangle_to_state g r = Ok c /\
     forall j, (j < dims g)%nat ->
       let p := clipR (coordinate x j) (lower g j) (upper g j) in
       coordinate c j - / 128 * spacing g j <= p <= coordinate c j + (1 + / 128) * spacing g j).
Proof. intros g x R L. split; [ exact (f_lookup g R x L) | exact (f_cell_lookup g R x L) ]. Qed.
Print Assumptions C67_double_precision_lookup.

Theorem C67_far_from_origin_refuted :
  valid_grid gfar /\
  exists s, f_index_to_state gfar 1 = Ok s /\ f_state_to_index gfar s = Ok 0%Z.
Proof.
  split.
  - unfold valid_grid, gfar. constructor; [ split; [ cbn; lra | lia ] | constructor ].
  - eexists. exact far_collapse.
Qed.
Print Assumptions C67_far_from_origin_refuted.

Example C67_ex : resolved_grid g77 /\
  (exists s, f_index_to_state g77 40 = Ok s /\ f_state_to_index g77 s = Ok 40%Z /\
     nth 0 s 0 = 3002399751580330 / 4503599627370496) /\
  3002399751580330 / 4503599627370496 <> lower g77 0 + 5 * spacing g77 0.
Proof.
  split; [ exact res77 | ]. split.
  - exists [ax_pt ax7 7 5; ax_pt ax7 7 5]. split; [ exact state77 | ].
    split; [ apply (idx77 5 5); lia | ]. cbn [nth]. rewrite pt5. reflexivity.
  - unfold lower, spacing, upper, npts, g77. cbn [limits num_points nth fst snd].
    change (lower g77 0) with (-1). replace (7 - 1)%Z with 6%Z by reflexivity. unfold lower. cbn. lra.
Qed.

(** ** C68 *)
Theorem C68_one_dimension_exact : forall dl inv (g : grid) values project t (k : Z) s,
  resolved_grid g -> dims g = 1%nat ->
  f_make_tri dl inv g values project = Ok t ->
  (forall row, In row values -> length row = output_dim t /\ Forall is_f64 row) ->
  (0 <= k < npts g 0 - 1)%Z ->
  f_index_to_state g k = Ok s ->
  f_eval t s = Ok (nth (Z.to_nat k) values []).
Proof.
  intros dl inv [ ls ns ] values project t k s R D1 E Hv Hk Es.
  unfold dims in D1. unfold resolved_grid in R. cbn [limits num_points] in *.
  destruct ls as [ | l [ | ? ? ] ]; try discriminate.
  inversion R as [ | ? n ? ns' Hr R' ]; subst. inversion R'; subst.
  exact (od_eval l n Hr dl inv values project t k s E Hv Hk Es).
Qed.
Print Assumptions C68_one_dimension_exact.

(** Between the grid points the error is that of the coordinates, in units of the
    spacing, times the largest value. *)
Theorem C68_one_dimension_accuracy : forall dl inv (g : grid) values (m : nat) project (B : R),
  resolved_grid g -> dims g = 1%nat ->
  Z.of_nat (length values) = npts g 0 ->
  (forall row, In row values -> length row = m /\ Forall (fun v => Rabs v <= B) row) ->
  / 2 ^ 400 <= B ->
  (forall a, a <> 0 -> exists b, inv [[a]] = Ok [[b]] /\ Rabs (b * a - 1) <= / 2 ^ 50) ->
  exists t, f_make_tri dl inv g values project = Ok t /\
  forall x, lower g 0 <= x <= upper g 0 ->
  exists out, f_eval t [x] = Ok out /\ length out = m /\
  forall o k, (o < m)%nat -> (0 <= k <= npts g 0 - 2)%Z ->
    lower g 0 + IZR k * spacing g 0 <= x <= lower g 0 + IZR (k + 1) * spacing g 0 ->
    let s := (x - (lower g 0 + IZR k * spacing g 0)) / spacing g 0 in
    Rabs (coordinate out o - ((1 - s) * value_at values o k + s * value_at values o (k + 1)))
      <= / 2 ^ 43 * (Rmax (Rabs (lower g 0)) (Rabs (upper g 0)) / spacing g 0) * B.
Proof.
  intros dl inv [ ls ns ] values m project B R D1 LV HV HB HI.
  unfold dims in D1. unfold resolved_grid in R. cbn [limits num_points] in *.
  destruct ls as [ | l [ | ? ? ] ]; try discriminate.
  inversion R as [ | ? n ? ns' Hr R' ]; subst. inversion R'; subst.
  exact (acc_eval l n Hr dl inv values m project B LV HV HB HI).
Qed.
Print Assumptions C68_one_dimension_accuracy.

Theorem C68_two_dimensions_refuted : forall dl inv find project,
  let u := f_unit (-1, 1) 7 in
  dl (f_corners g77) = split_cell (f_corners g77) find ->
  (forall x y, 0 <= x <= u -> 0 <= y <= u -> u < x + y -> find [x; y] = 1%Z) ->
  (forall A, exists B, inv A = Ok B) ->
  exists t s, f_make_tri dl inv g77 hat40 project = Ok t /\
    f_index_to_state g77 40 = Ok s /\ nth 40 hat40 [] = [1] /\
    f_eval t s = Ok [0].
Proof.
  intros dl inv find project u Hd Hf Hi.
  destruct (tri77 dl inv find project Hd Hi) as (h0 & h1 & E).
  eexists _, _. split; [ exact E | ]. split; [ exact state77 | ]. split; [ reflexivity | ].
  apply eval77. pose proof unit7 as U7. change (f_unit ax7 7) with u in U7.
  apply Hf; rewrite U7; unfold loc5; lra.
Qed.
Print Assumptions C68_two_dimensions_refuted.

Definition dl77 (points : list (list R)) : delaunay :=
  split_cell points (fun p => if Rlt_dec (f_unit (-1, 1) 7) (nth 0 p 0 + nth 1 p 0) then 1%Z else 0%Z).
Example C68_ex : exists t s,
  f_make_tri dl77 (fun A => Ok A) g77 hat40 true = Ok t /\
  f_index_to_state g77 40 = Ok s /\ f_eval t s = Ok [0].
Proof.
  destruct (C68_two_dimensions_refuted dl77 (fun A => Ok A)
    (fun p => if Rlt_dec (f_unit (-1, 1) 7) (nth 0 p 0 + nth 1 p 0) then 1%Z else 0%Z) true)
    as (t & s & A & B & _ & C); [ reflexivity | | | ].
  - intros x y _ _ H. cbn [nth]. destruct Rlt_dec; [ reflexivity | lra ].
  - intros A. exists A. reflexivity.
  - exists t, s. auto.
Qed.

(** Seven points on [-1, 1]: the hypotheses of the one-dimensional theorem hold. *)
Example C68_one_dimension_ex : exists t s,
  f_make_tri dl77 (fun A => Ok A) (Grid [(-1, 1)] [7%Z]) [[3]; [1]; [4]; [1]; [5]; [9]; [2]] false = Ok t /\
  f_index_to_state (Grid [(-1, 1)] [7%Z]) 5 = Ok s /\ f_eval t s = Ok [9].
Proof.
  set (g := Grid [(-1, 1)] [7%Z]).
  assert (R : resolved_grid g) by (constructor; [ exact res7 | constructor ]).
  assert (E : exists t, f_make_tri dl77 (fun A => Ok A) g [[3]; [1]; [4]; [1]; [5]; [9]; [2]] false = Ok t).
  { unfold f_make_tri. change (Z.of_nat _ =? nindex g)%Z with true. cbv iota.
    cbn [limits g]. change (Grid [(-1, 1)] [7%Z]) with g.
    change (f_corners g) with [[0]; [f_unit ax7 7]].
    unfold delaunay1d. cbn [existsb length Nat.ltb Nat.leb orb bind].
    unfold f_simplex_indices. cbn [dl_points dl_simplices mapM].
    change (offset g) with [fst ax7]. cbn [map2]. rewrite (od_pt0 ax7 7), (od_pt1 ax7 7).
    change g with (Grid [ax7] [7%Z]).
    rewrite !(od_index ax7 7 res7) by lia. cbn [bind map nth mapM].
    unfold f_hyperplane. cbn [mapM]. rewrite !(od_state ax7 7 res7) by lia. cbn [bind]. eexists. reflexivity. }
  destruct E as (t & E). exists t, [ax_pt ax7 7 5]. split; [ exact E | ].
  assert (Es : f_index_to_state g 5 = Ok [ax_pt ax7 7 5]) by (apply (od_state ax7 7 res7); lia).
  split; [ exact Es | ].
  refine (C68_one_dimension_exact _ _ _ _ _ _ 5 _ R eq_refl E _ _ Es).
  - assert (O : output_dim t = 1%nat).
    { unfold f_make_tri in E. destruct (_ =? _)%Z in E; [ | discriminate ].
      cbn [limits g] in E. destruct (delaunay1d _) in E; [ | discriminate ]. cbn [bind] in E.
      destruct (f_simplex_indices _ _) in E; [ | discriminate ]. cbn [bind] in E.
      destruct (mapM _ _) in E; [ | discriminate ]. cbn [bind] in E. injection E as <-. reflexivity. }
    rewrite O. intros row [ <- | [ <- | [ <- | [ <- | [ <- | [ <- | [ <- | [] ] ] ] ] ] ] ];
      (split; [ reflexivity | constructor; [ apply f64_IZR; lia | constructor ] ]).
  - cbn. lia.
Qed.

(** On this grid a quarter of the way between the points 1 and 2: the value is
    7/4 (3/4 of 1 plus 1/4 of 4) up to 2^-38. *)
Example C68_accuracy_ex : exists t out,
  f_make_tri dl77 (fun A => Ok [[/ nth 0 (nth 0 A []) 0]]) (Grid [(-1, 1)] [7%Z]) [[3]; [1]; [4]; [1]; [5]; [9]; [2]] true = Ok t /\
  f_eval t [- 7 / 12] = Ok out /\ Rabs (coordinate out 0 - 7 / 4) <= / 2 ^ 38.
Proof.
  set (g := Grid [(-1, 1)] [7%Z]).
  assert (R : resolved_grid g) by (constructor; [ exact res7 | constructor ]).
  destruct (C68_one_dimension_accuracy dl77 (fun A => Ok [[/ nth 0 (nth 0 A []) 0]]) g
    [[3]; [1]; [4]; [1]; [5]; [9]; [2]] 1 true 9 R eq_refl eq_refl) as (t & E & H).
  - intros row [ <- | [ <- | [ <- | [ <- | [ <- | [ <- | [ <- | [] ] ] ] ] ] ] ];
      (split; [ reflexivity | apply Forall_cons; [ apply Rabs_le; lra | apply Forall_nil ] ]).
  - apply Rle_trans with (/ 1); [ | lra ]. apply Rinv_le_contravar; [ lra | ]. apply pow_R1_Rle. lra.
  - intros a Ha. exists (/ a). split; [ reflexivity | ].
    rewrite Rinv_l by exact Ha. rewrite Rminus_diag_eq by reflexivity. rewrite Rabs_R0.
    left. apply Rinv_0_lt_compat. lra.
  - assert (LO : lower g 0 = -1) by reflexivity. assert (UP : upper g 0 = 1) by reflexivity.
    assert (SP : spacing g 0 = 1 / 3) by (unfold spacing; rewrite LO, UP; cbn; lra).
    rewrite LO, UP, SP in H. destruct (H (- 7 / 12)) as (out & Eo & _ & Ho); [ lra | ].
    exists t, out. split; [ exact E | ]. split; [ exact Eo | ].
    specialize (Ho 0%nat 1%Z ltac:(lia)). change (npts g 0) with 7%Z in Ho.
    specialize (Ho ltac:(lia) ltac:(simpl; lra)). cbv zeta in Ho.
    change (value_at [[3]; [1]; [4]; [1]; [5]; [9]; [2]] 0 1) with 1 in Ho.
    change (value_at [[3]; [1]; [4]; [1]; [5]; [9]; [2]] 0 (1 + 1)) with 4 in Ho.
    rewrite (Rabs_left (-1)), (Rabs_right 1), Rmax_left in Ho by lra.
    replace ((1 - (- 7 / 12 - (-1 + 1 * (1 / 3))) / (1 / 3)) * 1 + (- 7 / 12 - (-1 + 1 * (1 / 3))) / (1 / 3) * 4)
      with (7 / 4) in Ho by field.
    eapply Rle_trans; [ exact Ho | ]. lra.
Qed.

(** ** C69 *)
Theorem C69_points_listed_and_indexed : forall (g : grid) (i : Z),
  resolved_grid g ->
  (0 <= i < product (npts g) (dims g))%Z ->
  exists s, f_index_to_state g i = Ok s /\
    let p := nth (Z.to_nat i) (f_all_points g) [] in
    length p = dims g /\
    (forall j, (j < dims g)%nat ->
       coordinate p j = coordinate s j \/
       (coordinate p j = upper g j /\ Rabs (coordinate s j - upper g j) <= / 128 * spacing g j)) /\
    f_state_to_index g p = Ok i.
Proof.
  intros g i R Hi. apply (f_points_by_index g R).
  unfold nindex. rewrite (Forall_shape_prod _ 0%Z), (rg_len g R). exact Hi.
Qed.
Print Assumptions C69_points_listed_and_indexed.

Definition g50 : grid := Grid [(0, 1)] [50%Z].
Theorem C69_equal_refuted :
  resolved_grid g50 /\
  exists s, f_index_to_state g50 49 = Ok s /\ s <> nth 49 (f_all_points g50) [] /\
    nth 49 (f_all_points g50) [] = [1] /\ s = [9007199254740991 / 9007199254740992].
Proof.
  assert (R : resolved_grid g50) by (constructor; [ exact res50 | constructor ]).
  split; [ exact R | ].
  assert (P : nth 49 (f_all_points g50) [] = [1]).
  { change 49%nat with (Z.to_nat 49) at 1. rewrite (f_all_points_nth g50 R 49) by (change (nindex g50) with 50%Z; lia).
    change (unravel 49 (num_points g50)) with [49%Z]. unfold f_listed.
    change (map2 f_linspace (limits g50) (num_points g50)) with [f_linspace (0, 1) 50]. cbn [map2].
    rewrite f_linspace_nth by lia. reflexivity. }
  exists [ax_pt (0, 1) 50 49]. split; [ apply (od_state (0, 1) 50 res50); lia | ].
  rewrite P, pt49. split; [ | auto ]. intros H. injection H. lra.
Qed.
Print Assumptions C69_equal_refuted.
