(** C01-C07: GridWorld and PiecewiseConstant. *)
From Coq Require Import List ZArith Reals Lia Lra.
Import ListNotations.
From Verif Require Import Prelude NumModel NumProofs GridModel GridSpec SparseSpec GridProofs.

(** A concrete grid used by the examples: [0,1] x [-1,1] with 3 x 5 points. *)
Definition g35 : grid := Grid [(0, 1); (-1, 1)]%R [3; 5]%Z.
Example g35_valid : valid_grid g35.
Proof. unfold valid_grid, g35; simpl; repeat (apply Forall2_cons; [simpl; split; [lra|lia]|]); apply Forall2_nil. Qed.

(** ** C01 *)
Theorem C01_index_round_trip : forall (g : grid) (i : Z),
  valid_grid g ->
  ((0 <= i < product (npts g) (dims g))%Z ->
     exists s, index_to_state g i = Ok s /\ state_to_index g s = Ok i) /\
  (~ (0 <= i < product (npts g) (dims g))%Z -> index_to_state g i = Err ValueError).
Proof.
  intros g i V.
  assert (E : nindex g = product (npts g) (dims g)).
  { unfold nindex. rewrite (Forall_shape_prod _ 0%Z), (valid_len g V). reflexivity. }
  rewrite <- E. split; [exact (round_trip g V i)|exact (index_to_state_err g i)].
Qed.
Print Assumptions C01_index_round_trip.

Example C01_example :
  (exists s, index_to_state g35 7 = Ok s /\ state_to_index g35 s = Ok 7%Z) /\
  index_to_state g35 15 = Err ValueError /\ index_to_state g35 (-1) = Err ValueError.
Proof.
  split; [|split].
  - apply (proj1 (C01_index_round_trip g35 7 g35_valid)). cbv. split; congruence.
  - reflexivity.
  - reflexivity.
Qed.

(** ** C02 *)
Theorem C02_all_points_in_index_order : forall (g : grid), valid_grid g ->
  Z.of_nat (length (all_points g)) = product (npts g) (dims g) /\
  (forall i, (0 <= i < product (npts g) (dims g))%Z ->
     index_to_state g i = Ok (nth (Z.to_nat i) (all_points g) [])) /\
  NoDup (all_points g) /\
  (forall p, In p (all_points g) <-> is_vertex g p) /\
  (forall j x, (j < dims g)%nat ->
     (In x (nth j (discrete_points g) []) <->
      exists k : Z, (0 <= k < npts g j)%Z /\ x = (lower g j + IZR k * spacing g j)%R)).
Proof.
  intros g V.
  assert (E : nindex g = product (npts g) (dims g)).
  { unfold nindex. rewrite (Forall_shape_prod _ 0%Z), (valid_len g V). reflexivity. }
  rewrite <- E. split; [exact (all_points_length g V)|]. split; [exact (all_points_nth g V)|].
  split; [exact (all_points_NoDup g V)|]. split; [exact (all_points_In g V)|].
  intros j x Hj. rewrite (discrete_nth g V j Hj). apply linspace_In. apply (valid_axis g V j Hj).
Qed.
Print Assumptions C02_all_points_in_index_order.

Example C02_example : length (all_points g35) = 15%nat /\
  nth 7 (all_points g35) [] = [1 / 2; 0]%R.
Proof.
  destruct (C02_all_points_in_index_order g35 g35_valid) as (H & H' & _).
  change (product (npts g35) (dims g35)) with 15%Z in *. split; [lia|].
  specialize (H' 7%Z ltac:(lia)). change (Z.to_nat 7) with 7%nat in H'.
  assert (index_to_state g35 7 = Ok [1 / 2; 0]%R) as E.
  { cbn. vec_eq. }
  congruence.
Qed.

(** ** C03 *)
Theorem C03_nearest_grid_point : forall (g : grid) (s : list R), valid_grid g ->
  (length s = dims g ->
   exists i p, state_to_index g s = Ok i /\
     (0 <= i < product (npts g) (dims g))%Z /\ index_to_state g i = Ok p /\ is_vertex g p /\
     (forall q, is_vertex g q -> forall j, (j < dims g)%nat ->
        (Rabs (coordinate s j - coordinate p j) <= Rabs (coordinate s j - coordinate q j))%R) /\
     (forall j, (j < dims g)%nat -> (lower g j <= coordinate s j <= upper g j)%R ->
        (Rabs (coordinate s j - coordinate p j) <= spacing g j / 2)%R)) /\
  (length s <> dims g -> state_to_index g s = Err DimensionError).
Proof.
  intros g s V.
  assert (E : nindex g = product (npts g) (dims g)).
  { unfold nindex. rewrite (Forall_shape_prod _ 0%Z), (valid_len g V). reflexivity. }
  rewrite <- E. split; [exact (nearest g V s)|exact (state_to_index_err g s)].
Qed.
Print Assumptions C03_nearest_grid_point.

Example C03_example :
  state_to_index g35 [3 / 10; 1 / 10]%R = Ok 7%Z /\      (* interior *)
  state_to_index g35 [9; -9]%R = Ok 10%Z /\              (* outside: projected *)
  state_to_index g35 [1]%R = Err DimensionError.
Proof.
  split; [|split].
  - rewrite state_to_index_ok by (auto using g35_valid). f_equal. unfold rounded, unit_maxes, offset, g35; cbn -[rint].
    rewrite (rint_eq _ 1), (rint_eq _ 2); [reflexivity| |];
      unfold clipR, Rmin, Rmax; repeat destruct Rle_dec; try lra; unfold Rabs; destruct Rcase_abs; lra.
  - rewrite state_to_index_ok by (auto using g35_valid). f_equal. unfold rounded, unit_maxes, offset, g35; cbn -[rint].
    rewrite (rint_eq _ 2), (rint_eq _ 0); [reflexivity| |];
      unfold clipR, Rmin, Rmax; repeat destruct Rle_dec; try lra; unfold Rabs; destruct Rcase_abs; lra.
  - reflexivity.
Qed.

(** ** C04 *)
Theorem C04_containing_cell : forall (g : grid) (s : list R), valid_grid g -> length s = dims g ->
  exists r c, state_to_rectangle g s = Ok r /\
    (0 <= r < product (fun j => npts g j - 1) (dims g))%Z /\
    rectangle_to_state g r = Ok c /\ is_cell_corner g c /\
    forall j, (j < dims g)%nat ->
      ((lower g j <= coordinate s j < upper g j)%R ->
         (coordinate c j <= coordinate s j < coordinate c j + spacing g j)%R) /\
      ((coordinate s j < lower g j)%R -> coordinate c j = lower g j) /\
      ((upper g j <= coordinate s j)%R -> (coordinate c j + spacing g j = upper g j)%R).
Proof.
  intros g s V L. rewrite <- (nrectangles_product g V). exact (cell_lookup g s V L).
Qed.
Print Assumptions C04_containing_cell.

Example C04_example : exists r c,
  state_to_rectangle g35 [3 / 10; 1]%R = Ok r /\ rectangle_to_state g35 r = Ok c /\
  (coordinate c 0 <= 3 / 10 < coordinate c 0 + spacing g35 0)%R /\ (coordinate c 1 + spacing g35 1 = 1)%R.
Proof.
  destruct (C04_containing_cell g35 [3 / 10; 1]%R g35_valid eq_refl) as (r & c & H1 & _ & H2 & _ & H3).
  exists r, c. split; auto. split; auto. split.
  - apply (H3 0%nat); [cbv; lia|]. unfold lower, upper, coordinate; simpl; lra.
  - apply (H3 1%nat); [cbv; lia|]. unfold lower, upper, coordinate; simpl; lra.
Qed.

(** ** C05 *)
Theorem C05_rectangle_conversions_agree : forall (g : grid), valid_grid g ->
  (forall r, (0 <= r < product (fun j => npts g j - 1) (dims g))%Z ->
     exists c i, rectangle_to_state g r = Ok c /\ rectangle_corner_index g r = Ok i /\
       (0 <= i < product (npts g) (dims g))%Z /\ index_to_state g i = Ok c) /\
  (forall r, ~ (0 <= r < product (fun j => npts g j - 1) (dims g))%Z ->
     rectangle_to_state g r = Err ValueError /\ rectangle_corner_index g r = Err ValueError) /\
  (forall r c s, rectangle_to_state g r = Ok c -> length s = dims g ->
     (forall j, (j < dims g)%nat ->
        (coordinate c j <= coordinate s j < coordinate c j + spacing g j)%R) ->
     state_to_rectangle g s = Ok r) /\
  (forall r r' c, rectangle_to_state g r = Ok c -> rectangle_to_state g r' = Ok c -> r = r').
Proof.
  intros g V. rewrite <- (nrectangles_product g V), <- (nindex_product g V).
  split; [exact (fun r => rect_corner_agree g r V)|].
  split; [exact (rectangle_out_of_range g)|].
  split; [exact (fun r c s => rect_in_cell g r c s V)|exact (fun r r' c => rectangle_inj g r r' c V)].
Qed.
Print Assumptions C05_rectangle_conversions_agree.

Example C05_example : rectangle_corner_index g35 5 = Ok 6%Z /\
  (exists c, rectangle_to_state g35 5 = Ok c /\ index_to_state g35 6 = Ok c).
Proof. split; [reflexivity|]. eexists; split; reflexivity. Qed.

(** ** C06 *)


Theorem C06_construction : forall (lims : list (R * R)) (np : npoints_arg),
  (make_grid lims np = Err ValueError <-> ~ fits np (length lims)) /\
  (make_grid lims np = Err DimensionError <->
     fits np (length lims) /\ exists j, (j < length lims)%nat /\ (requested np (length lims) j < 2)%Z) /\
  (forall e, make_grid lims np = Err e -> e = ValueError \/ e = DimensionError) /\
  (forall g, make_grid lims np = Ok g ->
     limits g = lims /\ length (num_points g) = length lims /\
     (forall j, (j < length lims)%nat -> npts g j = requested np (length lims) j /\ (2 <= npts g j)%Z) /\
     nindex g = product (npts g) (length lims) /\
     nrectangles g = product (fun j => npts g j - 1)%Z (length lims) /\
     grid_len g = nindex g /\
     (forall j, (j < length lims)%nat ->
        (IZR (npts g j - 1) * nth j (unit_maxes g) 0%R = upper g j - lower g j)%R)).
Proof. exact construction. Qed.
Print Assumptions C06_construction.

Example C06_example :
  make_grid [(0, 1); (-1, 1)]%R (Vector [3; 5]%Z) = Ok g35 /\
  make_grid [(0, 1); (-1, 1)]%R (Scalar 1) = Err DimensionError /\
  make_grid [(0, 1); (-1, 1)]%R (Vector [3; 5; 7]%Z) = Err ValueError.
Proof. repeat split. Qed.

(** ** C07 *)
Theorem C07_piecewise_constant :
  forall (g : grid) (values : list (list R)) (f : pwc) (points : list (list R)),
  valid_grid g -> make_pwc g values = Ok f -> Forall (fun s => length s = dims g) points ->
  exists out B,
    pwc_eval f points = Ok out /\ length out = length points /\
    (* every output is the stored row of the nearest vertex *)
    (forall k, (k < length points)%nat -> exists i,
       state_to_index g (nth k points []) = Ok i /\ nth k out [] = nth (Z.to_nat i) values []) /\
    (* the parameter derivative reproduces the outputs and has a single 1 per row *)
    pwc_parameter_derivative f points = Ok B /\ coo_wf B /\
    coo_rows B = Z.of_nat (length points) /\ coo_cols B = nindex g /\
    (forall k o, (k < length points)%nat ->
       coo_dot B (column values o) (Z.of_nat k) = nth o (nth k out []) 0%R) /\
    (forall k i c, (k < length points)%nat -> state_to_index g (nth k points []) = Ok i ->
       coo_entry B (Z.of_nat k) c = if (c =? i)%Z then 1%R else 0%R) /\
    pwc_gradient f points = repeat (repeat 0%R (dims g)) (length points).
Proof. exact pwc_spec. Qed.
Print Assumptions C07_piecewise_constant.

Theorem C07_vertices_exact : forall (g : grid) (values : list (list R)) (f : pwc) i s,
  valid_grid g -> make_pwc g values = Ok f -> index_to_state g i = Ok s ->
  pwc_eval f [s] = Ok [nth (Z.to_nat i) values []].
Proof. exact pwc_vertex. Qed.
Print Assumptions C07_vertices_exact.

Example C07_example : exists f, make_pwc g35 (map (fun k => [INR k]) (seq 0 15)) = Ok f /\
  pwc_eval f [[1 / 2; 0]%R] = Ok [[7%R]].
Proof.
  eexists. split; [reflexivity|].
  rewrite (C07_vertices_exact g35 (map (fun k => [INR k]) (seq 0 15)) _ 7%Z); auto using g35_valid.
  - simpl. vec_eq.
  - cbn. vec_eq.
Qed.
