(** C98: the pictures of the examples. *)
From Coq Require Import List ZArith Reals Permutation Sorted Lia Lra Bool.
Import ListNotations.
From Verif Require Import Prelude NumModel NumProofs GridModel GridSpec GridProofs PictureModel PictureSpec PictureProofs.
Open Scope R_scope.

Local Ltac plane g V D :=
  let a := fresh "a" in let b := fresh "b" in let c := fresh "c" in let d := fresh "d" in
  destruct (plane_shape g V D) as (a & b & c & d & n0 & n1 & El & En & Hab & Hcd & H0 & H1);
  destruct g as [ls ns]; simpl in El, En; subst ls ns.

(** The heat maps and safe-set pictures of the notebooks show every state of
    a two-dimensional grid with its own value; values of another number raise
    ValueError. *)
Theorem C98_images : forall A (d : A) g s0 s1 (values : list A),
  valid_grid g -> dims g = 2%nat -> 0 < s0 -> 0 < s1 ->
  (length values = length (all_points g) ->
     exists picture, show_values d g s0 s1 values = Ok picture /\ shows_states g s0 s1 values picture) /\
  (length values <> length (all_points g) -> show_values d g s0 s1 values = Err ValueError).
Proof.
  intros A d g s0 s1 values V D S0 S1. pose proof V as V'. plane g V' D.
  destruct (plane_points a b c d0 n0 n1 Hab Hcd H0 H1) as (_ & L & _). rewrite L. split.
  - intros Lv. apply show_values_ok; auto.
  - intros Lv. unfold show_values, reshape. cbn [num_points].
    replace (Z.of_nat (length values) =? Z.of_nat n0 * Z.of_nat n1)%Z with false; [reflexivity|].
    symmetry. apply Z.eqb_neq. lia.
Qed.

(** The picture of [plot_triangulation] shows the same. *)
Theorem C98_triangulation_image : forall A (d : A) g (values : list A),
  valid_grid g -> dims g = 2%nat -> length values = length (all_points g) ->
  exists picture, show_triangulation d g values = Ok picture /\ shows_states g 1 1 values picture.
Proof.
  intros A d g values V D. pose proof V as V'. plane g V' D.
  destruct (plane_points a b c d0 n0 n1 Hab Hcd H0 H1) as (_ & L & _). rewrite L. intros Lv.
  apply show_triangulation_ok; auto.
Qed.

(** Such a picture determines the values: two lists of values shown by one
    picture are equal. *)
Theorem C98_picture_determines_values : forall A g s0 s1 (values values' : list A) picture,
  length values = length (all_points g) -> length values' = length (all_points g) ->
  shows_states g s0 s1 values picture -> shows_states g s0 s1 values' picture ->
  values = values'.
Proof.
  intros A g s0 s1 values values' picture L L' (cs & Lc & P & C) (cs' & Lc' & P' & C').
  destruct (all_points g) as [|p pts] eqn:Ep.
  { destruct values, values'; simpl in *; try discriminate. reflexivity. }
  rewrite <- Ep in *. assert (N : (0 < length (all_points g))%nat) by (rewrite Ep; simpl; lia).
  destruct values as [|d0 vs] eqn:Ev; [simpl in L; lia|]. rewrite <- Ev in *.
  apply (nth_ext _ _ d0 d0); [lia|]. intros k Hk.
  set (c0 := Rect 0 0 0 0) in *.
  assert (I : In (nth k cs c0, nth k values d0) (combine cs' values')).
  { apply (Permutation_in (l := picture)); auto. apply (Permutation_in (l := combine cs values)).
    - now apply Permutation_sym.
    - rewrite <- combine_nth by lia. apply nth_In. rewrite combine_length. lia. }
  destruct (In_nth _ _ (c0, d0) I) as (k' & Hk' & E). rewrite combine_length in Hk'.
  rewrite combine_nth in E by lia. injection E as E1 E2.
  assert (K : covers (nth k cs c0) (s0 * coordinate (nth k (all_points g) []) 0)
                (s1 * coordinate (nth k (all_points g) []) 1)) by (apply C; lia).
  rewrite <- E1 in K. apply C' in K; try lia. subst k'. now symmetry.
Qed.

(** The picture of a saturated policy (basic_dynamic_programming.ipynb plots
    [Saturation(Triangulation(...), -1, 1)]) shows the parameters, not the
    actions: it shows the actions exactly when no parameter is saturated. *)
Theorem C98_saturated_policy : forall g params picture,
  valid_grid g -> dims g = 2%nat -> length params = length (all_points g) ->
  show_triangulation 0 g params = Ok picture ->
  (shows_states g 1 1 (map (fun u => Rmin (Rmax u (-1)) 1) params) picture <->
   Forall (fun u => -1 <= u <= 1) params).
Proof.
  intros g params picture V D L E.
  destruct (C98_triangulation_image R 0 g params V D L) as (pic & E' & Sh). rewrite E in E'. injection E' as <-.
  assert (Clip : forall u, Rmin (Rmax u (-1)) 1 = u <-> -1 <= u <= 1).
  { intros u. unfold Rmin, Rmax. destruct (Rle_dec u (-1)); destruct Rle_dec; split; lra. }
  split.
  - intros S2. assert (Eq : params = map (fun u => Rmin (Rmax u (-1)) 1) params).
    { apply (C98_picture_determines_values R g 1 1 _ _ picture); auto. now rewrite map_length. }
    rewrite Forall_forall. intros u Hu. apply Clip.
    destruct (In_nth _ _ 0 Hu) as (k & Hk & <-). rewrite Eq at 2.
    rewrite (nth_indep (map _ params) 0 (Rmin (Rmax 0 (-1)) 1)) by (now rewrite map_length).
    now rewrite (map_nth (fun u => Rmin (Rmax u (-1)) 1)).
  - intros F. replace (map (fun u => Rmin (Rmax u (-1)) 1) params) with params; auto.
    clear -F Clip. induction F; simpl; auto. rewrite <- IHF. f_equal. symmetry. now apply Clip.
Qed.

(** Surfaces: on a grid with equally many points per axis the value of the
    state in row [i] and column [j] is drawn over the state in row [j] and
    column [i]; with different numbers of points nothing is drawn. *)
Theorem C98_surfaces : forall g s0 s1 values,
  valid_grid g -> dims g = 2%nat -> length values = length (all_points g) ->
  (npts g 0 <> npts g 1 -> show_surface g s0 s1 values = Err ValueError) /\
  (forall n, npts g 0 = Z.of_nat n -> npts g 1 = Z.of_nat n ->
     exists vertices, show_surface g s0 s1 values = Ok vertices /\ length vertices = (n * n)%nat /\
     forall i j, (i < n)%nat -> (j < n)%nat -> forall dv,
       nth (i * n + j) vertices dv =
       (s0 * coordinate (nth (j * n + i) (all_points g) []) 0,
        s1 * coordinate (nth (j * n + i) (all_points g) []) 1,
        nth (i * n + j) values 0)).
Proof.
  intros g s0 s1 values V D. pose proof V as V'. plane g V' D.
  destruct (plane_points a b c d n0 n1 Hab Hcd H0 H1) as (_ & L & _). rewrite L. intros Lv.
  unfold npts; cbn [nth num_points]. split.
  - intros Hn. apply show_surface_err; auto.
  - intros n E0 E1. apply Nat2Z.inj in E0, E1. subst n0 n1. apply show_surface_ok; auto.
Qed.

(** So the surface is the graph of the plotted function exactly when the
    function takes the same value at mirrored grid points. *)
Theorem C98_surface_graph : forall g s0 s1 f n vertices,
  valid_grid g -> dims g = 2%nat -> npts g 0 = Z.of_nat n -> npts g 1 = Z.of_nat n -> s0 <> 0 -> s1 <> 0 ->
  show_surface g s0 s1 (map (fun p => f (coordinate p 0) (coordinate p 1)) (all_points g)) = Ok vertices ->
  (graph_of f s0 s1 vertices <->
   forall i j, (i < n)%nat -> (j < n)%nat ->
     f (lower g 0 + INR i * spacing g 0) (lower g 1 + INR j * spacing g 1) =
     f (lower g 0 + INR j * spacing g 0) (lower g 1 + INR i * spacing g 1)).
Proof.
  intros g s0 s1 f n vertices V D. pose proof V as V'. plane g V' D.
  unfold npts, lower, spacing, upper, npts; cbn [nth num_points limits fst snd].
  intros E0 E1 S0 S1 E. apply Nat2Z.inj in E0, E1. subst n0 n1.
  pose proof (surface_graph a b c d s0 s1 n f vertices Hab Hcd H0 S0 S1 E) as G.
  replace (IZR (Z.of_nat n - 1)) with (INR (n - 1)) by (rewrite INR_IZR_INZ; f_equal; lia). exact G.
Qed.

(** The slices through the pivot state of the cart-pole: exactly the grid
    points with the pivot's angle and angular velocity (or position and
    velocity), in the order the reshaped picture needs. *)
Theorem C98_slices : forall g p0 p1 q0 q1 pivot,
  valid_grid g -> dims g = 4%nat ->
  (p0 = 1 /\ p1 = 3 /\ q0 = 0 /\ q1 = 2 \/ p0 = 0 /\ p1 = 2 /\ q0 = 1 /\ q1 = 3)%nat ->
  In (nth p0 pivot 0) (nth p0 (discrete_points g) []) ->
  In (nth p1 pivot 0) (nth p1 (discrete_points g) []) ->
  let n0 := Z.to_nat (npts g q0) in let n1 := Z.to_nat (npts g q1) in
  length (grid_slice g p0 p1 pivot) = (n0 * n1)%nat /\
  (forall x, In x (grid_slice g p0 p1 pivot) <->
     is_vertex g x /\ coordinate x p0 = coordinate pivot p0 /\ coordinate x p1 = coordinate pivot p1) /\
  forall i j, (i < n0)%nat -> (j < n1)%nat ->
    let x := nth (i * n1 + j) (grid_slice g p0 p1 pivot) [] in
    coordinate x q0 = lower g q0 + INR i * spacing g q0 /\
    coordinate x q1 = lower g q1 + INR j * spacing g q1.
Proof.
  intros g p0 p1 q0 q1 pivot V D H I0 I1 n0 n1.
  destruct (grid_slice_plane g p0 p1 q0 q1 pivot V D H I0 I1) as [L N]. split; [exact L|]. split.
  - intros x. unfold grid_slice. rewrite filter_In, (all_points_In g V), andb_true_iff, !Reqb_eq. reflexivity.
  - intros i j Hi Hj x. destruct (N i j Hi Hj) as (_ & _ & _ & A & B). auto.
Qed.

(** Comparison of two regions of attraction.  When some state lies in both
    and some in none, red means "in both" and green "in exactly one". *)
Theorem C98_roa_colours : forall roa new_roa,
  length roa = length new_roa ->
  (exists k, (k < length roa)%nat /\ nth k roa false = true /\ nth k new_roa false = true) ->
  (exists k, (k < length roa)%nat /\ nth k roa false = false /\ nth k new_roa false = false) ->
  length (roa_colours roa new_roa) = length roa /\
  (forall k, (k < length roa)%nat ->
     nth k (roa_colours roa new_roa) Transparent =
     match nth k roa false, nth k new_roa false with
     | true, true => Red
     | false, false => Transparent
     | _, _ => Green
     end) /\
  ((forall k, (k < length roa)%nat ->
      nth k (roa_colours roa new_roa) Transparent = legend (nth k roa false) (nth k new_roa false)) <->
   (forall k, (k < length roa)%nat -> nth k new_roa false = true -> nth k roa false = true)).
Proof.
  intros roa new L (k2 & K2 & A2 & B2) (k0 & K0 & A0 & B0).
  assert (Lo : list_min (roa_sum roa new) = 0%Z).
  { apply list_min_at; [apply roa_sum_In; auto; exists k0; rewrite A0, B0; auto|].
    intros x Hx. apply roa_sum_In in Hx as (k & Hk & ->); auto.
    destruct (nth k roa false), (nth k new false); simpl; lia. }
  assert (Hi : list_max (roa_sum roa new) = 2%Z).
  { apply list_max_at; [apply roa_sum_In; auto; exists k2; rewrite A2, B2; auto|].
    intros x Hx. apply roa_sum_In in Hx as (k & Hk & ->); auto.
    destruct (nth k roa false), (nth k new false); simpl; lia. }
  assert (C : forall k, (k < length roa)%nat ->
     nth k (roa_colours roa new) Transparent =
     match nth k roa false, nth k new false with
     | true, true => Red | false, false => Transparent | _, _ => Green end).
  { intros k Hk. rewrite (roa_colour_nth roa new k 0 2) by auto.
    destruct (nth k roa false), (nth k new false); reflexivity. }
  split; [now apply roa_colours_length|]. split; [exact C|]. split.
  - intros G k Hk Hn. specialize (G k Hk). rewrite C, Hn in G by auto. unfold legend in G.
    destruct (nth k roa false); [auto|discriminate].
  - intros G k Hk. rewrite C by auto. specialize (G k Hk). unfold legend.
    destruct (nth k roa false), (nth k new false); auto. discriminate G; auto.
Qed.

(** When the two regions have no common state, everything is drawn red; when
    they cover the grid together, the states of exactly one are not drawn. *)
Theorem C98_roa_colours_scaled : forall roa new_roa,
  length roa = length new_roa ->
  ((forall k, (k < length roa)%nat -> nth k roa false = true -> nth k new_roa false = false) ->
   (exists k, (k < length roa)%nat /\ nth k roa false = false /\ nth k new_roa false = false) ->
   forall k, (k < length roa)%nat ->
     nth k (roa_colours roa new_roa) Transparent =
     if nth k roa false || nth k new_roa false then Red else Transparent) /\
  ((forall k, (k < length roa)%nat -> nth k roa false = false -> nth k new_roa false = true) ->
   (exists k, (k < length roa)%nat /\ nth k roa false <> nth k new_roa false) ->
   forall k, (k < length roa)%nat ->
     nth k (roa_colours roa new_roa) Transparent =
     if nth k roa false && nth k new_roa false then Red else Transparent).
Proof.
  intros roa new L. split.
  - intros Dis (k0 & K0 & A0 & B0) k Hk.
    assert (Lo : list_min (roa_sum roa new) = 0%Z).
    { apply list_min_at; [apply roa_sum_In; auto; exists k0; rewrite A0, B0; auto|].
      intros x Hx. apply roa_sum_In in Hx as (k' & Hk' & ->); auto.
      destruct (nth k' roa false), (nth k' new false); simpl; lia. }
    destruct (existsb (fun b => b) roa || existsb (fun b => b) new) eqn:Ex.
    + assert (Hi : list_max (roa_sum roa new) = 1%Z).
      { apply list_max_at.
        - apply roa_sum_In; auto. apply orb_true_iff in Ex as [Ex|Ex];
            apply existsb_exists in Ex as (x & Hx & E); subst x;
            destruct (In_nth _ _ false Hx) as (k1 & K1 & N1).
          + exists k1. split; auto. rewrite N1, (Dis k1 K1 N1). reflexivity.
          + exists k1. split; [lia|]. rewrite N1. destruct (nth k1 roa false) eqn:N2; [|reflexivity].
            rewrite (Dis k1 ltac:(lia) N2) in N1. discriminate.
        - intros x Hx. apply roa_sum_In in Hx as (k' & Hk' & ->); auto. specialize (Dis k' Hk').
          destruct (nth k' roa false), (nth k' new false); simpl; try lia; discriminate Dis; auto. }
      rewrite (roa_colour_nth roa new k 0 1) by auto. specialize (Dis k Hk).
      destruct (nth k roa false), (nth k new false); try reflexivity; discriminate Dis; auto.
    + apply orb_false_iff in Ex as [E1 E2].
      assert (F : forall l k, existsb (fun b : bool => b) l = false -> nth k l false = false).
      { clear. intros l k E. destruct (nth k l false) eqn:N; auto.
        destruct (Nat.lt_ge_cases k (length l)) as [H|H]; [|rewrite nth_overflow in N by auto; discriminate].
        assert (existsb (fun b => b) l = true); [|congruence].
        apply existsb_exists. exists true. split; auto. rewrite <- N. now apply nth_In. }
      assert (Hi : list_max (roa_sum roa new) = 0%Z).
      { apply list_max_at; [apply roa_sum_In; auto; exists k0; rewrite A0, B0; auto|].
        intros x Hx. apply roa_sum_In in Hx as (k' & Hk' & ->); auto. rewrite !F by auto. simpl; lia. }
      rewrite (roa_colour_nth roa new k 0 0) by auto. rewrite !F by auto. reflexivity.
  - intros Cov (k1 & K1 & N1) k Hk.
    assert (Lo : list_min (roa_sum roa new) = 1%Z).
    { apply list_min_at; [apply roa_sum_In; auto; exists k1; split; auto;
        destruct (nth k1 roa false), (nth k1 new false); auto; congruence|].
      intros x Hx. apply roa_sum_In in Hx as (k' & Hk' & ->); auto. specialize (Cov k' Hk').
      destruct (nth k' roa false), (nth k' new false); simpl; try lia; discriminate Cov; auto. }
    assert (Hi : list_max (roa_sum roa new) = 1%Z \/ list_max (roa_sum roa new) = 2%Z).
    { assert (Ln : length (roa_sum roa new) = length roa) by now apply roa_sum_length.
      assert (I : In (list_max (roa_sum roa new)) (roa_sum roa new)).
      { unfold list_max. apply fold_max_spec. destruct (roa_sum roa new); [simpl in Ln; lia|now left]. }
      apply roa_sum_In in I as (k' & Hk' & E'); auto. rewrite E'. specialize (Cov k' Hk').
      destruct (nth k' roa false), (nth k' new false); simpl; auto. discriminate Cov; auto. }
    specialize (Cov k Hk). destruct Hi as [Hi|Hi].
    + rewrite (roa_colour_nth roa new k 1 1) by auto.
      assert (Nb : nth k roa false && nth k new false = false).
      { destruct (nth k roa false) eqn:N2; [|reflexivity]. destruct (nth k new false) eqn:N3; [|reflexivity].
        exfalso. assert (I : In 2%Z (roa_sum roa new)) by (apply roa_sum_In; auto; exists k; rewrite N2, N3; auto).
        assert (2 <= list_max (roa_sum roa new))%Z; [|lia].
        unfold list_max. apply fold_max_spec; auto. destruct (roa_sum roa new); [easy|now left]. }
      rewrite Nb. reflexivity.
    + rewrite (roa_colour_nth roa new k 1 2) by auto.
      destruct (nth k roa false), (nth k new false); try reflexivity; discriminate Cov; auto.
Qed.

(** The sub-sampled states: both grid indices are multiples of the skip; at
    least [n_traj] rows; no sub-sampling of a grid with fewer rows. *)
Theorem C98_subsample : forall n0 n1 n_traj,
  (0 < n_traj)%nat ->
  ((n0 < n_traj)%nat -> sub_idx n0 n1 n_traj = Err ValueError) /\
  ((n_traj <= n0)%nat -> exists idx, sub_idx n0 n1 n_traj = Ok idx /\
     (forall i j, (j < n1)%nat -> (In (i * n1 + j)%nat idx <->
        (i < n0 /\ i mod (n0 / n_traj) = 0 /\ j mod (n0 / n_traj) = 0)%nat)) /\
     (forall k, In k idx -> (k < n0 * n1)%nat) /\
     exists rows cols, length idx = (rows * cols)%nat /\ (n_traj <= rows)%nat /\
       rows = ((n0 + n0 / n_traj - 1) / (n0 / n_traj))%nat /\
       cols = ((n1 + n0 / n_traj - 1) / (n0 / n_traj))%nat).
Proof.
  intros n0 n1 N HN. unfold sub_idx. split.
  - intros H. now rewrite Nat.div_small.
  - intros H. assert (Hs : (0 < n0 / N)%nat) by (apply Nat.div_str_pos; lia).
    set (s := (n0 / N)%nat) in *. destruct (Nat.eqb_spec s 0) as [E|_]; [lia|].
    eexists; split; [reflexivity|]. split; [|split].
    + intros i j Hj. rewrite in_flat_map. split.
      * intros (i' & Hi' & Hm). apply in_map_iff in Hm as (j' & E & Hj').
        apply every_In in Hi', Hj'; auto. destruct Hi' as [Hi' Mi], Hj' as [Hj' Mj].
        apply index_inj in E as [-> ->]; auto.
      * intros (Hi & Mi & Mj). exists i. split; [now apply every_In|].
        apply in_map_iff. exists j. split; auto. now apply every_In.
    + intros k Hk. apply in_flat_map in Hk as (i & Hi & Hm). apply in_map_iff in Hm as (j & <- & Hj).
      apply every_In in Hi as [Hi _], Hj as [Hj _]; auto. nia.
    + exists (length (every s (seq 0 n0) 0%nat)), (length (every s (seq 0 n1) 0%nat)).
      rewrite product_length, !every_length. repeat split; auto. now apply ceil_ge.
Qed.

(** ** What the pictures do not show *)

(** A surface that is not the graph of its function: the first coordinate on
    the unit square. *)
Theorem C98_surfaces_refuted :
  let g := Grid [(-1, 1); (-1, 1)] [3%Z; 3%Z] in
  let f := fun x _ : R => x in
  valid_grid g /\
  exists vertices,
    show_surface g 1 1 (map (fun p => f (coordinate p 0) (coordinate p 1)) (all_points g)) = Ok vertices /\
    ~ graph_of f 1 1 vertices /\
    (* the value 0 of the state (0, -1) is drawn over the state (-1, 0) *)
    In (-1, 0, 0) vertices /\ f (-1) 0 = -1.
Proof.
  intros g f.
  assert (V : valid_grid g) by (unfold g, valid_grid; simpl; repeat constructor; simpl; lra || lia).
  split; auto.
  destruct (plane_points (-1) 1 (-1) 1 3 3 ltac:(lra) ltac:(lra) ltac:(lia) ltac:(lia)) as (_ & L & C).
  set (values := map (fun p => f (coordinate p 0) (coordinate p 1)) (all_points g)).
  destruct (show_surface_ok (-1) 1 (-1) 1 1 1 3 values ltac:(lra) ltac:(lra) ltac:(lia)) as (v & E & Lv & N).
  { unfold values. now rewrite map_length. }
  exists v. split; [exact E|]. split; [|split].
  - intros G. assert (E3 : show_surface (Grid [(-1, 1); (-1, 1)] [Z.of_nat 3; Z.of_nat 3]) 1 1 values = Ok v) by exact E.
    pose proof (surface_graph (-1) 1 (-1) 1 1 1 3 f v ltac:(lra) ltac:(lra) ltac:(lia) ltac:(lra) ltac:(lra) E3) as SG.
    specialize (proj1 SG G) as G'. clear G. rename G' into G. specialize (G 0%nat 1%nat ltac:(lia) ltac:(lia)). unfold f in G. simpl in G. lra.
  - replace (-1, 0, 0) with (nth (1 * 3 + 0) v (0, 0, 0)); [apply nth_In; rewrite Lv; lia|].
    rewrite (N 1%nat 0%nat) by lia. destruct (C 0%nat 1%nat ltac:(lia) ltac:(lia)) as [C0 C1].
    rewrite C0, C1. unfold values.
    rewrite (nth_indep _ 0 ((fun p => f (coordinate p 0) (coordinate p 1)) [])) by (rewrite map_length; unfold g in *; simpl Z.of_nat in L; rewrite L; lia).
    rewrite (map_nth (fun p => f (coordinate p 0) (coordinate p 1))).
    destruct (C 1%nat 0%nat ltac:(lia) ltac:(lia)) as [C0' _]. unfold g, f.
    change 3%Z with (Z.of_nat 3). rewrite C0'.
    simpl INR. f_equal; [f_equal|]; simpl; field.
  - reflexivity.
Qed.

(** A region of the new policy that is larger than the old one appears as
    "ROA for the old policy" where it is larger. *)
Theorem C98_roa_colours_refuted :
  roa_colours [true; false; false] [true; true; false] = [Red; Green; Transparent] /\
  legend false true = Red /\
  (* disjoint regions: the old one appears in the colour of the new one *)
  roa_colours [true; false; false] [false; true; false] = [Red; Red; Transparent].
Proof. repeat split; reflexivity. Qed.

(** [N_traj = 13] trajectories per axis are asked for, 15 are drawn (the
    grid of the notebooks has 101 points per axis). *)
Theorem C98_subsample_refuted :
  exists idx, sub_idx 101 101 13 = Ok idx /\ length idx = (15 * 15)%nat.
Proof. eexists; split; vm_compute; reflexivity. Qed.

(** ** A case *)
Example C98_ex :
  let g := Grid [(-1, 1); (-2, 2)] [3%Z; 2%Z] in
  (exists picture, show_values 0%nat g 1 1 [10; 11; 20; 21; 30; 31]%nat = Ok picture /\
     map snd picture = [10; 20; 30; 11; 21; 31]%nat /\
     shows_states g 1 1 [10; 11; 20; 21; 30; 31]%nat picture) /\
  (exists picture, show_triangulation 0%nat g [10; 11; 20; 21; 30; 31]%nat = Ok picture /\
     map snd picture = [11; 21; 31; 10; 20; 30]%nat) /\
  show_surface g 1 1 [10; 11; 20; 21; 30; 31] = Err ValueError /\
  roa_colours [true; true; false] [true; false; false] = [Red; Green; Transparent] /\
  sub_idx 5 4 2 = Ok [0; 2; 8; 10; 16; 18]%nat /\
  (let g4 := Grid [(0, 1); (0, 1); (0, 1); (0, 1)] [2; 2; 2; 2]%Z in
   length (grid_slice g4 1 3 [0; 0; 0; 1]) = 4%nat).
Proof.
  intros g.
  assert (V : valid_grid g) by (unfold g, valid_grid; simpl; repeat constructor; simpl; lra || lia).
  assert (L : length (all_points g) = 6%nat).
  { apply Nat2Z.inj. rewrite all_points_length by auto. reflexivity. }
  destruct (C98_images nat 0%nat g 1 1 [10; 11; 20; 21; 30; 31]%nat V eq_refl ltac:(lra) ltac:(lra)) as [S _].
  destruct S as (p & E & S); [now rewrite L|].
  split; [|split; [|split; [|split; [|split]]]].
  - exists p. split; [exact E|]. split; [|exact S].
    unfold show_values, reshape in E. simpl in E. injection E as <-. reflexivity.
  - eexists; split; reflexivity.
  - apply (show_surface_err (-1) 1 (-2) 2 1 1 3 2); [lia|reflexivity].
  - reflexivity.
  - reflexivity.
  - intros g4.
    assert (V4 : valid_grid g4) by (unfold g4, valid_grid; simpl; repeat constructor; simpl; lra || lia).
    refine (proj1 (C98_slices g4 1 3 0 2 [0; 0; 0; 1] V4 eq_refl (or_introl _) _ _)).
    + repeat split.
    + simpl. left. field.
    + simpl. right; left. reflexivity.
Qed.
