(** Properties C26 and C27: boundary values and the Lyapunov region. *)
From Coq Require Import Reals List Bool Arith ZArith Lia Lra Permutation.
From Verif Require Import Prelude ListFacts NumModel NumProofs GridModel GridSpec GridProofs
  RegionModel RegionSpec RegionProofs.
Import ListNotations.
Local Open Scope nat_scope.

(** ** C26 *)

(** The result is the least value of the function on the boundary vertices. *)
Theorem C26_smallest_boundary_value : forall (f : list R -> R) g,
  valid_grid g -> 0 < dims g ->
  exists m, smallest_boundary_value f g = Some m /\
    (exists p, on_boundary g p /\ f p = m) /\
    (forall p, on_boundary g p -> (m <= f p)%R).
Proof.
  intros f g V Hd. unfold smallest_boundary_value.
  pose proof (fold_omin_spec (fun i => reduce_min (map f (boundary_points g i)))
                (seq 0 (ndim g)) None) as H. cbv beta in H.
  assert (N : forall i, i < dims g -> exists p, In p (boundary_points g i)).
  { intros i Hi. exists (map (lower g) (seq 0 (dims g))).
    apply boundary_points_In; auto.
    assert (E : forall j, j < dims g -> coordinate (map (lower g) (seq 0 (dims g))) j = lower g j).
    { intros j Hj. unfold coordinate. rewrite nth_map' with (d' := 0) by (now rewrite seq_length).
      now rewrite seq_nth. }
    split; [split|left; auto].
    - now rewrite map_length, seq_length.
    - intros j Hj. exists 0%Z. destruct (valid_axis g V j Hj). split; [lia|]. rewrite E by auto. lra. }
  destruct (fold_left _ _ _) as [m|].
  - exists m. split; auto. destruct H as ([H|(i & Hi & E)] & _ & HL); [discriminate|].
    apply in_seq in Hi. change (ndim g) with (dims g) in *.
    pose proof (reduce_min_spec (map f (boundary_points g i))) as S.
    rewrite E in S. destruct S as (S & _). apply in_map_iff in S as (p & Ep & Hp). split.
    + exists p. split; auto. apply boundary_points_In in Hp as (A & B); auto; [|lia].
      split; auto. exists i. split; auto; lia.
    + intros q (Vq & j & Hj & Hq).
      assert (Hin : In q (boundary_points g j)) by (apply boundary_points_In; auto).
      pose proof (reduce_min_spec (map f (boundary_points g j))) as S'.
      destruct (reduce_min (map f (boundary_points g j))) as [mj|] eqn:Ej.
      * destruct S' as (_ & S'). assert (m <= mj)%R by (apply (HL j); auto; apply in_seq; lia).
        specialize (S' (f q) (in_map f _ _ Hin)). lra.
      * apply map_eq_nil in S'. rewrite S' in Hin. destruct Hin.
  - destruct H as (_ & H). specialize (H 0 ltac:(apply in_seq; unfold ndim, dims in *; lia)).
    destruct (N 0 Hd) as (p & Hp).
    pose proof (reduce_min_spec (map f (boundary_points g 0))) as S. rewrite H in S.
    apply map_eq_nil in S. rewrite S in Hp. destruct Hp.
Qed.
Print Assumptions C26_smallest_boundary_value.

(** 2(|x| + |y|) on [-1.5, 1] x [-1, 1.5] with 3 x 3 points. *)
Example C26_ex :
  smallest_boundary_value (fun p => 2 * (Rabs (nth 0 p 0%R) + Rabs (nth 1 p 0%R)))%R
    (Grid [(-(3/2), 1); (-1, 3/2)]%R [3; 3]%Z) = Some (5/2)%R.
Proof.
  set (f := fun p => _). set (g := Grid _ _).
  assert (V : valid_grid g) by (unfold valid_grid, g; repeat constructor; simpl; try lra; lia).
  assert (B : forall p, on_boundary g p -> (5/2 <= f p)%R /\ True).
  { intros p ((L & H) & j & Hj & Hb). split; auto. change (dims g) with 2 in *.
    destruct p as [|x [|y [|]]]; try discriminate.
    destruct (H 0 ltac:(lia)) as (k0 & K0 & E0). destruct (H 1 ltac:(lia)) as (k1 & K1 & E1).
    unfold spacing, lower, upper, npts, coordinate in *. simpl in *.
    assert (C0 : k0 = 0%Z \/ k0 = 1%Z \/ k0 = 2%Z) by lia.
    assert (C1 : k1 = 0%Z \/ k1 = 1%Z \/ k1 = 2%Z) by lia.
    unfold f; simpl. rewrite E0, E1.
    assert (Cj : j = 0 \/ j = 1) by lia.
    destruct Cj as [->| ->]; simpl in Hb; rewrite ?E0, ?E1 in Hb;
    destruct C0 as [->|[->| ->]]; destruct C1 as [->|[->| ->]];
      unfold Rabs; repeat destruct Rcase_abs; lra. }
  destruct (C26_smallest_boundary_value f g V ltac:(unfold dims; simpl; lia))
    as (m & Em & (p & Hp & Ep) & HL).
  rewrite Em. f_equal. apply Rle_antisym.
  - replace (5/2)%R with (f [1; 1/4]%R) by (unfold f; simpl; rewrite !Rabs_pos_eq by lra; lra).
    apply HL. split; [split; [reflexivity|]|exists 0; split; [unfold dims; simpl; lia|]].
    + intros j Hj. change (dims g) with 2 in Hj.
      assert (Cj : j = 0 \/ j = 1) by lia. unfold spacing, lower, upper, npts, coordinate.
      destruct Cj as [->| ->]; simpl; [exists 2%Z|exists 1%Z]; (split; [lia|lra]).
    + right. reflexivity.
  - rewrite <- Ep. apply B. auto.
Qed.

(** ** C27 *)

Lemma is_node_nodeS g x : valid_grid g -> is_node g x <-> nodeS (num_points g) x.
Proof. intros V. unfold is_node, nodeS. now rewrite (valid_len g V). Qed.
Lemma is_interior_S g x : valid_grid g -> is_interior g x <-> interiorS (num_points g) x.
Proof. intros V. unfold is_interior, interiorS. now rewrite (valid_len g V). Qed.

Lemma value_at (f : list R -> R) g w : valid_grid g -> is_node g w ->
  nth (Z.to_nat (ravel w (num_points g))) (map f (all_points g)) 0%R = f (state_at g w).
Proof.
  intros V H. pose proof (proj2 (multi_nth g V w) H) as M.
  pose proof (ravel_bound _ _ M) as B. fold (nindex g) in B.
  pose proof (all_points_length g V) as AL.
  rewrite nth_map' with (d' := []) by lia. f_equal.
  pose proof (all_points_nth g V _ B) as E. rewrite (index_to_state_multi g V w M) in E.
  injection E as <-. destruct H as (L & H).
  apply (list_ext 0%R).
  - rewrite state_of_len by auto. unfold state_at. now rewrite map_length, seq_length.
  - rewrite state_of_len by auto. intros j Hj.
    change (nth j (state_of g w) 0%R) with (coordinate (state_of g w) j).
    rewrite state_of_nth by auto. unfold state_at.
    rewrite nth_map' with (d' := 0) by (now rewrite seq_length). now rewrite seq_nth.
Qed.

(** What the search returns, in terms of the list of expanded nodes. *)
Lemma region_ok f g init : valid_grid g -> 0 < dims g -> is_interior g init ->
  exists region done z last vis queue,
    get_lyapunov_region Py2 f g init = Ok region /\
    (forall x, region x = true <-> In x done \/ (x = z /\ is_interior g z)) /\
    final (num_points g)
      (fun w => nth (Z.to_nat (ravel w (num_points g))) (map f (all_points g)) 0%R)
      init vis queue done z last.
Proof.
  intros V Hd Hi. pose proof (proj1 (is_interior_S g init V) Hi) as Hi'.
  pose proof (interior_node _ _ Hi') as Ni.
  unfold get_lyapunov_region. rewrite wrap_node_ok by auto. cbv beta iota delta [bind].
  set (ns := num_points g) in *.
  set (val := fun w => nth (Z.to_nat (ravel w ns)) (map f (all_points g)) 0%R).
  assert (Hdim : 0 < length ns) by (unfold ns; rewrite (valid_len g V); exact Hd).
  destruct (search_ok ns val init Hi' Hdim (S (length (map f (all_points g))))
     (set_visited (fun _ => false) init true) [(val init, 0, Tup init)] 1 (val init) [])
    as (vis & q & done & z & last & E & F).
  - constructor; simpl; auto; try (intros; contradiction).
    + intros x. unfold set_visited. destruct list_eq_dec; intuition congruence.
    + repeat constructor. auto.
    + intros x [<-|[]]; auto.
    + intros e [<-|[]]. simpl. auto.
    + exists init. auto.
    + intros _ x [<-|[]]. apply Rle_refl.
  - rewrite map_length. pose proof (all_points_length g V).
    pose proof (all_nodes_length ns) as AN.
    assert (Forall (fun n => (0 <= n)%Z) ns).
    { unfold ns. pose proof (pos_points g V) as P. unfold pos_shape in P.
      eapply Forall_impl; [|exact P]. simpl; intros; lia. }
    specialize (AN H0). unfold nindex in H. fold ns in H. simpl length. lia.
  - change (nth (Z.to_nat (ravel init ns)) (map f (all_points g)) 0%R) with (val init).
    rewrite E. pose proof F as F0.
    destruct F as [F1 F2 F3 F4 F5 F6 F7 F8 F9 F10 F11 F12 F13].
    rewrite (mapM_ok _ q ks_of).
    2:{ intros e He. apply wrap_node_ok. auto. }
    simpl bind. eexists _, done, z, last, vis, q. split; [reflexivity|]. split; [|exact F0].
    intros x. rewrite fold_visited_false, F1. rewrite (is_interior_S g z V). split.
    + intros ([H|[H|H]] & Hq); auto. contradiction.
    + intros [H|(-> & H)]; split; auto. apply F4.
Qed.

(** For a start node in the interior the search terminates; the region contains
    the start and no boundary node and is connected.  There is a node [z] at
    which the search stopped: no neighbour outside of the region (of a node
    other than [z]) has a smaller value than [z], and [z] is either a boundary
    node next to the region or a node of the region with a smaller value than
    another one (where the function stops to increase). *)
Theorem C27_region : forall f g init,
  valid_grid g -> 0 < dims g -> is_interior g init ->
  let V := fun x => f (state_at g x) in
  exists region, get_lyapunov_region Py2 f g init = Ok region /\
    region init = true /\
    (forall x, region x = true -> is_interior g x) /\
    (forall x, region x = true -> reach (fun y => region y = true) init x) /\
    exists z, is_node g z /\ z <> init /\
      (exists y, region y = true /\ y <> z /\ neighbours y z) /\
      (forall x y, region x = true -> x <> z -> neighbours x y -> region y = false ->
         (V z <= V y)%R) /\
      ((region z = false /\ ~ is_interior g z) \/
       (region z = true /\ exists x, region x = true /\ (V z < V x)%R)).
Proof.
  intros f g init V Hd Hi F.
  destruct (region_ok f g init V Hd Hi) as (region & done & z & last & vis & q & E & HR & FN).
  exists region. split; auto. destruct FN as [F1 F2 F3 F4 F5 F6 F7 F8 F9 F10 F11 F12 F13].
  assert (Hval : forall x, is_node g x ->
     nth (Z.to_nat (ravel x (num_points g))) (map f (all_points g)) 0%R = F x).
  { intros x Hx. now apply value_at. }
  assert (Hnode : forall x, In x done -> is_node g x).
  { intros x Hx. apply is_node_nodeS; auto. apply interior_node. auto. }
  assert (Nz : is_node g z) by (apply is_node_nodeS; auto; apply F4).
  split; [apply HR; auto|]. split.
  { intros x Hx. apply HR in Hx as [Hx|(-> & Hx)]; auto. apply is_interior_S; auto. }
  split.
  { intros x Hx. apply HR in Hx as [Hx|(-> & Hx)].
    - apply reach_mono with (fun y => In y done); auto. intros y Hy. apply HR; auto.
    - destruct F10 as (y & Hy & N). apply reach_next with y; auto.
      + apply reach_mono with (fun y => In y done); auto. intros w Hw. apply HR; auto.
      + apply HR. auto. }
  exists z. destruct F4 as (F4a & F4b & F4c). split; auto. split; [intros ->; auto|]. split.
  { destruct F10 as (y & Hy & N). exists y. split; [apply HR; auto|]. split; auto.
    intros ->. auto. }
  split.
  { intros x y Hx Hne N Hy. apply HR in Hx as [Hx|(-> & _)]; [|congruence].
    assert (Ny : is_node g y).
    { apply is_node_nodeS; auto. apply (interior_neighbour _ x); auto. }
    rewrite <- (Hval z), <- (Hval y) by auto. apply (F9 x y); auto.
    intros H. apply not_true_iff_false in Hy. apply Hy. apply HR. auto. }
  destruct (interior_dec (num_points g) z) as [Hz|Hz].
  - right. split; [apply HR; right; split; auto; apply is_interior_S; auto|].
    destruct F12 as [H|H]; [contradiction|]. destruct F11 as (w & Hw & Ew).
    exists w. split; [apply HR; auto|]. rewrite <- (Hval z), <- (Hval w) by auto.
    rewrite Ew. exact H.
  - left. split.
    + apply not_true_iff_false. intros H. apply HR in H as [H|(_ & H)]; [contradiction|].
      apply Hz. apply is_interior_S in H; auto.
    + intros H. apply Hz. apply is_interior_S in H; auto.
Qed.
Print Assumptions C27_region.

(** If all sublevel sets of the function on the grid are connected and contain
    the start node, the region is the sublevel set below the smallest boundary
    value [m], up to nodes with value exactly [m]. *)
Theorem C27_connected_sublevel_sets : forall f g init,
  valid_grid g -> 0 < dims g -> is_interior g init ->
  let V := fun x => f (state_at g x) in
  (forall y, is_node g y -> reach (fun x => is_node g x /\ (V x <= V y)%R) init y) ->
  exists region m, get_lyapunov_region Py2 f g init = Ok region /\
    smallest_boundary_value f g = Some m /\
    (forall x, region x = true -> is_node g x /\ (V x <= m)%R) /\
    (forall x, is_node g x -> (V x < m)%R -> region x = true).
Proof.
  intros f g init V Hd Hi F HS.
  destruct (region_ok f g init V Hd Hi) as (region & done & z & last & vis & q & E & HR & FN).
  destruct (C26_smallest_boundary_value f g V Hd) as (m & Em & (p & Hp & Ep) & HL).
  exists region, m. split; auto. split; auto.
  destruct FN as [F1 F2 F3 F4 F5 F6 F7 F8 F9 F10 F11 F12 F13].
  set (val := fun w => nth (Z.to_nat (ravel w (num_points g))) (map f (all_points g)) 0%R) in *.
  assert (Hval : forall x, is_node g x -> val x = F x) by (intros x Hx; now apply value_at).
  assert (Hnode : forall x, In x done -> is_node g x).
  { intros x Hx. apply is_node_nodeS; auto. apply interior_node. auto. }
  assert (Nz : is_node g z) by (apply is_node_nodeS; auto; apply F4).
  assert (HS' : sublevels_connected (num_points g) val init).
  { intros y Hy. apply is_node_nodeS in Hy; auto.
    apply reach_mono with (fun x => is_node g x /\ (F x <= F y)%R); [|apply HS; auto].
    intros x (Hx & Hxy). split; [now apply is_node_nodeS|]. now rewrite !Hval. }
  specialize (F13 HS'). destruct F13 as (Hz & Hlast).
  assert (HR' : forall x, region x = true <-> In x done).
  { intros x. rewrite HR. split; auto. intros [H|(_ & H)]; auto.
    exfalso. apply Hz. apply is_interior_S in H; auto. }
  (* a node outside has a value of at least val z *)
  assert (Hout : forall x, is_node g x -> ~ In x done -> (F z <= F x)%R).
  { intros x Nx Hx. destruct (first_exit _ _ _ done (HS x Nx) F2 Hx) as (u & y & Hu & N & Hy & (Ny & Py)).
    pose proof (F9 u y Hu N Hy) as H. change (val z <= val y)%R in H. rewrite !Hval in H by auto. lra. }
  assert (Hbd : forall x, is_node g x -> ~ is_interior g x -> on_boundary g (state_at g x)).
  { intros x (Lx & Nx) Hx.
    assert (Ec : forall j, j < dims g ->
       coordinate (state_at g x) j = (lower g j + IZR (nth j x 0%Z) * spacing g j)%R).
    { intros j Hj. unfold coordinate, state_at.
      rewrite nth_map' with (d' := 0) by (now rewrite seq_length). now rewrite seq_nth. }
    split; [split|].
    - unfold state_at. now rewrite map_length, seq_length.
    - intros j Hj. exists (nth j x 0%Z). split; auto.
    - destruct (existsb (fun j => (nth j x 0 =? 0)%Z || (nth j x 0 =? npts g j - 1)%Z)
                  (seq 0 (dims g))) eqn:Ex.
      + apply existsb_exists in Ex as (j & Hj & Ex). apply in_seq in Hj.
        exists j. split; [lia|]. rewrite Ec by lia. apply orb_true_iff in Ex as [Ex|Ex];
          apply Z.eqb_eq in Ex; rewrite Ex.
        * left. lra.
        * right. rewrite (upper_eq g V j) by lia. reflexivity.
      + exfalso. apply Hx. split; auto. intros j Hj. specialize (Nx j Hj).
        apply not_true_iff_false in Ex.
        assert (nth j x 0%Z <> 0%Z /\ nth j x 0%Z <> (npts g j - 1)%Z); [|lia].
        split; intros E'; apply Ex; apply existsb_exists; exists j;
          (split; [apply in_seq; lia|]); apply orb_true_iff; [left|right]; now apply Z.eqb_eq. }
  assert (Hm : m = F z).
  { apply Rle_antisym.
    - apply HL. apply Hbd; auto. intros H. apply Hz. apply is_interior_S in H; auto.
    - rewrite <- Ep. destruct Hp as (Vp & j & Hj & Hpj).
      apply (vertex_iff g V) in Vp as (ks & M & ->). apply (multi_nth g V) in M.
      assert (Ek : state_of g ks = state_at g ks).
      { destruct M as (L & M). apply (list_ext 0%R).
        - rewrite state_of_len by auto. unfold state_at. now rewrite map_length, seq_length.
        - rewrite state_of_len by auto. intros i Hi'.
          change (nth i (state_of g ks) 0%R) with (coordinate (state_of g ks) i).
          rewrite state_of_nth by auto. unfold state_at.
          rewrite nth_map' with (d' := 0) by (now rewrite seq_length). now rewrite seq_nth. }
      rewrite Ek. apply Hout; auto.
      intros Hd'. apply F6 in Hd'. apply is_interior_S in Hd'; auto.
      destruct Hd' as (L & H). specialize (H j Hj).
      rewrite state_of_nth in Hpj by auto.
      pose proof (spacing_pos g V j Hj) as Hs. destruct M as (_ & M). specialize (M j Hj).
      destruct Hpj as [Hpj|Hpj].
      + assert (IZR (nth j ks 0%Z) * spacing g j = 0)%R by lra.
        apply Rmult_integral in H0 as [H0|H0]; [|lra]. apply eq_IZR in H0. lia.
      + rewrite (upper_eq g V j Hj) in Hpj.
        assert ((IZR (nth j ks 0%Z) - IZR (npts g j - 1)) * spacing g j = 0)%R by lra.
        apply Rmult_integral in H0 as [H0|H0]; [|lra].
        assert (IZR (nth j ks 0%Z) = IZR (npts g j - 1)) by lra. apply eq_IZR in H1. lia. }
  split.
  - intros x Hx. apply HR' in Hx. split; auto. rewrite Hm.
    pose proof (F7 x Hx) as H. rewrite <- (Hval x), <- (Hval z) by auto.
    exact (Rle_trans _ _ _ H Hlast).
  - intros x Nx Hx. apply HR'. destruct (in_dec (list_eq_dec Z.eq_dec) x done) as [H|H]; auto.
    specialize (Hout x Nx H). lra.
Qed.
Print Assumptions C27_connected_sublevel_sets.

(** In Python 3 the function always raises (line 99). *)
Theorem C27_python3 : forall f g init,
  is_interior g init -> valid_grid g ->
  get_lyapunov_region Py3 f g init = Err AttributeError.
Proof.
  intros f g init Hi V. apply is_interior_S in Hi; auto. apply interior_node in Hi.
  unfold get_lyapunov_region. now rewrite wrap_node_ok.
Qed.

(** Instances: functions given by their values at 0, 1, ..., n-1. *)
Definition line (vs : list R) : grid :=
  Grid [(0, IZR (Z.of_nat (length vs) - 1))%R] [Z.of_nat (length vs)].
Definition table (vs : list R) (x : list R) : R := nth (Z.to_nat (rint (nth 0 x 0%R))) vs 0%R.

Lemma line_valid vs : 2 <= length vs -> valid_grid (line vs).
Proof.
  intros H. unfold valid_grid, line; simpl. repeat constructor; simpl; [|lia].
  apply IZR_lt. lia.
Qed.

Lemma table_values vs : 2 <= length vs -> map (table vs) (all_points (line vs)) = vs.
Proof.
  intros H. pose proof (line_valid vs H) as V.
  pose proof (all_points_length _ V) as AL.
  assert (NI : nindex (line vs) = Z.of_nat (length vs)) by (unfold nindex, line; simpl; lia).
  apply (list_ext 0%R); [rewrite map_length; lia|]. rewrite map_length.
  intros i Hi. rewrite nth_map' with (d' := []) by lia.
  pose proof (all_points_nth _ V (Z.of_nat i) ltac:(lia)) as E. rewrite Nat2Z.id in E.
  destruct (index_to_state_ok _ V (Z.of_nat i) ltac:(lia)) as (E' & M). rewrite E in E'.
  injection E' as ->. unfold table.
  rewrite Z.div_1_r. unfold state_of, line; simpl.
  replace (IZR (Z.of_nat i) * ((IZR (Z.of_nat (length vs) - 1) - 0)
             / IZR (Z.of_nat (length vs) - 1)) + 0)%R with (IZR (Z.of_nat i)).
  - rewrite rint_IZR. now rewrite Nat2Z.id.
  - field. apply not_0_IZR. lia.
Qed.

Ltac rdec := repeat (match goal with
  | |- context [Rlt_dec ?a ?b] =>
    let H := fresh in destruct (Rlt_dec a b) as [H|H];
    unfold e_val in H; cbn in H; try (exfalso; lra); clear H
  end; simpl; unfold push_all, before; simpl).

(** Values 5, 0, 3, 2, 1, 9: the search from node 1 accepts node 3, where the
    function has started to decrease, and stops. *)
Definition dip : list R := [5; 0; 3; 2; 1; 9]%R.

Lemma dip_region : exists region, get_lyapunov_region Py2 (table dip) (line dip) [1%Z] = Ok region /\
  map (fun k => region [Z.of_nat k]) (seq 0 6) = [false; true; true; true; false; false].
Proof.
  unfold get_lyapunov_region. rewrite table_values by (simpl; lia).
  eexists. split.
  - unfold dip. simpl. rdec. reflexivity.
  - reflexivity.
Qed.

(** A bowl 9, 1, 0, 4, 8: the region is the sublevel set below 8. *)
Definition bowl : list R := [9; 1; 0; 4; 8]%R.
Example C27_ex : exists region,
  get_lyapunov_region Py2 (table bowl) (line bowl) [2%Z] = Ok region /\
  map (fun k => region [Z.of_nat k]) (seq 0 5) = [false; true; true; true; false].
Proof.
  unfold get_lyapunov_region. rewrite table_values by (simpl; lia).
  eexists. split.
  - unfold bowl. simpl. rdec. reflexivity.
  - reflexivity.
Qed.

(** Nodes with the same value are taken in the order in which they were found: on a
    plateau 1, 1, 1, 1, 1, 1 the search from node 2 reaches the boundary at 0 after it
    went as far to the right. *)
Definition plateau : list R := [1; 1; 1; 1; 1; 1; 1]%R.
Example C27_ties_ex : exists region,
  get_lyapunov_region Py2 (table plateau) (line plateau) [2%Z] = Ok region /\
  map (fun k => region [Z.of_nat k]) (seq 0 7) = [false; true; true; true; false; false; false].
Proof.
  unfold get_lyapunov_region. rewrite table_values by (simpl; lia).
  eexists. split.
  - unfold plateau. simpl. rdec. reflexivity.
  - reflexivity.
Qed.

(** "No neighbour of the region has a smaller value than a node of the region"
    is false. *)
Theorem C27_neighbours_larger_refuted :
  ~ (forall f g init region, valid_grid g -> 0 < dims g -> is_interior g init ->
       get_lyapunov_region Py2 f g init = Ok region ->
       forall x y, region x = true -> is_node g y -> neighbours x y -> region y = false ->
         (f (state_at g x) <= f (state_at g y))%R).
Proof.
  intros H. destruct dip_region as (region & E & M).
  specialize (H (table dip) (line dip) [1%Z] region (line_valid dip ltac:(simpl; lia))
    ltac:(unfold dims; simpl; lia)).
  specialize (H ltac:(split; [reflexivity|]; intros [|j] Hj; [unfold npts; simpl; lia|
     unfold dims in Hj; simpl in Hj; lia]) E [3%Z] [4%Z]).
  injection M as _ _ _ M4 M5 _.
  assert (N3 : is_node (line dip) [3%Z]).
  { split; [reflexivity|]; intros [|j] Hj; [unfold npts; simpl; lia|
     unfold dims in Hj; simpl in Hj; lia]. }
  assert (N5 : is_node (line dip) [4%Z]).
  { split; [reflexivity|]; intros [|j] Hj; [unfold npts; simpl; lia|
     unfold dims in Hj; simpl in Hj; lia]. }
  specialize (H M4 N5).
  assert (NB : neighbours [3%Z] [4%Z]).
  { split; [reflexivity|]. split; [discriminate|]. intros [|[|j]]; simpl; lia. }
  specialize (H NB M5).
  pose proof (line_valid dip ltac:(simpl; lia)) as LV.
  rewrite <- !value_at in H by assumption.
  rewrite table_values in H by (simpl; lia). unfold dip in H. simpl in H. lra.
Qed.
Print Assumptions C27_neighbours_larger_refuted.

(** Values 0, 2, 3, 1 from node 0: index -1 wraps around and the boundary node
    on the other side becomes a part of the region. *)
Definition round : list R := [0; 2; 3; 1]%R.
Theorem C27_lower_boundary_start_refuted :
  ~ (forall f g init region, valid_grid g -> 0 < dims g -> is_node g init ->
       get_lyapunov_region Py2 f g init = Ok region ->
       forall x, region x = true -> x = init \/ is_interior g x).
Proof.
  intros H.
  assert (E : exists region, get_lyapunov_region Py2 (table round) (line round) [0%Z] = Ok region /\
                region [3%Z] = true).
  { unfold get_lyapunov_region. rewrite table_values by (simpl; lia). eexists. split.
    - unfold round. simpl. rdec. reflexivity.
    - reflexivity. }
  destruct E as (region & E & R3).
  specialize (H (table round) (line round) [0%Z] region (line_valid round ltac:(simpl; lia))
    ltac:(unfold dims; simpl; lia)).
  specialize (H ltac:(split; [reflexivity|]; intros [|j] Hj; [unfold npts; simpl; lia|
     unfold dims in Hj; simpl in Hj; lia]) E [3%Z] R3).
  destruct H as [[=]|(_ & H)]. specialize (H 0 ltac:(unfold dims; simpl; lia)).
  unfold npts in H. simpl in H. lia.
Qed.
Print Assumptions C27_lower_boundary_start_refuted.

(** The bowl satisfies the hypotheses of [C27_connected_sublevel_sets]. *)
Example C27_ex_connected :
  let V := fun x => table bowl (state_at (line bowl) x) in
  is_interior (line bowl) [2%Z] /\
  forall y, is_node (line bowl) y ->
    reach (fun x => is_node (line bowl) x /\ (V x <= V y)%R) [2%Z] y.
Proof.
  intros V. split.
  { split; [reflexivity|]; intros [|j] Hj; [unfold npts; simpl; lia|
     unfold dims in Hj; simpl in Hj; lia]. }
  pose proof (line_valid bowl ltac:(simpl; lia)) as LV.
  assert (N : forall k, (0 <= k < 5)%Z -> is_node (line bowl) [k]).
  { intros k Hk. split; [reflexivity|]; intros [|j] Hj; [unfold npts; simpl; lia|
     unfold dims in Hj; simpl in Hj; lia]. }
  assert (EV : forall k, (0 <= k < 5)%Z -> V [k] = nth (Z.to_nat k) bowl 0%R).
  { intros k Hk. unfold V. rewrite <- value_at by auto. rewrite table_values by (simpl; lia).
    simpl ravel. now replace (k * 1 + 0)%Z with k by lia. }
  assert (NB : forall a b, (Z.abs (a - b) = 1)%Z -> neighbours [a] [b]).
  { intros a b H. split; [reflexivity|]. split; [intros [=->]; rewrite Z.sub_diag in H; discriminate|].
    intros [|[|j]] Hj; simpl in *; lia. }
  intros y (L & H). destruct y as [|k [|]]; try discriminate.
  specialize (H 0 ltac:(unfold dims; simpl; lia)). unfold npts in H. simpl in H.
  change (Z.of_nat 5) with 5%Z in H.
  assert (C : (k = 0 \/ k = 1 \/ k = 2 \/ k = 3 \/ k = 4)%Z) by lia.
  destruct C as [->|[->|[->|[->| ->]]]];
    [ apply reach_next with [1%Z]; [apply reach_next with [2%Z]; [apply reach_start|..]|..]
    | apply reach_next with [2%Z]; [apply reach_start|..]
    | apply reach_start
    | apply reach_next with [2%Z]; [apply reach_start|..]
    | apply reach_next with [3%Z]; [apply reach_next with [2%Z]; [apply reach_start|..]|..] ];
    try (apply NB; reflexivity);
    (split; [apply N; lia|]; rewrite !EV by lia; unfold bowl; simpl; lra).
Qed.
