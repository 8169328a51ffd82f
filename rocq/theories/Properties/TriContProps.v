(** C70: continuity of triangulations. *)
From Coq Require Import List ZArith Reals Lia Lra Bool.
Import ListNotations.
From Verif Require Import Prelude ListFacts NumModel NumProofs GridModel GridSpec GridProofs
  TriModel TriSpec TriProofs TriProofs2 TriInstances TriContSpec TriContProofs TriContProofs2
  TriContProofs3 TriContThree TriKuhn Properties.GridProps Properties.TriProps.
Open Scope R_scope.

(** ** C70 *)

(** How the cell is split: one axis, or two axes and a triangulation of the cell, or
    a triangulation of the cell whose copies fit together. *)
Definition conforming (g : grid) (t : tri) : Prop :=
  dims g = 1%nat \/ (dims g = 2%nat /\ face_to_face (unit_maxes g) (t_dl t))
  \/ matching (unit_maxes g) (t_dl t).

Lemma conforming_matching dl inv g values m project t : setup dl inv g values m project t ->
  conforming g t -> matching (unit_maxes g) (t_dl t).
Proof. intros SU [C|[C|C]]; eauto using matching_low. Qed.

Lemma eval_value dl inv g values m project t x : setup dl inv g values m project t -> length x = dims g ->
  exists out, tri_eval t [x] = Ok [out] /\ length out = m /\ forall o, value t o x = coordinate out o.
Proof.
  intros SU Lx. destruct (find _ _ _ _ _ _ _ SU x Lx) as (id & verts & vp & w & G & c & q & y & r & Lo).
  destruct (eval_located _ _ _ _ _ _ _ SU _ _ _ _ _ _ _ _ _ _ Lo) as (out & E & Lo' & _).
  exists out. split; [unfold tri_eval; cbn [mapM]; rewrite E; reflexivity|]. split; [auto|].
  intros o. unfold value. now rewrite E.
Qed.

(** A bound on the 1-norms of the gradients the triangulation reports is a Lipschitz
    constant for the triangulation, across all simplices and cells: exactly on the
    box without the margin of [2 EPS] that find_simplex cuts off, and with an
    additional [4 EPS] on the whole box. *)
Theorem C70_gradient_bounds_slope : forall dl inv g values m project t o L,
  setup dl inv g values m project t -> conforming g t ->
  (o < m)%nat -> gradients_bounded t o L ->
  forall x y r, length x = dims g -> length y = dims g -> inside g x -> inside g y ->
  0 <= r -> within (dims g) r x y ->
  exists out out', tri_eval t [x] = Ok [out] /\ tri_eval t [y] = Ok [out'] /\
    (well_inside g x -> well_inside g y -> Rabs (coordinate out o - coordinate out' o) <= L * r) /\
    ((forall j, (j < dims g)%nat -> 4 * EPS <= upper g j - lower g j) -> 0 <= L ->
      Rabs (coordinate out o - coordinate out' o) <= L * (r + 4 * EPS)).
Proof.
  intros dl inv g values m project t o L SU C Ho GB x y r Lx Ly Ix Iy Pr B.
  pose proof (conforming_matching _ _ _ _ _ _ _ SU C) as MT.
  destruct (eval_value _ _ _ _ _ _ _ x SU Lx) as (out & E1 & _ & V1).
  destruct (eval_value _ _ _ _ _ _ _ y SU Ly) as (out' & E2 & _ & V2).
  exists out, out'. split; [auto|]. split; [auto|]. rewrite <- V1, <- V2. split.
  - intros Wx Wy. now apply (slope_inside _ _ _ _ _ _ _ SU MT o Ho L GB).
  - intros WD PL. now apply (slope_everywhere _ _ _ _ _ _ _ SU MT o Ho L GB WD).
Qed.
Print Assumptions C70_gradient_bounds_slope.

(** There are finitely many simplices, so such a bound exists. *)
Theorem C70_gradients_are_bounded : forall dl inv g values m project t o,
  setup dl inv g values m project t -> (o < m)%nat -> exists L, 0 <= L /\ gradients_bounded t o L.
Proof.
  intros dl inv g values m project t o SU Ho.
  pose proof (proj1 (setup_wf _ _ _ _ _ _ _ SU)) as W.
  set (b := fun i : nat => match weights_gradient1 t (Z.of_nat i) with
    | Ok wv => match gradient_of t wv with
               | Ok M => sumn (dims g) (fun j => Rabs (entry M o j)) | Err _ => 0 end
    | Err _ => 0 end).
  assert (Pb : forall i, 0 <= b i).
  { intros i. unfold b. destruct weights_gradient1; [|lra]. destruct gradient_of; [|lra].
    apply sumn_nonneg. intros. apply Rabs_pos. }
  exists (sumn (Z.to_nat (nsimplex t)) b). split; [now apply sumn_nonneg|].
  intros x M. rewrite (wf_grid _ _ W). intros Lx Ix E.
  destruct (find _ _ _ _ _ _ _ SU x Lx) as (id & verts & vp & w & G & c & q & y & r & Lo).
  destruct (gradient_located _ _ _ _ _ _ _ SU _ _ _ _ _ _ _ _ _ _ Lo) as (M' & E1 & E2 & _).
  rewrite E1 in E. injection E as ->.
  pose proof (lo_range _ _ _ _ _ _ _ _ _ _ _ _ Lo) as R.
  apply Rle_trans with (b (Z.to_nat id)).
  - unfold b. rewrite Z2Nat.id by lia. rewrite (lo_grad _ _ _ _ _ _ _ _ _ _ _ _ Lo), E2. lra.
  - apply sumn_nonneg_term; auto. lia.
Qed.
Print Assumptions C70_gradients_are_bounded.

(** So every such triangulation is Lipschitz. *)
Definition lipschitz_inside (g : grid) (t : tri) (o : nat) (L : R) : Prop :=
  forall x y r, length x = dims g -> length y = dims g -> well_inside g x -> well_inside g y ->
  0 <= r -> within (dims g) r x y ->
  exists out out', tri_eval t [x] = Ok [out] /\ tri_eval t [y] = Ok [out'] /\
    Rabs (coordinate out o - coordinate out' o) <= L * r.

Theorem C70_lipschitz : forall dl inv g values m project t,
  setup dl inv g values m project t -> conforming g t ->
  forall o, (o < m)%nat -> exists L, lipschitz_inside g t o L.
Proof.
  intros dl inv g values m project t SU C o Ho.
  destruct (C70_gradients_are_bounded _ _ _ _ _ _ _ o SU Ho) as (L & PL & GB). exists L.
  intros x y r Lx Ly Wx Wy Pr B.
  destruct (C70_gradient_bounds_slope _ _ _ _ _ _ _ o L SU C Ho GB x y r Lx Ly
    (well_inside_inside g x Wx) (well_inside_inside g y Wy) Pr B) as (out & out' & E1 & E2 & K & _).
  exists out, out'. auto.
Qed.
Print Assumptions C70_lipschitz.

(** With three axes a triangulation of the cell is not enough: the copies of the five
    tetrahedra cut the common face of two cells along different diagonals, and the
    interpolated values jump there. *)
Theorem C70_three_axes_refuted : ~ (forall dl inv g values m project t,
  setup dl inv g values m project t -> dims g = 3%nat -> face_to_face (unit_maxes g) (t_dl t) ->
  forall o, (o < m)%nat -> exists L, lipschitz_inside g t o L).
Proof.
  intros H. destruct (t3 false) as (t & SU).
  assert (DL : t_dl t = dl5 cube).
  { pose proof (su_made _ _ _ _ _ _ _ SU) as E. unfold make_tri in E.
    destruct (_ =? _)%Z; [|discriminate]. cbn [limits g3 bind] in E.
    destruct (simplex_indices _ _); [|discriminate]. cbn [bind] in E. destruct (mapM _ _); [|discriminate].
    injection E as <-. cbn [t_dl]. now rewrite g3_corners. }
  destruct (H _ _ _ _ _ _ _ SU eq_refl) with (o := 0%nat) as (L & K); [|lia|].
  { rewrite g3_unit, DL. exact dl5_face_to_face. }
  set (h := Rmin (1 / 10) (/ (10 * (1 + Rabs L)))).
  pose proof (Rabs_pos L) as PL.
  assert (I : 0 < / (10 * (1 + Rabs L))) by (apply Rinv_0_lt_compat; lra).
  assert (P : 0 < h <= 1 / 10).
  { unfold h. split; [apply Rmin_glb_lt; lra|apply Rmin_l]. }
  assert (Q : L * (2 * h) <= 1 / 5).
  { apply Rle_trans with (2 * ((1 + Rabs L) * h)).
    - pose proof (Rle_abs L). nra.
    - assert ((1 + Rabs L) * h <= (1 + Rabs L) * / (10 * (1 + Rabs L))).
      { apply Rmult_le_compat_l; [lra|apply Rmin_r]. }
      replace ((1 + Rabs L) * / (10 * (1 + Rabs L))) with (1 / 10) in H0 by (field; lra). lra. }
  pose proof EPS_tiny.
  destruct (K [1 / 2; 1 / 2; 1 - h] [1 / 2; 1 / 2; 1 + h] (2 * h)) as (out & out' & E1 & E2 & D); auto; try lra.
  - intros [|[|[|j]]] Hj; [| | |cbv in Hj; lia]; unfold lower, upper, coordinate; simpl; lra.
  - intros [|[|[|j]]] Hj; [| | |cbv in Hj; lia]; unfold lower, upper, coordinate; simpl; lra.
  - intros [|[|[|j]]] Hj; [| | |cbv in Hj; lia]; unfold coordinate; cbn [nth];
      unfold Rabs; destruct Rcase_abs; lra.
  - destruct (eval_value _ _ _ _ _ _ _ [1 / 2; 1 / 2; 1 - h] SU eq_refl) as (o1 & F1 & _ & V1).
    destruct (eval_value _ _ _ _ _ _ _ [1 / 2; 1 / 2; 1 + h] SU eq_refl) as (o2 & F2 & _ & V2).
    rewrite E1 in F1. injection F1 as ->. rewrite E2 in F2. injection F2 as ->.
    rewrite <- V1, <- V2 in D. destruct (below_above t false h SU P) as [B1 B2]. rewrite B1, B2 in D.
    revert D. unfold Rabs. destruct Rcase_abs; lra.
Qed.
Print Assumptions C70_three_axes_refuted.

(** The triangulation of the examples: the two triangles of a cell meet in the
    diagonal, so any values at the vertices give a Lipschitz function; for
    f(x,y) = x + 3 y the constant is 4. *)
Lemma dl2_face_to_face : face_to_face (unit_maxes g35) (dl2 (rectangle_corners g35)).
Proof.
  assert (EU : unit_maxes g35 = [1 / 2; 1 / 2]) by (unfold unit_maxes; simpl; repeat (f_equal; try lra)).
  assert (EC : rectangle_corners g35 = [[1 / 2; 0]; [1 / 2; 1 / 2]; [0; 0]; [0; 1 / 2]]).
  { unfold rectangle_corners. rewrite EU. reflexivity. }
  rewrite EU, EC. intros s s' Hs Hs' p Lp (lam & P & S1 & SP) (mu & Q & T1 & TP). cbn [length] in *.
  pose (pts := [[1 / 2; 0]; [1 / 2; 1 / 2]; [0; 0]; [0; 1 / 2]]).
  assert (Z : forall k a, nth_error s k = Some a -> mem s' a = false -> lam k = 0).
  { unfold dl2 in Hs, Hs'. cbn [dl_simplices] in Hs, Hs'.
    pose proof (SP 0%nat ltac:(lia)) as X0. pose proof (SP 1%nat ltac:(lia)) as X1.
    pose proof (TP 0%nat ltac:(lia)) as Y0. pose proof (TP 1%nat ltac:(lia)) as Y1. clear SP TP.
    assert (P0 := P 0%nat). assert (P1 := P 1%nat). assert (P2 := P 2%nat).
    assert (Q0 := Q 0%nat). assert (Q1 := Q 1%nat). assert (Q2 := Q 2%nat). clear P Q.
    simpl In in Hs, Hs'.
    repeat (destruct Hs as [Hs|Hs]; [subst s|]); [..|contradiction];
    (repeat (destruct Hs' as [Hs'|Hs']; [subst s'|]); [..|contradiction];
     unfold corner_points, dl2 in *; simpl in *; unfold entry in *; simpl in *;
     specialize (P0 ltac:(lia)); specialize (P1 ltac:(lia)); specialize (P2 ltac:(lia));
     specialize (Q0 ltac:(lia)); specialize (Q1 ltac:(lia)); specialize (Q2 ltac:(lia));
     intros [|[|[|k]]] a Ha Hm; simpl in Ha; try (injection Ha as <-); simpl in Hm; try discriminate; try lra;
     destruct k; discriminate). }
  assert (P' : forall k, (k < length s)%nat -> 0 <= lam k).
  { intros k Hk. apply P. unfold corner_points. now rewrite map_length. }
  destruct (hull_filter (fun k => nth k pts []) (mem s') s lam Z P') as (nu & N1 & N2 & N3).
  exists (map (fun k => nth k pts []) (filter (mem s') s)). split; [|split].
  - intros v Hv. apply in_map_iff in Hv as (k & <- & Hk). apply filter_In in Hk as [Hk _].
    unfold corner_points. apply in_map_iff. exists k. auto.
  - intros v Hv. apply in_map_iff in Hv as (k & <- & Hk). apply filter_In in Hk as [_ Hk].
    unfold mem in Hk. apply existsb_exists in Hk as (k' & Hk' & E). apply Nat.eqb_eq in E. subst k'.
    unfold corner_points. apply in_map_iff. exists k. auto.
  - exists nu. rewrite map_length. split; [auto|]. unfold corner_points in S1, SP. rewrite map_length in S1, SP.
    split; [now rewrite N2|]. intros j Hj. rewrite N3. apply SP; auto.
Qed.

Lemma t35_conforming inv values m project t : setup dl2 inv g35 values m project t -> conforming g35 t.
Proof.
  intros SU. right; left. split; [reflexivity|].
  assert (DL : t_dl t = dl2 (rectangle_corners g35)).
  { pose proof (su_made _ _ _ _ _ _ _ SU) as E. unfold make_tri in E.
    destruct (_ =? _)%Z; [|discriminate]. cbn [limits g35 bind] in E.
    destruct (simplex_indices _ _); [|discriminate]. cbn [bind] in E. destruct (mapM _ _); [|discriminate].
    injection E as <-. reflexivity. }
  rewrite DL. exact dl2_face_to_face.
Qed.

Example C70_example : exists t, setup dl2 inv2 g35 v35 1 false t /\ gradients_bounded t 0 4 /\
  lipschitz_inside g35 t 0 4.
Proof.
  destruct (t35 false) as (t & SU). exists t. split; [auto|].
  assert (GB : gradients_bounded t 0 4).
  { intros x M. rewrite (wf_grid _ _ (proj1 (setup_wf _ _ _ _ _ _ _ SU))). intros Lx Ix E.
    destruct (C13_affine_gradient _ _ _ _ _ _ _ x 0%nat [1; 3] 0 SU Lx ltac:(lia) v35_affine) as (M' & E' & K).
    rewrite E' in E. injection E as ->. cbn [dims g35 limits length sumn].
    rewrite (K 0%nat ltac:(cbv; lia)), (K 1%nat ltac:(cbv; lia)). unfold coordinate; simpl.
    rewrite !Rabs_right by lra. lra. }
  split; [auto|]. intros x y r Lx Ly Wx Wy Pr B.
  destruct (C70_gradient_bounds_slope _ _ _ _ _ _ _ 0 4 SU (t35_conforming _ _ _ _ _ SU) ltac:(lia) GB x y r Lx Ly
    (well_inside_inside g35 x Wx) (well_inside_inside g35 y Wy) Pr B) as (out & out' & E1 & E2 & K & _).
  exists out, out'. auto.
Qed.

(** For every number of axes there is a way of splitting the cells that fits: along
    the orders of the coordinates.  It meets the contract of scipy.spatial.Delaunay on
    the points the constructor passes, for every usable grid, so all claims about
    triangulations have instances of every dimension. *)
Theorem C70_kuhn_fits : forall g, valid_grid g ->
  good_dl g kuhn /\ (dims g <> 1%nat -> dims g <> 0%nat -> matching (unit_maxes g) (kuhn (rectangle_corners g))).
Proof.
  intros g V. split; [|intros; apply kuhn_matching; auto; lia].
  intros N. destruct (dims g) as [|[|n]] eqn:E; [|contradiction|apply good_kuhn; auto; lia].
  unfold dims in E. assert (EU : unit_maxes g = []).
  { pose proof (unit_len g V) as LU. unfold dims in LU. rewrite E in LU. now destruct (unit_maxes g). }
  destruct (limits g) eqn:EL; [|discriminate]. unfold rectangle_corners. rewrite EL, EU.
  split; [reflexivity|]. split.
  - repeat constructor. exists []. split; [split; [reflexivity|constructor]|]. split; [split; [reflexivity|constructor]|].
    intros i k Hi. simpl in Hi. lia.
  - intros p [Lp _]. exists 0%nat, [0%nat]. split; [reflexivity|]. split; [reflexivity|].
    exists (fun _ => 1). split; [intros; lra|]. split; [simpl; lra|]. intros j Hj. simpl in Hj. lia.
Qed.
Print Assumptions C70_kuhn_fits.

Theorem C70_every_dimension : forall g values m project,
  valid_grid g -> coarse g -> (1 <= dims g)%nat -> columns m values -> Z.of_nat (length values) = nindex g ->
  exists t, setup kuhn (inv_any (dims g)) g values m project t /\ conforming g t /\
    forall o, (o < m)%nat -> exists L, lipschitz_inside g t o L.
Proof.
  intros g values m project V Cg D Cv N.
  destruct (make_tri_ok g V kuhn (inv_any (dims g)) (proj1 (C70_kuhn_fits g V)) (good_inv_any _) values project N)
    as (t & E & _).
  assert (SU : setup kuhn (inv_any (dims g)) g values m project t).
  { constructor; auto using good_inv_any. apply C70_kuhn_fits; auto. }
  exists t. split; [auto|].
  assert (C : conforming g t).
  { destruct (Nat.eq_dec (dims g) 1) as [E1|N1]; [now left|]. right; right.
    assert (DL : t_dl t = kuhn (rectangle_corners g)).
    { unfold make_tri in E. destruct (_ =? _)%Z; [|discriminate].
      unfold dims in N1. destruct (limits g) as [|a [|b l]] eqn:EL; try (simpl in N1; lia);
      cbn [bind] in E; (destruct (simplex_indices _ _); [|discriminate]); cbn [bind] in E;
      (destruct (mapM _ _); [|discriminate]); injection E as <-; reflexivity. }
    rewrite DL. apply C70_kuhn_fits; auto. lia. }
  split; [auto|]. intros o Ho. eapply C70_lipschitz; eauto.
Qed.
Print Assumptions C70_every_dimension.
