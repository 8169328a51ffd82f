(** C82: the order of the points of [ScipyDelaunay]. *)
From Coq Require Import Reals List ZArith Lia Lra Permutation.
From Verif Require Import Prelude NumModel NumProofs GridModel GridSpec GridProofs ScipyModel.
Import ListNotations.
Local Open Scope nat_scope.

Lemma meshgrid_two {A} (a b : list A) t d i j q :
  i < length a -> j < length b -> q < length (meshgrid_ij t) ->
  nth ((i * length b + j) * length (meshgrid_ij t) + q) (meshgrid_ij (a :: b :: t)) [] =
  nth i a d :: nth j b d :: nth q (meshgrid_ij t) [].
Proof.
  intros Hi Hj Hq. set (M := length (meshgrid_ij t)) in *.
  assert (E1 : length (meshgrid_ij (b :: t)) = length b * M).
  { apply Nat2Z.inj. rewrite Nat2Z.inj_mul. unfold M. rewrite !meshgrid_length. reflexivity. }
  replace ((i * length b + j) * M + q) with (i * (length b * M) + (j * M + q)) by lia.
  change (meshgrid_ij (a :: b :: t)) with (flat_map (fun x => map (cons x) (meshgrid_ij (b :: t))) a).
  rewrite (flat_map_nth_block _ a (length b * M) i (j * M + q) d); [|intros; rewrite map_length; auto|auto|nia].
  rewrite nth_indep with (d' := nth i a d :: []) by (rewrite map_length, E1; nia).
  rewrite map_nth. f_equal.
  change (meshgrid_ij (b :: t)) with (flat_map (fun x => map (cons x) (meshgrid_ij t)) b).
  rewrite (flat_map_nth_block _ b M j q d); [|intros; rewrite map_length; auto|auto|auto].
  rewrite nth_indep with (d' := nth j b d :: []) by (rewrite map_length; auto).
  now rewrite map_nth.
Qed.

(** The number of points of a grid in all axes but the first two. *)
Definition other_axes (g : grid) : nat := Z.to_nat (prodZ (skipn 2 (num_points g))).

Lemma axes_two g : valid_grid g -> 2 <= dims g ->
  exists a b t, discrete_points g = a :: b :: t /\
    length a = Z.to_nat (npts g 0) /\ length b = Z.to_nat (npts g 1) /\
    length (meshgrid_ij t) = other_axes g /\
    (forall k, (0 <= k < npts g 0)%Z -> nth (Z.to_nat k) a 0%R = (lower g 0 + IZR k * spacing g 0)%R) /\
    (forall k, (0 <= k < npts g 1)%Z -> nth (Z.to_nat k) b 0%R = (lower g 1 + IZR k * spacing g 1)%R).
Proof.
  intros V Hd. destruct g as [ls ns]. unfold valid_grid in V. simpl in V.
  destruct ls as [|l0 [|l1 ls]]; unfold dims in Hd; simpl in Hd; try lia.
  destruct ns as [|n0 [|n1 ns]]; try (now inversion V); try (inversion V as [|? ? ? ? ? W]; now inversion W).
  inversion V as [|? ? ? ? H0 V1]; subst. inversion V1 as [|? ? ? ? H1 V2]; subst.
  exists (linspace (fst l0) (snd l0) n0), (linspace (fst l1) (snd l1) n1),
    (map2 (fun l n => linspace (fst l) (snd l) n) ls ns).
  split; [reflexivity|]. rewrite !linspace_length.
  split; [reflexivity|]. split; [reflexivity|]. split; [|split].
  - unfold other_axes; simpl. apply Nat2Z.inj. rewrite meshgrid_length, Z2Nat.id.
    + f_equal. apply (lengths_discrete (Grid ls ns)). exact V2.
    + apply Z.lt_le_incl, prodZ_pos. unfold pos_shape.
      clear -V2. induction V2; constructor; auto. lia.
  - intros k Hk. unfold npts in Hk; simpl in Hk. rewrite linspace_nth; [|tauto|auto].
    reflexivity.
  - intros k Hk. unfold npts in Hk; simpl in Hk. rewrite linspace_nth; [|tauto|auto].
    reflexivity.
Qed.

Definition swap {A} (p : list A) : list A :=
  match p with y :: x :: q => x :: y :: q | _ => p end.
Lemma swap_swap {A} (p : list A) : swap (swap p) = p.
Proof. destruct p as [|x [|y p]]; reflexivity. Qed.

Lemma scipy_points_axes g : scipy_points (limits g) (num_points g) = meshgrid_xy (discrete_points g).
Proof. reflexivity. Qed.

(** The points are the vertices of the grid, each exactly once. *)
Theorem C82_same_vertices : forall g, valid_grid g ->
  Permutation (scipy_points (limits g) (num_points g)) (all_points g) /\
  forall p, In p (scipy_points (limits g) (num_points g)) <-> is_vertex g p.
Proof.
  intros g V.
  assert (P : Permutation (scipy_points (limits g) (num_points g)) (all_points g)).
  { rewrite scipy_points_axes. unfold all_points. destruct (discrete_points g) as [|a [|b t]] eqn:E;
      try apply Permutation_refl.
    pose proof (all_points_NoDup g V) as N. unfold all_points in N. rewrite E in N.
    apply NoDup_Permutation; auto.
    - unfold meshgrid_xy. fold (@swap R). apply FinFun.Injective_map_NoDup.
      + intros p q Epq. rewrite <- (swap_swap p), <- (swap_swap q). now f_equal.
      + apply meshgrid_NoDup. assert (F : Forall (@NoDup R) (discrete_points g)).
        { unfold discrete_points. unfold valid_grid in V. clear -V.
          induction V; simpl; constructor; auto. apply linspace_NoDup; tauto. }
        rewrite E in F. inversion F as [|? ? Fa F']; subst. inversion F'; subst. auto.
    - intros p. unfold meshgrid_xy. fold (@swap R). rewrite in_map_iff, meshgrid_In. split.
      + intros (q & <- & Hq). apply meshgrid_In in Hq.
        inversion Hq as [|y ? q' ? Hy Hq']; subst. inversion Hq' as [|x ? q2 ? Hx Hq2]; subst.
        simpl. auto.
      + intros Hp. exists (swap p). split; [apply swap_swap|]. apply meshgrid_In.
        inversion Hp as [|y ? q' ? Hy Hq']; subst. inversion Hq' as [|x ? q2 ? Hx Hq2]; subst.
        simpl. auto. }
  split; auto. intros p. rewrite <- (all_points_In g V). split; apply Permutation_in; auto.
  now apply Permutation_sym.
Qed.
Print Assumptions C82_same_vertices.

(** Their numbers: for two or more axes the roles of the first two are exchanged. *)
Theorem C82_numbers : forall g i j q, valid_grid g -> 2 <= dims g ->
  (Z.of_nat i < npts g 0)%Z -> (Z.of_nat j < npts g 1)%Z -> q < other_axes g ->
  nth ((j * Z.to_nat (npts g 0) + i) * other_axes g + q) (scipy_points (limits g) (num_points g)) [] =
  nth ((i * Z.to_nat (npts g 1) + j) * other_axes g + q) (all_points g) [].
Proof.
  intros g i j q V Hd Hi Hj Hq.
  destruct (axes_two g V Hd) as (a & b & t & E & La & Lb & Lt & _).
  rewrite scipy_points_axes. unfold all_points. rewrite E. unfold meshgrid_xy. fold (@swap R).
  rewrite <- La, <- Lb, <- Lt in *.
  rewrite (meshgrid_two a b t 0%R) by lia.
  change (@nil R) with (swap (@nil R)) at 1. rewrite (map_nth swap).
  rewrite (meshgrid_two b a t 0%R) by lia. reflexivity.
Qed.
Print Assumptions C82_numbers.

(** So vertex numbers of the two classes agree for one axis only: with more axes, the
    vertex whose number is the number of points in the other axes is different. *)
Theorem C82_one_axis : forall g, dims g = 1 -> valid_grid g ->
  scipy_points (limits g) (num_points g) = all_points g.
Proof.
  intros [ls ns] Hd V. unfold dims in Hd; simpl in Hd. unfold valid_grid in V; simpl in V.
  destruct ls as [|l [|]]; try discriminate. inversion V as [|? n ? ns' _ W]; subst.
  inversion W. reflexivity.
Qed.
Print Assumptions C82_one_axis.

Theorem C82_numbers_differ : forall g, valid_grid g -> 2 <= dims g ->
  nth (other_axes g) (scipy_points (limits g) (num_points g)) [] <>
  nth (other_axes g) (all_points g) [] /\
  (Z.of_nat (other_axes g) < nindex g)%Z.
Proof.
  intros g V Hd. destruct (axes_two g V Hd) as (a & b & t & E & La & Lb & Lt & Va & Vb).
  assert (H0 : (2 <= npts g 0)%Z).
  { apply (proj2 (proj1 (GridProofs.Forall2_nth _ _ _ (0, 0)%R 0%Z) V) 0). exact (Nat.lt_le_trans 0 2 _ Nat.lt_0_2 Hd). }
  assert (H1 : (2 <= npts g 1)%Z).
  { apply (proj2 (proj1 (GridProofs.Forall2_nth _ _ _ (0, 0)%R 0%Z) V) 1). exact (Nat.lt_le_trans 1 2 _ Nat.lt_1_2 Hd). }
  assert (Hq : 0 < other_axes g).
  { pose proof (all_points_length g V) as AL. unfold all_points in AL. rewrite E in AL.
    rewrite <- Lt. destruct (length (meshgrid_ij t)) eqn:Z0; [|lia]. exfalso.
    assert (length (meshgrid_ij (a :: b :: t)) = 0).
    { apply Nat2Z.inj. rewrite meshgrid_length. cbn [map prodZ fold_right].
      change (fold_right Z.mul 1%Z) with prodZ. rewrite <- meshgrid_length, Z0. lia. }
    rewrite H in AL. pose proof (prodZ_pos (num_points g)) as PP. unfold nindex in AL.
    assert (pos_shape (num_points g)); [|specialize (PP H2); lia].
    unfold pos_shape. unfold valid_grid in V. clear -V. induction V; constructor; auto. lia. }
  split.
  - pose proof (C82_numbers g 1 0 0 V Hd ltac:(lia) ltac:(lia) Hq) as N.
    replace ((0 * Z.to_nat (npts g 0) + 1) * other_axes g + 0) with (other_axes g) in N by lia.
    rewrite N. unfold all_points. rewrite E, <- Lt, <- Lb.
    rewrite (meshgrid_two a b t 0%R) by lia.
    pose proof (meshgrid_two a b t 0%R 0 1 0 ltac:(lia) ltac:(lia) ltac:(lia)) as Y.
    replace ((0 * length b + 1) * length (meshgrid_ij t) + 0) with (length (meshgrid_ij t)) in Y by lia.
    rewrite Y. intros X. injection X as X _.
    pose proof (Va 1%Z ltac:(lia)) as A1. pose proof (Va 0%Z ltac:(lia)) as A0.
    change (Z.to_nat 1) with 1 in A1. change (Z.to_nat 0) with 0 in A0. rewrite A0, A1 in X.
    pose proof (spacing_pos g V 0 (Nat.lt_le_trans 0 2 _ Nat.lt_0_2 Hd)). lra.
  - rewrite <- (all_points_length g V). apply inj_lt. unfold all_points. rewrite E.
    assert (L : length (meshgrid_ij (a :: b :: t)) = length a * (length b * length (meshgrid_ij t))).
    { apply Nat2Z.inj. rewrite !Nat2Z.inj_mul, !meshgrid_length. reflexivity. }
    rewrite L, <- Lt. rewrite <- Lt in Hq.
    assert (2 <= length a) by lia. assert (2 <= length b) by lia.
    set (M := length (meshgrid_ij t)) in *. clearbody M.
    assert (2 * M <= length b * M) by (apply Nat.mul_le_mono_r; auto).
    assert (2 * (length b * M) <= length a * (length b * M)) by (apply Nat.mul_le_mono_r; auto). lia.
Qed.
Print Assumptions C82_numbers_differ.

Example C82_ex :
  scipy_points [(0, 1); (0, 2)]%R [2; 3]%Z =
  [[0; 0]; [1; 0]; [0; 1]; [1; 1]; [0; 2]; [1; 2]]%R.
Proof.
  unfold scipy_points, linspace; simpl.
  repeat match goal with |- _ :: _ = _ :: _ => f_equal end; lra.
Qed.
