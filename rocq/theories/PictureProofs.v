(** Lemmas about the pictures of the examples. *)
From Coq Require Import List ZArith Reals Permutation Lia Lra Bool Psatz.
Import ListNotations.
From Verif Require Import Prelude NumModel NumProofs GridModel GridSpec GridProofs PictureModel PictureSpec.
Open Scope R_scope.

(** ** lists of lists *)

Lemma flat_map_cons {A B} (g : A -> B) (h : A -> list B) m :
  Permutation (flat_map (fun j => g j :: h j) m) (map g m ++ flat_map h m).
Proof.
  induction m as [|a m IH]; simpl; [constructor|]. constructor.
  rewrite IH. rewrite !app_assoc. apply Permutation_app_tail. apply Permutation_app_comm.
Qed.

Lemma flat_map_swap {A B C} (f : A -> B -> C) l m :
  Permutation (flat_map (fun i => map (f i) m) l) (flat_map (fun j => map (fun i => f i j) l) m).
Proof.
  induction l as [|a l IH]; simpl.
  - induction m; simpl; auto.
  - rewrite IH. symmetry. apply (flat_map_cons (f a) (fun j => map (fun i => f i j) l)).
Qed.

Lemma rev_seq n : map (fun i => n - 1 - i)%nat (seq 0 n) = rev (seq 0 n).
Proof.
  apply (nth_ext _ _ 0%nat 0%nat); [now rewrite map_length, rev_length|].
  intros k Hk. rewrite map_length, seq_length in Hk.
  rewrite (nth_indep _ 0%nat ((fun i => n - 1 - i)%nat 0%nat)) by (rewrite map_length, seq_length; lia).
  rewrite map_nth, rev_nth by (rewrite seq_length; lia). rewrite seq_length, !seq_nth by lia. lia.
Qed.

Lemma flat_map_rev {B} (g : nat -> list B) n :
  Permutation (flat_map (fun i => g (n - 1 - i)%nat) (seq 0 n)) (flat_map g (seq 0 n)).
Proof.
  replace (flat_map (fun i => g (n - 1 - i)%nat) (seq 0 n)) with (flat_map g (rev (seq 0 n))).
  - apply Permutation_flat_map. symmetry. apply Permutation_rev.
  - rewrite <- rev_seq, !flat_map_concat_map, map_map. reflexivity.
Qed.

Lemma table_length {A B} (f : A -> nat -> B) m l :
  length (flat_map (fun x => map (f x) (seq 0 m)) l) = (length l * m)%nat.
Proof. induction l; simpl; auto. rewrite app_length, map_length, seq_length, IHl. lia. Qed.

Lemma table_nth {A B} (f : A -> nat -> B) m l (dx : A) (d : B) j i :
  (j < length l)%nat -> (i < m)%nat ->
  nth (j * m + i) (flat_map (fun x => map (f x) (seq 0 m)) l) d = f (nth j l dx) i.
Proof.
  revert j. induction l as [|a l IH]; intros j Hj Hi; simpl in Hj; [lia|]. simpl flat_map.
  assert (N : forall k, (k < m)%nat -> nth k (map (f a) (seq 0 m)) d = f a k).
  { intros k Hk. rewrite (nth_indep _ d (f a 0%nat)) by (rewrite map_length, seq_length; lia).
    rewrite map_nth, seq_nth by lia. f_equal; lia. }
  destruct j as [|j].
  - rewrite app_nth1 by (rewrite map_length, seq_length; lia). apply N; lia.
  - rewrite app_nth2 by (rewrite map_length, seq_length; nia). rewrite map_length, seq_length.
    replace (S j * m + i - m)%nat with (j * m + i)%nat by nia. apply IH; lia.
Qed.

Lemma table_of {A} (d : A) n m (values : list A) : length values = (n * m)%nat ->
  values = flat_map (fun j => map (fun i => nth (j * m + i) values d) (seq 0 m)) (seq 0 n).
Proof.
  intros L. apply (nth_ext _ _ d d); [rewrite table_length, seq_length; auto|].
  intros k Hk. rewrite L in Hk. destruct m as [|m]; [nia|].
  pose proof (Nat.div_mod k (S m) ltac:(lia)) as E.
  pose proof (Nat.mod_upper_bound k (S m) ltac:(lia)) as Bm.
  assert (Bd : (k / S m < n)%nat) by (apply Nat.div_lt_upper_bound; lia).
  replace k with (k / S m * S m + k mod S m)%nat at 2 by lia.
  rewrite (table_nth _ _ _ 0%nat) by (rewrite ?seq_length; auto).
  rewrite seq_nth by auto. f_equal; lia.
Qed.

Lemma combine_map {A B C} (f : A -> B) (g : A -> C) l :
  combine (map f l) (map g l) = map (fun x => (f x, g x)) l.
Proof. induction l; simpl; congruence. Qed.

Lemma combine_app {A B} (l l' : list A) (m m' : list B) : length l = length m ->
  combine (l ++ l') (m ++ m') = combine l m ++ combine l' m'.
Proof. revert m. induction l; destruct m; simpl; intros; try discriminate; auto. f_equal; auto. Qed.

Lemma combine_table {A B C D} (f : A -> B -> C) (g : A -> B -> D) m l :
  combine (flat_map (fun x => map (f x) m) l) (flat_map (fun x => map (g x) m) l) =
  flat_map (fun x => map (fun y => (f x y, g x y)) m) l.
Proof.
  induction l; simpl; auto. rewrite combine_app by (now rewrite !map_length).
  now rewrite combine_map, IHl.
Qed.

Lemma split_index k n m : (k < n * m)%nat -> exists j i, (j < n)%nat /\ (i < m)%nat /\ k = (j * m + i)%nat.
Proof.
  intros H. destruct m as [|m]; [nia|]. exists (k / S m)%nat, (k mod S m)%nat. repeat split.
  - apply Nat.div_lt_upper_bound; lia.
  - apply Nat.mod_upper_bound; lia.
  - pose proof (Nat.div_mod k (S m) ltac:(lia)). lia.
Qed.

Lemma index_inj m j i j' i' : (i < m)%nat -> (i' < m)%nat ->
  (j * m + i = j' * m + i')%nat -> j = j' /\ i = i'.
Proof. intros. assert (j = j') by nia. subst; split; lia. Qed.

(** ** two-dimensional grids *)

Section Plane.
Variable g : grid.
Hypothesis V : valid_grid g.
Hypothesis D2 : dims g = 2%nat.

Lemma plane_shape : exists a b c d n0 n1, limits g = [(a, b); (c, d)] /\ num_points g = [Z.of_nat n0; Z.of_nat n1] /\
  a < b /\ c < d /\ (2 <= n0)%nat /\ (2 <= n1)%nat.
Proof.
  clear -V D2. unfold valid_grid in V. unfold dims in D2.
  destruct g as [ls ns]; simpl in *.
  inversion V as [|[a b] n0 ls' ns' [H0 H0'] W]; subst; [discriminate|].
  inversion W as [|[c d] n1 ls'' ns'' [H1 H1'] W']; subst; [discriminate|].
  inversion W'; subst; [|discriminate]. simpl in *.
  exists a, b, c, d, (Z.to_nat n0), (Z.to_nat n1). rewrite !Z2Nat.id by lia. repeat split; auto; lia.
Qed.
End Plane.

Lemma plane_points a b c d n0 n1 : a < b -> c < d -> (2 <= n0)%nat -> (2 <= n1)%nat ->
  let g := Grid [(a, b); (c, d)] [Z.of_nat n0; Z.of_nat n1] in
  valid_grid g /\ length (all_points g) = (n0 * n1)%nat /\
  forall j i, (j < n0)%nat -> (i < n1)%nat ->
    coordinate (nth (j * n1 + i) (all_points g) []) 0 = a + INR j * ((b - a) / INR (n0 - 1)) /\
    coordinate (nth (j * n1 + i) (all_points g) []) 1 = c + INR i * ((d - c) / INR (n1 - 1)).
Proof.
  intros Hab Hcd H0 H1 g.
  assert (V : valid_grid g).
  { unfold g, valid_grid; simpl. repeat constructor; simpl; auto; lia. }
  assert (L : length (all_points g) = (n0 * n1)%nat).
  { apply Nat2Z.inj. rewrite all_points_length by auto. unfold g, nindex, prodZ; simpl. lia. }
  split; auto. split; auto. intros j i Hj Hi.
  assert (B : (0 <= Z.of_nat (j * n1 + i) < nindex g)%Z).
  { split; [lia|]. rewrite <- all_points_length by auto. rewrite L. nia. }
  pose proof (all_points_nth g V _ B) as E. rewrite Nat2Z.id in E.
  assert (M : multi g [Z.of_nat j; Z.of_nat i]) by (unfold multi, g; simpl; repeat constructor; lia).
  pose proof (index_to_state_multi g V _ M) as E'.
  assert (R : ravel [Z.of_nat j; Z.of_nat i] (num_points g) = Z.of_nat (j * n1 + i)).
  { unfold g; simpl. unfold prodZ; simpl. lia. }
  rewrite R, E in E'. injection E' as ->.
  assert (Lm : length [Z.of_nat j; Z.of_nat i] = dims g) by reflexivity.
  rewrite !state_of_nth by (auto; unfold dims, g; simpl; lia).
  unfold spacing, upper, lower, npts, g; simpl nth. simpl fst. simpl snd.
  rewrite <- !INR_IZR_INZ.
  replace (IZR (Z.of_nat n0 - 1)) with (INR (n0 - 1)) by (rewrite INR_IZR_INZ; f_equal; lia).
  replace (IZR (Z.of_nat n1 - 1)) with (INR (n1 - 1)) by (rewrite INR_IZR_INZ; f_equal; lia).
  auto.
Qed.

Lemma cell_cover l r s n i i' : 0 < s -> l < r -> (2 <= n)%nat -> (i < n)%nat -> (i' < n)%nat ->
  (s * l + INR i' * ((s * r - s * l) / INR n) <= s * (l + INR i * ((r - l) / INR (n - 1)))
     <= s * l + INR (S i') * ((s * r - s * l) / INR n)) <-> i = i'.
Proof.
  intros Hs Hlr Hn Hi Hi'.
  assert (P : 0 < INR n) by (apply lt_0_INR; lia).
  assert (P1 : 0 < INR (n - 1)) by (apply lt_0_INR; lia).
  assert (W : 0 < s * (r - l)) by (apply Rmult_lt_0_compat; lra).
  assert (K : forall k, (s * l + INR k * ((s * r - s * l) / INR n) <= s * (l + INR i * ((r - l) / INR (n - 1))))
              <-> (k * (n - 1) <= i * n)%nat).
  { intros k. transitivity (INR (k * (n - 1)) <= INR (i * n)); [|split; [apply INR_le|apply le_INR]].
    rewrite !mult_INR.
    replace (s * (l + INR i * ((r - l) / INR (n - 1)))) with
      (s * l + (INR i * INR n) * (s * (r - l) / (INR n * INR (n - 1)))) by (field; lra).
    replace (INR k * ((s * r - s * l) / INR n)) with
      ((INR k * INR (n - 1)) * (s * (r - l) / (INR n * INR (n - 1)))) by (field; lra).
    assert (Q : 0 < s * (r - l) / (INR n * INR (n - 1))) by (apply Rdiv_lt_0_compat; nra).
    split; intros H; [|nra]. apply Rmult_le_reg_r with (1 := Q). lra. }
  assert (K' : forall k, (s * (l + INR i * ((r - l) / INR (n - 1))) <= s * l + INR k * ((s * r - s * l) / INR n))
              <-> (i * n <= k * (n - 1))%nat).
  { intros k. transitivity (INR (i * n) <= INR (k * (n - 1))); [|split; [apply INR_le|apply le_INR]].
    rewrite !mult_INR.
    replace (s * (l + INR i * ((r - l) / INR (n - 1)))) with
      (s * l + (INR i * INR n) * (s * (r - l) / (INR n * INR (n - 1)))) by (field; lra).
    replace (INR k * ((s * r - s * l) / INR n)) with
      ((INR k * INR (n - 1)) * (s * (r - l) / (INR n * INR (n - 1)))) by (field; lra).
    assert (Q : 0 < s * (r - l) / (INR n * INR (n - 1))) by (apply Rdiv_lt_0_compat; nra).
    split; intros H; [|nra]. apply Rmult_le_reg_r with (1 := Q). lra. }
  rewrite K, K'. destruct n as [|m]; [lia|]. replace (S m - 1)%nat with m by lia.
  split; [|intros ->; nia]. intros [H H'].
  destruct (Nat.lt_trichotomy i i') as [Q|[Q|Q]]; auto; exfalso.
  - assert ((i + 1) * m <= i' * m)%nat by nia. nia.
  - assert (S i' * m <= i * m)%nat by nia. nia.
Qed.

(** ** images *)

Lemma reshape_ok {A} (d0 : A) a b c d n0 n1 values : length values = (n0 * n1)%nat ->
  reshape d0 (num_points (Grid [(a, b); (c, d)] [Z.of_nat n0; Z.of_nat n1])) values =
  Ok (Image n0 n1 (fun i j => nth (i * n1 + j) values d0)).
Proof.
  intros L. unfold reshape; simpl. rewrite L.
  replace (Z.of_nat (n0 * n1) =? Z.of_nat n0 * Z.of_nat n1)%Z with true by (symmetry; apply Z.eqb_eq; lia).
  now rewrite !Nat2Z.id.
Qed.

Section Shown.
Context {A : Type}.
Variable d0 : A.
Variables (a b c d s0 s1 : R) (n0 n1 : nat).
Hypotheses (Hab : a < b) (Hcd : c < d) (H0 : (2 <= n0)%nat) (H1 : (2 <= n1)%nat) (S0 : 0 < s0) (S1 : 0 < s1).
Let g := Grid [(a, b); (c, d)] [Z.of_nat n0; Z.of_nat n1].
Let cell (j i : nat) := pixel_rect Lower (s0 * a) (s0 * b) (s1 * c) (s1 * d) n1 n0 i j.
Variable values : list A.
Hypothesis L : length values = (n0 * n1)%nat.

Lemma shown_list (l : list (rect * A)) :
  Permutation l (flat_map (fun i => map (fun j => (cell j i, nth (j * n1 + i) values d0)) (seq 0 n0)) (seq 0 n1)) ->
  shows_states g s0 s1 values l.
Proof.
  intros P. destruct (plane_points a b c d n0 n1 Hab Hcd H0 H1) as (V & Lp & C). fold g in V, Lp, C.
  exists (flat_map (fun j => map (cell j) (seq 0 n1)) (seq 0 n0)). split; [|split].
  - now rewrite table_length, seq_length, Lp.
  - eapply Permutation_trans; [exact P|].
    eapply Permutation_trans; [apply (flat_map_swap (fun i j => (cell j i, nth (j * n1 + i) values d0)))|].
    match goal with |- Permutation ?x ?y => assert (E : x = y) end; [|rewrite E; apply Permutation_refl].
    rewrite <- (combine_table cell (fun j i => nth (j * n1 + i) values d0)).
    f_equal. symmetry. exact (table_of d0 n0 n1 values L).
  - rewrite Lp. intros k k' Hk Hk'.
    destruct (split_index _ _ _ Hk) as (j & i & Hj & Hi & ->).
    destruct (split_index _ _ _ Hk') as (j' & i' & Hj' & Hi' & ->).
    rewrite (table_nth cell n1 (seq 0 n0) 0%nat) by (rewrite ?seq_length; auto).
    rewrite seq_nth by auto. rewrite Nat.add_0_l.
    destruct (C j' i' Hj' Hi') as [-> ->].
    unfold covers, cell, pixel_rect. cbn [left right bottom top].
    rewrite (cell_cover a b s0 n0 j' j), (cell_cover c d s1 n1 i' i) by auto.
    split; [intros [-> ->]; auto|]. intros E. apply index_inj in E; auto. intuition.
Qed.

Lemma show_values_ok : exists l, show_values d0 g s0 s1 values = Ok l /\ shows_states g s0 s1 values l.
Proof.
  unfold show_values, g. rewrite reshape_ok by exact L. simpl limits. cbv [bind].
  eexists; split; [reflexivity|]. apply shown_list. unfold imshow, transpose. cbn [height width pixel].
  apply Permutation_refl.
Qed.
End Shown.

Lemma show_triangulation_ok {A} (d0 : A) a b c d n0 n1 values :
  a < b -> c < d -> (2 <= n0)%nat -> (2 <= n1)%nat -> length values = (n0 * n1)%nat ->
  let g := Grid [(a, b); (c, d)] [Z.of_nat n0; Z.of_nat n1] in
  exists l, show_triangulation d0 g values = Ok l /\ shows_states g 1 1 values l.
Proof.
  intros Hab Hcd H0 H1 L g. unfold show_triangulation, g.
  rewrite (reshape_ok d0 a b c d n0 n1 values L). simpl limits. cbv [bind].
  eexists; split; [reflexivity|]. apply (shown_list d0); auto; try lra.
  unfold imshow, transpose, flip. cbn [height width pixel].
  rewrite !Rmult_1_l.
  etransitivity; [|apply (flat_map_rev (fun i => map (fun j => (pixel_rect Lower a b c d n1 n0 i j, nth (j * n1 + i) values d0)) (seq 0 n0)) n1)].
  match goal with |- Permutation ?x ?y => assert (E : x = y) end; [|rewrite E; apply Permutation_refl].
  reflexivity.
Qed.

(** ** surfaces *)

Lemma discrete_plane a b c d n0 n1 :
  discrete_points (Grid [(a, b); (c, d)] [Z.of_nat n0; Z.of_nat n1]) =
  [linspace a b (Z.of_nat n0); linspace c d (Z.of_nat n1)].
Proof. reflexivity. Qed.

Lemma scaled_nth s a b n j : a < b -> (2 <= n)%nat -> (j < n)%nat ->
  nth j (map (Rmult s) (linspace a b (Z.of_nat n))) 0 = s * (a + INR j * ((b - a) / INR (n - 1))).
Proof.
  intros Hab Hn Hj. replace 0 with (s * 0) at 1 by ring. rewrite map_nth. f_equal.
  assert (Hz : (0 <= Z.of_nat j < Z.of_nat n)%Z) by lia; assert (Hz2 : (2 <= Z.of_nat n)%Z) by lia; pose proof (linspace_nth a b (Z.of_nat n) (Z.of_nat j) 0 Hz2 Hz) as E.
  rewrite Nat2Z.id in E. rewrite E. rewrite <- INR_IZR_INZ.
  replace (IZR (Z.of_nat n - 1)) with (INR (n - 1)) by (rewrite INR_IZR_INZ; f_equal; lia).
  reflexivity.
Qed.

Lemma show_surface_ok a b c d s0 s1 n values :
  a < b -> c < d -> (2 <= n)%nat -> length values = (n * n)%nat ->
  let g := Grid [(a, b); (c, d)] [Z.of_nat n; Z.of_nat n] in
  exists v, show_surface g s0 s1 values = Ok v /\ length v = (n * n)%nat /\
  forall i j, (i < n)%nat -> (j < n)%nat -> forall dv,
    nth (i * n + j) v dv =
    (s0 * coordinate (nth (j * n + i) (all_points g) []) 0,
     s1 * coordinate (nth (j * n + i) (all_points g) []) 1,
     nth (i * n + j) values 0).
Proof.
  intros Hab Hcd Hn L g. unfold show_surface, g. rewrite (reshape_ok 0 a b c d n n values L).
  rewrite discrete_plane. cbv [bind]. unfold meshgrid_xy. cbn [fst snd].
  unfold plot_surface. cbn [height width pixel].
  rewrite !map_length, !linspace_length, !Nat2Z.id, !Nat.eqb_refl. simpl andb.
  eexists; split; [reflexivity|]. split; [now rewrite table_length, seq_length|].
  intros i j Hi Hj dv. rewrite (table_nth _ n (seq 0 n) 0%nat) by (rewrite ?seq_length; auto).
  rewrite seq_nth by auto. rewrite Nat.add_0_l.
  destruct (plane_points a b c d n n Hab Hcd Hn Hn) as (V & Lp & C).
  destruct (C j i Hj Hi) as [-> ->]. rewrite !scaled_nth by auto. reflexivity.
Qed.

Lemma show_surface_err a b c d s0 s1 n0 n1 values :
  n0 <> n1 -> length values = (n0 * n1)%nat ->
  show_surface (Grid [(a, b); (c, d)] [Z.of_nat n0; Z.of_nat n1]) s0 s1 values = Err ValueError.
Proof.
  intros Hn L. unfold show_surface. rewrite (reshape_ok 0 a b c d n0 n1 values L).
  rewrite discrete_plane. cbv [bind]. unfold meshgrid_xy. cbn [fst snd].
  unfold plot_surface. cbn [height width pixel].
  rewrite !map_length, !linspace_length, !Nat2Z.id.
  replace (n1 =? n0)%nat with false by (symmetry; apply Nat.eqb_neq; auto). reflexivity.
Qed.

Lemma surface_graph a b c d s0 s1 n f v :
  a < b -> c < d -> (2 <= n)%nat -> s0 <> 0 -> s1 <> 0 ->
  let g := Grid [(a, b); (c, d)] [Z.of_nat n; Z.of_nat n] in
  show_surface g s0 s1 (map (fun p => f (coordinate p 0) (coordinate p 1)) (all_points g)) = Ok v ->
  (graph_of f s0 s1 v <->
   forall i j, (i < n)%nat -> (j < n)%nat ->
     f (a + INR i * ((b - a) / INR (n - 1))) (c + INR j * ((d - c) / INR (n - 1))) =
     f (a + INR j * ((b - a) / INR (n - 1))) (c + INR i * ((d - c) / INR (n - 1)))).
Proof.
  intros Hab Hcd Hn S0 S1 g E.
  destruct (plane_points a b c d n n Hab Hcd Hn Hn) as (V & Lp & C). fold g in Lp, C.
  set (values := map (fun p => f (coordinate p 0) (coordinate p 1)) (all_points g)) in *.
  assert (L : length values = (n * n)%nat) by (unfold values; now rewrite map_length).
  destruct (show_surface_ok a b c d s0 s1 n values Hab Hcd Hn L) as (v' & E' & Lv & Nv).
  fold g in E', Nv. rewrite E in E'. injection E' as <-.
  assert (Val : forall i j, (i < n)%nat -> (j < n)%nat -> nth (i * n + j) values 0 =
     f (a + INR i * ((b - a) / INR (n - 1))) (c + INR j * ((d - c) / INR (n - 1)))).
  { intros i j Hi Hj. unfold values.
    rewrite (nth_indep _ 0 ((fun p => f (coordinate p 0) (coordinate p 1)) [])) by (rewrite map_length, Lp; nia).
    rewrite (map_nth (fun p => f (coordinate p 0) (coordinate p 1))). now destruct (C i j Hi Hj) as [-> ->]. }
  unfold graph_of. rewrite Forall_forall. split.
  - intros G i j Hi Hj.
    destruct (G (nth (i * n + j) v (0, 0, 0))) as (x & y & Q); [apply nth_In; rewrite Lv; nia|].
    rewrite (Nv i j Hi Hj), (Val i j Hi Hj) in Q. destruct (C j i Hj Hi) as [C0 C1].
    rewrite C0, C1 in Q. injection Q as Q0 Q1 Q2.
    apply Rmult_eq_reg_l in Q0, Q1; auto. rewrite Q2, Q0, Q1. reflexivity.
  - intros Sym w Hw. destruct (In_nth _ _ (0, 0, 0) Hw) as (k & Hk & <-). rewrite Lv in Hk.
    destruct (split_index _ _ _ Hk) as (i & j & Hi & Hj & ->).
    rewrite (Nv i j Hi Hj), (Val i j Hi Hj). destruct (C j i Hj Hi) as [-> ->].
    exists (a + INR j * ((b - a) / INR (n - 1))), (c + INR i * ((d - c) / INR (n - 1))).
    now rewrite (Sym i j Hi Hj).
Qed.

(** ** slices *)

Lemma filter_flat_map {A B} (p : B -> bool) (f : A -> list B) l :
  filter p (flat_map f l) = flat_map (fun x => filter p (f x)) l.
Proof. induction l; simpl; auto. now rewrite filter_app, IHl. Qed.

Lemma filter_map {A B} (p : B -> bool) (f : A -> B) l :
  filter p (map f l) = map f (filter (fun x => p (f x)) l).
Proof. induction l; simpl; auto. destruct (p (f a)); simpl; now rewrite IHl. Qed.

Lemma Reqb_eq x y : Reqb x y = true <-> x = y.
Proof. unfold Reqb. destruct Req_EM_T; intuition; discriminate. Qed.

Lemma filter_single (l : list R) y : NoDup l -> In y l -> filter (fun x => Reqb x y) l = [y].
Proof.
  induction 1 as [|a l Ha N IH]; intros Hy; [easy|]. simpl.
  destruct (Reqb a y) eqn:E.
  - apply Reqb_eq in E as ->. f_equal. clear -Ha. induction l; simpl; auto.
    destruct (Reqb a y) eqn:E; [apply Reqb_eq in E as ->; exfalso; apply Ha; now left|].
    apply IHl. intros H. apply Ha. now right.
  - destruct Hy as [->|Hy]; [|auto]. exfalso. assert (Reqb y y = true) by now apply Reqb_eq. congruence.
Qed.

Lemma flat_map_filter {A B} (p : A -> bool) (f : A -> list B) l :
  flat_map (fun x => if p x then f x else []) l = flat_map f (filter p l).
Proof. induction l; simpl; auto. destruct (p a); simpl; now rewrite IHl. Qed.

Lemma filter_true {A} (p : A -> bool) l : (forall x, In x l -> p x = true) -> filter p l = l.
Proof. induction l; simpl; intros; auto. rewrite H by auto. f_equal; auto. Qed.
Lemma filter_false {A} (p : A -> bool) l : (forall x, In x l -> p x = false) -> filter p l = [].
Proof. induction l; simpl; intros; auto. rewrite H by auto. auto. Qed.

(** fix an axis of a product to one of its values *)
Fixpoint fix_axis (j : nat) (y : R) (axes : list (list R)) : list (list R) :=
  match j, axes with
  | _, [] => []
  | O, _ :: t => [y] :: t
  | S j', a :: t => a :: fix_axis j' y t
  end.

Lemma filter_axis j y axes : (j < length axes)%nat -> Forall (@NoDup R) axes -> In y (nth j axes []) ->
  filter (fun x => Reqb (nth j x 0) y) (meshgrid_ij axes) = meshgrid_ij (fix_axis j y axes).
Proof.
  revert j. induction axes as [|a t IH]; intros j Hj N Hy; simpl in Hj; [lia|].
  inversion N as [|? ? Na Nt]; subst. simpl meshgrid_ij at 1. rewrite filter_flat_map.
  destruct j as [|j]; simpl fix_axis.
  - transitivity (flat_map (fun x => if Reqb x y then map (cons x) (meshgrid_ij t) else []) a).
    + rewrite !flat_map_concat_map. f_equal. apply map_ext. intros x.
      destruct (Reqb x y) eqn:E.
      * apply filter_true. intros l Hl. apply in_map_iff in Hl as (l' & <- & _). exact E.
      * apply filter_false. intros l Hl. apply in_map_iff in Hl as (l' & <- & _). exact E.
    + rewrite flat_map_filter. rewrite filter_single by auto. reflexivity.
  - simpl meshgrid_ij. rewrite !flat_map_concat_map. f_equal. apply map_ext. intros x.
    rewrite filter_map. simpl nth. f_equal. apply IH; auto. lia.
Qed.

Lemma fix_axis_length j y axes : length (fix_axis j y axes) = length axes.
Proof. revert j; induction axes; destruct j; simpl; auto. Qed.
Lemma fix_axis_NoDup j y axes : Forall (@NoDup R) axes -> Forall (@NoDup R) (fix_axis j y axes).
Proof.
  revert j; induction axes; destruct j; simpl; intros H; auto; inversion H; subst; constructor; auto.
  constructor; [easy|constructor].
Qed.

Lemma filter_and {A} (p q : A -> bool) l : filter (fun x => p x && q x) l = filter q (filter p l).
Proof. induction l; simpl; auto. destruct (p a); simpl; [destruct (q a)|]; now rewrite IHl. Qed.

Lemma grid_slice_fixed g p0 p1 pivot : valid_grid g -> (p0 < dims g)%nat -> (p1 < dims g)%nat -> p0 <> p1 ->
  In (nth p0 pivot 0) (nth p0 (discrete_points g) []) -> In (nth p1 pivot 0) (nth p1 (discrete_points g) []) ->
  grid_slice g p0 p1 pivot =
  meshgrid_ij (fix_axis p1 (nth p1 pivot 0) (fix_axis p0 (nth p0 pivot 0) (discrete_points g))).
Proof.
  intros V H0 H1 Hne I0 I1. unfold grid_slice, all_points. rewrite filter_and.
  assert (N : Forall (@NoDup R) (discrete_points g)).
  { unfold discrete_points. clear -V. unfold valid_grid in V.
    induction V as [|l n ls ns H H0 IH]; simpl; constructor; auto. apply linspace_NoDup; tauto. }
  rewrite filter_axis by (rewrite ?discrete_len; auto).
  apply filter_axis; rewrite ?fix_axis_length, ?discrete_len; auto using fix_axis_NoDup.
  replace (nth p1 (fix_axis p0 (nth p0 pivot 0) (discrete_points g)) []) with (nth p1 (discrete_points g) []); auto.
  clear -Hne. generalize (nth p0 pivot 0) as y. intros y. revert p0 p1 Hne.
  induction (discrete_points g) as [|a t IH]; destruct p0, p1; simpl; intros; auto; try lia.
Qed.

(** ** regions of attraction *)

Lemma fold_min_spec l h : In h l -> (forall x, In x l -> (fold_right Z.min h l <= x)%Z) /\ In (fold_right Z.min h l) l.
Proof.
  intros Hh. assert (G : forall l', (forall x, In x l' -> In x l) ->
    (forall x, In x l' -> (fold_right Z.min h l' <= x)%Z) /\ In (fold_right Z.min h l') l).
  { induction l' as [|a l' IH]; simpl; intros Q; [split; [easy|auto]|].
    destruct IH as [I1 I2]; [auto|]. split.
    - intros x [->|Hx]; [lia|]. specialize (I1 x Hx). lia.
    - destruct (Z.min_spec a (fold_right Z.min h l')) as [[_ ->]|[_ ->]]; auto. }
  apply G; auto.
Qed.
Lemma fold_max_spec l h : In h l -> (forall x, In x l -> (x <= fold_right Z.max h l)%Z) /\ In (fold_right Z.max h l) l.
Proof.
  intros Hh. assert (G : forall l', (forall x, In x l' -> In x l) ->
    (forall x, In x l' -> (x <= fold_right Z.max h l')%Z) /\ In (fold_right Z.max h l') l).
  { induction l' as [|a l' IH]; simpl; intros Q; [split; [easy|auto]|].
    destruct IH as [I1 I2]; [auto|]. split.
    - intros x [->|Hx]; [lia|]. specialize (I1 x Hx). lia.
    - destruct (Z.max_spec a (fold_right Z.max h l')) as [[_ ->]|[_ ->]]; auto. }
  apply G; auto.
Qed.

Lemma list_min_at l m : In m l -> (forall x, In x l -> (m <= x)%Z) -> list_min l = m.
Proof.
  intros Hm Hle. unfold list_min. destruct l as [|h t]; [easy|].
  destruct (fold_min_spec (h :: t) h (or_introl eq_refl)) as [F1 F2]. simpl hd.
  specialize (F1 m Hm). specialize (Hle _ F2). lia.
Qed.
Lemma list_max_at l m : In m l -> (forall x, In x l -> (x <= m)%Z) -> list_max l = m.
Proof.
  intros Hm Hle. unfold list_max. destruct l as [|h t]; [easy|].
  destruct (fold_max_spec (h :: t) h (or_introl eq_refl)) as [F1 F2]. simpl hd.
  specialize (F1 m Hm). specialize (Hle _ F2). lia.
Qed.

Lemma roa_sum_length roa new : length roa = length new -> length (roa_sum roa new) = length roa.
Proof. intros H. unfold roa_sum. rewrite map2_length. lia. Qed.

Lemma roa_sum_nth roa new k : length roa = length new -> (k < length roa)%nat ->
  nth k (roa_sum roa new) 0%Z = (Z.b2z (nth k roa false) + Z.b2z (nth k new false))%Z.
Proof. intros H Hk. unfold roa_sum. now rewrite (nth_map2 _ _ _ _ false false) by lia. Qed.

Lemma roa_sum_In roa new x : length roa = length new ->
  In x (roa_sum roa new) <-> exists k, (k < length roa)%nat /\ x = (Z.b2z (nth k roa false) + Z.b2z (nth k new false))%Z.
Proof.
  intros H. split.
  - intros I. destruct (In_nth _ _ 0%Z I) as (k & Hk & <-). rewrite roa_sum_length in Hk by auto.
    exists k. split; auto. now apply roa_sum_nth.
  - intros (k & Hk & ->). rewrite <- roa_sum_nth by auto. apply nth_In. now rewrite roa_sum_length.
Qed.

Lemma roa_colour_nth roa new k lo hi : length roa = length new -> (k < length roa)%nat ->
  list_min (roa_sum roa new) = lo -> list_max (roa_sum roa new) = hi ->
  nth k (roa_colours roa new) Transparent =
  let v := (Z.b2z (nth k roa false) + Z.b2z (nth k new false))%Z in
  let c := (if hi =? lo then 0 else Z.min 2 (3 * (v - lo) / (hi - lo)))%Z in
  if (c =? 0)%Z then Transparent else if (c =? 1)%Z then Green else Red.
Proof.
  intros H Hk <- <-. unfold roa_colours. set (z := roa_sum roa new).
  rewrite (nth_indep _ Transparent (listed_colour z 0%Z)) by (rewrite map_length; unfold z; rewrite roa_sum_length; lia).
  rewrite map_nth. unfold z at 2. rewrite roa_sum_nth by auto. reflexivity.
Qed.

Lemma roa_colours_length roa new : length roa = length new -> length (roa_colours roa new) = length roa.
Proof. intros. unfold roa_colours. now rewrite map_length, roa_sum_length. Qed.

(** ** sub-sampling *)

Lemma every_seq step n : (0 < step)%nat -> every step (seq 0 n) 0%nat =
  map (fun k => (k * step)%nat) (seq 0 ((n + step - 1) / step)).
Proof.
  intros Hs. unfold every. rewrite seq_length. apply map_ext_in. intros k Hk. apply in_seq in Hk.
  rewrite seq_nth; [lia|].
  pose proof (Nat.div_mod (n + step - 1) step ltac:(lia)) as E.
  pose proof (Nat.mod_upper_bound (n + step - 1) step ltac:(lia)). nia.
Qed.

Lemma every_In step n x : (0 < step)%nat ->
  In x (every step (seq 0 n) 0%nat) <-> (x < n)%nat /\ (x mod step = 0)%nat.
Proof.
  intros Hs. rewrite every_seq by auto. rewrite in_map_iff. split.
  - intros (k & <- & Hk). apply in_seq in Hk.
    pose proof (Nat.div_mod (n + step - 1) step ltac:(lia)) as E.
    pose proof (Nat.mod_upper_bound (n + step - 1) step ltac:(lia)). split; [nia|].
    now apply Nat.mod_mul; lia.
  - intros [Hx Hm]. exists (x / step)%nat. pose proof (Nat.div_mod x step ltac:(lia)) as E. split; [lia|].
    apply in_seq. split; [lia|]. simpl. apply Nat.div_lt_upper_bound; [lia|].
    pose proof (Nat.div_mod (n + step - 1) step ltac:(lia)) as E'.
    pose proof (Nat.mod_upper_bound (n + step - 1) step ltac:(lia)). nia.
Qed.

Lemma every_length step n : length (every step (seq 0 n) 0%nat) = ((n + step - 1) / step)%nat.
Proof. unfold every. now rewrite map_length, !seq_length. Qed.

Lemma product_length {A B C} (f : A -> B -> C) l m : length (flat_map (fun i => map (f i) m) l) = (length l * length m)%nat.
Proof. induction l; simpl; auto. rewrite app_length, map_length, IHl. lia. Qed.

Lemma ceil_ge n N : (0 < N)%nat -> (0 < n / N)%nat -> (N <= (n + n / N - 1) / (n / N))%nat.
Proof.
  intros HN Hs. apply Nat.div_le_lower_bound; [lia|].
  pose proof (Nat.div_mod n N ltac:(lia)). nia.
Qed.

(** ** slices of a four-dimensional grid *)

Lemma map_index {B} (f : R -> B) (l : list R) : map f l = map (fun i => f (nth i l 0)) (seq 0 (length l)).
Proof.
  induction l as [|a l IH]; simpl; auto. f_equal. rewrite <- seq_shift, map_map. exact IH.
Qed.

Lemma flat_map_single {A B} (f : A -> B) l : flat_map (fun x => [f x]) l = map f l.
Proof. induction l; simpl; congruence. Qed.

Lemma slice13 A b C d : meshgrid_ij [A; [b]; C; [d]] =
  flat_map (fun a => map (fun i => [a; b; nth i C 0; d]) (seq 0 (length C))) A.
Proof.
  cbn [meshgrid_ij flat_map map app]. rewrite flat_map_single, app_nil_r.
  rewrite !flat_map_concat_map. f_equal. apply map_ext. intros a.
  rewrite !map_map. apply map_index.
Qed.

Lemma slice02 a B c D : meshgrid_ij [[a]; B; [c]; D] =
  flat_map (fun b => map (fun i => [a; b; c; nth i D 0]) (seq 0 (length D))) B.
Proof.
  cbn [meshgrid_ij flat_map map app]. rewrite !app_nil_r, flat_map_single.
  rewrite !flat_map_concat_map, concat_map, map_map. f_equal. apply map_ext. intros b.
  rewrite !map_map. apply map_index.
Qed.

Lemma grid4 g : valid_grid g -> dims g = 4%nat -> exists A B C D, discrete_points g = [A; B; C; D].
Proof.
  intros V H. pose proof (discrete_len g V) as L. rewrite H in L.
  destruct (discrete_points g) as [|A [|B [|C [|D [|]]]]]; try discriminate. now exists A, B, C, D.
Qed.

Lemma axis_value g j k : valid_grid g -> (j < dims g)%nat -> (k < Z.to_nat (npts g j))%nat ->
  nth k (nth j (discrete_points g) []) 0 = lower g j + INR k * spacing g j.
Proof.
  intros V Hj Hk. rewrite discrete_nth by auto.
  assert (H2 : (2 <= npts g j)%Z) by (apply valid_axis; auto).
  assert (Hz : (0 <= Z.of_nat k < npts g j)%Z) by lia.
  pose proof (linspace_nth (lower g j) (upper g j) (npts g j) (Z.of_nat k) 0 H2 Hz) as E.
  rewrite Nat2Z.id in E. rewrite E, <- INR_IZR_INZ. reflexivity.
Qed.

Lemma axis_length g j : valid_grid g -> (j < dims g)%nat ->
  length (nth j (discrete_points g) []) = Z.to_nat (npts g j).
Proof. intros V Hj. rewrite discrete_nth by auto. apply linspace_length. Qed.

Lemma grid_slice_plane g p0 p1 q0 q1 pivot : valid_grid g -> dims g = 4%nat ->
  (p0 = 1 /\ p1 = 3 /\ q0 = 0 /\ q1 = 2 \/ p0 = 0 /\ p1 = 2 /\ q0 = 1 /\ q1 = 3)%nat ->
  In (nth p0 pivot 0) (nth p0 (discrete_points g) []) ->
  In (nth p1 pivot 0) (nth p1 (discrete_points g) []) ->
  let n0 := Z.to_nat (npts g q0) in let n1 := Z.to_nat (npts g q1) in
  length (grid_slice g p0 p1 pivot) = (n0 * n1)%nat /\
  forall i j, (i < n0)%nat -> (j < n1)%nat ->
    let x := nth (i * n1 + j) (grid_slice g p0 p1 pivot) [] in
    length x = 4%nat /\
    coordinate x p0 = nth p0 pivot 0 /\ coordinate x p1 = nth p1 pivot 0 /\
    coordinate x q0 = lower g q0 + INR i * spacing g q0 /\
    coordinate x q1 = lower g q1 + INR j * spacing g q1.
Proof.
  intros V D H I0 I1 n0 n1. assert (Hd : (q0 < dims g)%nat /\ (q1 < dims g)%nat) by (rewrite D; lia).
  destruct Hd as [Hq0 Hq1].
  rewrite grid_slice_fixed by (auto; lia).
  pose proof (axis_length g q0 V Hq0) as L0. pose proof (axis_length g q1 V Hq1) as L1. fold n0 in L0. fold n1 in L1.
  pose proof (fun k => axis_value g q0 k V Hq0) as A0. pose proof (fun k => axis_value g q1 k V Hq1) as A1.
  destruct (grid4 g V D) as (A & B & C & E & EQ). rewrite EQ in *.
  destruct H as [(-> & -> & -> & ->)|(-> & -> & -> & ->)]; simpl fix_axis; simpl nth in L0, L1, A0, A1.
  - rewrite slice13, L1. rewrite table_length, L0. split; auto. intros i j Hi Hj.
    rewrite (table_nth _ _ _ 0) by (rewrite ?L0; auto). cbv zeta. unfold coordinate; simpl.
    rewrite A0, A1 by auto. repeat split.
  - rewrite slice02, L1. rewrite table_length, L0. split; auto. intros i j Hi Hj.
    rewrite (table_nth _ _ _ 0) by (rewrite ?L0; auto). cbv zeta. unfold coordinate; simpl.
    rewrite A0, A1 by auto. repeat split.
Qed.
