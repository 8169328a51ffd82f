(** C57-C60, C65, C66: the helpers in the examples. *)
From Coq Require Import String ZArith Reals List Bool Arith Lia Lra Psatz Sorting.Permutation.
From Coquelicot Require Import Coquelicot.
From Verif Require Import TriModel TriSpec TriProofs.
From Verif Require Import Prelude GridModel GridSpec DynSpec ExUtilModel ExUtilSpec ExUtilProofs.
Import List ListNotations.
Local Open Scope nat_scope.
Local Open Scope R_scope.

(** ** C57: [find_nearest] *)

(** In an array in increasing order, the returned position is valid, holds the
    returned value, and no entry is nearer; among equally near entries the
    returned one is the largest. *)
Theorem C57_sorted : forall a v, ordered a -> a <> [] ->
  exists i x, find_nearest a v true = Ok (i, x) /\ (i < List.length a)%nat /\ nth i a 0 = x /\
    (forall y, In y a -> Rabs (v - x) <= Rabs (v - y)) /\
    (forall y, In y a -> Rabs (v - x) = Rabs (v - y) -> y <= x).
Proof.
  intros a v O ne. destruct (best_spec a v O ne) as (b1 & b2 & b3).
  exists (best a v), (nth (best a v) a 0). rewrite find_nearest_best. cbn zeta.
  rewrite (nth_error_nth' a 0 b1). split; [reflexivity|]. split; [exact b1|]. split; [reflexivity|]. split.
  - intros y Hy. apply (In_nth _ _ 0) in Hy. destruct Hy as (j & Hj & <-). auto.
  - intros y Hy. apply (In_nth _ _ 0) in Hy. destruct Hy as (j & Hj & <-). auto.
Qed.

(** Without the assumption on the order, the returned value still is a nearest
    entry; the position is its position in the sorted array. *)
Theorem C57_unsorted : forall a v, a <> [] ->
  exists i x b, find_nearest a v false = Ok (i, x) /\ In x a /\
    (forall y, In y a -> Rabs (v - x) <= Rabs (v - y)) /\
    ordered b /\ Permutation a b /\ (i < List.length a)%nat /\ nth i b 0 = x.
Proof.
  intros a v ne. pose proof (sort_perm a) as P. pose proof (sort_ordered a) as O.
  assert (ne' : np_sort a <> []).
  { intros E. rewrite E in P. apply Permutation_sym, Permutation_nil in P. congruence. }
  destruct (best_spec _ v O ne') as (b1 & b2 & b3).
  exists (best (np_sort a) v), (nth (best (np_sort a) v) (np_sort a) 0), (np_sort a). rewrite find_nearest_best.
  cbn zeta. rewrite (nth_error_nth' _ 0 b1). split; [reflexivity|].
  split; [apply Permutation_in with (1 := Permutation_sym P), nth_In; exact b1|]. split.
  - intros y Hy. apply Permutation_in with (1 := P) in Hy. apply (In_nth _ _ 0) in Hy. destruct Hy as (j & Hj & <-). auto.
  - split; [exact O|]. split; [exact P|]. rewrite (Permutation_length P). auto.
Qed.

(** An empty array is an error. *)
Theorem C57_empty : forall v s, find_nearest [] v s = Err IndexError.
Proof. intros v []; reflexivity. Qed.

(** The position returned for an array that is not sorted is not the position in
    that array. *)
Theorem C57_index_refuted : exists a v i x,
  find_nearest a v false = Ok (i, x) /\ (i < List.length a)%nat /\ nth i a 0 <> x.
Proof.
  exists [3; 1], 3, 1%nat, 3. split; [|cbn; split; [lia|lra]].
  unfold find_nearest, np_sort, searchsorted. cbn [fold_right insert_sorted].
  destruct (Rle_dec 3 1); [lra|]. cbn.
  repeat (destruct (Rlt_dec _ _); try lra; cbn).
  - exfalso. rewrite !Rabs_right in * by lra. lra.
  - reflexivity.
Qed.

Example C57_ex : find_nearest [0; 1; 3; 3; 7] (2) true = Ok (2%nat, 3) /\ ordered [0; 1; 3; 3; 7].
Proof.
  split.
  - unfold find_nearest, searchsorted. cbn. repeat (destruct (Rlt_dec _ _); try lra; cbn); try reflexivity.
    exfalso. rewrite (Rabs_right (2 - 1)), (Rabs_left (2 - 3)) in * by lra. lra.
  - intros i j Hij Hj. cbn in Hj.
    destruct j as [|[|[|[|[|j]]]]]; [| | | | |lia]; destruct i as [|[|[|[|[|i]]]]]; try lia; cbn; lra.
Qed.

(** ** C58: class weights *)

Definition is_class (y : list bool) (c : bool) (i : nat) : bool := Bool.eqb (nth i y false) c.
Definition is_cell (y y_true : list bool) (p q : bool) (i : nat) : bool :=
  andb (Bool.eqb (nth i y false) p) (Bool.eqb (nth i y_true false) q).
Lemma class_number y c : number (is_class y c) (List.length y) = count (if c then y else map negb y).
Proof.
  destruct c.
  - apply number_count. intros i _. unfold is_class. destruct (nth i y false); reflexivity.
  - rewrite <- (map_length negb). apply number_count. intros i Hi. rewrite map_length in Hi. unfold is_class.
    rewrite negb_nth by auto. destruct (nth i y false); reflexivity.
Qed.

Lemma divide_length' sel c w n : List.length sel = n -> List.length w = n -> List.length (divide_where sel c w) = n.
Proof. intros h1 h2. rewrite divide_length; congruence. Qed.
Lemma divide_nth' sel c w n i : List.length sel = n -> List.length w = n -> (i < n)%nat ->
  nth i (divide_where sel c w) 0 = if nth i sel false then nth i w 0 / c else nth i w 0.
Proof. intros h1 h2 h3. apply divide_nth; congruence. Qed.
Ltac dl := repeat first [reflexivity | assumption | apply divide_length' | apply map_length | apply conf_length | apply repeat_length].

(** Each class that occurs has positive weights which add up to the number of
    samples (or to 1 without scaling), and the counts are the sizes of the two
    classes. *)
Theorem C58_class_weights : forall (y : list bool) (scale : bool),
  let '(w, counts) := balanced_class_weights y scale in
  let goal := if scale then INR (List.length y) else 1 in
  List.length w = List.length y /\
  counts = [number (is_class y false) (List.length y); number (is_class y true) (List.length y)] /\
  (forall i, (i < List.length y)%nat -> 0 < nth i w 0) /\
  (forall c, number (is_class y c) (List.length y) <> 0%nat -> total (is_class y c) w = goal) /\
  (forall i j, (i < List.length y)%nat -> (j < List.length y)%nat -> nth i y false = nth j y false ->
     nth i w 0 = nth j w 0).
Proof.
  intros y scale. destruct (balanced_class_weights y scale) as [w counts] eqn:E.
  unfold balanced_class_weights in E. injection E as Ew Ec.
  set (w0 := divide_where (map negb y) _ _) in Ew.
  assert (L0 : List.length w0 = List.length y).
  { unfold w0. dl. }
  assert (N0 : forall i, (i < List.length y)%nat ->
     nth i w0 0 = / INR (number (is_class y (nth i y false)) (List.length y))).
  { intros i Hi. unfold w0. rewrite !(divide_nth' _ _ _ (List.length y)); try exact Hi; try dl.
    rewrite negb_nth, repeat_nth by auto. rewrite class_number.
    destruct (nth i y false) eqn:B; cbn [negb]; [unfold Rdiv; ring|].
    rewrite count_negb. unfold Rdiv. ring. }
  assert (P0 : forall c i, (i < List.length y)%nat -> nth i y false = c ->
     (0 < number (is_class y c) (List.length y))%nat).
  { intros c i Hi B. unfold number. destruct (filter (is_class y c) (seq 0 (List.length y))) eqn:F; [|cbn; lia].
    exfalso. assert (In i []) as []. rewrite <- F. apply filter_In. split; [apply in_seq; lia|].
    unfold is_class. rewrite B. apply eqb_reflx. }
  set (goal := if scale then INR (List.length y) else 1). cbn zeta.
  assert (Lw : List.length w = List.length y) by (subst w; destruct scale; rewrite ?map_length; auto).
  assert (N : forall i, (i < List.length y)%nat ->
     nth i w 0 = goal / INR (number (is_class y (nth i y false)) (List.length y))).
  { intros i Hi. subst w goal. destruct scale; [rewrite scale_nth by (rewrite L0; auto)|]; rewrite N0 by auto; unfold Rdiv; ring. }
  split; [exact Lw|]. split.
  { subst counts. rewrite !class_number, count_negb. reflexivity. }
  split.
  { intros i Hi. rewrite N by auto. apply Rdiv_lt_0_compat.
    - subst goal. destruct scale; [apply lt_0_INR; lia|lra].
    - apply lt_0_INR. eapply P0; eauto. }
  split.
  { intros c Hc. rewrite (total_const _ _ (goal / INR (number (is_class y c) (List.length y)))).
    - rewrite Lw. field. apply not_0_INR. exact Hc.
    - intros i Hi B. rewrite Lw in Hi. rewrite N by auto. unfold is_class in B. apply eqb_prop in B. rewrite B. reflexivity. }
  intros i j Hi Hj B. rewrite !N by auto. rewrite B. reflexivity.
Qed.

(** The same for the four cells of the confusion matrix; the counts are in the
    order true negatives, false negatives; false positives, true positives. *)
Theorem C58_confusion_weights : forall (y y_true : list bool) (scale : bool), List.length y = List.length y_true ->
  exists w, let n := fun p q => number (is_cell y y_true p q) (List.length y) in
  let goal := if scale then INR (List.length y) else 1 in
  balanced_confusion_weights y y_true scale =
    Ok (w, [[n false false; n false true]; [n true false; n true true]]) /\
  List.length w = List.length y /\
  (forall i, (i < List.length y)%nat -> 0 < nth i w 0) /\
  (forall p q, n p q <> 0%nat -> total (is_cell y y_true p q) w = goal).
Proof.
  intros y z scale H. unfold balanced_confusion_weights. rewrite H, Nat.eqb_refl, <- H.
  assert (C : forall p q, count (conf_mask p q y z) = number (is_cell y z p q) (List.length y)).
  { intros p q. rewrite <- (conf_length p q y z H). symmetry. apply number_count.
    intros i Hi. rewrite conf_length in Hi by auto. rewrite conf_nth by auto. reflexivity. }
  rewrite !C. set (w0 := divide_where (conf_mask false true y z) _ _).
  assert (L0 : List.length w0 = List.length y).
  { unfold w0. dl. }
  assert (N0 : forall i, (i < List.length y)%nat ->
     nth i w0 0 = / INR (number (is_cell y z (nth i y false) (nth i z false)) (List.length y))).
  { intros i Hi. unfold w0.
    rewrite !(divide_nth' _ _ _ (List.length y)); try exact Hi; try dl.
    rewrite repeat_nth by auto. rewrite !conf_nth by auto.
    destruct (nth i y false), (nth i z false); cbn [Bool.eqb andb]; unfold Rdiv; ring. }
  assert (P0 : forall i, (i < List.length y)%nat ->
     (0 < number (is_cell y z (nth i y false) (nth i z false)) (List.length y))%nat).
  { intros i Hi. unfold number. destruct (filter (is_cell y z (nth i y false) (nth i z false)) (seq 0 (List.length y))) eqn:F; [|cbn; lia].
    exfalso. assert (In i []) as []. rewrite <- F. apply filter_In. split; [apply in_seq; lia|].
    unfold is_cell. rewrite !eqb_reflx. reflexivity. }
  set (goal := if scale then INR (List.length y) else 1). cbn zeta.
  exists (if scale then map (fun x => x * INR (List.length y)) w0 else w0). split; [reflexivity|].
  set (w := if scale then _ else _).
  assert (Lw : List.length w = List.length y) by (subst w; destruct scale; rewrite ?map_length; auto).
  assert (N : forall i, (i < List.length y)%nat ->
     nth i w 0 = goal / INR (number (is_cell y z (nth i y false) (nth i z false)) (List.length y))).
  { intros i Hi. subst w goal. destruct scale; [rewrite scale_nth by (rewrite L0; auto)|]; rewrite N0 by auto; unfold Rdiv; ring. }
  split; [exact Lw|]. split.
  { intros i Hi. rewrite N by auto. apply Rdiv_lt_0_compat.
    - subst goal. destruct scale; [apply lt_0_INR; lia|lra].
    - apply lt_0_INR. auto. }
  intros p q Hc. rewrite (total_const _ _ (goal / INR (number (is_cell y z p q) (List.length y)))).
  - rewrite Lw. field. apply not_0_INR. exact Hc.
  - intros i Hi B. rewrite Lw in Hi. rewrite N by auto. unfold is_cell in B. apply andb_prop in B. destruct B as [B1 B2].
    apply eqb_prop in B1. apply eqb_prop in B2. rewrite B1, B2. reflexivity.
Qed.

(** A class that does not occur has weight 0 in total, not the number of samples. *)
Theorem C58_missing_class_refuted : exists y, y <> [] /\
  total (is_class y true) (fst (balanced_class_weights y true)) <> INR (List.length y).
Proof. exists [false; false]. split; [discriminate|]. cbn. lra. Qed.

Example C58_ex : balanced_class_weights [true; false; false; false] true =
    ([1 / 1 * 4; 1 / 3 * 4; 1 / 3 * 4; 1 / 3 * 4], [3%nat; 1%nat]).
Proof.
  unfold balanced_class_weights. cbn [List.length count filter repeat map negb divide_where map2 Nat.sub].
  cbn. repeat f_equal; lra.
Qed.

(** ** C59: monomial features *)
Ltac solve_j := apply is_derive_Reals; auto_derive; auto; cbn; ring.

(** In two dimensions and up to degree 3, [derivative_monomials] returns the
    partial derivatives of the features of [monomials]. *)
Theorem C59_derivatives : forall a b deg, (deg <= 3)%nat ->
  exists J, derivative_monomials [a; b] deg = Ok J /\
            is_jacobian (fun x => monomials x deg) [a; b] J.
Proof.
  intros a b deg H. destruct deg as [|[|[|[|deg]]]]; [| | | |lia]; (eexists; split; [reflexivity|]);
    cbn; (split; [eexists; split; [reflexivity|reflexivity]|]); (split; [repeat constructor|]);
    intros i j Hi Hj; cbn in Hi, Hj.
  - destruct i as [|[|i]]; [| |lia]; (destruct j as [|[|j]]; [| |lia]); cbn; solve_j.
  - destruct i as [|[|i]]; [| |lia]; (destruct j as [|[|j]]; [| |lia]); cbn; solve_j.
  - destruct i as [|[|[|[|[|i]]]]]; [| | | | |lia]; (destruct j as [|[|j]]; [| |lia]); cbn; solve_j.
  - destruct i as [|[|[|[|[|[|[|[|[|i]]]]]]]]]; [| | | | | | | | |lia]; (destruct j as [|[|j]]; [| |lia]); cbn; solve_j.
Qed.

(** The features are all monomials [x^i y^j] with [1 <= i + j <= deg], by degree and
    with falling powers of x, for degrees 1 to 4. *)
Definition monomials_up_to (deg : nat) (a b : R) : row :=
  flat_map (fun k => map (fun j => a ^ (k - j) * b ^ j) (seq 0 (S k))) (seq 1 deg).
Theorem C59_features : forall a b deg, (1 <= deg <= 4)%nat ->
  monomials [a; b] deg = Ok (monomials_up_to deg a b).
Proof.
  intros a b deg H. destruct deg as [|[|[|[|[|deg]]]]]; try lia; cbn; apply f_equal;
    repeat (apply (f_equal2 (@cons R)); [ring|]); reflexivity.
Qed.

(** From degree 4 on there are features without derivatives; from degree 5 on no
    further features are added; in three dimensions features and derivatives do
    not match; in one dimension the derivatives are an error. *)
Theorem C59_degree4_refuted : forall a b deg, (4 <= deg)%nat ->
  exists y J, monomials [a; b] deg = Ok y /\ derivative_monomials [a; b] deg = Ok J /\
              List.length y = 14%nat /\ List.length J = 9%nat.
Proof.
  intros a b deg H. destruct deg as [|[|[|[|deg]]]]; try lia.
  eexists. eexists. split; [reflexivity|]. split; [reflexivity|]. split; reflexivity.
Qed.
Theorem C59_degree5_refuted : forall a b, monomials [a; b] 5 = monomials [a; b] 4.
Proof. reflexivity. Qed.
Theorem C59_dim3_refuted : forall a b c deg, exists y J,
  monomials [a; b; c] deg = Ok y /\ derivative_monomials [a; b; c] deg = Ok J /\
  List.length y <> List.length J.
Proof.
  intros a b c deg. destruct deg as [|[|[|[|deg]]]]; eexists; eexists;
    (split; [reflexivity|]); (split; [reflexivity|]); cbn; lia.
Qed.
Theorem C59_dim1 : forall a deg, derivative_monomials [a] deg = Err IndexError /\
  ((2 <= deg)%nat -> monomials [a] deg = Err IndexError) /\ ((deg <= 1)%nat -> monomials [a] deg = Ok [a]).
Proof.
  intros a deg. split; [reflexivity|]. destruct deg as [|[|deg]]; split; intros H; try lia; reflexivity.
Qed.

Example C59_ex : monomials [2; 3] 3 = Ok [2; 3; 2 ^ 2; 2 * 3; 3 ^ 2; 2 ^ 3; 2 ^ 2 * 3; 2 * 3 ^ 2; 3 ^ 3].
Proof. reflexivity. Qed.

(** ** C60: [constrained_batch_sampler] *)

(** The rows that are kept, in the form in which they are returned. *)
Definition returned (s : sampled) : batch := match s with Rows l => l | Single x => [x] end.
Lemma returned_gather keep b : returned (gather_where keep b) = Prelude.mask keep b.
Proof. unfold gather_where. destruct (Prelude.mask keep b) as [|x [|y l]]; reflexivity. Qed.
(** Without an action limit and padding, the states that are returned are exactly
    the sampled ones which the closed loop maps into [-1, 1]^d, in the same order. *)
Theorem C60_maps_inside : forall b policy dynamics d pi f, 
  (forall b, policy b = Ok (map pi b)) -> (forall b, dynamics b (map pi b) = Ok (map f b)) ->
  exists s P, constrained_batch b policy dynamics None d 0 = Ok s /\
    returned s = filter P b /\
    forall x, P x = true <-> forall c, In c (f x) -> -1 <= c <= 1.
Proof.
  intros b policy dynamics d pi f Hp Hf. eexists. exists (fun x => within 1 (f x)).
  unfold constrained_batch. rewrite Hp. cbn [bind]. rewrite Hf. cbn [bind Nat.ltb Nat.leb]. split; [reflexivity|].
  rewrite returned_gather, map_map. split; [apply (mask_map_filter (within 1) f)|].
  intros x. rewrite within_spec. split; intros H c Hc; specialize (H c Hc); lra.
Qed.

(** With an action limit, exactly the sampled states whose actions are within the
    limit are returned. *)
Theorem C60_undersaturated : forall b policy dynamics d pi f c, 
  (forall b, policy b = Ok (map pi b)) -> (forall b, dynamics b (map pi b) = Ok (map f b)) ->
  exists s P, constrained_batch b policy dynamics (Some c) d 0 = Ok s /\
    returned s = filter P b /\
    forall x, P x = true <-> forall u, In u (pi x) -> - Rabs c <= u <= Rabs c.
Proof.
  intros b policy dynamics d pi f c Hp Hf. eexists. exists (fun x => within (Rabs c) (pi x)).
  unfold constrained_batch. rewrite Hp. cbn [bind]. rewrite Hf. cbn [bind Nat.ltb Nat.leb]. split; [reflexivity|].
  rewrite returned_gather, map_map. split; [apply (mask_map_filter (within (Rabs c)) pi)|].
  intros x. rewrite within_spec. tauto.
Qed.

(** Padding appends zero states, unless a single state is kept. *)
Theorem C60_padding : forall b policy dynamics limit d k s,
  constrained_batch b policy dynamics limit d 0 = Ok s -> (0 < k)%nat ->
  constrained_batch b policy dynamics limit d k =
    match s with
    | Rows l => Ok (Rows (l ++ repeat (repeat 0 d) k))
    | Single _ => Err OtherError
    end.
Proof.
  intros b policy dynamics limit d k s H Hk. unfold constrained_batch in *.
  destruct (policy b) as [u|e]; [|discriminate]. cbn [bind] in *.
  destruct (dynamics b u) as [y|e]; [|discriminate]. cbn [bind] in *. cbn [Nat.ltb Nat.leb] in H.
  injection H as H. rewrite H. destruct (Nat.ltb_spec 0 k); [reflexivity|lia].
Qed.

(** One admissible state comes back as a vector; none as no rows at all (not as a
    zero state). *)
Theorem C60_one : forall b policy dynamics limit d s,
  constrained_batch b policy dynamics limit d 0 = Ok s ->
  (List.length (returned s) = 1%nat <-> exists x, s = Single x).
Proof.
  intros b policy dynamics limit d s H. unfold constrained_batch in *.
  destruct (policy b) as [u|e]; [|discriminate]. cbn [bind] in *.
  destruct (dynamics b u) as [y|e]; [|discriminate]. cbn [bind] in *. cbn [Nat.ltb Nat.leb] in H.
  assert (G : forall keep, gather_where keep b = s -> (List.length (returned s) = 1%nat <-> exists x, s = Single x)).
  { intros keep <-. unfold gather_where. destruct (Prelude.mask keep b) as [|x [|x' l]]; cbn;
      (split; [intros E; try discriminate; eauto|intros (z & E); try discriminate; auto]). }
  destruct limit; injection H as H; eapply G; exact H.
Qed.
Theorem C60_none_refuted : exists b policy dynamics, b <> [] /\
  constrained_batch b policy dynamics None 1 0 = Ok (Rows []).
Proof.
  exists [[1]], (fun b => Ok b), (fun b u => Ok (map (map (fun a => a + 1)) b)). split; [discriminate|].
  unfold constrained_batch, gather_where, within. cbn. destruct (Rle_dec (1 + 1) 1); [lra|]. rewrite andb_false_r. reflexivity.
Qed.

(** With an action limit, states which leave [-1, 1]^d are returned too. *)
Theorem C60_action_limit_refuted : exists b policy dynamics c x,
  constrained_batch b policy dynamics (Some c) 1 0 = Ok (Single x) /\
  (exists u y, policy [x] = Ok u /\ dynamics [x] u = Ok [[y]] /\ 1 < y).
Proof.
  exists [[1]], (fun b => Ok b), (fun b u => Ok (map (map (fun a => a + 1)) b)), 1, [1]. split.
  - unfold constrained_batch, gather_where, within. cbn. rewrite Rabs_R1.
    destruct (Rle_dec (- (1)) 1); [|lra]. destruct (Rle_dec 1 1); [|lra]. reflexivity.
  - exists [[1]], (1 + 1). split; [reflexivity|]. split; [reflexivity|lra].
Qed.

Example C60_ex : constrained_batch [[1 / 4]; [1]; [0]] (fun b => Ok b)
   (fun b u => Ok (map (map (fun a => 2 * a)) b)) None 1 2 = Ok (Rows [[1 / 4]; [0]; [0]; [0]]).
Proof.
  unfold constrained_batch, gather_where, within. cbn.
  repeat (destruct (Rle_dec _ _); try lra; cbn). reflexivity.
Qed.

(** ** C65: [get_parameter_change] *)

(** By default the result is the largest change of an entry. *)
Theorem C65_largest_change : forall old new, List.length (List.concat old) = List.length (List.concat new) ->
  List.concat old <> [] ->
  exists m, get_parameter_change old new (OrdString "inf") = Ok m /\
    (forall i, (i < List.length (List.concat old))%nat -> Rabs (nth i (List.concat new) 0 - nth i (List.concat old) 0) <= m) /\
    (exists i, (i < List.length (List.concat old))%nat /\ m = Rabs (nth i (List.concat new) 0 - nth i (List.concat old) 0)).
Proof.
  intros old new H ne. unfold get_parameter_change. cbn [String.eqb Ascii.eqb Bool.eqb].
  destruct old as [|o1 old1] eqn:Eo; [cbn in ne; congruence|]. destruct new as [|n1 new1] eqn:En.
  { exfalso. cbn in H. apply ne. apply length_zero_iff_nil. exact H. }
  rewrite <- Eo, <- En in *. clear Eo En.
  set (x := List.concat old) in *. set (y := List.concat new) in *.
  rewrite subtract_same by auto. cbn [bind].
  assert (M : forall d, In d (map2 Rminus y x) <-> exists i, (i < List.length y)%nat /\ d = nth i y 0 - nth i x 0)
    by (intros d; apply map2_minus_in; auto).
  destruct (map2 Rminus y x) as [|a l] eqn:E.
  { exfalso. apply ne. apply length_zero_iff_nil. rewrite H, <- (map2_length Rminus y x) by auto. rewrite E. reflexivity. }
  cbn [vec_norm]. destruct (fold_max_spec l (Rabs a)) as (h1 & h2 & h3). eexists. split; [reflexivity|]. rewrite H. split.
  - intros i Hi. assert (In (nth i y 0 - nth i x 0) (a :: l)) as I by (apply M; eauto).
    destruct I as [<-|I]; [exact h1|apply h2; exact I].
  - assert (exists d, In d (a :: l) /\ fold_left (fun m y0 => Rmax m (Rabs y0)) l (Rabs a) = Rabs d) as (d & Hd & Ed).
    { destruct h3 as [h3|(d & Hd & h3)]; [exists a; split; [left; auto|exact h3]|exists d; split; [right; auto|exact h3]]. }
    apply M in Hd. destruct Hd as (i & Hi & ->). exists i. split; [exact Hi|exact Ed].
Qed.

(** So the change is zero exactly when no parameter changed. *)
Theorem C65_zero : forall old new, List.length (List.concat old) = List.length (List.concat new) ->
  List.concat old <> [] ->
  (get_parameter_change old new (OrdString "inf") = Ok 0 <-> List.concat old = List.concat new).
Proof.
  intros old new H ne. destruct (C65_largest_change old new H ne) as (m & E & up & (k & Hk & at_k)). rewrite E. split.
  - intros Z. injection Z as ->. apply (nth_ext _ _ 0 0); [exact H|]. intros i Hi. specialize (up i Hi).
    pose proof (Rabs_pos (nth i (List.concat new) 0 - nth i (List.concat old) 0)).
    assert (Rabs (nth i (List.concat new) 0 - nth i (List.concat old) 0) = 0) as A by lra.
    destruct (Req_dec (nth i (List.concat new) 0 - nth i (List.concat old) 0) 0); [lra|].
    apply Rabs_no_R0 in H1. lra.
  - intros S. rewrite at_k, S. f_equal. unfold Rminus. rewrite Rplus_opp_r. apply Rabs_R0.
Qed.

(** '-inf' is the smallest change. *)
Theorem C65_smallest_change : forall old new, List.length (List.concat old) = List.length (List.concat new) ->
  List.concat old <> [] ->
  exists m, get_parameter_change old new (OrdString "-inf") = Ok m /\
    (forall i, (i < List.length (List.concat old))%nat -> m <= Rabs (nth i (List.concat new) 0 - nth i (List.concat old) 0)) /\
    (exists i, (i < List.length (List.concat old))%nat /\ m = Rabs (nth i (List.concat new) 0 - nth i (List.concat old) 0)).
Proof.
  intros old new H ne. unfold get_parameter_change. cbn [String.eqb Ascii.eqb Bool.eqb].
  destruct old as [|o1 old1] eqn:Eo; [cbn in ne; congruence|]. destruct new as [|n1 new1] eqn:En.
  { exfalso. cbn in H. apply ne. apply length_zero_iff_nil. exact H. }
  rewrite <- Eo, <- En in *. clear Eo En.
  set (x := List.concat old) in *. set (y := List.concat new) in *.
  rewrite subtract_same by auto. cbn [bind].
  assert (M : forall d, In d (map2 Rminus y x) <-> exists i, (i < List.length y)%nat /\ d = nth i y 0 - nth i x 0)
    by (intros d; apply map2_minus_in; auto).
  destruct (map2 Rminus y x) as [|a l] eqn:E.
  { exfalso. apply ne. apply length_zero_iff_nil. rewrite H, <- (map2_length Rminus y x) by auto. rewrite E. reflexivity. }
  cbn [vec_norm]. destruct (fold_min_spec l (Rabs a)) as (h1 & h2 & h3). eexists. split; [reflexivity|]. rewrite H. split.
  - intros i Hi. assert (In (nth i y 0 - nth i x 0) (a :: l)) as I by (apply M; eauto).
    destruct I as [<-|I]; [exact h1|apply h2; exact I].
  - assert (exists d, In d (a :: l) /\ fold_left (fun m y0 => Rmin m (Rabs y0)) l (Rabs a) = Rabs d) as (d & Hd & Ed).
    { destruct h3 as [h3|(d & Hd & h3)]; [exists a; split; [left; auto|exact h3]|exists d; split; [right; auto|exact h3]]. }
    apply M in Hd. destruct Hd as (i & Hi & ->). exists i. split; [exact Hi|exact Ed].
Qed.

(** Order 1 is the sum of the changes, order 2 their Euclidean norm. *)
Theorem C65_sums : forall old new, List.length (List.concat old) = List.length (List.concat new) ->
  List.concat old <> [] ->
  let n := List.length (List.concat old) in
  let change i := Rabs (nth i (List.concat new) 0 - nth i (List.concat old) 0) in
  get_parameter_change old new OrdOne = Ok (sumn n change) /\
  get_parameter_change old new OrdTwo = Ok (sqrt (sumn n (fun i => change i * change i))).
Proof.
  intros old new H ne n change. unfold n, change, get_parameter_change. clear n change.
  destruct old as [|o1 old1] eqn:Eo; [cbn in ne; congruence|]. destruct new as [|n1 new1] eqn:En.
  { exfalso. cbn in H. apply ne. apply length_zero_iff_nil. exact H. }
  rewrite <- Eo, <- En in *. clear Eo En.
  set (x := List.concat old) in *. set (y := List.concat new) in *. clearbody x y.
  rewrite subtract_same by auto. cbn [bind vec_norm].
  assert (G : forall f : R -> R, fold_right (fun a s => f a + s) 0 (map2 Rminus y x)
              = sumn (List.length x) (fun i => f (nth i y 0 - nth i x 0))).
  { intros f. revert y H. clear ne. induction x as [|a x IH]; intros [|b y] H; try discriminate; [reflexivity|].
    cbn [List.length]. rewrite sumn_S_l. cbn [map2 fold_right nth]. rewrite IH by (cbn in H; lia). reflexivity. }
  split; f_equal; [apply G|]. f_equal. rewrite G. apply sumn_ext. intros i Hi.
  unfold Rsqr. rewrite <- Rabs_mult. rewrite Rabs_pos_eq; [reflexivity|]. apply Rle_0_sqr.
Qed.

(** The documented orders 'fro' and 'nuc' are errors for every input. *)
Theorem C65_matrix_orders_refuted : forall old new,
  get_parameter_change old new (OrdString "fro") = Err ValueError /\
  get_parameter_change old new (OrdString "nuc") = Err ValueError.
Proof.
  intros old new. assert (S : forall x y, subtract x y = Err ValueError \/ exists d, subtract x y = Ok d).
  { intros x y. unfold subtract. destruct x as [|a [|a' x]]; [| |]; try (right; eexists; reflexivity);
      destruct y as [|b [|b' y]]; try (right; eexists; reflexivity); try (left; reflexivity).
    destruct (Nat.eqb _ _); [right; eexists; reflexivity|left; reflexivity]. }
  unfold get_parameter_change. cbn [String.eqb Ascii.eqb Bool.eqb].
  destruct old as [|o1 old1]; [split; reflexivity|]. destruct new as [|n1 new1]; [split; reflexivity|].
  destruct (S (List.concat (n1 :: new1)) (List.concat (o1 :: old1))) as [E|(d & E)]; rewrite E; cbn [bind vec_norm]; split; reflexivity.
Qed.

(** A different number of entries is an error, unless one side is a single number,
    which is then compared with every entry of the other. *)
Theorem C65_sizes : forall old new, List.length (List.concat old) <> List.length (List.concat new) ->
  List.length (List.concat old) <> 1%nat -> List.length (List.concat new) <> 1%nat -> forall ord,
  get_parameter_change old new ord = Err ValueError.
Proof.
  intros old new H h1 h2 ord. unfold get_parameter_change.
  destruct old as [|o1 old1] eqn:Eo; [reflexivity|]. destruct new as [|n1 new1] eqn:En; [reflexivity|].
  rewrite <- Eo, <- En in *. clear Eo En.
  unfold subtract. destruct (List.concat new) as [|a [|a' x]], (List.concat old) as [|b [|b' y]]; cbn in *; try lia; try reflexivity.
  destruct (Nat.eqb_spec (List.length x) (List.length y)); [lia|]. reflexivity.
Qed.
Theorem C65_broadcast_refuted : exists old new, List.length (List.concat old) <> List.length (List.concat new) /\
  get_parameter_change old new (OrdString "inf") = Ok 0.
Proof.
  exists [[1]], [[1; 1]]. cbn. split; [discriminate|]. f_equal. unfold Rminus. rewrite !Rplus_opp_r, Rabs_R0.
  apply Rmax_left. lra.
Qed.

Example C65_ex : get_parameter_change [[1; 2]; [3]] [[1; 5]; [2]] (OrdString "inf") = Ok 3.
Proof.
  cbn. f_equal. rewrite (Rabs_right (1 - 1)), (Rabs_right (5 - 2)), (Rabs_left (2 - 3)) by lra.
  unfold Rmax. repeat (destruct (Rle_dec _ _)); lra.
Qed.

(** ** C66: [gridify] *)

Lemma map2_nth_gen (x y : row) i d : List.length x = List.length y -> (i < List.length x)%nat ->
  nth i (map2 (fun m n => (- m / n, m / n)) x y) d = (- nth i x 0 / nth i y 0, nth i x 0 / nth i y 0).
Proof.
  revert y i. induction x as [|a x IH]; intros [|b y] i H Hi; try discriminate; [cbn in Hi; lia|].
  destruct i; [reflexivity|]. cbn. apply IH; [auto|cbn in Hi; lia].
Qed.

(** The grid covers, in physical units (multiplied by the norms), the box from
    -maxes to maxes, with the given number of points in each dimension; without
    [maxes] it covers [-1, 1]^d. *)
Theorem C66_box : forall norms maxes n g, Forall (fun t => t <> 0) norms ->
  gridify norms maxes (Scalar n) = Ok g -> norms <> [] ->
  dims g = List.length norms /\
  forall j, (j < List.length norms)%nat ->
    let m := match maxes with None => nth j norms 0 | Some l => nth j l 0 end in
    lower g j * nth j norms 0 = - m /\ upper g j * nth j norms 0 = m /\ npts g j = n.
Proof.
  intros norms maxes n g nz H ne. unfold gridify in H.
  set (mx := match maxes with None => norms | Some m => m end) in *.
  destruct (Nat.eqb_spec (List.length mx) (List.length norms)) as [L|]; [|discriminate].
  unfold make_grid in H. 
  assert (B : broadcast_np (Vector (repeat n (List.length norms))) (List.length (map2 (fun m n => (- m / n, m / n)) mx norms)) = Ok (repeat n (List.length norms))).
  { rewrite map2_length, L by auto. destruct norms as [|a [|b l]]; [congruence|reflexivity|]. cbn. rewrite repeat_length, Nat.eqb_refl. reflexivity. }
  rewrite B in H. cbn [bind] in H. destruct (existsb _ _); [discriminate|]. injection H as <-.
  unfold dims, lower, upper, npts. cbn [limits num_points]. split; [rewrite map2_length, L by auto; reflexivity|].
  intros j Hj. assert (Z : nth j norms 0 <> 0) by (rewrite Forall_forall in nz; apply nz, nth_In; auto).
  rewrite !map2_nth_gen by lia. cbn [fst snd]. cbn zeta.
  assert (E : match maxes with None => nth j norms 0 | Some l => nth j l 0 end = nth j mx 0) by (subst mx; destruct maxes; reflexivity).
  rewrite E. split; [field; auto|]. split; [field; auto|]. apply repeat_nth; auto.
Qed.

(** The result is a usable grid exactly when every maximum has the sign of its norm
    and there are at least two points. *)
Theorem C66_usable : forall norms maxes n, Forall (fun t => t <> 0) norms -> List.length maxes = List.length norms -> norms <> [] ->
  ((exists g, gridify norms (Some maxes) (Scalar n) = Ok g /\ valid_grid g) <->
   ((2 <= n)%Z /\ forall j, (j < List.length norms)%nat -> 0 < nth j maxes 0 / nth j norms 0)).
Proof.
  intros norms maxes n nz L ne. split.
  - intros (g & H & V). destruct (C66_box norms (Some maxes) n g nz H ne) as (D & C). unfold valid_grid in V.
    assert (P : forall j, (j < List.length norms)%nat -> lower g j < upper g j /\ (2 <= npts g j)%Z).
    { intros j Hj. unfold lower, upper, npts, dims in *. rewrite <- D in Hj. clear - V Hj. revert j Hj.
      induction V as [|l k ls ks Hl V IH]; intros [|j] Hj; cbn in *; try lia; [exact Hl|]. apply IH. lia. }
    split.
    + destruct norms as [|t norms]; [congruence|]. destruct (P 0%nat ltac:(cbn; lia)) as [_ P2].
      destruct (C 0%nat ltac:(cbn; lia)) as (_ & _ & C3). lia.
    + intros j Hj. destruct (P j Hj) as [P1 _]. destruct (C j Hj) as (C1 & C2 & _).
      assert (Z : nth j norms 0 <> 0) by (rewrite Forall_forall in nz; apply nz, nth_In; auto).
      assert (U : upper g j = nth j maxes 0 / nth j norms 0) by (rewrite <- C2; field; auto).
      assert (W : lower g j = - (nth j maxes 0 / nth j norms 0)).
      { apply (Rmult_eq_reg_r (nth j norms 0)); [|auto]. rewrite C1. field. auto. }
      lra.
  - intros (n2 & pos). unfold gridify. rewrite L, Nat.eqb_refl. unfold make_grid.
    assert (B : broadcast_np (Vector (repeat n (List.length norms))) (List.length (map2 (fun m n => (- m / n, m / n)) maxes norms)) = Ok (repeat n (List.length norms))).
    { rewrite map2_length, L by auto. destruct norms as [|a [|b l]]; [congruence|reflexivity|]. cbn. rewrite repeat_length, Nat.eqb_refl. reflexivity. }
    rewrite B. cbn [bind].
    assert (X : existsb (fun n0 : Z => (n0 <? 2)%Z) (repeat n (List.length norms)) = false).
    { apply not_true_is_false. rewrite existsb_exists. intros (k & Hk & Hl). apply repeat_spec in Hk. subst. apply Z.ltb_lt in Hl. lia. }
    rewrite X. eexists. split; [reflexivity|]. unfold valid_grid. cbn [limits num_points].
    clear - L n2 pos nz. revert norms L pos nz. induction maxes as [|m maxes IH]; intros [|t norms] L pos nz; try discriminate; [constructor|].
    cbn. constructor.
    + pose proof (pos 0%nat ltac:(cbn; lia)) as p0. cbn in *. split; [|exact n2].
      replace (- m / t) with (- (m / t)) by (unfold Rdiv; ring). lra.
    + apply IH; [cbn in L; lia|intros j Hj; apply (pos (S j)); cbn; lia|exact (Forall_inv_tail nz)].
Qed.

(** Fewer than two points are an error. *)
Theorem C66_points : forall norms maxes n, norms <> [] -> (n < 2)%Z -> List.length maxes = List.length norms ->
  gridify norms (Some maxes) (Scalar n) = Err DimensionError.
Proof.
  intros norms maxes n ne H L. unfold gridify. rewrite L, Nat.eqb_refl. unfold make_grid.
  destruct norms as [|a [|b l]]; [congruence| |].
  - destruct maxes as [|m [|]]; try discriminate. cbn. destruct (Z.ltb_spec n 2); [reflexivity|lia].
  - destruct maxes as [|m [|m' l']]; try discriminate. cbn. rewrite repeat_length, map2_length by (cbn in L; lia).
    cbn in L. replace (List.length l') with (List.length l) by lia. rewrite Nat.eqb_refl. cbn.
    destruct (Z.ltb_spec n 2); [reflexivity|lia].
Qed.

(** A norm and a maximum of different signs give an axis whose lower limit is above
    the upper one, without an error. *)
Theorem C66_sign_refuted : exists norms maxes g,
  gridify norms (Some maxes) (Scalar 2) = Ok g /\ upper g 0 < lower g 0.
Proof. exists [1], [-1]. eexists. split; [reflexivity|]. unfold upper, lower. cbn. lra. Qed.

Example C66_ex : exists g, gridify [2; 4] (Some [1; 4]) (Scalar 5) = Ok g /\
  limits g = [(- 1 / 2, 1 / 2); (- 4 / 4, 4 / 4)] /\ num_points g = [5; 5]%Z.
Proof. eexists. split; [reflexivity|]. split; reflexivity. Qed.
