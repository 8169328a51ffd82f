(** Proofs about the helpers in the examples. *)
From Coq Require Import String ZArith Reals List Bool Arith Lia Lra Psatz Sorting.Permutation.
From Verif Require Import Prelude GridModel GridSpec ExUtilModel ExUtilSpec.
Import ListNotations.
Local Open Scope nat_scope.
Local Open Scope R_scope.

(** ** Binary search *)
Lemma search_left_spec a v : ordered a -> forall fuel lo hi,
  (lo <= hi <= List.length a)%nat -> (hi - lo <= fuel)%nat ->
  (forall i, (i < lo)%nat -> nth i a 0 < v) -> (forall i, (hi <= i < List.length a)%nat -> v <= nth i a 0) ->
  let r := search_left fuel a v lo hi in
  (lo <= r <= hi)%nat /\ (forall i, (i < r)%nat -> nth i a 0 < v) /\
  (forall i, (r <= i < List.length a)%nat -> v <= nth i a 0).
Proof.
  intros O. induction fuel as [|fuel IH]; intros lo hi Hl Hf Hlo Hhi; cbn [search_left].
  - assert (lo = hi) by lia. subst. split; [lia|]. auto.
  - destruct (Nat.ltb_spec lo hi) as [L|G].
    2:{ assert (lo = hi) by lia. subst. split; [lia|]. auto. }
    assert (Hd : (Nat.div (hi - lo) 2 < hi - lo)%nat) by (apply Nat.div_lt; lia).
    set (mid := (lo + Nat.div (hi - lo) 2)%nat) in *.
    destruct (Rlt_dec (nth mid a 0) v) as [Lt|Ge].
    + destruct (IH (S mid) hi) as (r1 & r2 & r3); [lia|lia| |auto|].
      * intros i Hi. apply Rle_lt_trans with (nth mid a 0); [apply O; lia|auto].
      * split; [lia|]. auto.
    + destruct (IH lo mid) as (r1 & r2 & r3); [lia|lia|auto| |].
      * intros i Hi. apply Rle_trans with (nth mid a 0); [lra|apply O; lia].
      * split; [lia|]. auto.
Qed.
Lemma searchsorted_spec a v : ordered a ->
  (searchsorted a v <= List.length a)%nat /\ (forall i, (i < searchsorted a v)%nat -> nth i a 0 < v) /\
  (forall i, (searchsorted a v <= i < List.length a)%nat -> v <= nth i a 0).
Proof.
  intros O. destruct (search_left_spec a v O (List.length a) 0 (List.length a)) as (h1 & h2 & h3); try lia.
  split; [apply h1|]. auto.
Qed.

Definition best (a : row) (v : R) : nat :=
  let idx := searchsorted a v in
  if Nat.ltb 0 idx then
    if Nat.eqb idx (List.length a) then (idx - 1)%nat
    else if Rlt_dec (Rabs (v - nth (idx - 1) a 0)) (Rabs (v - nth idx a 0)) then (idx - 1)%nat else idx
  else idx.
Lemma best_spec a v : ordered a -> a <> [] ->
  (best a v < List.length a)%nat /\
  (forall j, (j < List.length a)%nat -> Rabs (v - nth (best a v) a 0) <= Rabs (v - nth j a 0)) /\
  (forall j, (j < List.length a)%nat -> Rabs (v - nth (best a v) a 0) = Rabs (v - nth j a 0) ->
     nth j a 0 <= nth (best a v) a 0).
Proof.
  intros O ne. assert (len : (0 < List.length a)%nat) by (destruct a; [congruence|cbn; lia]).
  destruct (searchsorted_spec a v O) as (sl & below & above). unfold best.
  set (idx := searchsorted a v) in *.
  assert (A : forall j, (j < List.length a)%nat -> (j < idx)%nat -> Rabs (v - nth j a 0) = v - nth j a 0).
  { intros j Hj Hi. apply Rabs_pos_eq. specialize (below j Hi). lra. }
  assert (B : forall j, (j < List.length a)%nat -> (idx <= j)%nat -> Rabs (v - nth j a 0) = nth j a 0 - v).
  { intros j Hj Hi. rewrite Rabs_minus_sym. apply Rabs_pos_eq. specialize (above j ltac:(lia)). lra. }
  destruct (Nat.ltb_spec 0 idx) as [p|z].
  - destruct (Nat.eqb_spec idx (List.length a)) as [e|n].
    + split; [lia|]. split.
      * intros j Hj. rewrite !A by lia. pose proof (O j (idx - 1)%nat ltac:(lia) ltac:(lia)). lra.
      * intros j Hj _. apply O; lia.
    + pose proof (A (idx - 1)%nat ltac:(lia) ltac:(lia)) as A1. pose proof (B idx ltac:(lia) ltac:(lia)) as B1.
      rewrite A1, B1. destruct (Rlt_dec _ _) as [lt|ge].
      * split; [lia|]. rewrite A1. split.
        -- intros j Hj. destruct (Nat.lt_ge_cases j idx) as [c|c].
           ++ rewrite A by lia. pose proof (O j (idx - 1)%nat ltac:(lia) ltac:(lia)). lra.
           ++ rewrite B by lia. pose proof (O idx j ltac:(lia) ltac:(lia)). lra.
        -- intros j Hj E. destruct (Nat.lt_ge_cases j idx) as [c|c]; [apply O; lia|].
           rewrite B in E by lia. pose proof (O idx j ltac:(lia) ltac:(lia)). lra.
      * split; [lia|]. rewrite B1. split.
        -- intros j Hj. destruct (Nat.lt_ge_cases j idx) as [c|c].
           ++ rewrite A by lia. pose proof (O j (idx - 1)%nat ltac:(lia) ltac:(lia)). lra.
           ++ rewrite B by lia. pose proof (O idx j ltac:(lia) ltac:(lia)). lra.
        -- intros j Hj E. destruct (Nat.lt_ge_cases j idx) as [c|c]; [apply O; lia|].
           rewrite B in E by lia. lra.
  - assert (idx = 0%nat) as z0 by lia. split; [lia|]. split.
    + intros j Hj. rewrite !B by lia. pose proof (O idx j ltac:(lia) ltac:(lia)). lra.
    + intros j Hj E. rewrite !B in E by lia. lra.
Qed.
Lemma find_nearest_best a v s : find_nearest a v s =
  let a := if s then a else np_sort a in
  match nth_error a (best a v) with Some x => Ok (best a v, x) | None => Err IndexError end.
Proof. reflexivity. Qed.

(** Sorting. *)
Lemma insert_perm x l : Permutation (x :: l) (insert_sorted x l).
Proof.
  induction l as [|y l IH]; cbn [insert_sorted]; [apply Permutation_refl|].
  destruct (Rle_dec x y); [apply Permutation_refl|].
  eapply Permutation_trans; [apply perm_swap|]. apply perm_skip. exact IH.
Qed.
Lemma sort_perm l : Permutation l (np_sort l).
Proof.
  induction l as [|x l IH]; [apply Permutation_refl|]. cbn [np_sort fold_right].
  eapply Permutation_trans; [apply perm_skip; exact IH|]. apply insert_perm.
Qed.
Lemma ordered_cons x l : (forall y, In y l -> x <= y) -> ordered l -> ordered (x :: l).
Proof.
  intros H O [|i] [|j] Hij Hj; cbn [nth]; [lra| |lia|].
  - apply H. apply nth_In. cbn in Hj. lia.
  - apply O; [lia|]. cbn in Hj. lia.
Qed.
Lemma ordered_tail x l : ordered (x :: l) -> ordered l.
Proof. intros O i j Hij Hj. apply (O (S i) (S j)); cbn; lia. Qed.
Lemma ordered_head x l y : ordered (x :: l) -> In y l -> x <= y.
Proof.
  intros O H. apply (In_nth l y 0) in H. destruct H as (k & Hk & <-).
  apply (O 0%nat (S k)); cbn; lia.
Qed.
Lemma insert_ordered x l : ordered l -> ordered (insert_sorted x l).
Proof.
  induction l as [|y l IH]; intros O; cbn [insert_sorted].
  - intros i j Hij Hj. cbn in Hj. assert (i = 0 /\ j = 0)%nat as [-> ->] by lia. lra.
  - destruct (Rle_dec x y) as [L|G].
    + apply ordered_cons; [|auto]. intros z [<-|Hz]; [auto|]. pose proof (ordered_head _ _ _ O Hz). lra.
    + apply ordered_cons; [|apply IH, (ordered_tail _ _ O)].
      intros z Hz. apply Permutation_in with (l' := x :: l) in Hz; [|apply Permutation_sym, insert_perm].
      destruct Hz as [<-|Hz]; [lra|apply (ordered_head _ _ _ O Hz)].
Qed.
Lemma sort_ordered l : ordered (np_sort l).
Proof.
  induction l as [|x l IH]; [intros i j _ Hj; cbn in Hj; lia|]. apply insert_ordered. exact IH.
Qed.

(** ** Weights *)
Lemma fold_plus_ext (f g : nat -> R) l : (forall i, In i l -> f i = g i) ->
  fold_right Rplus 0 (map f l) = fold_right Rplus 0 (map g l).
Proof. intros H. f_equal. apply map_ext_in. exact H. Qed.
Lemma total_const P w c : (forall i, (i < List.length w)%nat -> P i = true -> nth i w 0 = c) ->
  total P w = INR (number P (List.length w)) * c.
Proof.
  intros H. unfold total, number.
  assert (G : forall l, (forall i, In i l -> P i = true -> nth i w 0 = c) ->
    fold_right Rplus 0 (map (fun i => if P i then nth i w 0 else 0) l) = INR (List.length (filter P l)) * c).
  { induction l as [|i l IH]; intros F; [cbn; ring|]. cbn [map fold_right filter].
    rewrite IH by (intros; apply F; [right; auto|auto]).
    destruct (P i) eqn:E; [|ring]. cbn [List.length]. rewrite S_INR, F by (auto; left; auto). ring. }
  apply G. intros i Hi. apply H. apply in_seq in Hi. lia.
Qed.
Lemma number_count (P : nat -> bool) (l : list bool) : (forall i, (i < List.length l)%nat -> P i = nth i l false) ->
  number P (List.length l) = count l.
Proof.
  unfold number, count.
  assert (G : forall l k, (forall i, (i < List.length l)%nat -> P (k + i)%nat = nth i l false) ->
     List.length (filter P (seq k (List.length l))) = List.length (filter (fun b => b) l)).
  { clear. induction l as [|b l IH]; intros k H; [reflexivity|]. cbn [List.length seq filter].
    assert (E : P k = b) by (specialize (H 0%nat ltac:(cbn; lia)); rewrite Nat.add_0_r in H; exact H). rewrite E.
    assert (T : forall i, (i < List.length l)%nat -> P (S k + i)%nat = nth i l false).
    { intros i Hi. specialize (H (S i) ltac:(cbn; lia)). rewrite <- Nat.add_succ_comm in H. exact H. }
    destruct b; cbn [List.length]; rewrite (IH (S k) T); reflexivity. }
  intros H. apply (G l 0%nat). exact H.
Qed.
Lemma divide_length sel c w : List.length sel = List.length w -> List.length (divide_where sel c w) = List.length w.
Proof.
  unfold divide_where. revert w. induction sel as [|b sel IH]; intros [|x w] H; try discriminate; [reflexivity|].
  cbn. f_equal. apply IH. auto.
Qed.
Lemma divide_nth sel c w i : List.length sel = List.length w -> (i < List.length w)%nat ->
  nth i (divide_where sel c w) 0 = if nth i sel false then nth i w 0 / c else nth i w 0.
Proof.
  unfold divide_where. revert w i. induction sel as [|b sel IH]; intros [|x w] i H Hi; try discriminate; [cbn in Hi; lia|].
  destruct i; [reflexivity|]. cbn. apply IH; [auto|cbn in Hi; lia].
Qed.
Lemma repeat_nth {A} (x d : A) n i : (i < n)%nat -> nth i (repeat x n) d = x.
Proof. intros H. rewrite (nth_indep _ d x) by (rewrite repeat_length; auto). apply nth_repeat. Qed.
Lemma count_le l : (count l <= List.length l)%nat.
Proof. unfold count. induction l as [|[] l IH]; cbn; lia. Qed.
Lemma count_negb l : count (map negb l) = (List.length l - count l)%nat.
Proof.
  induction l as [|b l IH]; [reflexivity|]. pose proof (count_le l). unfold count in *.
  destruct b; cbn [map negb filter List.length]; lia.
Qed.
Lemma negb_nth l i : (i < List.length l)%nat -> nth i (map negb l) false = negb (nth i l false).
Proof. intros H. rewrite (nth_indep _ false (negb false)) by (rewrite map_length; auto). apply map_nth. Qed.
Lemma conf_length p q y z : List.length y = List.length z -> List.length (conf_mask p q y z) = List.length y.
Proof. unfold conf_mask. revert z. induction y as [|a y IH]; intros [|b z] H; try discriminate; [reflexivity|]. cbn. f_equal. apply IH; auto. Qed.
Lemma conf_nth p q y z i : List.length y = List.length z -> (i < List.length y)%nat ->
  nth i (conf_mask p q y z) false = andb (Bool.eqb (nth i y false) p) (Bool.eqb (nth i z false) q).
Proof.
  unfold conf_mask. revert z i. induction y as [|a y IH]; intros [|b z] i H Hi; try discriminate; [cbn in Hi; lia|].
  destruct i; [reflexivity|]. cbn. apply IH; [auto|cbn in Hi; lia].
Qed.
Lemma scale_nth (c : R) (w : row) i : (i < List.length w)%nat -> nth i (map (fun x => x * c) w) 0 = nth i w 0 * c.
Proof. intros H. rewrite (nth_indep _ 0 (0 * c)) by (rewrite map_length; auto). apply (map_nth (fun x => x * c)). Qed.

(** ** Norms *)
Lemma fold_max_spec l m : let r := fold_left (fun m y => Rmax m (Rabs y)) l m in
  m <= r /\ (forall x, In x l -> Rabs x <= r) /\ (r = m \/ exists x, In x l /\ r = Rabs x).
Proof.
  revert m. induction l as [|b l IH]; intros m; cbn [fold_left]; [split; [lra|split; [intros x []|left; reflexivity]]|].
  destruct (IH (Rmax m (Rabs b))) as (h1 & h2 & h3). split; [pose proof (Rmax_l m (Rabs b)); lra|]. split.
  - intros x [<-|Hx]; [pose proof (Rmax_r m (Rabs b)); lra|auto].
  - destruct h3 as [h3|(x & Hx & h3)]; [|right; exists x; split; [right; auto|auto]].
    rewrite h3. unfold Rmax. destruct (Rle_dec m (Rabs b)); [right; exists b; split; [left; auto|auto]|left; auto].
Qed.
Lemma fold_min_spec l m : let r := fold_left (fun m y => Rmin m (Rabs y)) l m in
  r <= m /\ (forall x, In x l -> r <= Rabs x) /\ (r = m \/ exists x, In x l /\ r = Rabs x).
Proof.
  revert m. induction l as [|b l IH]; intros m; cbn [fold_left]; [split; [lra|split; [intros x []|left; reflexivity]]|].
  destruct (IH (Rmin m (Rabs b))) as (h1 & h2 & h3). split; [pose proof (Rmin_l m (Rabs b)); lra|]. split.
  - intros x [<-|Hx]; [pose proof (Rmin_r m (Rabs b)); lra|auto].
  - destruct h3 as [h3|(x & Hx & h3)]; [|right; exists x; split; [right; auto|auto]].
    rewrite h3. unfold Rmin. destruct (Rle_dec m (Rabs b)); [left; auto|right; exists b; split; [left; auto|auto]].
Qed.
Lemma subtract_same x y : List.length x = List.length y -> subtract x y = Ok (map2 Rminus x y).
Proof.
  intros H. destruct x as [|a [|a' x]], y as [|b [|b' y]]; try discriminate; try reflexivity.
  cbn in H |- *. injection H as ->. rewrite Nat.eqb_refl. reflexivity.
Qed.
Lemma map2_minus_nth (x y : row) i : List.length x = List.length y -> (i < List.length x)%nat ->
  nth i (map2 Rminus x y) 0 = nth i x 0 - nth i y 0.
Proof.
  revert y i. induction x as [|a x IH]; intros [|b y] i H Hi; try discriminate; [cbn in Hi; lia|].
  destruct i; [reflexivity|]. cbn. apply IH; [auto|cbn in Hi; lia].
Qed.
Lemma map2_length {A B C} (f : A -> B -> C) l m : List.length l = List.length m -> List.length (map2 f l m) = List.length l.
Proof. revert m. induction l as [|a l IH]; intros [|b m] H; try discriminate; [reflexivity|]. cbn. f_equal. apply IH. auto. Qed.
Lemma map2_minus_in (x y : row) d : List.length x = List.length y -> In d (map2 Rminus x y) <->
  exists i, (i < List.length x)%nat /\ d = nth i x 0 - nth i y 0.
Proof.
  intros H. split.
  - intros Hd. apply (In_nth _ _ 0) in Hd. destruct Hd as (i & Hi & <-). rewrite map2_length in Hi by auto.
    exists i. split; [auto|]. apply map2_minus_nth; auto.
  - intros (i & Hi & ->). rewrite <- map2_minus_nth by auto. apply nth_In. rewrite map2_length; auto.
Qed.

(** ** Selecting rows *)
Lemma mask_map_filter {A B} (f : B -> bool) (g : A -> B) (l : list A) : Prelude.mask (map (fun x => f (g x)) l) l = filter (fun x => f (g x)) l.
Proof. induction l as [|a l IH]; [reflexivity|]. cbn. rewrite IH. reflexivity. Qed.
Lemma within_spec c x : within c x = true <-> forall a, In a x -> - c <= a <= c.
Proof.
  unfold within. rewrite forallb_forall. split; intros H a Ha; specialize (H a Ha).
  - apply andb_true_iff in H. destruct (Rle_dec (- c) a), (Rle_dec a c); destruct H; try discriminate. lra.
  - apply andb_true_iff. destruct (Rle_dec (- c) a), (Rle_dec a c); try lra; auto.
Qed.
