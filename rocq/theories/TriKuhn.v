(** Splitting a box along the orders of its coordinates (the Freudenthal or Kuhn
    triangulation): it meets the contract of scipy.spatial.Delaunay for every number
    of axes, and its copies fit together. *)
From Coq Require Import List ZArith Reals Lia Lra Bool Permutation Classical.
Import ListNotations.
From Verif Require Import Prelude ListFacts NumModel NumProofs GridModel GridSpec GridProofs
  TriModel TriSpec TriProofs TriContSpec TriContThree.
Open Scope R_scope.

(** ** Definitions *)

(** First position of [a] in [l]. *)
Fixpoint position {A} (dec : forall a b : A, {a = b} + {a <> b}) (l : list A) (a : A) : nat :=
  match l with [] => 0 | b :: t => if dec b a then 0 else S (position dec t a) end.

(** All orders of the elements of a list. *)
Fixpoint insert_all (x : nat) (l : list nat) : list (list nat) :=
  match l with [] => [[x]] | y :: t => (x :: y :: t) :: map (cons y) (insert_all x t) end.
Fixpoint orders (l : list nat) : list (list nat) :=
  match l with [] => [[]] | x :: t => flat_map (insert_all x) (orders t) end.

(** Sorting by decreasing [key]. *)
Fixpoint insert_by (key : nat -> R) (x : nat) (l : list nat) : list nat :=
  match l with
  | [] => [x]
  | y :: t => if Rle_dec (key y) (key x) then x :: y :: t else y :: insert_by key x t
  end.
Definition sort_by (key : nat -> R) (l : list nat) : list nat := fold_right (insert_by key) [] l.

(** The corner of [0,u] that is at its upper end along the first [k] axes of [s]. *)
Definition corner (u : vec) (s : list nat) (k : nat) : vec :=
  map (fun j => if mem (firstn k s) j then coordinate u j else 0) (seq 0 (length u)).

(** The widths of the box with the given corners. *)
Definition widths (pts : list vec) : vec :=
  map (fun j => fold_right Rmax 0 (map (fun v => coordinate v j) pts)) (seq 0 (length (nth 0 pts []))).

Definition kuhn (pts : list vec) : delaunay :=
  let u := widths pts in
  let axes := seq 0 (length u) in
  Delaunay pts
    (map (fun s => map (fun k => position (list_eq_dec Req_EM_T) pts (corner u s k)) (seq 0 (S (length u))))
         (orders axes))
    (fun p => Z.of_nat (position (list_eq_dec Nat.eq_dec) (orders axes)
                (sort_by (fun j => coordinate p j / coordinate u j) axes))).

(** ** Lists *)

Lemma position_in {A} dec (l : list A) a d : In a l ->
  (position dec l a < length l)%nat /\ nth (position dec l a) l d = a.
Proof.
  induction l as [|b l IH]; [intros []|]. intros H. simpl. destruct (dec b a) as [->|N]; [split; [lia|auto]|].
  destruct H as [->|H]; [contradiction|]. destruct (IH H). split; [lia|auto].
Qed.

Lemma insert_all_perm x l s : In s (insert_all x l) -> Permutation (x :: l) s.
Proof.
  revert s; induction l as [|y l IH]; simpl; intros s.
  - intros [<-|[]]. auto.
  - intros [<-|H]; [auto|]. apply in_map_iff in H as (s' & <- & H').
    eapply perm_trans; [apply perm_swap|]. constructor. auto.
Qed.
Lemma orders_perm l s : In s (orders l) -> Permutation l s.
Proof.
  revert s; induction l as [|x l IH]; simpl; intros s.
  - intros [<-|[]]; auto.
  - intros H. apply in_flat_map in H as (s' & Hs' & H). apply insert_all_perm in H.
    eapply perm_trans; [|exact H]. constructor. auto.
Qed.
Lemma insert_all_in x s1 s2 : In (s1 ++ x :: s2) (insert_all x (s1 ++ s2)).
Proof.
  induction s1 as [|y s1 IH]; simpl.
  - destruct s2; simpl; auto.
  - right. now apply in_map.
Qed.
Lemma perm_orders l s : Permutation l s -> In s (orders l).
Proof.
  revert s; induction l as [|x l IH]; simpl; intros s P.
  - apply Permutation_nil in P. auto.
  - destruct (in_split x s (Permutation_in _ P (in_eq _ _))) as (s1 & s2 & ->).
    apply in_flat_map. exists (s1 ++ s2). split; [|apply insert_all_in].
    apply IH. now apply Permutation_cons_app_inv with x.
Qed.

Lemma insert_by_perm key x l : Permutation (x :: l) (insert_by key x l).
Proof.
  induction l as [|y l IH]; simpl; auto. destruct Rle_dec; auto.
  eapply perm_trans; [apply perm_swap|]. constructor. auto.
Qed.
Lemma sort_by_perm key l : Permutation l (sort_by key l).
Proof.
  induction l as [|x l IH]; simpl; auto. eapply perm_trans; [|apply insert_by_perm]. constructor. auto.
Qed.
(** Keys decrease along the list. *)
Definition descending (key : nat -> R) (l : list nat) : Prop :=
  forall i k, (i <= k)%nat -> (k < length l)%nat -> key (nth k l 0%nat) <= key (nth i l 0%nat).
Lemma descending_cons key x l : (forall y, In y l -> key y <= key x) -> descending key l ->
  descending key (x :: l).
Proof.
  intros H D [|i] [|k] Hik Hk; simpl in *; try lra; [|lia|apply D; lia].
  apply H. apply nth_In. lia.
Qed.
Lemma descending_tail key x l : descending key (x :: l) ->
  descending key l /\ forall y, In y l -> key y <= key x.
Proof.
  intros D. split.
  - intros i k Hik Hk. apply (D (S i) (S k)); simpl; lia.
  - intros y Hy. destruct (In_nth _ _ 0%nat Hy) as (i & Hi & <-). apply (D 0%nat (S i)); simpl; lia.
Qed.
Lemma insert_by_descending key x l : descending key l -> descending key (insert_by key x l).
Proof.
  induction l as [|y l IH]; simpl; intros D.
  - intros [|i] [|k]; simpl; intros; try lia; lra.
  - destruct (descending_tail _ _ _ D) as [D' H]. destruct Rle_dec as [L|N].
    + apply descending_cons; [|exact D]. intros z [<-|Hz]; [exact L|]. specialize (H z Hz). lra.
    + apply descending_cons; [|auto]. intros z Hz.
      apply (Permutation_in _ (Permutation_sym (insert_by_perm key x l))) in Hz as [<-|Hz]; [lra|auto].
Qed.
Lemma sort_by_descending key l : descending key (sort_by key l).
Proof.
  induction l as [|x l IH]; simpl; [intros i k _ Hk; simpl in Hk; lia|]. now apply insert_by_descending.
Qed.

(** ** Orders of the axes *)
Definition is_order (d : nat) (s : list nat) : Prop := Permutation (seq 0 d) s.

Lemma order_len d s : is_order d s -> length s = d.
Proof. intros P. rewrite <- (Permutation_length P). apply seq_length. Qed.
Lemma order_nodup d s : is_order d s -> NoDup s.
Proof. intros P. apply (Permutation_NoDup P). apply seq_NoDup. Qed.
Lemma order_lt d s r : is_order d s -> (r < d)%nat -> (nth r s 0%nat < d)%nat.
Proof.
  intros P Hr. assert (In (nth r s 0%nat) s) by (apply nth_In; rewrite (order_len _ _ P); auto).
  apply (Permutation_in _ (Permutation_sym P)) in H. apply in_seq in H. lia.
Qed.
Lemma order_find d s j : is_order d s -> (j < d)%nat -> exists r, (r < d)%nat /\ nth r s 0%nat = j.
Proof.
  intros P Hj. assert (In j s) by (apply (Permutation_in _ P), in_seq; lia).
  destruct (In_nth _ _ 0%nat H) as (r & Hr & E). rewrite (order_len _ _ P) in Hr. eauto.
Qed.
Lemma mem_in l k : mem l k = true <-> In k l.
Proof.
  unfold mem. rewrite existsb_exists. split.
  - intros (x & Hx & E). apply Nat.eqb_eq in E. now subst.
  - intros H. exists k. split; auto. apply Nat.eqb_refl.
Qed.
Lemma nth_firstn_in (s : list nat) k r : (r < k)%nat -> (r < length s)%nat -> In (nth r s 0%nat) (firstn k s).
Proof.
  revert k r; induction s as [|x s IH]; intros [|k] [|r] Hk Hr; simpl in *; try lia; auto. right. apply IH; lia.
Qed.
Lemma firstn_in_nth (s : list nat) k x : In x (firstn k s) ->
  exists r, (r < k)%nat /\ (r < length s)%nat /\ nth r s 0%nat = x.
Proof.
  revert k; induction s as [|y s IH]; intros [|k] H; simpl in *; try contradiction.
  destruct H as [<-|H]; [exists 0%nat; repeat split; lia|].
  destruct (IH _ H) as (r & H1 & H2 & E). exists (S r). repeat split; auto; lia.
Qed.
Lemma mem_firstn d s k r : is_order d s -> (r < d)%nat -> mem (firstn k s) (nth r s 0%nat) = Nat.ltb r k.
Proof.
  intros P Hr. pose proof (order_len _ _ P) as L. apply Bool.eq_true_iff_eq. rewrite mem_in, Nat.ltb_lt. split.
  - intros H. apply firstn_in_nth in H as (r' & H1 & H2 & E).
    rewrite <- L in Hr. apply (proj1 (NoDup_nth s 0%nat) (order_nodup _ _ P)) in E; auto. lia.
  - intros H. apply nth_firstn_in; lia.
Qed.

Lemma corner_len u s k : length (corner u s k) = length u.
Proof. unfold corner. now rewrite map_length, seq_length. Qed.
Lemma corner_at u s k j : (j < length u)%nat ->
  coordinate (corner u s k) j = if mem (firstn k s) j then coordinate u j else 0.
Proof.
  intros Hj. unfold corner, coordinate.
  rewrite (nth_indep _ 0 ((fun j => if mem (firstn k s) j then nth j u 0 else 0) 0%nat))
    by (rewrite map_length, seq_length; lia).
  rewrite (map_nth (fun j => if mem (firstn k s) j then nth j u 0 else 0)), seq_nth by lia. reflexivity.
Qed.
Lemma corner_order u s k r : is_order (length u) s -> (r < length u)%nat ->
  coordinate (corner u s k) (nth r s 0%nat) = if Nat.ltb r k then coordinate u (nth r s 0%nat) else 0.
Proof. intros P Hr. rewrite corner_at by (eapply order_lt; eauto). now rewrite (mem_firstn (length u)). Qed.

(** ** Sums *)
Lemma telescope (a : nat -> R) n r : (r < n)%nat ->
  sumn n (fun k => if Nat.ltb r k then a k - a (S k) else 0) = a (S r) - a n.
Proof.
  induction n as [|n IH]; [lia|]. intros Hr. cbn [sumn]. destruct (Nat.ltb_spec r n) as [L|G].
  - rewrite IH by auto. lra.
  - assert (r = n) by lia. subst r.
    rewrite (sumn_ext n _ (fun _ => 0)), sumn_zero; [lra|].
    intros i Hi. destruct (Nat.ltb_spec n i); [lia|auto].
Qed.
Lemma telescope_all (a : nat -> R) n : sumn n (fun k => a k - a (S k)) = a 0%nat - a n.
Proof. induction n as [|n IH]; cbn [sumn]; lra. Qed.

(** Weight of the corners after number [r]. *)
Definition tail (d : nat) (lam : nat -> R) (r : nat) : R :=
  sumn (S d) (fun k => if Nat.ltb r k then lam k else 0).

Section Tail.
Context (d : nat) (lam : nat -> R).
Hypothesis Pos : forall k, (k < S d)%nat -> 0 <= lam k.
Hypothesis One : sumn (S d) lam = 1.

Lemma tail_mono r r' : (r <= r')%nat -> tail d lam r' <= tail d lam r.
Proof using Pos.
  intros H. apply sumn_le. intros k Hk. specialize (Pos k Hk).
  destruct (Nat.ltb_spec r' k), (Nat.ltb_spec r k); try lia; lra.
Qed.
Lemma tail_bounds r : 0 <= tail d lam r <= 1.
Proof using Pos One.
  split.
  - apply sumn_nonneg. intros k Hk. specialize (Pos k Hk). destruct Nat.ltb; lra.
  - rewrite <- One. apply sumn_le. intros k Hk. specialize (Pos k Hk). destruct Nat.ltb; lra.
Qed.

(** Where the tails drop below a threshold. *)
Lemma tail_split theta : exists k, (k <= d)%nat /\
  (forall r, (r < k)%nat -> theta <= tail d lam r) /\
  (forall r, (k <= r)%nat -> (r < d)%nat -> tail d lam r < theta).
Proof using Pos.
  assert (H : forall n, exists k, (k <= n)%nat /\ (forall r, (r < k)%nat -> theta <= tail d lam r) /\
    (forall r, (k <= r)%nat -> (r < n)%nat -> tail d lam r < theta)).
  { induction n as [|n (k & Hk & A & B)]; [exists 0%nat; repeat split; intros; lia|].
    destruct (Nat.eq_dec k n) as [->|N].
    - destruct (Rle_dec theta (tail d lam n)) as [L|G].
      + exists (S n). split; [lia|]. split; [|intros; lia]. intros r Hr.
        destruct (Nat.eq_dec r n) as [->|]; [auto|apply A; lia].
      + exists n. split; [lia|]. split; [auto|]. intros r H1 H2. assert (r = n) by lia. subst. lra.
    - exists k. split; [lia|]. split; [auto|]. intros r H1 H2.
      apply Rle_lt_trans with (tail d lam k); [now apply tail_mono|]. apply B; lia. }
  apply H.
Qed.

(** The weight of a corner separates the tails. *)
Lemma tail_drop k : (k <= d)%nat -> 0 < lam k -> exists theta, 0 < theta <= 1 /\
  (forall r, (r < k)%nat -> theta <= tail d lam r) /\
  (forall r, (k <= r)%nat -> tail d lam r < theta).
Proof using Pos One.
  intros Hk L. exists (sumn (S d) (fun l => if Nat.leb k l then lam l else 0)).
  assert (LE : lam k <= sumn (S d) (fun l => if Nat.leb k l then lam l else 0)).
  { pose proof (sumn_nonneg_term (S d) (fun l => if Nat.leb k l then lam l else 0) k) as T. cbv beta in T.
    rewrite Nat.leb_refl in T. apply T; [|lia]. intros i Hi. specialize (Pos i Hi). destruct (Nat.leb k i); lra. }
  split; [split; [lra|]|split].
  - rewrite <- One. apply sumn_le. intros i Hi. specialize (Pos i Hi). destruct Nat.leb; lra.
  - intros r Hr. apply sumn_le. intros i Hi. specialize (Pos i Hi).
    destruct (Nat.leb_spec k i), (Nat.ltb_spec r i); try lia; lra.
  - intros r Hr.
    assert (lam k <= sumn (S d) (fun l => (if Nat.leb k l then lam l else 0) - (if Nat.ltb r l then lam l else 0))).
    { pose proof (sumn_nonneg_term (S d) (fun l => (if Nat.leb k l then lam l else 0) - (if Nat.ltb r l then lam l else 0)) k) as T.
      cbv beta in T. rewrite Nat.leb_refl in T. destruct (Nat.ltb_spec r k); [lia|]. rewrite Rminus_0_r in T.
      apply T; [|lia]. intros i Hi. specialize (Pos i Hi).
      destruct (Nat.leb_spec k i), (Nat.ltb_spec r i); try lia; lra. }
    rewrite sumn_minus in H. unfold tail. lra.
Qed.
End Tail.

(** ** Geometry *)
Lemma entry_seq (f : nat -> vec) n k j : (k < n)%nat -> entry (map f (seq 0 n)) k j = coordinate (f k) j.
Proof.
  intros Hk. unfold entry, coordinate. f_equal.
  rewrite (nth_indep _ [] (f 0%nat)) by (rewrite map_length, seq_length; lia).
  now rewrite map_nth, seq_nth.
Qed.
Lemma translate_at u e v j : (j < length u)%nat ->
  coordinate (translate u e v) j = coordinate v j + IZR (e j) * coordinate u j.
Proof.
  intros Hj. unfold translate, coordinate.
  rewrite (nth_indep _ 0 ((fun j => nth j v 0 + IZR (e j) * nth j u 0) 0%nat))
    by (rewrite map_length, seq_length; lia).
  rewrite (map_nth (fun j => nth j v 0 + IZR (e j) * nth j u 0)), seq_nth by lia. reflexivity.
Qed.
Lemma translate_len u e v : length (translate u e v) = length u.
Proof. unfold translate. now rewrite map_length, seq_length. Qed.

(** Sums over all axes in any order. *)
Lemma sumn_list n f : sumn n f = fold_right Rplus 0 (map f (seq 0 n)).
Proof.
  induction n as [|n IH]; [reflexivity|]. rewrite seq_S, map_app, fold_right_app. cbn [sumn map fold_right].
  rewrite IH. generalize (map f (seq 0 n)). intros l. induction l as [|x l IHl]; simpl; [ring|]. simpl in IHl. rewrite <- IHl. ring.
Qed.
Lemma sum_perm l l' : Permutation l l' -> fold_right Rplus 0 l = fold_right Rplus 0 l'.
Proof. induction 1; simpl; lra. Qed.
Lemma sumn_order n s f : is_order n s -> sumn n f = sumn n (fun r => f (nth r s 0%nat)).
Proof.
  intros P. rewrite !sumn_list, (sum_perm _ _ (Permutation_map f P)). f_equal.
  rewrite <- (map_map (fun r => nth r s 0%nat) f). f_equal.
  apply (nth_ext _ _ 0%nat 0%nat); [rewrite map_length, seq_length; now apply order_len|].
  intros r Hr. rewrite (order_len _ _ P) in Hr.
  rewrite (nth_indep (map _ _) 0%nat (nth 0 s 0%nat)) by (rewrite map_length, seq_length; auto).
  rewrite (map_nth (fun r => nth r s 0%nat)), seq_nth by auto. reflexivity.
Qed.
Lemma sumn_delta_l n k f : (k < n)%nat -> sumn n (fun i => delta k i * f i) = f k.
Proof.
  intros H. rewrite <- (sumn_delta n k f H). apply sumn_ext. intros i _. f_equal. unfold delta.
  now rewrite Nat.eqb_sym.
Qed.
Lemma sumn_delta_none n k f : (n <= k)%nat -> sumn n (fun i => delta k i * f i) = 0.
Proof.
  intros H. rewrite (sumn_ext _ _ (fun _ => 0)), sumn_zero; auto. intros i Hi. unfold delta.
  destruct (Nat.eqb_spec k i); [lia|ring].
Qed.
Lemma sumn_delta_S n a f : (a <= n)%nat ->
  sumn n (fun i => delta a (S i) * f i) = match a with O => 0 | S b => f b end.
Proof.
  destruct a as [|b]; intros H.
  - rewrite (sumn_ext _ _ (fun _ => 0)), sumn_zero; auto. intros i Hi. unfold delta. simpl. ring.
  - rewrite <- (sumn_delta_l n b f) by lia. apply sumn_ext. intros i _. reflexivity.
Qed.

Section Simplex.
Context (u : vec).
Hypothesis U : forall j, (j < length u)%nat -> 0 < coordinate u j.
Local Notation d := (length u).

(** The simplex of the order [s], moved by [e]. *)
Definition simplex (s : list nat) (e : nat -> Z) : list vec :=
  map (fun k => translate u e (corner u s k)) (seq 0 (S d)).

Lemma hull_tail s e p lam : is_order d s ->
  sumn (S d) lam = 1 ->
  (forall j, (j < d)%nat -> coordinate p j = sumn (S d) (fun k => lam k * entry (simplex s e) k j)) ->
  forall r, (r < d)%nat ->
    coordinate p (nth r s 0%nat)
    = coordinate u (nth r s 0%nat) * (IZR (e (nth r s 0%nat)) + tail d lam r).
Proof using.
  intros P One H r Hr. rewrite H by (eapply order_lt; eauto).
  set (j := nth r s 0%nat).
  rewrite (sumn_ext _ _ (fun k => coordinate u j * IZR (e j) * lam k
            + coordinate u j * (if Nat.ltb r k then lam k else 0))).
  - rewrite sumn_plus, !sumn_scal, One. unfold tail. ring.
  - intros k Hk. unfold simplex. rewrite entry_seq by auto.
    rewrite translate_at by (eapply order_lt; eauto). unfold j. rewrite corner_order by auto.
    destruct Nat.ltb; ring.
Qed.

(** The corner that belongs to a threshold: it depends on the point only. *)
Definition at_threshold (theta : R) (p : vec) : vec :=
  map (fun j => (IZR (Int_part (coordinate p j / coordinate u j - theta)) + 1) * coordinate u j) (seq 0 d).

Lemma threshold_at theta p j : (j < d)%nat ->
  coordinate (at_threshold theta p) j
  = (IZR (Int_part (coordinate p j / coordinate u j - theta)) + 1) * coordinate u j.
Proof using.
  intros Hj. unfold at_threshold, coordinate.
  rewrite (nth_indep _ 0 ((fun j => (IZR (Int_part (nth j p 0 / nth j u 0 - theta)) + 1) * nth j u 0) 0%nat))
    by (rewrite map_length, seq_length; lia).
  rewrite (map_nth (fun j => (IZR (Int_part (nth j p 0 / nth j u 0 - theta)) + 1) * nth j u 0)), seq_nth by lia.
  reflexivity.
Qed.

Lemma int_part_eq x z : IZR z <= x < IZR z + 1 -> Int_part x = z.
Proof using.
  intros H. destruct (base_Int_part x) as [A B].
  apply Z.le_antisymm; apply Z.lt_succ_r; apply lt_IZR; rewrite succ_IZR; lra.
Qed.

Lemma threshold_corner s e p lam theta k : is_order d s ->
  (forall k, (k < S d)%nat -> 0 <= lam k) -> sumn (S d) lam = 1 ->
  (forall j, (j < d)%nat -> coordinate p j = sumn (S d) (fun k => lam k * entry (simplex s e) k j)) ->
  0 < theta <= 1 ->
  (forall r, (r < k)%nat -> (r < d)%nat -> theta <= tail d lam r) ->
  (forall r, (k <= r)%nat -> (r < d)%nat -> tail d lam r < theta) ->
  at_threshold theta p = translate u e (corner u s k).
Proof using U.
  intros P Pos One H T A B. apply (nth_ext _ _ 0 0).
  - unfold at_threshold. now rewrite map_length, seq_length, translate_len.
  - intros j Hj. assert (Hj' : (j < d)%nat) by (revert Hj; unfold at_threshold; rewrite map_length, seq_length; auto).
    change (coordinate (at_threshold theta p) j = coordinate (translate u e (corner u s k)) j).
    rewrite threshold_at, translate_at by auto.
    destruct (order_find d s j P Hj') as (r & Hr & <-).
    rewrite (hull_tail s e p lam P One H r Hr), corner_order by auto.
    set (c := nth r s 0%nat) in *. pose proof (U c Hj') as Uc.
    replace (coordinate u c * (IZR (e c) + tail d lam r) / coordinate u c) with (IZR (e c) + tail d lam r)
      by (field; lra).
    pose proof (tail_bounds d lam Pos One r) as TB.
    destruct (Nat.ltb_spec r k) as [L|G].
    + specialize (A r L Hr). rewrite (int_part_eq _ (e c)) by lra. ring.
    + specialize (B r G Hr). rewrite (int_part_eq _ (e c - 1)) by (rewrite minus_IZR; lra).
      rewrite minus_IZR. ring.
Qed.

Lemma simplex_len s e : length (simplex s e) = S d.
Proof using. unfold simplex. now rewrite map_length, seq_length. Qed.

(** Two such simplices meet in a common face, wherever they are. *)
Lemma simplices_share s s' e e' : is_order d s -> is_order d s' ->
  share_faces d (simplex s e) (simplex s' e').
Proof using U.
  intros P P' p Lp (lam & Pos & One & H) (mu & Pos' & One' & H').
  rewrite simplex_len in *.
  pose (keep := fun k => if Rlt_dec 0 (lam k) then true else false).
  destruct (hull_filter (fun k => translate u e (corner u s k)) keep (seq 0 (S d)) lam) as (nu & N1 & N2 & N3).
  { intros k a Hk. unfold keep.
    assert (k < S d)%nat. { rewrite <- (seq_length (S d) 0). apply nth_error_Some. congruence. }
    assert (a = k). { apply (nth_error_nth _ _ 0%nat) in Hk. now rewrite seq_nth in Hk. }
    subst a. destruct Rlt_dec; [discriminate|]. intros _. specialize (Pos k H0). lra. }
  { intros k Hk. rewrite seq_length in Hk. auto. }
  exists (map (fun k => translate u e (corner u s k)) (filter keep (seq 0 (S d)))). split; [|split].
  - intros v Hv. apply in_map_iff in Hv as (k & <- & Hk). apply filter_In in Hk as [Hk _].
    unfold simplex. apply in_map_iff. eauto.
  - intros v Hv. apply in_map_iff in Hv as (k & <- & Hk). apply filter_In in Hk as [Hk Kk].
    apply in_seq in Hk. unfold keep in Kk. destruct Rlt_dec as [Lk|]; [|discriminate].
    destruct (tail_drop d lam Pos One k ltac:(lia) Lk) as (theta & T & A & B).
    rewrite <- (threshold_corner s e p lam theta k P Pos One H T) by auto.
    destruct (tail_split d mu Pos' theta) as (k' & Hk' & A' & B').
    rewrite (threshold_corner s' e' p mu theta k' P' Pos' One' H' T) by auto.
    unfold simplex. apply in_map_iff. exists k'. split; [auto|]. apply in_seq. lia.
  - exists nu. rewrite map_length. rewrite seq_length in N2, N3. split; [auto|]. split; [congruence|].
    intros j Hj. rewrite N3. apply H. auto.
Qed.

(** The order of its coordinates says which simplex contains a point. *)
Lemma simplex_contains s p : is_order d s -> in_box u p ->
  descending (fun j => coordinate p j / coordinate u j) s ->
  convex_hull d (map (corner u s) (seq 0 (S d))) p.
Proof using U.
  intros P [Lp B] D. pose proof (order_len _ _ P) as LS.
  pose (a := fun k => match k with O => 1 | S k' => if Nat.ltb k' d
     then coordinate p (nth k' s 0%nat) / coordinate u (nth k' s 0%nat) else 0 end).
  assert (AB : forall k, 0 <= a k <= 1).
  { intros [|k]; unfold a; [lra|]. destruct (Nat.ltb_spec k d) as [L|_]; [|lra].
    pose proof (order_lt d s k P L) as Hj. specialize (B _ Hj). specialize (U _ Hj).
    split; [apply Rmult_le_pos; [lra|apply Rlt_le, Rinv_0_lt_compat; lra]|].
    apply Rmult_le_reg_r with (coordinate u (nth k s 0%nat)); [lra|].
    replace (coordinate p (nth k s 0%nat) / coordinate u (nth k s 0%nat) * coordinate u (nth k s 0%nat))
      with (coordinate p (nth k s 0%nat)) by (field; lra). lra. }
  assert (AD : forall k, a (S k) <= a k).
  { intros [|k]; [apply (AB 1%nat)|]. unfold a at 1. destruct (Nat.ltb_spec (S k) d) as [L|_]; [|apply AB].
    unfold a. destruct (Nat.ltb_spec k d); [|lia]. apply (D k (S k)); lia. }
  exists (fun k => a k - a (S k)). rewrite map_length, seq_length. split; [intros k _; specialize (AD k); lra|].
  assert (Z : a (S d) = 0) by (unfold a; now rewrite Nat.ltb_irrefl).
  split; [rewrite telescope_all, Z; unfold a; lra|].
  intros j Hj. destruct (order_find d s j P Hj) as (r & Hr & <-).
  rewrite (sumn_ext _ _ (fun k => coordinate u (nth r s 0%nat) * (if Nat.ltb r k then a k - a (S k) else 0))).
  - rewrite sumn_scal, telescope by lia. rewrite Z. unfold a. destruct (Nat.ltb_spec r d); [|lia].
    field. specialize (U _ Hj). lra.
  - intros k Hk. rewrite entry_seq by auto. rewrite corner_order by auto. destruct Nat.ltb; ring.
Qed.

(** The inverse of the edges. *)
Lemma simplex_nondegenerate s : is_order d s -> nondegenerate d (map (corner u s) (seq 0 (S d))).
Proof using U.
  intros P.
  pose (pos := position Nat.eq_dec s).
  assert (Pos : forall j, (j < d)%nat -> (pos j < d)%nat /\ nth (pos j) s 0%nat = j).
  { intros j Hj. destruct (order_find d s j P Hj) as (r & Hr & <-).
    rewrite <- (order_len _ _ P) at 1. apply position_in. apply nth_In. now rewrite (order_len _ _ P). }
  assert (PosN : forall r, (r < d)%nat -> pos (nth r s 0%nat) = r).
  { intros r Hr. destruct (Pos _ (order_lt _ _ _ P Hr)) as [H1 H2].
    apply (proj1 (NoDup_nth s 0%nat) (order_nodup _ _ P)); rewrite ?(order_len _ _ P); auto. }
  assert (EM : forall i j, (i < d)%nat -> (j < d)%nat -> entry (edges (map (corner u s) (seq 0 (S d)))) i j
    = if Nat.ltb (pos j) (S i) then coordinate u j else 0).
  { intros i j Hi Hj. cbn [seq map edges]. rewrite <- seq_shift, !map_map.
    rewrite entry_seq by auto.
    rewrite vsub_coord by (rewrite !corner_len; auto).
    rewrite !corner_at by auto. change (mem (firstn 0 s) j) with false. cbv iota.
    destruct (Pos j Hj) as [H1 H2]. rewrite <- H2 at 1. rewrite (mem_firstn d) by auto.
    destruct Nat.ltb; unfold coordinate; ring. }
  set (H := map (fun j => map (fun k => / coordinate u j * (delta (pos j) k - delta (pos j) (S k))) (seq 0 d)) (seq 0 d)).
  assert (EH : forall j k, (j < d)%nat -> (k < d)%nat ->
    entry H j k = / coordinate u j * (delta (pos j) k - delta (pos j) (S k))).
  { intros j k Hj Hk. unfold H. rewrite entry_seq by auto. unfold coordinate at 1.
    rewrite (nth_indep _ 0 ((fun k => / coordinate u j * (delta (pos j) k - delta (pos j) (S k))) 0%nat))
      by (rewrite map_length, seq_length; auto).
    rewrite (map_nth (fun k => / coordinate u j * (delta (pos j) k - delta (pos j) (S k)))), seq_nth by auto.
    reflexivity. }
  exists H. split; [|split].
  - cbn [seq map edges]. split; [now rewrite !map_length, seq_length|].
    apply Forall_forall. intros r Hr. apply in_map_iff in Hr as (v & <- & Hv).
    apply in_map_iff in Hv as (k & <- & _). rewrite vsub_len; now rewrite !corner_len.
  - unfold H. split; [now rewrite map_length, seq_length|].
    apply Forall_forall. intros r Hr. apply in_map_iff in Hr as (v & <- & Hv). now rewrite map_length, seq_length.
  - intros i k Hi Hk. split.
    + rewrite (sumn_ext _ _ (fun j => (if Nat.ltb (pos j) (S i) then 1 else 0) * (delta (pos j) k - delta (pos j) (S k)))).
      2:{ intros j Hj. rewrite EM, EH by auto. pose proof (U j Hj). destruct Nat.ltb; [field; lra|ring]. }
      rewrite (sumn_order d s _ P).
      rewrite (sumn_ext _ _ (fun r => delta r k * (if Nat.ltb r (S i) then 1 else 0)
        - delta (S k) r * (if Nat.ltb r (S i) then 1 else 0))).
      2:{ intros r Hr. rewrite PosN by auto. unfold delta. rewrite (Nat.eqb_sym (S k) r). ring. }
      rewrite sumn_minus, (sumn_delta d k (fun r => if Nat.ltb r (S i) then 1 else 0)) by auto.
      destruct (Nat.lt_ge_cases (S k) d) as [L|G].
      * rewrite (sumn_delta_l d (S k) (fun r => if Nat.ltb r (S i) then 1 else 0)) by auto. unfold delta.
        destruct (Nat.ltb_spec k (S i)), (Nat.ltb_spec (S k) (S i)), (Nat.eqb_spec i k); try lia; lra.
      * rewrite (sumn_delta_none d (S k)) by auto. unfold delta.
        destruct (Nat.ltb_spec k (S i)), (Nat.eqb_spec i k); try lia; lra.
    + rewrite (sumn_ext _ _ (fun j => / coordinate u i * coordinate u k *
        (delta (pos i) j * (if Nat.ltb (pos k) (S j) then 1 else 0)
         - delta (pos i) (S j) * (if Nat.ltb (pos k) (S j) then 1 else 0)))).
      2:{ intros j Hj. rewrite EM, EH by auto. destruct Nat.ltb; ring. }
      destruct (Pos i Hi) as [Pi Ni]. destruct (Pos k Hk) as [Pk Nk].
      rewrite sumn_scal, sumn_minus.
      rewrite (sumn_delta_l d (pos i) (fun j => if Nat.ltb (pos k) (S j) then 1 else 0)) by auto.
      rewrite (sumn_delta_S d (pos i) (fun j => if Nat.ltb (pos k) (S j) then 1 else 0)) by lia.
      unfold delta. destruct (Nat.eqb_spec i k) as [->|N].
      * pose proof (U k Hk). destruct (Nat.ltb_spec (pos k) (S (pos k))); [|lia].
        destruct (pos k) as [|b]; [field; lra|]. destruct (Nat.ltb_spec (S b) (S b)); [lia|field; lra].
      * assert (pos i <> pos k) by congruence. destruct (pos i) as [|b];
          [destruct (Nat.ltb_spec (pos k) 1); [lia|ring]|].
        destruct (Nat.ltb_spec (pos k) (S (S b))), (Nat.ltb_spec (pos k) (S b)); try lia; ring.
Qed.
End Simplex.

(** ** Grids *)
Section Grid.
Context (g : grid).
Hypothesis V : valid_grid g.
Hypothesis D : (2 <= dims g)%nat.
Local Notation u := (unit_maxes g).
Local Notation d := (dims g).

Lemma corners_mesh : rectangle_corners g = meshgrid_ij (diag u).
Proof using D.
  unfold rectangle_corners. unfold dims in D. destruct (limits g) as [|? [|? ?]]; simpl in D; try lia. reflexivity.
Qed.
Lemma diag_nth (v : vec) j : (j < length v)%nat ->
  nth j (diag v) [] = map (fun i => if Nat.eqb j i then nth i v 0 else 0) (seq 0 (length v)).
Proof using.
  intros Hj. unfold diag.
  set (f := fun j => map (fun i => if Nat.eqb j i then nth i v 0 else 0) (seq 0 (length v))).
  rewrite (nth_indep _ [] (f 0%nat)) by (rewrite map_length, seq_length; auto).
  now rewrite map_nth, seq_nth.
Qed.
Lemma corners_in v : In v (rectangle_corners g) <->
  length v = d /\ forall j, (j < d)%nat -> coordinate v j = 0 \/ coordinate v j = coordinate u j.
Proof using V D.
  pose proof (unit_len g V) as LU. rewrite corners_mesh, meshgrid_In.
  assert (LD : length (diag u) = d) by (unfold diag; now rewrite map_length, seq_length).
  rewrite (Forall2_nth _ _ _ 0 []). rewrite LD. split.
  - intros [L H]. split; [congruence|]. intros j Hj. specialize (H j ltac:(lia)).
    rewrite diag_nth in H by lia. apply in_map_iff in H as (i & E & Hi). unfold coordinate.
    destruct (Nat.eqb_spec j i); subst; auto.
  - intros [L H]. split; [congruence|]. intros j Hj. rewrite L in Hj. rewrite diag_nth by lia.
    apply in_map_iff. destruct (H j Hj) as [E|E].
    + exists (if Nat.eqb j 0 then 1 else 0)%nat. split; [|apply in_seq; destruct (Nat.eqb j 0); lia].
      unfold coordinate in E. rewrite E. destruct j; reflexivity.
    + exists j. rewrite Nat.eqb_refl. split; [symmetry; exact E|]. apply in_seq. lia.
Qed.
Lemma unit_pos j : (j < d)%nat -> 0 < coordinate u j.
Proof using V. intros Hj. unfold coordinate. rewrite (unit_nth g V) by auto. now apply spacing_pos. Qed.

Lemma fold_max l x : In x l -> (forall y, In y l -> y <= x) -> 0 <= x -> fold_right Rmax 0 l = x.
Proof using.
  intros Hx Hle P.
  assert (A : fold_right Rmax 0 l <= x).
  { clear Hx. induction l as [|y l IH]; simpl; [auto|]. apply Rmax_lub; [apply Hle; simpl; auto|].
    apply IH. intros z Hz. apply Hle. now right. }
  assert (B : x <= fold_right Rmax 0 l).
  { clear Hle A. induction l as [|y l IH]; [destruct Hx|]. simpl. destruct Hx as [->|Hx]; [apply Rmax_l|].
    eapply Rle_trans; [apply IH; auto|apply Rmax_r]. }
  lra.
Qed.
Lemma corner_in s k : In (corner u s k) (rectangle_corners g).
Proof using V D.
  pose proof (unit_len g V) as LU. apply corners_in. rewrite corner_len. split; [auto|].
  intros j Hj. rewrite corner_at by lia. destruct mem; auto.
Qed.
Lemma corners_widths : widths (rectangle_corners g) = u.
Proof using V D.
  pose proof (unit_len g V) as LU. pose proof (corner_in [] 0) as I0.
  assert (L0 : length (nth 0 (rectangle_corners g) []) = d).
  { assert (In (nth 0 (rectangle_corners g) []) (rectangle_corners g)) as H.
    { apply nth_In. destruct (rectangle_corners g); [destruct I0|simpl; lia]. }
    now apply corners_in in H. }
  unfold widths. rewrite L0. apply (nth_ext _ _ 0 0); [now rewrite map_length, seq_length|].
  intros j Hj. rewrite map_length, seq_length in Hj.
  set (f := fun j => fold_right Rmax 0 (map (fun v => coordinate v j) (rectangle_corners g))).
  rewrite (nth_indep _ 0 (f 0%nat)) by (rewrite map_length, seq_length; auto).
  rewrite map_nth, seq_nth by auto. unfold f. simpl. fold (coordinate u j).
  pose proof (unit_pos j Hj) as Pu. apply fold_max; [| |lra].
  - apply in_map_iff. exists (corner u (seq 0 d) d). split; [|apply corner_in].
    rewrite corner_at by lia. replace (mem (firstn d (seq 0 d)) j) with true; [auto|].
    symmetry. apply mem_in. rewrite firstn_all2 by (rewrite seq_length; lia). apply in_seq. lia.
  - intros y Hy. apply in_map_iff in Hy as (v & <- & Hv). apply corners_in in Hv as [_ Hv].
    destruct (Hv j Hj) as [-> | ->]; lra.
Qed.

Lemma kuhn_simplex s : In s (dl_simplices (kuhn (rectangle_corners g))) ->
  exists o, is_order d o /\ length s = S d /\
    Forall (fun k => (k < length (rectangle_corners g))%nat) s /\
    map (fun k => nth k (rectangle_corners g) []) s = map (corner u o) (seq 0 (S d)).
Proof using V D.
  pose proof (unit_len g V) as LU. unfold kuhn. cbn [dl_simplices]. rewrite corners_widths, LU. intros H.
  apply in_map_iff in H as (o & <- & Ho). exists o. split; [now apply orders_perm|].
  split; [now rewrite map_length, seq_length|]. split.
  - apply Forall_forall. intros k Hk. apply in_map_iff in Hk as (i & <- & _).
    now apply (position_in _ _ _ []), corner_in.
  - rewrite map_map. apply map_ext. intros k. now apply position_in, corner_in.
Qed.

Lemma good_kuhn : good_dl g kuhn.
Proof using V D.
  intros _. pose proof (unit_len g V) as LU. split; [reflexivity|]. split.
  - apply Forall_forall. intros s Hs. destruct (kuhn_simplex s Hs) as (o & Ho & Ls & Fs & E).
    split; [congruence|]. split; [auto|]. rewrite E. rewrite <- LU.
    apply simplex_nondegenerate; rewrite LU; auto. apply unit_pos.
  - intros p Bp. unfold kuhn. cbn [dl_find dl_simplices]. rewrite corners_widths.
    set (key := fun j => coordinate p j / coordinate u j).
    pose proof (sort_by_perm key (seq 0 (length u))) as P.
    destruct (position_in (list_eq_dec Nat.eq_dec) _ _ [] (perm_orders _ _ P)) as [I1 I2].
    set (id := position (list_eq_dec Nat.eq_dec) (orders (seq 0 (length u))) (sort_by key (seq 0 (length u)))) in *.
    exists id. eexists. split; [reflexivity|]. split.
    + apply map_nth_error. apply (nth_error_nth' _ []). exact I1.
    + rewrite I2. rewrite map_map.
      rewrite (map_ext _ (corner u (sort_by key (seq 0 (length u))))).
      2:{ intros k. now apply position_in, corner_in. }
      apply simplex_contains; [rewrite LU; apply unit_pos|exact P|exact Bp|apply sort_by_descending].
Qed.

Lemma kuhn_matching : matching u (kuhn (rectangle_corners g)).
Proof using V D.
  pose proof (unit_len g V) as LU. intros s s' e Hs Hs'.
  destruct (kuhn_simplex s Hs) as (o & Ho & _ & _ & E). destruct (kuhn_simplex s' Hs') as (o' & Ho' & _ & _ & E').
  unfold corner_points. change (dl_points (kuhn (rectangle_corners g))) with (rectangle_corners g). rewrite E, E'.
  rewrite map_map.
  assert (S0 : map (corner u o) (seq 0 (S d)) = simplex u o (fun _ => 0%Z)).
  { unfold simplex. rewrite LU. apply map_ext. intros k. apply (nth_ext _ _ 0 0).
    - now rewrite corner_len, translate_len.
    - intros j Hj. rewrite corner_len in Hj.
      change (coordinate (corner u o k) j = coordinate (translate u (fun _ => 0%Z) (corner u o k)) j).
      rewrite translate_at by auto. ring. }
  rewrite S0. replace (seq 0 (S d)) with (seq 0 (S (length u))) by now rewrite LU.
  change (share_faces (length u) (simplex u o (fun _ => 0%Z)) (simplex u o' e)).
  apply simplices_share; rewrite LU; auto using unit_pos.
Qed.
End Grid.
