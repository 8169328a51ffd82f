(** General facts about lists used in several developments. *)
From Coq Require Import List Bool Arith ZArith Lia Permutation.
From Verif Require Import Prelude.
Import ListNotations.

Lemma nth_firstn {A} (d : A) l k q :
  nth q (firstn k l) d = if q <? k then nth q l d else d.
Proof.
  revert k q; induction l as [|a l IH]; intros [|k] [|q]; simpl; auto.
  - destruct (_ <? _); auto.
  - rewrite IH. reflexivity.
Qed.

Lemma nth_skipn {A} (d : A) l k q : nth q (skipn k l) d = nth (k + q) l d.
Proof.
  revert l; induction k as [|k IH]; intros [|a l]; simpl; auto.
  now destruct q.
Qed.

Lemma nth_repeat' {A} (d x : A) n q :
  nth q (repeat x n) d = if q <? n then x else d.
Proof.
  revert q; induction n as [|n IH]; intros [|q]; simpl; auto.
  rewrite IH. reflexivity.
Qed.

Lemma nth_slice {A} (d : A) l i j q :
  q < j - i -> nth q (slice i j l) d = nth (i + q) l d.
Proof.
  intros H; unfold slice. rewrite nth_firstn.
  destruct (Nat.ltb_spec q (j - i)); [apply nth_skipn|lia].
Qed.

Lemma nth_app_dec {A} (d : A) l m q :
  nth q (l ++ m) d = if q <? length l then nth q l d else nth (q - length l) m d.
Proof.
  destruct (Nat.ltb_spec q (length l)); [now apply app_nth1|now apply app_nth2].
Qed.

Lemma nth_splice {A} (d : A) l i new q :
  i + length new <= length l ->
  nth q (splice l i new) d =
  if (i <=? q) && (q <? i + length new) then nth (q - i) new d else nth q l d.
Proof.
  intros H; unfold splice.
  rewrite nth_app_dec, nth_firstn, firstn_length, Nat.min_l by lia.
  destruct (Nat.ltb_spec q i).
  - destruct (Nat.leb_spec i q); [lia|reflexivity].
  - destruct (Nat.leb_spec i q); [|lia]. simpl.
    rewrite nth_app_dec, nth_skipn.
    destruct (Nat.ltb_spec (q - i) (length new)),
             (Nat.ltb_spec q (i + length new)); try lia; auto.
    f_equal; lia.
Qed.

Lemma nth_map' {A B} (f : A -> B) l d d' q :
  q < length l -> nth q (map f l) d = f (nth q l d').
Proof.
  intros H. rewrite nth_indep with (d' := f d') by now rewrite map_length.
  apply map_nth.
Qed.

Lemma nth_map2' {A B C} (f : A -> B -> C) l m d da db q :
  q < length l -> q < length m ->
  nth q (map2 f l m) d = f (nth q l da) (nth q m db).
Proof.
  revert m q; induction l as [|a l IH]; intros [|b m] [|q]; simpl; intros; try lia;
    auto. apply IH; lia.
Qed.

Lemma firstn_skipn_nth {A} (l : list A) d k :
  k < length l -> skipn k l = nth k l d :: skipn (S k) l.
Proof.
  revert k; induction l as [|a l IH]; intros [|k] H; simpl in *; try lia; auto.
  rewrite (IH k) at 1 by lia. reflexivity.
Qed.

Lemma list_ext {A} (d : A) l m :
  length l = length m -> (forall q, q < length l -> nth q l d = nth q m d) -> l = m.
Proof. intros; now apply nth_ext with (d := d) (d' := d). Qed.

Lemma first_false_spec l :
  match first_false l with
  | Some k => k < length l /\ nth k l false = false /\
              forall q, q < k -> nth q l false = true
  | None => forall q, q < length l -> nth q l false = true
  end.
Proof.
  induction l as [|b l IH]; simpl; [intros; lia|].
  destruct b.
  - destruct (first_false l) as [k|]; simpl.
    + destruct IH as (H1 & H2 & H3). split; [lia|split; auto].
      intros [|q] Hq; auto. apply H3; lia.
    + intros [|q] Hq; auto. apply IH; lia.
  - split; [lia|split; auto]. intros; lia.
Qed.

Lemma forallb_nth l :
  forallb (fun b : bool => b) l = true <->
  forall q, q < length l -> nth q l false = true.
Proof.
  rewrite forallb_forall; split; intros H.
  - intros q Hq. apply H, nth_In; auto.
  - intros b Hb. apply In_nth with (d := false) in Hb as (q & Hq & <-); auto.
Qed.

Lemma length_filter_mask {A} (m : list bool) (l : list A) :
  length (mask m l) <= length l.
Proof.
  revert l; induction m as [|[] m IH]; intros [|a l]; simpl; try lia.
  - specialize (IH l); lia.
  - specialize (IH l); lia.
Qed.

Lemma mask_In {A} (m : list bool) (l : list A) d x :
  length m = length l ->
  In x (mask m l) <->
  exists p, p < length l /\ nth p m false = true /\ nth p l d = x.
Proof.
  revert l; induction m as [|b m IH]; intros [|a l] H; simpl in *; try discriminate.
  - split; [tauto|intros (p & Hp & _); lia].
  - injection H as H. destruct b; simpl.
    + rewrite IH by auto; split.
      * intros [<-|(p & Hp & Hm & Hx)].
        { exists 0; repeat split; auto; lia. }
        exists (S p); repeat split; auto; lia.
      * intros ([|p] & Hp & Hm & Hx); [left; auto|right].
        exists p; repeat split; auto; lia.
    + rewrite IH by auto; split.
      * intros (p & Hp & Hm & Hx). exists (S p); repeat split; auto; lia.
      * intros ([|p] & Hp & Hm & Hx); [discriminate|].
        exists p; repeat split; auto; lia.
Qed.

Lemma mask_NoDup {A} (m : list bool) (l : list A) : NoDup l -> NoDup (mask m l).
Proof.
  revert l; induction m as [|b m IH]; intros [|a l] H; simpl;
    try (destruct b); try constructor; inversion H; subst; auto.
  intros Hin. apply H2. clear -Hin. revert l Hin.
  induction m as [|[] m IH]; intros [|c l]; simpl; try tauto.
  - intros [->|H]; auto.
  - auto.
Qed.

Lemma nth_error_firstn' {A} (l : list A) n r : r < n -> nth_error (firstn n l) r = nth_error l r.
Proof.
  revert l r; induction n as [|n IH]; intros [|a l] r H; try lia; auto.
  destruct r; simpl; auto. apply IH. lia.
Qed.
Lemma nth_error_skipn' {A} (l : list A) n r : nth_error (skipn n l) r = nth_error l (n + r).
Proof.
  revert l; induction n as [|n IH]; intros [|a l]; simpl; auto. now destruct r.
Qed.
Lemma nth_error_seq' a n r : r < n -> nth_error (seq a n) r = Some (a + r).
Proof.
  revert a r; induction n as [|n IH]; intros a [|r] H; try lia; simpl.
  - now rewrite Nat.add_0_r.
  - rewrite IH by lia. f_equal. lia.
Qed.
Lemma nth_error_Some_lt {A} (l : list A) n x : nth_error l n = Some x -> n < length l.
Proof. intros H. apply nth_error_Some. congruence. Qed.

Lemma Forall2_nth' {A B} (P : A -> B -> Prop) l m da db j :
  Forall2 P l m -> j < length l -> P (nth j l da) (nth j m db).
Proof.
  intros H. revert j. induction H; intros j Hj; simpl in Hj; [lia|].
  destruct j; simpl; auto. apply IHForall2. lia.
Qed.
Lemma Forall2_nth_intro {A B} (P : A -> B -> Prop) l m da db :
  length l = length m -> (forall j, j < length l -> P (nth j l da) (nth j m db)) -> Forall2 P l m.
Proof.
  revert m; induction l as [|a l IH]; intros [|b m] L H; try discriminate; constructor.
  - apply (H 0). simpl. lia.
  - apply IH; auto. intros j Hj. apply (H (S j)). simpl. lia.
Qed.
Lemma choose_list {A} n (d : A) (P : nat -> A -> Prop) :
  (forall j, j < n -> exists a, P j a) ->
  exists l, length l = n /\ forall j, j < n -> P j (nth j l d).
Proof.
  induction n as [|n IH]; intros H.
  - exists []. split; auto. lia.
  - destruct IH as (l & L & Hl); [intros j Hj; apply H; lia|].
    destruct (H n) as (a & Ha); [lia|]. exists (l ++ [a]). rewrite app_length. simpl.
    split; [lia|]. intros j Hj. rewrite nth_app_dec.
    destruct (Nat.ltb_spec j (length l)); [apply Hl; lia|].
    replace j with (length l) by lia. rewrite Nat.sub_diag. simpl. now rewrite L.
Qed.
Lemma app_inj_len {A} (a b c d : list A) : length a = length b ->
  a ++ c = b ++ d -> a = b /\ c = d.
Proof.
  revert b; induction a as [|x a IH]; intros [|y b] L E; try discriminate; auto.
  simpl in *. injection E as -> E. destruct (IH b) as (-> & ->); auto.
Qed.
