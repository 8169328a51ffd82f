(** Shared vocabulary of the models: Python results with exceptions and the
    few numpy/list primitives used by the modelled code. *)
From Coq Require Import List ZArith Lia Bool.
Import ListNotations.

(** Python exceptions that the modelled code can raise. *)
Inductive exn : Type :=
| DimensionError      (* functions.py:575-576 *)
| ValueError
| TypeError
| IndexError
| AttributeError
| NotImplementedError
| NameError           (* UnboundLocalError / NameError *)
| KeyError
| OptimizationError   (* reinforcement_learning.py:22-23 *)
| OtherError.

(** Outcome of a call: a value or an exception. *)
Inductive res (A : Type) : Type :=
| Ok (a : A)
| Err (e : exn).
Arguments Ok {A} a.
Arguments Err {A} e.

Definition bind {A B} (x : res A) (f : A -> res B) : res B :=
  match x with Ok a => f a | Err e => Err e end.
Notation "'do' x <- e ; f" := (bind e (fun x => f))
  (at level 200, x pattern, e at level 100, f at level 200, right associativity).

Definition rmap {A B} (f : A -> B) (x : res A) : res B :=
  match x with Ok a => Ok (f a) | Err e => Err e end.

(** Left-to-right evaluation of a fallible function over a list. *)
Fixpoint mapM {A B} (f : A -> res B) (l : list A) : res (list B) :=
  match l with
  | [] => Ok []
  | a :: t => do b <- f a; do bs <- mapM f t; Ok (b :: bs)
  end.

(** [zip]ping two lists with a function, truncating at the shorter one, as
    Python's [zip]. *)
Fixpoint map2 {A B C} (f : A -> B -> C) (l : list A) (m : list B) : list C :=
  match l, m with
  | a :: l', b :: m' => f a b :: map2 f l' m'
  | _, _ => []
  end.

Fixpoint map3 {A B C D} (f : A -> B -> C -> D)
    (l : list A) (m : list B) (k : list C) : list D :=
  match l, m, k with
  | a :: l', b :: m', c :: k' => f a b c :: map3 f l' m' k'
  | _, _, _ => []
  end.

(** Python slicing [l[i:j]] for 0 <= i. *)
Definition slice {A} (i j : nat) (l : list A) : list A :=
  firstn (j - i) (skipn i l).

(** Python slice assignment [l[i:i+len(new)] = new] through a view. *)
Definition splice {A} (l : list A) (i : nat) (new : list A) : list A :=
  firstn i l ++ new ++ skipn (i + length new) l.

(** Python indexing with wrap-around of negative indices. *)
Definition py_nth {A} (l : list A) (i : Z) : res A :=
  let n := Z.of_nat (length l) in
  let j := if (i <? 0)%Z then (i + n)%Z else i in
  if (0 <=? j)%Z && (j <? n)%Z then
    match nth_error l (Z.to_nat j) with
    | Some a => Ok a
    | None => Err IndexError
    end
  else Err IndexError.

(** [np.argmin] of a boolean array: position of the first [False], or 0 if
    there is none. *)
Fixpoint first_false (l : list bool) : option nat :=
  match l with
  | [] => None
  | false :: _ => Some 0
  | true :: t => option_map S (first_false t)
  end.
Definition argmin_bool (l : list bool) : nat :=
  match first_false l with Some k => k | None => 0 end.

(** Replace the element at position [i]. *)
Fixpoint set_nth {A} (i : nat) (x : A) (l : list A) : list A :=
  match l, i with
  | [], _ => []
  | _ :: t, O => x :: t
  | h :: t, S i' => h :: set_nth i' x t
  end.

(** Boolean-mask selection [l[mask]]. *)
Fixpoint mask {A} (m : list bool) (l : list A) : list A :=
  match m, l with
  | true :: m', a :: l' => a :: mask m' l'
  | false :: m', _ :: l' => mask m' l'
  | _, _ => []
  end.

Lemma bind_ok {A B} (x : res A) (f : A -> res B) b :
  bind x f = Ok b <-> exists a, x = Ok a /\ f a = Ok b.
Proof.
  destruct x as [a|e]; simpl; split.
  - intros H; exists a; auto.
  - intros (a' & H & H'); injection H; intros <-; auto.
  - discriminate.
  - intros (a' & H & H'); discriminate.
Qed.

Lemma mapM_ok {A B} (f : A -> res B) (l : list A) (g : A -> B) :
  (forall a, In a l -> f a = Ok (g a)) -> mapM f l = Ok (map g l).
Proof.
  induction l as [|a l IH]; intros H; [reflexivity|].
  simpl; rewrite (H a (or_introl eq_refl)); simpl.
  rewrite IH; [reflexivity|intros; apply H; right; auto].
Qed.

Lemma mapM_inv {A B} (f : A -> res B) (l : list A) bs :
  mapM f l = Ok bs -> Forall2 (fun a b => f a = Ok b) l bs.
Proof.
  revert bs; induction l as [|a l IH]; intros bs H; simpl in H.
  - injection H; intros <-; constructor.
  - apply bind_ok in H as (b & Hb & H); apply bind_ok in H as (bs' & Hbs & H).
    injection H; intros <-; constructor; auto.
Qed.

Lemma map2_length {A B C} (f : A -> B -> C) l m :
  length (map2 f l m) = Nat.min (length l) (length m).
Proof. revert m; induction l; destruct m; simpl; auto. Qed.

Lemma map3_length {A B C D} (f : A -> B -> C -> D) l m k :
  length (map3 f l m k) = Nat.min (length l) (Nat.min (length m) (length k)).
Proof. revert m k; induction l; destruct m, k; simpl; auto. Qed.

Lemma map2_map {A B C D} (f : A -> B -> C) (g : C -> D) l m :
  map g (map2 f l m) = map2 (fun a b => g (f a b)) l m.
Proof. revert m; induction l; destruct m; simpl; auto; now rewrite IHl. Qed.

Lemma nth_map2 {A B C} (f : A -> B -> C) l m i da db dc :
  i < length l -> i < length m ->
  nth i (map2 f l m) dc = f (nth i l da) (nth i m db).
Proof.
  revert m i; induction l; destruct m, i; simpl; intros; try lia; auto.
  apply IHl; lia.
Qed.

Lemma slice_length {A} i j (l : list A) :
  length (slice i j l) = Nat.min (j - i) (length l - i).
Proof. unfold slice; now rewrite firstn_length, skipn_length. Qed.

Lemma splice_length {A} (l : list A) i new :
  i + length new <= length l -> length (splice l i new) = length l.
Proof.
  intros; unfold splice; rewrite !app_length, firstn_length, skipn_length; lia.
Qed.

Lemma set_nth_length {A} i (x : A) l : length (set_nth i x l) = length l.
Proof. revert i; induction l; destruct i; simpl; auto. Qed.

Lemma nth_set_nth {A} i j (x d : A) l :
  nth j (set_nth i x l) d =
  if (Nat.eqb i j && Nat.ltb j (length l))%bool then x else nth j l d.
Proof.
  revert i j; induction l as [|a l IH]; intros i j.
  - destruct i; simpl; rewrite Bool.andb_false_r; destruct j; reflexivity.
  - destruct i, j; simpl; auto. rewrite IH. reflexivity.
Qed.

Lemma py_nth_nonneg {A} (l : list A) i a :
  nth_error l i = Some a -> py_nth l (Z.of_nat i) = Ok a.
Proof.
  intros H. assert (i < length l) by (apply nth_error_Some; congruence).
  unfold py_nth. replace (Z.of_nat i <? 0)%Z with false by (symmetry; apply Z.ltb_ge; lia).
  replace (0 <=? Z.of_nat i)%Z with true by (symmetry; apply Z.leb_le; lia).
  replace (Z.of_nat i <? Z.of_nat (length l))%Z with true by (symmetry; apply Z.ltb_lt; lia).
  simpl. now rewrite Nat2Z.id, H.
Qed.

Lemma py_nth_last {A} (l : list A) a :
  py_nth (l ++ [a]) (-1) = Ok a.
Proof.
  unfold py_nth. cbv zeta. change (-1 <? 0)%Z with true. cbv iota.
  set (j := (-1 + Z.of_nat (length (l ++ [a])))%Z).
  assert (Hj : j = Z.of_nat (length l)) by (unfold j; rewrite app_length; simpl length; lia).
  rewrite Hj, app_length; simpl length.
  replace (0 <=? Z.of_nat (length l))%Z with true by (symmetry; apply Z.leb_le; lia).
  replace (Z.of_nat (length l) <? Z.of_nat (length l + 1))%Z with true
    by (symmetry; apply Z.ltb_lt; lia).
  rewrite Nat2Z.id. cbn [andb]. rewrite nth_error_app2, Nat.sub_diag by lia. reflexivity.
Qed.

Lemma first_false_None l : first_false l = None <-> Forall (fun b => b = true) l.
Proof.
  induction l as [|[] l IH]; simpl; split; intros H; auto.
  - destruct (first_false l); [discriminate|]. constructor; auto; now apply IH.
  - inversion H; subst. apply IH in H3. now rewrite H3.
  - discriminate.
  - inversion H; discriminate.
Qed.

Lemma first_false_Some l k :
  first_false l = Some k <->
  (k < length l /\ nth k l true = false /\ forall j, j < k -> nth j l true = true).
Proof.
  revert k; induction l as [|[] l IH]; intros k; simpl.
  - split; [discriminate|lia].
  - destruct (first_false l) as [m|] eqn:E; simpl.
    + split.
      * intros H; injection H; intros <-. destruct (proj1 (IH m) eq_refl) as (A & B & C).
        repeat split; auto; [lia|]. intros [|j] Hj; auto. apply C; lia.
      * intros (A & B & C). destruct k as [|k]; [discriminate|]. f_equal. f_equal.
        assert (Some m = Some k) as HH. { apply IH. repeat split; auto; try lia. intros j Hj; apply (C (S j)); lia. }
        congruence.
    + split; [discriminate|]. intros (A & B & C). destruct k; [discriminate|].
      exfalso. assert (@None nat = Some k); [|discriminate]. apply IH. repeat split; auto; try lia.
      intros j Hj; apply (C (S j)); lia.
  - split.
    + intros H; injection H; intros <-. repeat split; auto; lia.
    + intros (A & B & C). destruct k; auto. exfalso. specialize (C 0). simpl in C. assert (false = true) by (apply C; lia). discriminate.
Qed.

Lemma NoDup_app_intro {A} (l m : list A) :
  NoDup l -> NoDup m -> (forall x, In x l -> In x m -> False) -> NoDup (l ++ m).
Proof.
  induction 1 as [|a l Ha Hl IH]; intros Hm D; simpl; auto.
  constructor.
  - rewrite in_app_iff; intros [H|H]; [contradiction|]. apply (D a); [now left|auto].
  - apply IH; auto. intros x H1 H2; apply (D x); [now right|auto].
Qed.

Lemma Forall2_len {A B} (P : A -> B -> Prop) l m : Forall2 P l m -> length l = length m.
Proof. induction 1; simpl; auto. Qed.

Lemma nth_map_lt {A B} (f : A -> B) l i d d' :
  i < length l -> nth i (map f l) d' = f (nth i l d).
Proof.
  intros H. rewrite (nth_indep _ _ (f d)) by (now rewrite map_length). apply map_nth.
Qed.
