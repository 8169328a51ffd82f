(** Dynamic programming on finitely many states with finitely many choices. *)
From Coq Require Import Reals List Arith Lia Lra Bool.
From Coq Require Import Classical_Prop.
From Verif Require Import Bellman.
Import ListNotations.
Local Open Scope nat_scope.
Local Open Scope R_scope.

(** All lists of [n] elements of a list. *)
Fixpoint words {A} (l : list A) (n : nat) : list (list A) :=
  match n with
  | O => [[]]
  | S n' => flat_map (fun a => map (cons a) (words l n')) l
  end.
Lemma words_length {A} (l : list A) n : length (words l n) = (length l ^ n)%nat.
Proof.
  induction n as [|n IH]; [reflexivity|]. simpl. rewrite <- IH. clear IH. generalize (words l n). intros w.
  induction l as [|a l IL]; simpl; auto. now rewrite app_length, map_length, IL.
Qed.
Lemma words_In {A} (l : list A) n : forall w, length w = n -> (forall a, In a w -> In a l) -> In w (words l n).
Proof.
  induction n as [|n IH]; intros w L H.
  - destruct w; [now left|discriminate].
  - destruct w as [|a w]; [discriminate|]. simpl. apply in_flat_map. exists a. split; [apply H; now left|].
    apply in_map. apply IH; [simpl in L; lia|]. intros b Hb. apply H. now right.
Qed.

(** Among more than m^n words of length n over m letters two are equal. *)
Lemma pigeonhole {A} (l : list A) n (f : nat -> list A) :
  (forall i, length (f i) = n /\ forall a, In a (f i) -> In a l) ->
  exists i j, (i < j <= length l ^ n)%nat /\ f i = f j.
Proof.
  intros H. set (M := (length l ^ n)%nat).
  destruct (Classical_Prop.classic (exists i j, (i < j <= M)%nat /\ f i = f j)) as [|NO]; auto. exfalso.
  assert (ND : NoDup (map f (seq 0 (S M)))).
  { apply (NoDup_nth _ []). rewrite map_length, seq_length. intros i j Hi Hj E.
    assert (Q : forall k, (k < S M)%nat -> nth k (map f (seq 0 (S M))) [] = f k).
    { intros k Hk. rewrite (nth_indep _ _ (f 0%nat)) by now rewrite map_length, seq_length.
      rewrite map_nth. now rewrite seq_nth. }
    rewrite !Q in E by auto. destruct (Nat.lt_total i j) as [L|[L|L]]; auto; exfalso; apply NO.
    - exists i, j. split; [lia|auto].
    - exists j, i. split; [lia|auto]. }
  assert (IN : incl (map f (seq 0 (S M))) (words l n)).
  { intros w Hw. apply in_map_iff in Hw as (i & <- & _). now apply words_In; apply H. }
  pose proof (NoDup_incl_length ND IN) as L. rewrite words_length, map_length, seq_length in L. fold M in L. lia.
Qed.

Lemma abs_between x y : Rabs x <= y -> - y <= x <= y.
Proof. unfold Rabs. destruct (Rcase_abs x); lra. Qed.

Section Choices.
  Variable n : nat.
  Variable A : Type.
  Variable options : nat -> list A.          (* what may be chosen in a state *)
  Hypothesis NE : forall k, (k < n)%nat -> options k <> [].
  Variable Q : (nat -> R) -> nat -> A -> R.  (* value of a choice *)
  Variable q : R.
  Hypothesis Hq : 0 <= q < 1.
  Hypothesis QC : forall u v D, (forall k, (k < n)%nat -> Rabs (u k - v k) <= D) ->
    forall k a, (k < n)%nat -> In a (options k) -> Rabs (Q u k a - Q v k a) <= q * D.
  Hypothesis QM : forall u v, (forall k, (k < n)%nat -> u k <= v k) ->
    forall k a, (k < n)%nat -> In a (options k) -> Q u k a <= Q v k a.

  Definition best (u : nat -> R) (k : nat) : R :=
    match map (Q u k) (options k) with [] => 0 | x :: t => fold_right Rmax x t end.

  Lemma fold_max x t : In (fold_right Rmax x t) (x :: t) /\ forall y, In y (x :: t) -> y <= fold_right Rmax x t.
  Proof using.
    induction t as [|z t (I & U)]; simpl.
    - split; auto. intros y [->|[]]. lra.
    - split.
      + destruct (Rle_dec z (fold_right Rmax x t)) as [L|L].
        * rewrite Rmax_right by auto. destruct I as [I|I]; [left; auto|right; right; auto].
        * rewrite Rmax_left by lra. auto.
      + intros y [->|[->|Hy]].
        * eapply Rle_trans; [apply U; now left|apply Rmax_r].
        * apply Rmax_l.
        * eapply Rle_trans; [apply U; now right|apply Rmax_r].
  Qed.
  Lemma best_upper u k a : In a (options k) -> Q u k a <= best u k.
  Proof using.
    intros Ha. unfold best. apply (in_map (Q u k)) in Ha. destruct (map (Q u k) (options k)) as [|x t]; [contradiction|].
    now apply fold_max.
  Qed.
  Lemma best_attained u k : (k < n)%nat -> exists a, In a (options k) /\ Q u k a = best u k.
  Proof using NE.
    intros Hk. specialize (NE k Hk). unfold best. destruct (map (Q u k) (options k)) as [|x t] eqn:E.
    - destruct (options k); [contradiction|discriminate].
    - destruct (fold_max x t) as (I & _). rewrite <- E in I. apply in_map_iff in I as (a & Ea & Ia). eauto.
  Qed.
  Lemma best_unique u k a : (k < n)%nat -> In a (options k) ->
    (forall b, In b (options k) -> Q u k b <= Q u k a) -> Q u k a = best u k.
  Proof using NE.
    intros Hk Ia U. destruct (best_attained u k Hk) as (b & Ib & Eb).
    pose proof (best_upper u k a Ia). specialize (U b Ib). lra.
  Qed.
  Lemma best_close u v D : (forall k, (k < n)%nat -> Rabs (u k - v k) <= D) ->
    forall k, (k < n)%nat -> Rabs (best u k - best v k) <= q * D.
  Proof using NE QC.
    intros H k Hk. destruct (best_attained u k Hk) as (a & Ia & Ea). destruct (best_attained v k Hk) as (b & Ib & Eb).
    pose proof (best_upper v k a Ia). pose proof (best_upper u k b Ib).
    pose proof (QC u v D H k a Hk Ia) as A1. pose proof (QC u v D H k b Hk Ib) as A2.
    apply Rabs_le. apply abs_between in A1. apply abs_between in A2. lra.
  Qed.
  Lemma best_mono u v : (forall k, (k < n)%nat -> u k <= v k) ->
    forall k, (k < n)%nat -> best u k <= best v k.
  Proof using NE QM.
    intros H k Hk. destruct (best_attained u k Hk) as (a & Ia & Ea). rewrite <- Ea.
    eapply Rle_trans; [apply QM; eauto|]. now apply best_upper.
  Qed.

  Lemma optimum : exists w, fixed n best w /\ forall u, fixed n best u -> forall k, (k < n)%nat -> u k = w k.
  Proof using NE QC Hq.
    destruct (fixed_exists n best q Hq best_close) as (w & F). exists w. split; auto.
    intros u Fu. now apply (fixed_unique n best q Hq best_close).
  Qed.

  (** A policy: an allowed choice for every state. *)
  Definition good_choice (c : nat -> A) : Prop := forall k, (k < n)%nat -> In (c k) (options k).
  Definition follow (c : nat -> A) (u : nat -> R) (k : nat) : R := Q u k (c k).
  Lemma follow_close c : good_choice c -> forall u v D, (forall k, (k < n)%nat -> Rabs (u k - v k) <= D) ->
    forall k, (k < n)%nat -> Rabs (follow c u k - follow c v k) <= q * D.
  Proof using QC. intros G u v D H k Hk. apply QC; auto. Qed.
  Lemma follow_mono c : good_choice c -> forall u v, (forall k, (k < n)%nat -> u k <= v k) ->
    forall k, (k < n)%nat -> follow c u k <= follow c v k.
  Proof using QM. intros G u v H k Hk. apply QM; auto. Qed.

  Variable w : nat -> R.
  Hypothesis W : fixed n best w.

  Lemma policy_below c v : good_choice c -> fixed n (follow c) v -> forall k, (k < n)%nat -> v k <= w k.
  Proof using All.
    intros G F. apply (below_fixed n best q Hq best_close best_mono); auto.
    intros k Hk. rewrite <- F by auto. apply best_upper. now apply G.
  Qed.

  (** Improvement by a greedy choice. *)
  Definition greedy (v : nat -> R) (c : nat -> A) : Prop :=
    good_choice c /\ forall k, (k < n)%nat -> Q v k (c k) = best v k.
  Lemma step_best c c' v v' : good_choice c -> fixed n (follow c) v -> greedy v c' -> fixed n (follow c') v' ->
    forall k, (k < n)%nat -> v k <= best v k <= v' k.
  Proof using NE Hq QC QM.
    intros G F (G' & B) F' k Hk.
    assert (V : forall k, (k < n)%nat -> v k <= best v k).
    { intros i Hi. rewrite <- F by auto. apply best_upper. now apply G. }
    split; [now apply V|].
    assert (V' : forall k, (k < n)%nat -> v k <= v' k).
    { apply (below_fixed n (follow c') q Hq (follow_close c' G') (follow_mono c' G')); auto.
      intros i Hi. unfold follow. rewrite B by auto. now apply V. }
    rewrite <- B by auto. rewrite <- F' by auto. now apply follow_mono.
  Qed.
  Lemma step_error c c' v v' D : good_choice c -> fixed n (follow c) v -> greedy v c' -> fixed n (follow c') v' ->
    (forall k, (k < n)%nat -> w k - v k <= D) -> forall k, (k < n)%nat -> w k - v' k <= q * D.
  Proof using All.
    intros G F GR F' H k Hk. pose proof (step_best c c' v v' G F GR F' k Hk) as (_ & B).
    assert (E : Rabs (best w k - best v k) <= q * D).
    { apply best_close; auto. intros i Hi. rewrite Rabs_pos_eq; auto.
      pose proof (policy_below c v G F i Hi). lra. }
    rewrite (W k Hk) in E. apply abs_between in E. lra.
  Qed.

  (** The value of a policy that is greedy for approximate values. *)
  Lemma greedy_error v c u D : (forall k, (k < n)%nat -> Rabs (v k - w k) <= D) ->
    greedy v c -> fixed n (follow c) u -> forall k, (k < n)%nat -> w k - 2 * q * D / (1 - q) <= u k <= w k.
  Proof using All.
    intros H (G & B) F k Hk. split; [|now apply (policy_below c)]. 
    set (E := 2 * q * D / (1 - q)). 
    assert (D0 : 0 <= D). { specialize (H k Hk). pose proof (Rabs_pos (v k - w k)). lra. }
    assert (E0 : 0 <= E).
    { unfold E, Rdiv. apply Rmult_le_pos; [nra|]. left. apply Rinv_0_lt_compat. lra. }
    assert (EQ : q * E = E - 2 * q * D) by (unfold E; field; lra).
    apply (below_fixed n (follow c) q Hq (follow_close c G) (follow_mono c G) (fun k => w k - E)); auto.
    intros i Hi.
    pose proof (follow_close c G (fun k => w k - E) w E) as A1.
    assert (A1' : Rabs (follow c (fun k => w k - E) i - follow c w i) <= q * E).
    { apply A1; auto. intros j Hj. replace (w j - E - w j) with (- E) by ring. rewrite Rabs_Ropp, Rabs_pos_eq; lra. }
    pose proof (follow_close c G v w D H i Hi) as A2.
    pose proof (best_close v w D H i Hi) as A3.
    rewrite (W i Hi) in A3. unfold follow in A2 at 1. rewrite (B i Hi) in A2.
    apply abs_between in A1'. apply abs_between in A2. apply abs_between in A3. lra.
  Qed.

  (** The values of the policies of policy iteration. *)
  Variable cs : nat -> nat -> A.
  Variable vs : nat -> nat -> R.
  Hypothesis C0 : good_choice (cs 0%nat).
  Hypothesis VS : forall i, fixed n (follow (cs i)) (vs i).
  Hypothesis CS : forall i, greedy (vs i) (cs (S i)).
  Lemma cs_good i : good_choice (cs i).
  Proof using All. destruct i; auto. apply CS. Qed.
  Lemma vs_step i k : (k < n)%nat -> vs i k <= best (vs i) k <= vs (S i) k.
  Proof using All. apply (step_best (cs i) (cs (S i))); auto. apply cs_good. Qed.
  Lemma vs_mono i j k : (i <= j)%nat -> (k < n)%nat -> vs i k <= vs j k.
  Proof using All.
    intros L Hk. induction L as [|j L IH]; [lra|]. pose proof (vs_step j k Hk). lra.
  Qed.
  Lemma vs_error i D : (forall k, (k < n)%nat -> w k - vs 0%nat k <= D) ->
    forall k, (k < n)%nat -> 0 <= w k - vs i k <= q ^ i * D.
  Proof using All.
    intros H. induction i as [|i IH]; intros k Hk.
    - split; [pose proof (policy_below _ _ (cs_good 0) (VS 0%nat) k Hk); lra|]. simpl. specialize (H k Hk). lra.
    - split; [pose proof (policy_below _ _ (cs_good (S i)) (VS (S i)) k Hk); lra|].
      simpl. rewrite Rmult_assoc. apply (step_error (cs i) (cs (S i)) (vs i) (vs (S i))); auto using cs_good.
      intros j Hj. now apply IH.
  Qed.
  Variable l : list A.
  Hypothesis OL : forall k a, (k < n)%nat -> In a (options k) -> In a l.
  Lemma vs_final i k : (length l ^ n <= i)%nat -> (k < n)%nat -> vs i k = w k.
  Proof using All.
    intros Hi Hk.
    destruct (pigeonhole l n (fun i => map (cs i) (seq 0 n))) as (a & b & (L & L2) & E).
    { intros j. split; [now rewrite map_length, seq_length|]. intros x Hx.
      apply in_map_iff in Hx as (m & <- & Hm). apply in_seq in Hm. apply (OL m); [lia|]. apply cs_good. lia. }
    assert (SAME : forall m, (m < n)%nat -> cs a m = cs b m).
    { intros m Hm. apply (ext_in_map E). apply in_seq. lia. }
    assert (VE : forall m, (m < n)%nat -> vs a m = vs b m).
    { intros m Hm. apply (fixed_unique n (follow (cs a)) q Hq (follow_close _ (cs_good a))); auto.
      intros j Hj. unfold follow. rewrite SAME by auto. now apply VS. }
    assert (FIX : fixed n best (vs a)).
    { intros m Hm. pose proof (vs_step a m Hm). pose proof (vs_mono (S a) b m ltac:(lia) Hm).
      specialize (VE m Hm). lra. }
    assert (EA : vs a k = w k) by now apply (fixed_unique n best q Hq best_close).
    pose proof (vs_mono a i k ltac:(lia) Hk). pose proof (policy_below _ _ (cs_good i) (VS i) k Hk). lra.
  Qed.
End Choices.
