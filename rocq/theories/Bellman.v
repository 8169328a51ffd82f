(** Fixed points of v = r + gamma P v on finitely many states. *)
From Coq Require Import Reals List Arith Lia Lra.
Local Open Scope R_scope.

(** A bound for finitely many numbers. *)
Lemma finite_bound n (f : nat -> R) : exists D, 0 <= D /\ forall k, (k < n)%nat -> f k <= D.
Proof.
  induction n as [|n (D & H0 & H)].
  - exists 0. split; [lra|]. lia.
  - exists (Rmax D (f n)). split; [apply Rle_trans with D; auto; apply Rmax_l|].
    intros k Hk. destruct (Nat.eq_dec k n) as [->|]; [apply Rmax_r|].
    apply Rle_trans with D; [apply H; lia|apply Rmax_l].
Qed.

Lemma pow_small q eps : 0 <= q < 1 -> 0 < eps -> exists N, forall n, (N <= n)%nat -> q ^ n < eps.
Proof.
  intros Hq He. destruct (pow_lt_1_zero q ltac:(rewrite Rabs_pos_eq; lra) eps He) as (N & H).
  exists N. intros n Hn. specialize (H n Hn). apply Rabs_def2 in H. lra.
Qed.

(** If all powers bound a distance, it is zero. *)
Lemma squeeze q D x : 0 <= q < 1 -> (forall n, x <= q ^ n * D) -> x <= 0.
Proof.
  intros Hq H. destruct (Rle_or_lt x 0) as [|Hx]; auto. exfalso.
  assert (HD : 0 < D). { specialize (H 0%nat). simpl in H. lra. }
  destruct (pow_small q (x / D) Hq) as (N & HN). { apply Rdiv_lt_0_compat; lra. }
  specialize (HN N (le_n N)). specialize (H N).
  apply (Rmult_lt_compat_r D) in HN; auto. unfold Rdiv in HN. rewrite Rmult_assoc, Rinv_l in HN; lra.
Qed.

Section Contraction.
  Variable n : nat.
  Variable T : (nat -> R) -> nat -> R.
  Variable q : R.
  Hypothesis Hq : 0 <= q < 1.
  Hypothesis HT : forall u v D, (forall k, (k < n)%nat -> Rabs (u k - v k) <= D) ->
    forall k, (k < n)%nat -> Rabs (T u k - T v k) <= q * D.

  Fixpoint iter (i : nat) (v : nat -> R) : nat -> R :=
    match i with O => v | S i' => T (iter i' v) end.

  Lemma iter_dist i : forall u v D, (forall k, (k < n)%nat -> Rabs (u k - v k) <= D) ->
    forall k, (k < n)%nat -> Rabs (iter i u k - iter i v k) <= q ^ i * D.
  Proof using HT.
    induction i as [|i IH]; intros u v D H k Hk; simpl.
    - rewrite Rmult_1_l. auto.
    - rewrite Rmult_assoc. apply HT; auto.
  Qed.

  Definition fixed (v : nat -> R) : Prop := forall k, (k < n)%nat -> T v k = v k.

  Lemma T_ext u v : (forall k, (k < n)%nat -> u k = v k) -> forall k, (k < n)%nat -> T u k = T v k.
  Proof using HT.
    intros H k Hk. assert (A : Rabs (T u k - T v k) <= q * 0).
    { apply HT; auto. intros j Hj. rewrite H by auto. rewrite Rminus_diag_eq, Rabs_R0 by reflexivity. lra. }
    rewrite Rmult_0_r in A. pose proof (Rabs_pos (T u k - T v k)).
    destruct (Req_dec (T u k - T v k) 0) as [E|E]; [lra|]. apply Rabs_no_R0 in E. lra.
  Qed.

  Lemma iter_fixed v : fixed v -> forall i k, (k < n)%nat -> iter i v k = v k.
  Proof using HT.
    intros F i. induction i as [|i IH]; intros k Hk; simpl; auto.
    rewrite (T_ext (iter i v) v); auto.
  Qed.

  Lemma iter_error v0 v D : fixed v -> (forall k, (k < n)%nat -> Rabs (v0 k - v k) <= D) ->
    forall i k, (k < n)%nat -> Rabs (iter i v0 k - v k) <= q ^ i * D.
  Proof using HT.
    intros F H i k Hk. rewrite <- (iter_fixed v F i k Hk). now apply iter_dist.
  Qed.

  Lemma fixed_unique u v : fixed u -> fixed v -> forall k, (k < n)%nat -> u k = v k.
  Proof using HT Hq.
    intros Fu Fv k Hk. destruct (finite_bound n (fun k => Rabs (u k - v k))) as (D & _ & HD).
    assert (A : Rabs (u k - v k) <= 0).
    { apply (squeeze q D); auto. intros i.
      rewrite <- (iter_fixed u Fu i k Hk) at 1. now apply iter_error. }
    pose proof (Rabs_pos (u k - v k)). destruct (Req_dec (u k - v k) 0) as [E|E]; [lra|].
    apply Rabs_no_R0 in E. lra.
  Qed.

  Lemma iter_shift i v : iter (S i) v = iter i (T v).
  Proof using. induction i as [|i IH]; simpl in *; auto. now rewrite <- IH. Qed.

  (** Consecutive iterates get close geometrically. *)
  Lemma iter_cauchy v D : (forall k, (k < n)%nat -> Rabs (T v k - v k) <= D) ->
    forall i j k, (k < n)%nat -> Rabs (iter (i + j) v k - iter i v k) <= q ^ i * (D / (1 - q)).
  Proof using HT Hq.
    intros H.
    assert (Step : forall i k, (k < n)%nat -> Rabs (iter (S i) v k - iter i v k) <= q ^ i * D).
    { intros i k Hk. rewrite iter_shift. now apply iter_dist. }
    assert (D0 : n <> 0%nat -> 0 <= D).
    { intros Hn. specialize (H 0%nat ltac:(lia)). pose proof (Rabs_pos (T v 0%nat - v 0%nat)). lra. }
    assert (S2 : forall j i k, (k < n)%nat ->
      Rabs (iter (i + j) v k - iter i v k) <= q ^ i * (D * ((1 - q ^ j) / (1 - q)))).
    { induction j as [|j IH]; intros i k Hk.
      - rewrite Nat.add_0_r, Rminus_diag_eq, Rabs_R0 by reflexivity. simpl.
        right. field. lra.
      - replace (i + S j)%nat with (S (i + j)) by lia.
        replace (iter (S (i + j)) v k - iter i v k) with
          ((iter (S (i + j)) v k - iter (i + j) v k) + (iter (i + j) v k - iter i v k)) by ring.
        eapply Rle_trans; [apply Rabs_triang|].
        eapply Rle_trans; [apply Rplus_le_compat; [apply Step; auto|apply IH; auto]|].
        right. simpl. rewrite pow_add. field. lra. }
    intros i j k Hk. eapply Rle_trans; [apply S2; auto|].
    apply Rmult_le_compat_l; [apply pow_le; lra|].
    unfold Rdiv. rewrite <- Rmult_assoc. apply Rmult_le_compat_r; [left; apply Rinv_0_lt_compat; lra|].
    assert (0 <= q ^ j) by (apply pow_le; lra).
    specialize (D0 ltac:(lia)). assert (D * (1 - q ^ j) <= D * 1) by (apply Rmult_le_compat_l; lra). lra.
  Qed.

  Lemma limit_exists v : exists w, forall k, (k < n)%nat -> Un_cv (fun i => iter i v k) (w k).
  Proof using HT Hq.
    destruct (finite_bound n (fun k => Rabs (T v k - v k))) as (D & HD0 & HD).
    assert (C : forall k, (k < n)%nat -> { l : R | Un_cv (fun i => iter i v k) l }).
    { intros k Hk. apply R_complete. intros eps He.
      destruct (pow_small q (eps / (D / (1 - q) + 1)) Hq) as (N & HN).
      { apply Rdiv_lt_0_compat; auto. assert (0 <= D / (1 - q)); [|lra].
        apply Rmult_le_pos; auto. left; apply Rinv_0_lt_compat; lra. }
      exists N.
      assert (G : forall a b, (N <= a)%nat -> (a <= b)%nat -> Rabs (iter b v k - iter a v k) < eps).
      { intros a b Ha Hb. replace b with (a + (b - a))%nat by lia.
        eapply Rle_lt_trans; [apply iter_cauchy; eauto|].
        specialize (HN a Ha).
        assert (P : 0 <= D / (1 - q)) by (apply Rmult_le_pos; auto; left; apply Rinv_0_lt_compat; lra).
        apply (Rmult_lt_compat_r (D / (1 - q) + 1)) in HN; [|lra].
        set (z := D / (1 - q)) in *. replace (eps / (z + 1) * (z + 1)) with eps in HN by (field; lra).
        assert (0 <= q ^ a) by (apply pow_le; lra). lra. }
      intros a b Ha Hb. unfold R_dist. destruct (Nat.le_ge_cases a b).
      - rewrite Rabs_minus_sym. apply G; auto.
      - apply G; auto. }
    assert (CH : forall m, (m <= n)%nat -> exists w, forall k, (k < m)%nat -> Un_cv (fun i => iter i v k) (w k)).
    { induction m as [|m IH]; intros Hm.
      - exists (fun _ => 0). lia.
      - destruct IH as (w & Hw); [lia|]. destruct (C m ltac:(lia)) as (l & Hl).
        exists (fun k => if Nat.eq_dec k m then l else w k). intros k Hk.
        destruct (Nat.eq_dec k m) as [->|]; auto. apply Hw. lia. }
    apply CH. lia.
  Qed.

  Theorem fixed_exists : exists w, fixed w.
  Proof using HT Hq.
    destruct (limit_exists (fun _ => 0)) as (w & Hw). exists w. intros k Hk.
    (* |T w k - w k| <= |T w k - iter (i+1) k| + |iter (i+1) k - w k| *)
    assert (CV : forall eps, 0 < eps -> exists N, forall i, (N <= i)%nat ->
      forall k, (k < n)%nat -> Rabs (iter i (fun _ => 0) k - w k) < eps).
    { intros eps He.
      assert (G : forall m, (m <= n)%nat -> exists N, forall i, (N <= i)%nat ->
        forall k, (k < m)%nat -> Rabs (iter i (fun _ => 0) k - w k) < eps).
      { induction m as [|m IH]; intros Hm; [exists 0%nat; lia|].
        destruct IH as (N1 & H1); [lia|]. destruct (Hw m ltac:(lia) eps He) as (N2 & H2).
        exists (Nat.max N1 N2). intros i Hi j Hj. destruct (Nat.eq_dec j m) as [->|].
        - apply H2. lia.
        - apply H1; lia. }
      apply G. lia. }
    assert (A : forall eps, 0 < eps -> Rabs (T w k - w k) <= eps).
    { intros eps He. destruct (CV (eps / 2) ltac:(lra)) as (N & HN).
      replace (T w k - w k) with
        ((T w k - iter (S N) (fun _ => 0) k) + (iter (S N) (fun _ => 0) k - w k)) by ring.
      eapply Rle_trans; [apply Rabs_triang|].
      assert (B1 : Rabs (T w k - iter (S N) (fun _ => 0) k) <= q * (eps / 2)).
      { simpl. apply HT; auto. intros j Hj. rewrite Rabs_minus_sym. left. apply HN; auto. }
      assert (B2 : Rabs (iter (S N) (fun _ => 0) k - w k) < eps / 2) by (apply HN; lia).
      assert (q * (eps / 2) <= 1 * (eps / 2)) by (apply Rmult_le_compat_r; lra). lra. }
    destruct (Req_dec (T w k - w k) 0) as [E|E]; [lra|].
    pose proof (Rabs_pos_lt _ E). specialize (A (Rabs (T w k - w k) / 2) ltac:(lra)). lra.
  Qed.

  (** Monotone operators. *)
  Hypothesis HM : forall u v, (forall k, (k < n)%nat -> u k <= v k) ->
    forall k, (k < n)%nat -> T u k <= T v k.

  Lemma below_fixed v w : (forall k, (k < n)%nat -> v k <= T v k) -> fixed w ->
    forall k, (k < n)%nat -> v k <= w k.
  Proof using HM HT Hq.
    intros H F k Hk.
    assert (A : forall i j, (j < n)%nat -> v j <= iter i v j).
    { induction i as [|i IH]; intros j Hj; simpl; [lra|].
      eapply Rle_trans; [apply H; auto|]. apply HM; auto. }
    destruct (finite_bound n (fun k => Rabs (v k - w k))) as (D & _ & HD).
    assert (B : v k - w k <= 0); [|lra].
    apply (squeeze q D); auto. intros i. specialize (A i k Hk).
    pose proof (iter_error v w D F HD i k Hk) as E. pose proof (Rle_abs (iter i v k - w k)). lra.
  Qed.
  Lemma above_fixed v w : (forall k, (k < n)%nat -> T v k <= v k) -> fixed w ->
    forall k, (k < n)%nat -> w k <= v k.
  Proof using HM HT Hq.
    intros H F k Hk.
    assert (A : forall i j, (j < n)%nat -> iter i v j <= v j).
    { induction i as [|i IH]; intros j Hj; simpl; [lra|].
      eapply Rle_trans; [|apply H; auto]. apply HM; auto. }
    destruct (finite_bound n (fun k => Rabs (v k - w k))) as (D & _ & HD).
    assert (B : w k - v k <= 0); [|lra].
    apply (squeeze q D); auto. intros i. specialize (A i k Hk).
    pose proof (iter_error v w D F HD i k Hk) as E. pose proof (Rle_abs (- (iter i v k - w k))) as E2.
    rewrite Rabs_Ropp in E2. lra.
  Qed.
End Contraction.
