(** Lemmas for the pictures of one-dimensional Lyapunov functions. *)
From Coq Require Import Reals List Bool Arith ZArith Lia Lra.
From Verif Require Import Prelude NumModel GridModel SafeModel CertModel Plot1dModel.
From Verif Require Import GridSpec GridProofs ListFacts SafeSpec CertSpec.
Import ListNotations.
Local Open Scope R_scope.

Lemma drawn_spec m : forall states values p,
  length m = length states -> length values = length states ->
  (In p (drawn states (masked_where m values)) <->
   exists k, (k < length states)%nat /\ nth k m true = false /\
     p = (nth 0 (nth k states []) 0, nth k values 0)).
Proof.
  induction m as [|b m IH]; intros [|x states] [|v values] p L1 L2; try discriminate.
  - cbn. split; [tauto|]. intros (k & H & _). lia.
  - injection L1 as L1. injection L2 as L2. specialize (IH states values p L1 L2).
    assert (EQ : drawn (x :: states) (masked_where (b :: m) (v :: values))
      = (if b then [] else [(nth 0 x 0, v)]) ++ drawn states (masked_where m values)).
    { destruct b; reflexivity. }
    rewrite EQ, in_app_iff, IH. split.
    + intros [H|(k & Hk & H)].
      * destruct b; [contradiction|]. destruct H as [<-|[]]. exists 0%nat. cbn. split; [lia|auto].
      * exists (S k). cbn [length nth]. split; [lia|exact H].
    + intros ([|k] & Hk & Hm & ->).
      * left. cbn in Hm. rewrite Hm. now left.
      * right. exists k. cbn [length] in Hk. split; [lia|]. split; [exact Hm|reflexivity].
Qed.

Lemma argmax_from_spec l : forall best m k full,
  (best < k)%nat -> nth best full 0 = m -> (forall i, (i < k)%nat -> nth i full 0 <= m) ->
  (forall i, (i < length l)%nat -> nth (k + i) full 0 = nth i l 0) ->
  (argmax_from best m k l < k + length l)%nat /\
  forall i, (i < k + length l)%nat -> nth i full 0 <= nth (argmax_from best m k l) full 0.
Proof.
  induction l as [|v l IH]; intros best m k full Hb Hm HM HF; cbn [argmax_from length].
  - rewrite Hm. split; [lia|]. intros i Hi. apply HM. lia.
  - pose proof (HF 0%nat ltac:(cbn; lia)) as H0. rewrite Nat.add_0_r in H0. cbn in H0.
    assert (HF' : forall i, (i < length l)%nat -> nth (S k + i) full 0 = nth i l 0).
    { intros i Hi. specialize (HF (S i) ltac:(cbn; lia)). now replace (S k + i)%nat with (k + S i)%nat by lia. }
    rewrite <- plus_Snm_nSm. destruct (Rlt_dec m v) as [Q|Q]; apply IH; auto; try lia.
    + intros i Hi. destruct (Nat.eq_dec i k) as [->|]; [lra|]. pose proof (HM i ltac:(lia)). lra.
    + intros i Hi. destruct (Nat.eq_dec i k) as [->|]; [lra|]. apply HM. lia.
Qed.

Lemma argmax_spec l : l <> [] -> (argmax l < length l)%nat /\
  forall i, (i < length l)%nat -> nth i l 0 <= nth (argmax l) l 0.
Proof.
  destruct l as [|v l]; intros H; [congruence|]. unfold argmax.
  apply (argmax_from_spec l 0 v 1 (v :: l)); [lia|reflexivity| |reflexivity].
  intros i Hi. assert (i = 0)%nat as -> by lia. cbn. lra.
Qed.

(** The entries kept by a mask keep their order: position i of the masked list is
    position [rank i] of the whole list, for every list at once. *)
Lemma mask_rank m : exists rank : nat -> nat,
  (forall A (d : A) l, length l = length m -> forall i, (i < length (mask m l))%nat ->
     (rank i < length m)%nat /\ nth (rank i) m false = true /\ nth i (mask m l) d = nth (rank i) l d) /\
  (forall A (l : list A), length l = length m -> forall k, (k < length m)%nat -> nth k m false = true ->
     exists i, (i < length (mask m l))%nat /\ rank i = k).
Proof.
  induction m as [|b m (rank & H1 & H2)].
  - exists (fun i => i). split; intros; cbn in *; lia.
  - exists (fun i => if b then match i with O => 0%nat | S i => S (rank i) end else S (rank i)). split.
    + intros A d [|a l] L; [discriminate|]. injection L as L. intros i Hi.
      destruct b; cbn [mask length] in *.
      * destruct i as [|i]; [repeat split; cbn; lia || auto|].
        destruct (H1 A d l L i ltac:(lia)) as (X & Y & Z). cbn. repeat split; auto; lia.
      * destruct (H1 A d l L i Hi) as (X & Y & Z). cbn. repeat split; auto; lia.
    + intros A [|a l] L; [discriminate|]. injection L as L. intros k Hk E.
      destruct k as [|k]; cbn in E.
      * subst b. exists 0%nat. cbn. split; [lia|auto].
      * destruct (H2 A l L k ltac:(cbn in Hk; lia) E) as (i & X & <-).
        destruct b; [exists (S i)|exists i]; cbn; split; auto; lia.
Qed.

Lemma mask_length {A B} m : forall (l : list A) (l' : list B), length l = length m -> length l' = length m ->
  length (mask m l) = length (mask m l').
Proof.
  induction m as [|b m IH]; intros [|a l] [|a' l'] L L'; try discriminate; auto.
  injection L as L. injection L' as L'. destruct b; cbn; [f_equal|]; auto.
Qed.

Lemma lines_spec states m values : length m = length states -> length values = length states ->
  (exists k, (k < length states)%nat /\ nth k m false = true) ->
  exists k, (k < length states)%nat /\ nth k m false = true /\
    (forall j, (j < length states)%nat -> nth j m false = true -> nth j values 0 <= nth k values 0) /\
    lines states m values = [nth 0 (nth k states []) 0; - nth 0 (nth k states []) 0].
Proof.
  intros L1 L2 (k0 & Hk0 & E0).
  destruct (mask_rank m) as (rank & H1 & H2).
  destruct (H2 R values ltac:(congruence) k0 ltac:(lia) E0) as (i0 & Hi0 & Ei0).
  assert (NE : mask m values <> []). { intros E. rewrite E in Hi0. cbn in Hi0. lia. }
  destruct (argmax_spec _ NE) as (A1 & A2).
  destruct (H1 R 0 values ltac:(congruence) _ A1) as (B1 & B2 & B3).
  exists (rank (argmax (mask m values))). split; [lia|]. split; [exact B2|]. split.
  - intros j Hj Ej. destruct (H2 R values ltac:(congruence) j ltac:(lia) Ej) as (i & Hi & <-).
    destruct (H1 R 0 values ltac:(congruence) i Hi) as (_ & _ & <-). rewrite <- B3. now apply A2.
  - unfold lines. rewrite (proj2 (existsb_exists (fun b => b) m)).
    + rewrite (mask_length m values states ltac:(congruence) ltac:(congruence)) in A1.
      destruct (H1 _ [] states ltac:(congruence) _ A1) as (_ & _ & ->). reflexivity.
    + exists true. split; auto. rewrite <- E0. apply nth_In. lia.
Qed.
