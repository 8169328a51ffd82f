(** Lemmas about the refinement picture and the safe state-action pairs. *)
From Coq Require Import Reals List Bool Arith ZArith Lia Lra.
From Verif Require Import Prelude NumModel NumProofs GridModel GridSpec GridProofs SafeModel SafeSpec
  CertModel CertSpec CertProofs ViewModel.
Import ListNotations.
Local Open Scope R_scope.

(** ** N(x) *)

Lemma threshold_scale S x t M : 0 < M -> threshold S x (t / M) = threshold S x t / M.
Proof. intros H. unfold threshold. field. lra. Qed.

Lemma ceilR_int x n : IZR n - 1 < x <= IZR n -> ceilR x = n.
Proof.
  intros H. pose proof (ceilR_spec x). assert (A : IZR (ceilR x) < IZR n + 1) by lra.
  assert (B : IZR n < IZR (ceilR x) + 1) by lra. rewrite <- plus_IZR in A, B. apply lt_IZR in A, B. lia.
Qed.

Lemma div_le_neg th dv M : dv < 0 -> 0 < M -> (dv <= th / M <-> th / dv <= M).
Proof.
  intros Hd HM. assert (E : th = th / dv * dv) by (field; lra).
  assert (E' : th / M * M = th) by (field; lra).
  split; intros H.
  - apply Rnot_lt_le. intros G. assert (th < M * dv) by nra. nra.
  - apply Rnot_lt_le. intros G. assert (th < dv * M) by nra. nra.
Qed.
Lemma div_lt_neg th dv M : dv < 0 -> 0 < M -> (dv < th / M <-> th / dv < M).
Proof.
  intros Hd HM. assert (E : th = th / dv * dv) by (field; lra).
  assert (E' : th / M * M = th) by (field; lra).
  split; intros H.
  - apply Rnot_le_lt. intros G. assert (th <= M * dv) by nra. nra.
  - apply Rnot_le_lt. intros G. assert (th <= dv * M) by nra. nra.
Qed.

Lemma neg_div th dv : th < 0 -> dv < 0 -> 0 < th / dv.
Proof. intros. replace (th / dv) with ((- th) / (- dv)) by (field; lra). apply Rdiv_lt_0_compat; lra. Qed.
Lemma neg_pos_div th dv : th < 0 -> 0 < dv -> th / dv < 0.
Proof. intros. replace (th / dv) with (- ((- th) / dv)) by (field; lra).
  assert (0 < (- th) / dv) by (apply Rdiv_lt_0_compat; lra). lra. Qed.

Lemma needed_neg th dv : th < 0 -> dv < 0 -> needed th dv = Some (ceilR (th / dv)) /\ (1 <= ceilR (th / dv))%Z.
Proof.
  intros Ht Hd. pose proof (neg_div th dv Ht Hd). unfold needed.
  destruct Req_EM_T; [lra|]. cbv zeta. destruct Rlt_dec; [lra|]. split; auto.
  pose proof (ceilR_spec (th / dv)). assert (0 < IZR (ceilR (th / dv))) by lra. apply lt_IZR in H1. lia.
Qed.
Lemma needed_pos th dv : th < 0 -> 0 <= dv -> needed th dv = Some (-1)%Z.
Proof.
  intros Ht Hd. unfold needed. destruct Req_EM_T; [destruct Rlt_dec; [lra|auto]|].
  cbv zeta. destruct Rlt_dec as [|N]; auto. exfalso. apply N. apply neg_pos_div; lra.
Qed.

(** ** safe pairs *)

Lemma where_from_bound k l z : In z (where_from k l) ->
  exists j, (j < length l)%nat /\ z = Z.of_nat (k + j) /\ nth j l false = true.
Proof.
  revert k. induction l as [|[] l IH]; intros k; simpl; [easy| |].
  - intros [<-|H]; [exists 0%nat; split; [lia|split; auto; f_equal; lia]|].
    apply IH in H as (j & Hj & -> & N). exists (S j). split; [lia|split; auto; f_equal; lia].
  - intros H. apply IH in H as (j & Hj & -> & N). exists (S j). split; [lia|split; auto; f_equal; lia].
Qed.

Lemma mapM_all {A B} (f : A -> res B) (h : A -> B) l : (forall x, In x l -> f x = Ok (h x)) -> mapM f l = Ok (map h l).
Proof.
  induction l as [|a l IH]; intros H; [reflexivity|]. simpl. rewrite H by now left. simpl.
  rewrite IH by (intros; apply H; now right). reflexivity.
Qed.

Lemma map_list_prod {A B C} (f : A * B -> C) l m :
  map f (list_prod l m) = flat_map (fun a => map (fun b => f (a, b)) m) l.
Proof. induction l; simpl; auto. now rewrite map_app, map_map, IHl. Qed.

Lemma map2_map {A B C D} (f : B -> C -> D) (g : A -> B) (h : A -> C) l :
  map2 f (map g l) (map h l) = map (fun x => f (g x) (h x)) l.
Proof. induction l; simpl; congruence. Qed.

Lemma reshape_flat {A B} (row : A -> list B) w l : (forall a, In a l -> length (row a) = w) ->
  reshape_rows (length l) w (flat_map row l) = map row l.
Proof.
  induction l as [|a l IH]; intros H; simpl; auto.
  rewrite firstn_app, (H a) by now left. replace (w - w)%nat with 0%nat by lia.
  rewrite firstn_O, app_nil_r, firstn_all2 by (rewrite H; [lia|now left]).
  rewrite skipn_app, (H a) by now left. replace (w - w)%nat with 0%nat by lia.
  rewrite skipn_all2 by (rewrite H; [lia|now left]). simpl. rewrite IH; auto. intros; apply H; now right.
Qed.

Lemma scatter_length w safe rows : length (scatter w safe rows) = length safe.
Proof. revert rows. induction safe as [|[] safe IH]; intros rows; simpl; auto. Qed.

Lemma scatter_nth w (row : Z -> list bool) safe s k : (k < length safe)%nat ->
  nth k (scatter w safe (map row (where_from s safe))) [] =
  if nth k safe false then row (Z.of_nat (s + k)) else repeat false w.
Proof.
  revert s k. induction safe as [|[] safe IH]; intros s k Hk; simpl in Hk; [lia| |]; simpl scatter;
    destruct k as [|k]; simpl.
  - now rewrite Nat.add_0_r.
  - rewrite (IH (S s) k) by lia. replace (S s + k)%nat with (s + S k)%nat by lia. reflexivity.
  - reflexivity.
  - rewrite (IH (S s) k) by lia. replace (S s + k)%nat with (s + S k)%nat by lia. reflexivity.
Qed.

Lemma nth_repeat_false w j : nth j (repeat false w) false = false.
Proof. revert j; induction w; destruct j; simpl; auto. Qed.
