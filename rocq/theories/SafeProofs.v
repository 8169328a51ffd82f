(** Proofs about the safe-set bookkeeping. *)
From Coq Require Import Reals List Bool Arith ZArith Lia Permutation.
From Verif Require Import Prelude ListFacts SafeModel SafeSpec.
Import ListNotations.

Ltac inv_ok H := injection H; clear H; intros; subst.

(** ** Numpy assignments *)

Lemma scatter_length {A} idx (b : list A) a :
  length (scatter a idx b) = length a.
Proof.
  unfold scatter. generalize (combine idx b) as c. intros c; revert a.
  induction c as [|[i x] c IH]; intros a; simpl; auto.
  now rewrite IH, set_nth_length.
Qed.

Lemma scatter_other {A} (d : A) idx b a x :
  ~ In x idx -> nth x (scatter a idx b) d = nth x a d.
Proof.
  unfold scatter. revert b a; induction idx as [|i idx IH]; intros b a H; simpl; auto.
  destruct b as [|y b]; simpl; auto.
  rewrite IH by (intros Hx; apply H; right; auto).
  rewrite nth_set_nth. destruct (Nat.eqb_spec i x) as [->|]; auto.
  exfalso; apply H; left; auto.
Qed.

Lemma scatter_at {A} (d : A) idx b a p :
  NoDup idx -> length idx = length b -> (forall i, In i idx -> i < length a) ->
  p < length idx -> nth (nth p idx 0) (scatter a idx b) d = nth p b d.
Proof.
  unfold scatter. revert b a p; induction idx as [|i idx IH]; intros b a p ND HL HI Hp;
    simpl in Hp; [lia|].
  destruct b as [|y b]; simpl in HL; [lia|]. inversion ND; subst.
  destruct p as [|p]; simpl.
  - change (fold_left _ (combine idx b) (set_nth i y a))
      with (scatter (set_nth i y a) idx b).
    rewrite scatter_other by auto. rewrite nth_set_nth, Nat.eqb_refl.
    rewrite (proj2 (Nat.ltb_lt _ _)); auto. apply HI; left; auto.
  - apply IH; auto; try lia. intros j Hj. rewrite set_nth_length. apply HI; right; auto.
Qed.

Lemma assign_mask_ok {A} (a : list A) m x :
  length a = length m ->
  exists b, assign_mask a m x = Ok b /\ length b = length a /\
    forall q d, q < length a ->
      nth q b d = if nth q m false then x else nth q a d.
Proof.
  intros H; unfold assign_mask. rewrite H, Nat.eqb_refl. eexists; split; [reflexivity|].
  split; [rewrite map2_length; lia|]. intros q d Hq.
  rewrite nth_map2' with (da := d) (db := false) by lia. reflexivity.
Qed.

Definition omask (m : option (list bool)) (x : nat) : bool :=
  match m with None => false | Some m => nth x m false end.

Lemma assign_opt_ok {A} (a : list A) m x :
  (forall m', m = Some m' -> length m' = length a) ->
  exists b, assign_opt a m x = Ok b /\ length b = length a /\
    forall q d, q < length a ->
      nth q b d = if omask m q then x else nth q a d.
Proof.
  intros H; destruct m as [m|]; simpl.
  - apply assign_mask_ok. symmetry; auto.
  - exists a; auto.
Qed.

Lemma initially_safe_omask L x : initially_safe L x <-> omask (l_init L) x = true.
Proof.
  unfold initially_safe, omask. destruct (l_init L) as [m|]; split.
  - intros (m' & E & H); injection E as ->; auto.
  - intros H; exists m; auto.
  - intros (m' & E & _); discriminate.
  - discriminate.
Qed.

(** ** One pass through the loop *)

Lemma prefix_len_spec a :
  prefix_len a <= length a /\
  (forall q, q < prefix_len a -> nth q a false = true) /\
  (prefix_len a < length a -> nth (prefix_len a) a false = false).
Proof.
  unfold prefix_len, argmin_bool.
  destruct (forallb (fun b => b) a) eqn:E.
  - rewrite forallb_nth in E. repeat split; auto; lia.
  - pose proof (first_false_spec a) as H. destruct (first_false a) as [k|].
    + destruct H as (H1 & H2 & H3). repeat split; auto; lia.
    + apply forallb_nth in H. congruence.
Qed.

(** How a position gets accepted: certified, already safe, or refined. *)
Definition how (C : cert) (act : bool) (ini : option (list bool)) (mr : Z)
    (x : nat) (s : bool) (r r' : Z) : Prop :=
  (neg C x = true /\ r' = 1%Z) \/
  (neg C x = false /\ s = true /\
   (r' = r \/ (r' = 1%Z /\ omask ini x = true))) \/
  (act = true /\ neg C x = false /\ (1 <= r' <= mr)%Z /\
   passes C x x r' = true /\
   ((r' = nreq C x /\ omask ini x = false) \/ (r' = 1%Z /\ omask ini x = true))).

Record pass_ok C act ini mr idx sb rf p K : Prop := {
  po_len : length (p_safe p) = length idx;
  po_lenr : length (p_ref p) = length idx;
  po_K : K <= length idx;
  po_safe : forall q, q < length idx -> nth q (p_safe p) false = (q <? K);
  po_acc : forall q, q < K -> how C act ini mr (nth q idx 0) (nth q sb false)
                                (nth q rf 0%Z) (nth q (p_ref p) 0%Z);
  po_rej : forall q, K <= q < length idx -> nth q (p_ref p) 0%Z = 0%Z;
  po_break : p_break p = true -> K < length idx /\ p_bound p + p_rbound p = K;
  po_cont : p_break p = false -> K = length idx /\
    (p_bound p + p_rbound p = length idx \/ p_bound p + p_rbound p = 0) /\
    (act = false -> p_bound p + p_rbound p = 0);
  po_fail : K < length idx -> exists b, b <= K /\ neg C (nth b idx 0) = false /\
      nth b sb false = false /\ (act = false -> b = K)
}.

Lemma fill_from_length {A} k (x : A) a : k <= length a -> length (fill_from k x a) = length a.
Proof.
  intros H; unfold fill_from. rewrite app_length, firstn_length, repeat_length. lia.
Qed.

Lemma nth_fill_from {A} k (x : A) a d q :
  k <= length a -> q < length a ->
  nth q (fill_from k x a) d = if q <? k then nth q a d else x.
Proof.
  intros Hk Hq. unfold fill_from.
  rewrite nth_app_dec, firstn_length, Nat.min_l, nth_firstn by lia.
  destruct (Nat.ltb_spec q k); auto.
  rewrite nth_repeat'. destruct (Nat.ltb_spec (q - k) (length a - k)); auto; lia.
Qed.

Lemma batch_pass_ok C adaptive ini mr idx sb rf p :
  0 < length idx -> length sb = length idx -> length rf = length idx ->
  batch_pass C adaptive ini mr idx sb rf = Ok p ->
  exists K, pass_ok C (adaptive && (1 <? mr)%Z) ini mr idx sb rf p K.
Proof.
  intros Hm Hsb Hrf. unfold batch_pass.
  set (m := length idx) in *.
  set (negative := map (neg C) idx).
  set (safe1 := map2 orb sb negative).
  set (ref1 := map2 _ rf negative).
  assert (Hneg : length negative = m) by (unfold negative; now rewrite map_length).
  assert (Hs1 : length safe1 = m) by (unfold safe1; rewrite map2_length; lia).
  assert (Hr1 : length ref1 = m) by (unfold ref1; rewrite map2_length; lia).
  assert (Nneg : forall q, q < m -> nth q negative false = neg C (nth q idx 0)).
  { intros q Hq; unfold negative. now apply nth_map'. }
  assert (Nsafe1 : forall q, q < m ->
            nth q safe1 false = nth q sb false || neg C (nth q idx 0)).
  { intros q Hq; unfold safe1.
    rewrite nth_map2' with (da := false) (db := false), Nneg by lia; auto. }
  assert (Nref1 : forall q, q < m ->
            nth q ref1 0%Z = if neg C (nth q idx 0) then 1%Z else nth q rf 0%Z).
  { intros q Hq; unfold ref1.
    rewrite nth_map2' with (da := 0%Z) (db := false), Nneg by lia; auto. }
  assert (Acc1 : forall act q, q < m -> nth q safe1 false = true ->
     how C act ini mr (nth q idx 0) (nth q sb false) (nth q rf 0%Z) (nth q ref1 0%Z)).
  { intros act q Hq H. rewrite Nsafe1 in H by auto. rewrite Nref1 by auto.
    unfold how. destruct (neg C (nth q idx 0)); [left; auto|].
    right; left. rewrite orb_false_r in H; auto. }
  pose proof (first_false_spec safe1) as FF.
  unfold argmin_bool. destruct (first_false safe1) as [b|] eqn:EF.
  2:{ (* every state of the batch is safe *)
    assert (H0 : nth 0 safe1 false = true) by (apply FF; lia).
    rewrite H0. simpl. intros H; inv_ok H. exists m. constructor; simpl; fold m; auto; try lia.
    - intros q Hq. rewrite FF by lia. symmetry; apply Nat.ltb_lt; lia.
    - intros q Hq. apply Acc1; [lia|]. apply FF; lia. }
  destruct FF as (Hb & Hbf & Hbt). rewrite Hs1 in Hb.
  assert (Hcond : (0 <? b) || negb (nth 0 safe1 false) = true).
  { destruct b; simpl; auto. now rewrite Hbf. }
  rewrite Hcond.
  assert (Hfail : neg C (nth b idx 0) = false /\ nth b sb false = false).
  { rewrite Nsafe1 in Hbf by auto. apply orb_false_iff in Hbf; tauto. }
  destruct (adaptive && (1 <? mr)%Z) eqn:Eact.
  2:{ intros H; inv_ok H. exists b. constructor; simpl; fold m; auto; try lia.
    - rewrite fill_from_length by lia; auto.
    - rewrite fill_from_length by lia; auto.
    - intros q Hq. rewrite nth_fill_from by lia.
      destruct (Nat.ltb_spec q b); auto.
    - intros q Hq. rewrite nth_fill_from by lia.
      destruct (Nat.ltb_spec q b); [|lia]. apply Acc1; auto; lia.
    - intros q Hq. rewrite nth_fill_from by lia.
      destruct (Nat.ltb_spec q b); auto; lia.
    - intros _. exists b. split; [lia|tauto]. }
  destruct ini as [mk|]; [|discriminate].
  destruct (negb (forallb (fun i => i <? length mk) idx)); [discriminate|].
  set (ref2 := firstn b ref1 ++ map (nreq C) (skipn b idx)).
  set (idx_safe := map2 orb negative (gather false mk idx)).
  set (ref3 := map2 _ ref2 idx_safe).
  set (check := skipn b (map _ ref3)).
  set (stop := prefix_len check).
  set (fed := firstn stop (skipn b idx)).
  set (ns := firstn stop (skipn b ref3)).
  set (refined := map2 _ fed ns).
  set (rb := if 0 <? stop then prefix_len refined else 0).
  set (safe2 := firstn b safe1 ++ repeat true rb ++ skipn (b + rb) safe1).
  cbv zeta.
  assert (Hr2 : length ref2 = m).
  { unfold ref2. rewrite app_length, firstn_length, map_length, skipn_length.
    fold m. lia. }
  assert (His : length idx_safe = m).
  { unfold idx_safe, gather. rewrite map2_length, map_length. fold m. lia. }
  assert (Hr3 : length ref3 = m) by (unfold ref3; rewrite map2_length; lia).
  assert (Hck : length check = m - b).
  { unfold check. rewrite skipn_length, map_length. lia. }
  destruct (prefix_len_spec check) as (Hstop & Hstop1 & Hstop2). fold stop in Hstop, Hstop1, Hstop2.
  assert (Hfed : length fed = stop).
  { unfold fed. rewrite firstn_length, skipn_length. fold m. lia. }
  assert (Hns : length ns = stop).
  { unfold ns. rewrite firstn_length, skipn_length. lia. }
  assert (Href : length refined = stop) by (unfold refined; rewrite map2_length; lia).
  assert (Hrb : rb <= stop).
  { unfold rb. destruct (Nat.ltb_spec 0 stop); [|lia].
    rewrite <- Href. apply prefix_len_spec. }
  assert (Hs2 : length safe2 = m).
  { unfold safe2. rewrite !app_length, firstn_length, repeat_length, skipn_length. lia. }
  assert (Nr3 : forall q, q < m -> nth q ref3 0%Z =
     if neg C (nth q idx 0) || nth (nth q idx 0) mk false then 1%Z
     else if q <? b then nth q rf 0%Z else nreq C (nth q idx 0)).
  { intros q Hq. unfold ref3.
    rewrite nth_map2' with (da := 0%Z) (db := false) by lia.
    unfold idx_safe, gather.
    rewrite nth_map2' with (da := false) (db := false)
      by (try rewrite map_length; fold m; lia).
    rewrite Nneg, nth_map' with (d' := 0) by auto.
    destruct (neg C (nth q idx 0)) eqn:En; simpl; auto.
    destruct (nth (nth q idx 0) mk false); auto.
    unfold ref2. rewrite nth_app_dec, firstn_length, Nat.min_l, nth_firstn by lia.
    destruct (Nat.ltb_spec q b).
    - rewrite Nref1, En by lia; auto.
    - rewrite nth_map' with (d' := 0) by (rewrite skipn_length; fold m; lia).
      rewrite nth_skipn. do 2 f_equal; lia. }
  assert (Ns2 : forall q, q < m -> nth q safe2 false =
            (q <? b + rb) || nth q safe1 false).
  { intros q Hq. unfold safe2.
    rewrite nth_app_dec, firstn_length, Nat.min_l, nth_firstn by lia.
    destruct (Nat.ltb_spec q b).
    - rewrite Hbt by lia. now rewrite orb_true_r.
    - rewrite nth_app_dec, repeat_length, nth_repeat', nth_skipn.
      destruct (Nat.ltb_spec (q - b) rb), (Nat.ltb_spec q (b + rb)); try lia; auto.
      simpl. f_equal; lia. }
  assert (Hchk : forall q, q < rb -> (1 <= nth (b + q) ref3 0 <= mr)%Z).
  { intros q Hq. assert (Hq' : q < stop) by lia. apply Hstop1 in Hq'.
    unfold check in Hq'. rewrite nth_skipn, nth_map' with (d' := 0%Z) in Hq' by lia.
    apply andb_prop in Hq' as (A & B). apply Z.leb_le in A, B. lia. }
  assert (Hpass : forall q, q < rb ->
            passes C (nth (b + q) idx 0) (nth (b + q) idx 0) (nth (b + q) ref3 0%Z) = true).
  { intros q Hq. assert (Hr : nth q refined false = true).
    { unfold rb in Hq. destruct (Nat.ltb_spec 0 stop); [|lia].
      destruct (prefix_len_spec refined) as (_ & H2 & _). now apply H2. }
    unfold refined in Hr.
    rewrite nth_map2' with (da := 0) (db := 0%Z) in Hr by lia.
    rewrite forallb_forall in Hr.
    assert (Ef : nth q fed 0 = nth (b + q) idx 0).
    { unfold fed. rewrite nth_firstn, nth_skipn.
      destruct (Nat.ltb_spec q stop); auto; lia. }
    assert (En : nth q ns 0%Z = nth (b + q) ref3 0%Z).
    { unfold ns. rewrite nth_firstn, nth_skipn.
      destruct (Nat.ltb_spec q stop); auto; lia. }
    rewrite <- Ef, <- En. apply Hr. apply nth_In. lia. }
  assert (Hacc : forall q, q < b + rb ->
     how C true (Some mk) mr (nth q idx 0) (nth q sb false) (nth q rf 0%Z)
         (nth q ref3 0%Z)).
  { intros q Hq. rewrite Nr3 by lia. unfold how; simpl.
    destruct (neg C (nth q idx 0)) eqn:En; [left; auto|right]. simpl.
    destruct (Nat.ltb_spec q b).
    - left. pose proof (Hbt q ltac:(lia)) as Hs. rewrite Nsafe1, En, orb_false_r in Hs by lia.
      split; [auto|split; auto].
      destruct (nth (nth q idx 0) mk false); auto.
    - right. replace q with (b + (q - b)) in * by lia.
      pose proof (Hchk (q - b) ltac:(lia)) as A.
      pose proof (Hpass (q - b) ltac:(lia)) as B.
      rewrite Nr3, En in A, B by lia. simpl in A, B.
      destruct (Nat.ltb_spec (b + (q - b)) b); [lia|].
      destruct (nth (nth (b + (q - b)) idx 0) mk false); auto 10. }
  destruct ((stop <? length check) || (rb <? stop)) eqn:Ebr.
  - intros H; inv_ok H.
    assert (Hlt : b + rb < m).
    { rewrite orb_true_iff, !Nat.ltb_lt in Ebr. lia. }
    exists (b + rb). constructor; simpl; fold m; auto; try lia.
    + rewrite fill_from_length; lia.
    + rewrite fill_from_length; lia.
    + intros q Hq. rewrite nth_fill_from, Ns2 by lia.
      destruct (Nat.ltb_spec q (b + rb)); auto.
    + intros q Hq. rewrite nth_fill_from by lia.
      destruct (Nat.ltb_spec q (b + rb)); auto; lia.
    + intros q Hq. rewrite nth_fill_from by lia.
      destruct (Nat.ltb_spec q (b + rb)); auto; lia.
    + intros _. exists b. destruct Hfail. repeat split; auto; [lia|discriminate].
  - intros H; inv_ok H.
    assert (Hall : b + rb = m).
    { rewrite orb_false_iff, !Nat.ltb_ge in Ebr. lia. }
    exists m. constructor; simpl; fold m; auto; try lia.
    + intros q Hq. rewrite Ns2 by lia.
      destruct (Nat.ltb_spec q (b + rb)), (Nat.ltb_spec q m); auto; lia.
    + intros q Hq. apply Hacc; lia.
Qed.

(** Refinement looks the states up in the initial set. *)
Definition can_refine (ini : option (list bool)) (idx : list nat) : Prop :=
  exists m, ini = Some m /\ forall i, In i idx -> i < length m.

Lemma batch_pass_total C adaptive ini mr idx sb rf :
  adaptive && (1 <? mr)%Z = false \/ can_refine ini idx ->
  exists p, batch_pass C adaptive ini mr idx sb rf = Ok p.
Proof.
  intros H. unfold batch_pass. cbv zeta.
  destruct ((0 <? _) || _); [|eexists; reflexivity].
  destruct (adaptive && (1 <? mr)%Z); [|eexists; reflexivity].
  destruct H as [H|(m & -> & H)]; [discriminate|].
  replace (forallb (fun i => i <? length m) idx) with true
    by (symmetry; apply forallb_forall; intros i Hi; apply Nat.ltb_lt; auto).
  cbn [negb]. destruct ((_ <? _) || _); eexists; reflexivity.
Qed.

(** ** The loop *)

Section Loop.
  Variables (C : cert) (adaptive : bool) (ini : option (list bool)) (mr : Z).
  Variables (order : list nat) (bs : nat).
  Hypothesis Hbs : 0 < bs.
  Let n := length order.
  Let T := (n + bs - 1) / bs.
  Let act := adaptive && (1 <? mr)%Z.

  Lemma T_spec : n <= T * bs /\ forall k, k < T -> k * bs < n.
  Proof.
    pose proof (Nat.div_mod (n + bs - 1) bs ltac:(lia)) as D.
    pose proof (Nat.mod_upper_bound (n + bs - 1) bs ltac:(lia)) as M.
    fold T in D. split; [nia|]. intros k Hk. nia.
  Qed.

  Record loop_ok k safe ref safe' ref' K E : Prop := {
    lo_len : length safe' = n;
    lo_lenr : length ref' = n;
    lo_KE : K <= E <= n;
    lo_from : k * bs <= K \/ K = n;
    lo_before : forall q, q < k * bs -> q < n ->
      nth q safe' false = nth q safe false /\ nth q ref' 0%Z = nth q ref 0%Z;
    lo_safe : forall q, k * bs <= q < n -> nth q safe' false =
      if q <? K then true else if q <? E then false else nth q safe false;
    lo_acc : forall q, k * bs <= q < K ->
      how C act ini mr (nth q order 0) (nth q safe false) (nth q ref 0%Z)
          (nth q ref' 0%Z);
    lo_rej : forall q, k * bs <= q -> K <= q < E -> nth q ref' 0%Z = 0%Z;
    lo_after : forall q, k * bs <= q -> E <= q < n -> nth q ref' 0%Z = nth q ref 0%Z;
    lo_end : K < n -> E = Nat.min n (K / bs * bs + bs) /\
      exists b, k * bs <= b <= K /\ neg C (nth b order 0) = false /\
        nth b safe false = false /\ (act = false -> b = K)
  }.

  Lemma verify_ok t : forall k safe ref last safe' ref' last',
    k + t = T -> length safe = n -> length ref = n ->
    verify C adaptive ini mr order bs (map (fun k => k * bs) (seq k t))
      safe ref last = Ok (safe', ref', last') ->
    exists K E, loop_ok k safe ref safe' ref' K E /\
      (t = 0 -> last' = last) /\
      (0 < t -> exists i bd rb, last' = Some (i, bd, rb) /\
         (K < n -> i + bd + rb = K) /\
         (K = n -> (i + bd + rb = n \/ i + bd + rb = (T - 1) * bs) /\
                   (act = false -> i + bd + rb = (T - 1) * bs))).
  Proof.
    destruct T_spec as (HT1 & HT2).
    induction t as [|t IH]; intros k safe ref last safe' ref' last' Hk Hs Hr H.
    - simpl in H. inv_ok H. exists n, n. split.
      { assert (k * bs >= n) by nia. constructor; auto; lia. }
      split; [auto|lia].
    - simpl in H. apply bind_ok in H as (p & Hp & H).
      assert (Hi : k * bs < n) by (apply HT2; lia).
      set (m := length (slice (k * bs) (k * bs + bs) order)) in *.
      assert (Hm : m = Nat.min bs (n - k * bs)).
      { unfold m. rewrite slice_length. fold n. lia. }
      apply batch_pass_ok in Hp as (K0 & PO).
      2:{ fold m; lia. }
      2:{ fold m; rewrite slice_length; lia. }
      2:{ fold m; rewrite slice_length; lia. }
      destruct PO as [P1 P2 P3 P4 P5 P6 P7 P8 P9]; fold m in P1, P2, P3, P4, P6, P7, P8, P9.
      assert (Nidx : forall q, q < m -> nth q (slice (k * bs) (k * bs + bs) order) 0
                = nth (k * bs + q) order 0) by (intros; apply nth_slice; lia).
      assert (Nsb : forall q, q < m -> nth q (slice (k * bs) (k * bs + bs) safe) false
                = nth (k * bs + q) safe false) by (intros; apply nth_slice; lia).
      assert (Nrb : forall q, q < m -> nth q (slice (k * bs) (k * bs + bs) ref) 0%Z
                = nth (k * bs + q) ref 0%Z) by (intros; apply nth_slice; lia).
      set (s1 := splice safe (k * bs) (p_safe p)) in *.
      set (r1 := splice ref (k * bs) (p_ref p)) in *.
      assert (Ls1 : length s1 = n) by (unfold s1; rewrite splice_length; lia).
      assert (Lr1 : length r1 = n) by (unfold r1; rewrite splice_length; lia).
      assert (Ns1 : forall q, q < n -> nth q s1 false =
                if (k * bs <=? q) && (q <? k * bs + m) then q - k * bs <? K0
                else nth q safe false).
      { intros q Hq. unfold s1. rewrite nth_splice by lia. rewrite P1.
        destruct (Nat.leb_spec (k * bs) q), (Nat.ltb_spec q (k * bs + m)); simpl; auto.
        apply P4; lia. }
      assert (Nr1 : forall q, q < n -> nth q r1 0%Z =
                if (k * bs <=? q) && (q <? k * bs + m) then nth (q - k * bs) (p_ref p) 0%Z
                else nth q ref 0%Z).
      { intros q Hq. unfold r1. rewrite nth_splice by lia. rewrite P2. reflexivity. }
      assert (Acc : forall q, k * bs <= q -> q < k * bs + K0 ->
         how C act ini mr (nth q order 0) (nth q safe false) (nth q ref 0%Z)
             (nth q r1 0%Z)).
      { intros q H1 H2. rewrite Nr1 by lia.
        destruct (Nat.leb_spec (k * bs) q); [|lia].
        destruct (Nat.ltb_spec q (k * bs + m)); [|lia]. simpl.
        pose proof (P5 (q - k * bs) ltac:(lia)) as A.
        rewrite Nidx, Nsb, Nrb in A by lia.
        replace (k * bs + (q - k * bs)) with q in A by lia. exact A. }
      destruct (p_break p) eqn:Ebr.
      + inv_ok H. destruct (P7 eq_refl) as (HK & Hbd).
        exists (k * bs + K0), (k * bs + m). split.
        { constructor; auto; try lia.
          - intros q H1 H2. rewrite Ns1, Nr1 by lia.
            destruct (Nat.leb_spec (k * bs) q); [lia|]. auto.
          - intros q H1. rewrite Ns1 by lia.
            destruct (Nat.leb_spec (k * bs) q); [|lia]. simpl.
            destruct (Nat.ltb_spec q (k * bs + m)), (Nat.ltb_spec q (k * bs + K0)),
              (Nat.ltb_spec (q - k * bs) K0); try lia; auto.
          - intros q H1. apply Acc; lia.
          - intros q H1 H2. rewrite Nr1 by lia.
            destruct (Nat.leb_spec (k * bs) q); [|lia].
            destruct (Nat.ltb_spec q (k * bs + m)); [|lia]. simpl.
            apply P6; lia.
          - intros q H1 H2. rewrite Nr1 by lia.
            destruct (Nat.leb_spec (k * bs) q); [|lia].
            destruct (Nat.ltb_spec q (k * bs + m)); [lia|]. auto.
          - intros _. split.
            + replace (k * bs + K0) with (K0 + k * bs) by lia.
              rewrite Nat.div_add, (Nat.div_small K0) by lia. lia.
            + destruct (P9 HK) as (b & B1 & B2 & B3 & B4).
              exists (k * bs + b). rewrite Nidx in B2 by lia. rewrite Nsb in B3 by lia.
              repeat split; auto; try lia. }
        split; [lia|]. intros _. exists (k * bs), (p_bound p), (p_rbound p).
        repeat split; auto; lia.
      + destruct (P8 eq_refl) as (HK & Hbd).
        apply IH in H as (K & E & LO & L0 & L1); auto; try lia.
        assert (HE : k * bs + m = (S k) * bs \/ (n <= S k * bs /\ k * bs + m = n)) by lia.
        destruct LO as [Q1 Q2 Q3 Q4 Q5 Q6 Q7 Q8 Q9 Q10].
        exists K, E. split.
        { constructor; auto.
          - lia.
          - intros q H1 H2. destruct (Q5 q ltac:(lia) ltac:(lia)) as (A & B).
            rewrite A, B, Ns1, Nr1 by lia.
            destruct (Nat.leb_spec (k * bs) q); [lia|]. auto.
          - intros q H1. destruct (Nat.lt_ge_cases q (S k * bs)) as [H2|H2].
            + destruct (Q5 q ltac:(lia) ltac:(lia)) as (A & _). rewrite A, Ns1 by lia.
              destruct (Nat.leb_spec (k * bs) q); [|lia].
              destruct (Nat.ltb_spec q (k * bs + m)); [|lia]. simpl.
              destruct (Nat.ltb_spec (q - k * bs) K0); [|lia].
              destruct (Nat.ltb_spec q K); auto; lia.
            + rewrite Q6 by lia. destruct (q <? K); auto. destruct (q <? E); auto.
              rewrite Ns1 by lia. destruct (Nat.leb_spec (k * bs) q); [|lia].
              destruct (Nat.ltb_spec q (k * bs + m)); auto; lia.
          - intros q H1. destruct (Nat.lt_ge_cases q (S k * bs)) as [H2|H2].
            + destruct (Q5 q ltac:(lia) ltac:(lia)) as (_ & B). rewrite B.
              apply Acc; lia.
            + pose proof (Q7 q ltac:(lia)) as A.
              rewrite Ns1, Nr1 in A by lia.
              destruct (Nat.ltb_spec q (k * bs + m)); [lia|].
              now rewrite andb_false_r in A.
          - intros q H1 H2. apply Q8; lia.
          - intros q H1 H2. rewrite Q9 by lia. rewrite Nr1 by lia.
            destruct (Nat.ltb_spec q (k * bs + m)); [lia|].
            now rewrite andb_false_r.
          - intros HKn. destruct (Q10 HKn) as (A & b & B1 & B2 & B3 & B4).
            split; auto. exists b. rewrite Ns1 in B3 by lia.
            destruct (Nat.ltb_spec b (k * bs + m)); [lia|].
            rewrite andb_false_r in B3. repeat split; auto; lia. }
        split; [lia|]. intros _. destruct t as [|t].
        { rewrite (L0 eq_refl). exists (k * bs), (p_bound p), (p_rbound p).
          split; auto. assert (S k * bs >= n) by nia. split; [lia|]. intros _.
          assert (k = T - 1) by lia. subst k. destruct Hbd as (A & B).
          split; [lia|]. intros Ha; specialize (B Ha); lia. }
        { apply L1; lia. }
  Qed.

  Lemma verify_total t : forall k safe ref last,
    act = false \/ can_refine ini order ->
    exists w, verify C adaptive ini mr order bs (map (fun k => k * bs) (seq k t))
      safe ref last = Ok w.
  Proof.
    induction t as [|t IH]; intros k safe ref last H; simpl; [eexists; reflexivity|].
    destruct (batch_pass_total C adaptive ini mr
      (slice (k * bs) (k * bs + bs) order) (slice (k * bs) (k * bs + bs) safe)
      (slice (k * bs) (k * bs + bs) ref)) as (p & ->).
    { destruct H as [H|(m & E & H)]; [now left|]. right. exists m. split; [exact E|].
      intros i Hi. apply H. unfold slice in Hi. 
      assert (Hi' : In i (skipn (k * bs) order)).
      { rewrite <- (firstn_skipn (k * bs + bs - k * bs) (skipn (k * bs) order)).
        apply in_or_app. now left. }
      rewrite <- (firstn_skipn (k * bs) order). apply in_or_app. now right. }
    simpl.
    destruct (p_break p); [eexists; reflexivity|]. now apply IH.
  Qed.
End Loop.

(** ** Sorted orders *)

Section Order.
  Variables (L : lyap) (order : list nat).
  Hypothesis Hord : sorts (l_vals L) order.
  Let n := size L.

  Lemma order_length : length order = n.
  Proof.
    destruct Hord as (P & _). apply Permutation_length in P.
    now rewrite seq_length in P.
  Qed.
  Lemma order_NoDup : NoDup order.
  Proof.
    destruct Hord as (P & _). apply Permutation_sym in P.
    eapply Permutation_NoDup; [exact P|apply seq_NoDup].
  Qed.
  Lemma order_lt p : p < n -> nth p order 0 < n.
  Proof.
    intros H. destruct Hord as (P & _).
    assert (I : In (nth p order 0) (seq 0 n)).
    { eapply Permutation_in; [exact P|]. apply nth_In. rewrite order_length; auto. }
    apply in_seq in I; lia.
  Qed.
  Lemma order_onto x : x < n -> exists p, p < n /\ nth p order 0 = x.
  Proof.
    intros H. destruct Hord as (P & _).
    assert (I : In x order).
    { eapply Permutation_in; [exact (Permutation_sym P)|]. apply in_seq.
      unfold n, size in H. lia. }
    apply In_nth with (d := 0) in I as (p & Hp & E). rewrite order_length in Hp.
    exists p; auto.
  Qed.
  Lemma order_inj p q : p < n -> q < n -> nth p order 0 = nth q order 0 -> p = q.
  Proof.
    intros Hp Hq E. pose proof order_NoDup as ND. rewrite NoDup_nth with (d := 0) in ND.
    apply ND; rewrite ?order_length; auto.
  Qed.

End Order.

(** ** The whole update *)

(** The update in one piece. *)
Lemma update_safe_set_eq L C sh mr bs order : update_safe_set L C sh mr bs order =
  do sr <- start_sets L sh;
  do w <- verify C (l_adaptive L) (l_init L) mr order bs (starts (length order) bs)
            (gather false (fst sr) order) (gather 0%Z (snd sr) order) None;
  let '(safe, ref, last) := w in
  match last with
  | None => Err NameError
  | Some (i, bound, rbound) =>
    do k <- py_nth order (Z.of_nat (i + bound + rbound) - 1)%Z;
    do c <- py_nth (l_vals L) (Z.of_nat k);
    do s2 <- assign_opt (scatter (repeat false (length (l_safe L))) (mask safe order)
                           (repeat true (length (mask safe order)))) (l_init L) true;
    do r2 <- assign_opt (scatter (l_ref L) order ref) (l_init L) 1%Z;
    Ok {| l_init := l_init L; l_adaptive := l_adaptive L; l_vals := l_vals L;
          l_safe := s2; l_ref := r2; l_cmax := c |}
  end.
Proof.
  unfold update_safe_set, verified. destruct start_sets as [[s r]|]; [|reflexivity]. cbn [bind].
  destruct verify as [[[s' r'] [[[i b] rb]|]]|]; cbn [bind]; try reflexivity.
  destruct py_nth; cbn [bind]; [|reflexivity]. destruct py_nth; reflexivity.
Qed.

(** The state after a call, for arrays and masks of the right length. *)
Lemma verified_length L C sh mr bs order s r c : verified L C sh mr bs order = Ok (s, r, c) ->
  length s = length (l_safe L) /\ length r = length (l_ref L).
Proof.
  unfold verified. destruct start_sets as [[s0 r0]|]; [|discriminate]. cbn [bind].
  destruct verify as [[[s' r'] [[[i b] rb]|]]|]; cbn [bind]; try discriminate.
  destruct py_nth; cbn [bind]; [|discriminate]. destruct py_nth; cbn [bind]; [|discriminate].
  intros [= <- <- <-]. now rewrite !scatter_length, repeat_length.
Qed.
Lemma effect_consistent L C sh mr bs order : consistent L ->
  update_effect L C sh mr bs order =
  match update_safe_set L C sh mr bs order with Ok L' => (L', None) | Err e => (L, Some e) end.
Proof.
  intros [C1 C2 C3]. unfold update_effect, update_safe_set.
  destruct verified as [[[s r] c]|] eqn:E; cbn [bind]; [|reflexivity].
  apply verified_length in E as (Es & Er).
  destruct (assign_opt_ok s (l_init L) true) as (s2 & -> & _); [intros m Hm; rewrite Es, C1; auto|].
  destruct (assign_opt_ok r (l_init L) 1%Z) as (r2 & -> & _); [intros m Hm; rewrite Er, C2; auto|].
  reflexivity.
Qed.
Lemma effect_ok L C sh mr bs order L' :
  update_effect L C sh mr bs order = (L', None) <-> update_safe_set L C sh mr bs order = Ok L'.
Proof.
  unfold update_effect, update_safe_set.
  destruct verified as [[[s r] c]|]; cbn [bind]; [|split; discriminate].
  destruct assign_opt; cbn [bind]; [|split; discriminate].
  destruct assign_opt; cbn [bind]; [|split; discriminate].
  split; intros [= <-]; reflexivity.
Qed.

Lemma effect_outcome L C sh mr bs order :
  match update_safe_set L C sh mr bs order with
  | Ok L' => update_effect L C sh mr bs order = (L', None)
  | Err e => exists L', update_effect L C sh mr bs order = (L', Some e) /\ (consistent L -> L' = L)
  end.
Proof.
  destruct update_safe_set as [L'|e] eqn:E; [now apply effect_ok|].
  assert (A : exists L', update_effect L C sh mr bs order = (L', Some e)).
  { revert E. unfold update_safe_set, update_effect. destruct verified as [[[s r] c]|]; cbn [bind].
    - destruct assign_opt; cbn [bind]; [destruct assign_opt; cbn [bind]; [discriminate|]|];
        intros [= <-]; eexists; reflexivity.
    - intros [= <-]. eexists; reflexivity. }
  destruct A as (L' & A). exists L'. split; [exact A|]. intros HL.
  rewrite effect_consistent, E in A by exact HL. now injection A as <-.
Qed.

Section Update.
  Variables (L : lyap) (C : cert) (sh : bool) (mr : Z) (bs : nat) (order : list nat).
  Hypothesis HL : consistent L.
  Hypothesis Hord : sorts (l_vals L) order.
  Hypothesis Hbs : 0 < bs.
  Hypothesis Hn : 0 < size L.
  Let n := size L.
  Let act := l_adaptive L && (1 <? mr)%Z.
  Let T := (n + bs - 1) / bs.

  Definition S0 (x : nat) : bool :=
    if sh then omask (l_init L) x else nth x (l_safe L) false.
  Definition R0 (x : nat) : Z :=
    if sh then (if omask (l_init L) x then 1%Z else 0%Z) else nth x (l_ref L) 0%Z.

  Lemma start_sets_ok : exists s r,
    start_sets L sh = Ok (s, r) /\ length s = n /\ length r = n /\
    forall x, x < n -> nth x s false = S0 x /\ nth x r 0%Z = R0 x.
  Proof.
    destruct HL as [H1 H2 H3]. unfold start_sets, S0, R0. destruct sh.
    - destruct (assign_opt_ok (repeat false (length (l_safe L))) (l_init L) true)
        as (s & E & Ls & Ns).
      { intros m Hm. rewrite repeat_length, H1; auto. }
      destruct (assign_opt_ok (repeat 0%Z (length (l_ref L))) (l_init L) 1%Z)
        as (r & E' & Lr & Nr).
      { intros m Hm. rewrite repeat_length, H2; auto. }
      rewrite repeat_length in Ls, Lr, Ns, Nr.
      rewrite E; simpl; rewrite E'; simpl. exists s, r. split; [reflexivity|].
      split; [unfold n; lia|]. split; [unfold n; lia|].
      intros x Hx. unfold n in Hx. rewrite Ns, Nr by lia. rewrite !nth_repeat'.
      destruct (omask (l_init L) x); auto. split; now destruct (_ <? _).
    - exists (l_safe L), (l_ref L). auto.
  Qed.

  Record run_ok (L' : lyap) (K E : nat) : Prop := {
    ro_cons : consistent L';
    ro_init : l_init L' = l_init L;
    ro_ad : l_adaptive L' = l_adaptive L;
    ro_vals : l_vals L' = l_vals L;
    ro_KE : K <= E <= n;
    ro_safe : forall p, p < n -> nth (nth p order 0) (l_safe L') false =
      omask (l_init L) (nth p order 0) ||
      (if p <? K then true else if p <? E then false else S0 (nth p order 0));
    ro_ref1 : forall x, x < n -> omask (l_init L) x = true -> nth x (l_ref L') 0%Z = 1%Z;
    ro_acc : forall p, p < K -> let x := nth p order 0 in
      omask (l_init L) x = false ->
      how C act (l_init L) mr x (S0 x) (R0 x) (nth x (l_ref L') 0%Z);
    ro_how : forall p, p < K -> let x := nth p order 0 in
      exists r, how C act (l_init L) mr x (S0 x) (R0 x) r;
    ro_rej : forall p, K <= p < E -> let x := nth p order 0 in
      omask (l_init L) x = false -> nth x (l_ref L') 0%Z = 0%Z;
    ro_after : forall p, E <= p < n -> let x := nth p order 0 in
      omask (l_init L) x = false -> nth x (l_ref L') 0%Z = R0 x;
    ro_end : K < n -> E = Nat.min n (K / bs * bs + bs) /\
      exists b, b <= K /\ neg C (nth b order 0) = false /\
        S0 (nth b order 0) = false /\ (act = false -> b = K);
    ro_c0 : K = 0 -> l_cmax L' = value L (nth (n - 1) order 0);
    ro_cK : 0 < K < n -> l_cmax L' = value L (nth (K - 1) order 0);
    ro_cn : K = n -> act = false -> l_cmax L' =
      value L (nth ((if n <=? bs then n else (T - 1) * bs) - 1) order 0);
    ro_cn' : K = n -> l_cmax L' = value L (nth (n - 1) order 0) \/
      (bs < n /\ l_cmax L' = value L (nth ((T - 1) * bs - 1) order 0))
  }.

  Lemma py_nth_ok {A} (l : list A) k d :
    k < length l -> py_nth l (Z.of_nat k) = Ok (nth k l d).
  Proof.
    intros H. unfold py_nth. destruct (Z.ltb_spec (Z.of_nat k) 0); [lia|].
    destruct (Z.leb_spec 0 (Z.of_nat k)); [|lia].
    destruct (Z.ltb_spec (Z.of_nat k) (Z.of_nat (length l))); [|lia]. simpl.
    rewrite Nat2Z.id. rewrite (nth_error_nth' l d H). reflexivity.
  Qed.

  Lemma py_nth_pred {A} (l : list A) k d :
    k <= length l -> 0 < length l ->
    py_nth l (Z.of_nat k - 1)%Z = Ok (nth ((if k =? 0 then length l else k) - 1) l d).
  Proof.
    intros H H0. destruct (Nat.eqb_spec k 0) as [->|Hk].
    - unfold py_nth. replace (Z.of_nat 0 - 1)%Z with (-1)%Z by lia.
      change (-1 <? 0)%Z with true. cbv iota.
      replace (-1 + Z.of_nat (length l))%Z with (Z.of_nat (length l - 1)) by lia.
      destruct (Z.leb_spec 0 (Z.of_nat (length l - 1))); [|lia].
      destruct (Z.ltb_spec (Z.of_nat (length l - 1)) (Z.of_nat (length l))); [|lia].
      cbn [andb]. rewrite Nat2Z.id.
      rewrite (nth_error_nth' l d) by lia. reflexivity.
    - replace (Z.of_nat k - 1)%Z with (Z.of_nat (k - 1)) by lia.
      apply py_nth_ok. lia.
  Qed.

  Lemma update_safe_set_ok L' :
    update_safe_set L C sh mr bs order = Ok L' -> exists K E, run_ok L' K E.
  Proof.
    pose proof (order_length L order Hord) as OL; fold n in OL. pose proof (order_NoDup L order Hord) as ND.
    rewrite update_safe_set_eq. destruct start_sets_ok as (s & r & -> & Ls & Lr & Nsr). simpl.
    intros H. apply bind_ok in H as ([[sf rf] last] & HV & H).
    assert (Hg : forall p, p < n -> nth p (gather false s order) false = S0 (nth p order 0)).
    { intros p Hp. unfold gather. rewrite nth_map' with (d' := 0) by lia.
      apply Nsr. now apply (order_lt L order Hord). }
    assert (Hg' : forall p, p < n -> nth p (gather 0%Z r order) 0%Z = R0 (nth p order 0)).
    { intros p Hp. unfold gather. rewrite nth_map' with (d' := 0) by lia.
      apply Nsr. now apply (order_lt L order Hord). }
    unfold starts in HV. destruct (Nat.eqb_spec bs 0); [lia|].
    destruct (T_spec order bs Hbs) as (HT1 & HT2). rewrite OL in HT1, HT2.
    fold T in HT1, HT2.
    apply verify_ok in HV; auto; try (unfold gather; now rewrite map_length).
    destruct HV as (K & E & LO & _ & HL1). rewrite OL in HL1. fold T in HL1.
    assert (HTpos : 0 < T) by nia.
    assert (HTone : n <= bs -> T = 1).
    { intros Hle. pose proof (HT2 (T - 1) ltac:(lia)). nia. }
    destruct (HL1 HTpos) as (i & bd & rb & -> & HKlt & HKn). clear HL1.
    fold act in HKn.
    destruct LO as [Q1 Q2 Q3 Q4 Q5 Q6 Q7 Q8 Q9 Q10]. rewrite OL in *.
    simpl in Q6, Q7, Q8, Q9, Q10.
    assert (Hidx : i + bd + rb <= n).
    { destruct (Nat.eq_dec K n) as [Ek|Ek]; [|lia]. specialize (HKn Ek).
      assert ((T - 1) * bs < n) by (apply HT2; lia). lia. }
    rewrite (py_nth_pred order (i + bd + rb) 0) in H by lia. simpl in H.
    set (mi := (if i + bd + rb =? 0 then length order else i + bd + rb) - 1) in *.
    assert (Hmi : mi < n).
    { unfold mi. destruct (Nat.eqb_spec (i + bd + rb) 0); lia. }
    rewrite (py_nth_ok (l_vals L) (nth mi order 0) 0%R) in H
      by (apply (order_lt L order Hord); auto). simpl in H.
    set (nodes := mask sf order) in *.
    set (s1 := scatter (repeat false (length (l_safe L))) nodes _) in *.
    set (r1 := scatter (l_ref L) order rf) in *.
    destruct HL as [C1 C2 C3].
    assert (Ls1 : length s1 = n).
    { unfold s1. rewrite scatter_length, repeat_length. auto. }
    assert (Lr1 : length r1 = n) by (unfold r1; rewrite scatter_length; auto).
    destruct (assign_opt_ok s1 (l_init L) true) as (s2 & E2 & Ls2 & Ns2).
    { intros m Hm. rewrite Ls1; auto. }
    destruct (assign_opt_ok r1 (l_init L) 1%Z) as (r2 & E3 & Lr2 & Nr2).
    { intros m Hm. rewrite Lr1; auto. }
    rewrite E2 in H; simpl in H. rewrite E3 in H; simpl in H. inv_ok H.
    assert (Nr1 : forall p, p < n -> nth (nth p order 0) r1 0%Z = nth p rf 0%Z).
    { intros p Hp. unfold r1. apply scatter_at; auto; try lia.
      intros j Hj. apply In_nth with (d := 0) in Hj as (q & Hq & <-).
      rewrite C2. apply (order_lt L order Hord). lia. }
    assert (Ns1 : forall p, p < n -> nth (nth p order 0) s1 false = nth p sf false).
    { intros p Hp. unfold s1.
      destruct (nth p sf false) eqn:Ep.
      - assert (I : In (nth p order 0) nodes).
        { unfold nodes. rewrite (mask_In sf order 0) by lia.
          exists p. repeat split; auto; lia. }
        apply In_nth with (d := 0) in I as (q & Hq & Eq).
        rewrite <- Eq. rewrite scatter_at; auto.
        + rewrite nth_repeat'. destruct (Nat.ltb_spec q (length nodes)); auto; lia.
        + unfold nodes; now apply mask_NoDup.
        + now rewrite repeat_length.
        + intros j Hj. rewrite repeat_length, C1.
          unfold nodes in Hj. rewrite (mask_In sf order 0) in Hj by lia.
          destruct Hj as (q' & Hq' & _ & <-). apply (order_lt L order Hord). lia.
      - rewrite scatter_other.
        + rewrite nth_repeat'. now destruct (_ <? _).
        + unfold nodes. rewrite (mask_In sf order 0) by lia.
          intros (q & Hq & Hm & Eq). apply (order_inj L order Hord) in Eq; [congruence|lia|lia]. }
    exists K, E. constructor; simpl; auto.
    - constructor; unfold size; simpl; auto; unfold size in *; try congruence; lia.
    - intros p Hp. pose proof (order_lt L order Hord p Hp). rewrite Ns2, Ns1 by lia.
      destruct (omask _ _); auto. simpl. rewrite Q6 by lia. rewrite Hg by auto. auto.
    - intros x Hx Hom. rewrite Nr2, Hom by lia. auto.
    - intros p Hp Hom.
      pose proof (order_lt L order Hord p ltac:(lia)). rewrite Nr2, Hom, Nr1 by lia.
      pose proof (Q7 p ltac:(lia)) as A. rewrite Hg, Hg' in A by lia. exact A.
    - intros p Hp.
      pose proof (Q7 p ltac:(lia)) as A. rewrite Hg, Hg' in A by lia. eauto.
    - intros p Hp Hom.
      pose proof (order_lt L order Hord p ltac:(lia)). rewrite Nr2, Hom, Nr1 by lia.
      apply Q8; lia.
    - intros p Hp Hom.
      pose proof (order_lt L order Hord p ltac:(lia)). rewrite Nr2, Hom, Nr1 by lia.
      rewrite Q9 by lia. apply Hg'; lia.
    - intros HKl. destruct (Q10 HKl) as (A & b & B1 & B2 & B3 & B4).
      split; auto. exists b. rewrite Hg in B3 by lia. repeat split; auto; lia.
    - intros ->. unfold value. f_equal. f_equal. unfold mi.
      rewrite HKlt by lia. simpl. lia.
    - intros HK. unfold value. do 2 f_equal. unfold mi.
      rewrite HKlt by lia. destruct (Nat.eqb_spec K 0); lia.
    - intros -> Ha. unfold value. do 2 f_equal. unfold mi.
      destruct (HKn eq_refl) as (_ & B). rewrite (B Ha).
      destruct (Nat.leb_spec n bs).
      + rewrite (HTone H). simpl. lia.
      + assert (1 < T) by nia. destruct (Nat.eqb_spec ((T - 1) * bs) 0); nia.
    - intros ->. destruct (HKn eq_refl) as ([B|B] & _).
      + left. unfold value. do 2 f_equal. unfold mi. rewrite B.
        destruct (Nat.eqb_spec n 0); lia.
      + destruct (Nat.leb_spec n bs).
        * left. unfold value. do 2 f_equal. unfold mi. rewrite B.
          rewrite (HTone H). simpl. lia.
        * right. split; auto. unfold value. do 2 f_equal. unfold mi. rewrite B.
          assert (1 < T) by nia. destruct (Nat.eqb_spec ((T - 1) * bs) 0); nia.
  Qed.

  Lemma update_safe_set_total :
    act = false \/ l_init L <> None ->
    exists L', update_safe_set L C sh mr bs order = Ok L'.
  Proof.
    intros Hact.
    pose proof (order_length L order Hord) as OL; fold n in OL.
    rewrite update_safe_set_eq. destruct start_sets_ok as (s & r & -> & Ls & Lr & Nsr). simpl.
    destruct (verify_total C (l_adaptive L) (l_init L) mr order bs
       ((length order + bs - 1) / bs) 0 (gather false s order) (gather 0%Z r order) None)
      as ([[sf rf] last] & HV).
    { destruct Hact as [Ha|Hi]; [now left|right].
      destruct (l_init L) as [m|] eqn:Em; [|congruence]. exists m. split; [reflexivity|].
      intros i Hi'. apply In_nth with (d := 0) in Hi' as (q & Hq & <-).
      rewrite (cons_init L HL m Em). apply (order_lt L order Hord). unfold n in OL. lia. }
    unfold starts. destruct (Nat.eqb_spec bs 0); [lia|]. rewrite HV. simpl.
    destruct (T_spec order bs Hbs) as (HT1 & HT2). rewrite OL in HT1, HT2.
    fold T in HT1, HT2.
    apply verify_ok in HV; auto; try (unfold gather; now rewrite map_length).
    destruct HV as (K & E & LO & _ & HL1). rewrite OL in HL1. fold T in HL1.
    assert (HTpos : 0 < T) by nia.
    assert (HTone : n <= bs -> T = 1).
    { intros Hle. pose proof (HT2 (T - 1) ltac:(lia)). nia. }
    destruct (HL1 HTpos) as (i & bd & rb & -> & HKlt & HKn).
    destruct LO as [Q1 Q2 Q3 Q4 Q5 Q6 Q7 Q8 Q9 Q10]. rewrite OL in *.
    assert (Hidx : i + bd + rb <= n).
    { destruct (Nat.eq_dec K n) as [Ek|Ek]; [|lia]. specialize (HKn Ek).
      assert ((T - 1) * bs < n) by (apply HT2; lia). lia. }
    rewrite (py_nth_pred order (i + bd + rb) 0) by lia. simpl.
    rewrite (py_nth_ok (l_vals L) _ 0%R).
    2:{ apply (order_lt L order Hord). destruct (Nat.eqb_spec (i + bd + rb) 0); lia. }
    simpl. destruct HL as [C1 C2 C3].
    edestruct (assign_opt_ok (scatter (repeat false (length (l_safe L))) (mask sf order)
       (repeat true (length (mask sf order)))) (l_init L) true) as (s2 & E2 & _).
    { intros m Hm. rewrite scatter_length, repeat_length, C1. auto. }
    edestruct (assign_opt_ok (scatter (l_ref L) order rf) (l_init L) 1%Z) as (r2 & E3 & _).
    { intros m Hm. rewrite scatter_length, C2. auto. }
    rewrite E2; simpl. rewrite E3; simpl. eexists; reflexivity.
  Qed.
End Update.
