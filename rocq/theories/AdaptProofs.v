(** Lemmas: the safe set of adaptive objects when refined checks only depend on the state. *)
From Coq Require Import Reals List Bool Arith ZArith Lia Lra.
From Verif Require Import Prelude NumModel GridModel SafeModel SafeSpec SafeProofs SafeProofs2 ListFacts CertModel CertProofs TauModel TauProofs.
Import ListNotations.
Local Open Scope nat_scope.

Lemma ini_cases {X} (o : option X) : (exists m, o = Some m) \/ o = None.
Proof. destruct o; eauto. Qed.

(** Initial, certified, or to be refined by an allowed number of points. *)
Definition accept (C : cert) (act : bool) (ini : option (list bool)) (mr : Z) (x : nat) : bool :=
  omask ini x || neg C x || (act && (1 <=? nreq C x)%Z && (nreq C x <=? mr)%Z).

Section Exact.
  Variables (C : cert) (adaptive : bool) (ini : option (list bool)) (mr : Z).
  Variable good : nat -> bool.
  Notation act := (adaptive && (1 <? mr)%Z).
  Notation A := (accept C act ini mr).
  Hypothesis P : forall j k n, (1 <= n)%Z -> passes C j k n = good j.
  Hypothesis G : forall x, omask ini x = false -> A x = true -> good x = true.
  Hypothesis Gneg : forall x, neg C x = true -> good x = true.

  (** Where a batch stops. *)
  Lemma pass_stop idx sb rf p :
    0 < length idx -> length sb = length idx -> length rf = length idx ->
    (forall q, q < length idx -> nth q sb false = omask ini (nth q idx 0)) ->
    (forall q r, q < r < length idx -> A (nth q idx 0) = true -> neg C (nth q idx 0) = false ->
       omask ini (nth q idx 0) = false -> omask ini (nth r idx 0) = true -> good (nth r idx 0) = true) ->
    batch_pass C adaptive ini mr idx sb rf = Ok p -> p_break p = true ->
    exists K, K < length idx /\ A (nth K idx 0) = false /\
      forall q, q < length idx -> nth q (p_safe p) false = (q <? K).
  Proof using P G Gneg.
    intros Hm Hsb Hrf Hini Hord EB BR.
    destruct (batch_pass_ok _ _ _ _ _ _ _ _ Hm Hsb Hrf EB) as (K & PO).
    destruct (po_break _ _ _ _ _ _ _ _ _ PO BR) as (HK & EK).
    exists K. split; [exact HK|]. split; [|exact (po_safe _ _ _ _ _ _ _ _ _ PO)].
    rewrite <- EK. revert EB. clear PO EK HK K. unfold batch_pass.
    set (m := length idx) in *.
    set (negative := map (neg C) idx).
    set (safe1 := map2 orb sb negative).
    set (ref1 := map2 _ rf negative).
    assert (Hneg : length negative = m) by (unfold negative; now rewrite map_length).
    assert (Hs1 : length safe1 = m) by (unfold safe1; rewrite map2_length; lia).
    assert (Hr1 : length ref1 = m) by (unfold ref1; rewrite map2_length; lia).
    assert (Nneg : forall q, q < m -> nth q negative false = neg C (nth q idx 0)).
    { intros q Hq; unfold negative. now apply nth_map'. }
    assert (Nsafe1 : forall q, q < m ->
              nth q safe1 false = omask ini (nth q idx 0) || neg C (nth q idx 0)).
    { intros q Hq; unfold safe1. rewrite <- Hini by lia.
      rewrite nth_map2' with (da := false) (db := false), Nneg by lia; auto. }
    pose proof (first_false_spec safe1) as FF.
    unfold argmin_bool. destruct (first_false safe1) as [b|] eqn:EF.
    2:{ assert (H0 : nth 0 safe1 false = true) by (apply FF; lia).
      rewrite H0. cbn [Nat.ltb Nat.leb negb orb]. intros H; inv_ok H. discriminate. }
    destruct FF as (Hb & Hbf & Hbt). rewrite Hs1 in Hb.
    assert (Hcond : (0 <? b) || negb (nth 0 safe1 false) = true).
    { destruct b; cbn; auto. now rewrite Hbf. }
    rewrite Hcond. rewrite Nsafe1 in Hbf by auto. apply orb_false_iff in Hbf as (Hb1 & Hb2).
    destruct act eqn:Eact.
    2:{ intros H; inv_ok H. cbn [p_bound p_rbound]. rewrite Nat.add_0_r. unfold accept. now rewrite Hb1, Hb2. }
    destruct (ini_cases ini) as [(mk & Eini)|Eini]; [|rewrite Eini; discriminate].
    pattern ini at 1. rewrite Eini. cbv beta iota.
    destruct (negb (forallb (fun i => i <? length mk) idx)); [discriminate|].
    set (ref2 := firstn b ref1 ++ map (nreq C) (skipn b idx)).
    set (idx_safe := map2 orb negative (gather false mk idx)).
    set (ref3 := map2 _ ref2 idx_safe).
    set (check := skipn b (map _ ref3)).
    set (stop := prefix_len check).
    set (fed := firstn stop (skipn b idx)).
    set (ns := firstn stop (skipn b ref3)).
    set (refined := map2 _ fed ns).
    set (rb := if 0 <? stop then prefix_len refined else 0).
    set (safe2 := firstn b safe1 ++ repeat true rb ++ skipn (b + rb) safe1).
    cbv zeta.
    assert (Hr2 : length ref2 = m).
    { unfold ref2. rewrite app_length, firstn_length, map_length, skipn_length. fold m. lia. }
    assert (His : length idx_safe = m).
    { unfold idx_safe, gather. rewrite map2_length, map_length. fold m. lia. }
    assert (Hr3 : length ref3 = m) by (unfold ref3; rewrite map2_length; lia).
    assert (Hck : length check = m - b).
    { unfold check. rewrite skipn_length, map_length. lia. }
    destruct (prefix_len_spec check) as (Hstop & Hstop1 & Hstop2). fold stop in Hstop, Hstop1, Hstop2.
    assert (Hfed : length fed = stop).
    { unfold fed. rewrite firstn_length, skipn_length. fold m. lia. }
    assert (Hns : length ns = stop).
    { unfold ns. rewrite firstn_length, skipn_length. lia. }
    assert (Href : length refined = stop) by (unfold refined; rewrite map2_length; lia).
    assert (Nr3 : forall q, b <= q -> q < m -> nth q ref3 0%Z =
       if neg C (nth q idx 0) || nth (nth q idx 0) mk false then 1%Z else nreq C (nth q idx 0)).
    { intros q Bq Hq. unfold ref3.
      rewrite nth_map2' with (da := 0%Z) (db := false) by lia.
      unfold idx_safe, gather.
      rewrite nth_map2' with (da := false) (db := false)
        by (try rewrite map_length; fold m; lia).
      rewrite Nneg, nth_map' with (d' := 0) by auto.
      destruct (neg C (nth q idx 0)) eqn:En; simpl; auto.
      destruct (nth (nth q idx 0) mk false); auto.
      unfold ref2. rewrite nth_app_dec, firstn_length, Nat.min_l, nth_firstn by lia.
      destruct (Nat.ltb_spec q b); [lia|].
      rewrite nth_map' with (d' := 0) by (rewrite skipn_length; fold m; lia).
      rewrite nth_skipn. do 2 f_equal; lia. }
    (* the check is the condition of the claim *)
    assert (Mr1 : (1 < mr)%Z) by (apply andb_prop in Eact as (_ & E); now apply Z.ltb_lt).
    assert (CA : forall q, q < m - b -> nth q check false = accept C true ini mr (nth (b + q) idx 0)).
    { intros q Hq. unfold check. rewrite nth_skipn, nth_map' with (d' := 0%Z) by lia.
      rewrite Nr3 by lia. unfold accept. rewrite Eini. cbn [omask].
      destruct (neg C (nth (b + q) idx 0)); cbn [orb].
      - rewrite orb_true_r. cbn [orb]. apply andb_true_iff. split; [reflexivity|]. apply Z.leb_le. lia.
      - destruct (nth (nth (b + q) idx 0) mk false); cbn [orb andb]; [|reflexivity].
        apply andb_true_iff. split; [reflexivity|]. apply Z.leb_le. lia. }
    (* every refined check that is run succeeds *)
    assert (NF : forall q, q < stop -> nth q fed 0 = nth (b + q) idx 0).
    { intros q Hq. unfold fed. rewrite nth_firstn, nth_skipn. destruct (Nat.ltb_spec q stop); auto; lia. }
    assert (NN : forall q, q < stop -> (1 <= nth q ns 0)%Z).
    { intros q Hq. unfold ns. rewrite nth_firstn, nth_skipn. destruct (Nat.ltb_spec q stop); [|lia].
      pose proof (Hstop1 q Hq) as X. unfold check in X. rewrite nth_skipn, nth_map' with (d' := 0%Z) in X by lia. lia. }
    assert (GF : forall q, q < stop -> good (nth q fed 0) = true).
    { intros q Hq. rewrite NF by auto. pose proof (Hstop1 q Hq) as X. rewrite CA in X by lia.
      destruct (omask ini (nth (b + q) idx 0)) eqn:EO; [|exact (G _ EO X)].
      destruct (Nat.eq_dec q 0) as [->|Hq0].
      { rewrite Nat.add_0_r in EO. congruence. }
      apply (Hord b (b + q)); auto; try lia.
      - specialize (CA 0 ltac:(lia)). rewrite Nat.add_0_r in CA. rewrite <- CA. apply Hstop1. lia. }
    assert (RF : prefix_len refined = stop).
    { destruct (prefix_len_spec refined) as (R1 & R2 & R3). rewrite Href in R1, R3.
      destruct (Nat.eq_dec (prefix_len refined) stop) as [|D]; [assumption|]. specialize (R3 ltac:(lia)).
      set (q := prefix_len refined) in *. unfold refined in R3.
      rewrite nth_map2' with (da := 0) (db := 0%Z) in R3 by lia. apply not_true_iff_false in R3. exfalso. apply R3.
      apply forallb_forall. intros j Hj. rewrite P by (apply NN; lia).
      destruct (In_nth _ _ 0 Hj) as (r & Hr & <-). apply GF. lia. }
    assert (RB : rb = stop) by (unfold rb; rewrite RF; destruct (Nat.ltb_spec 0 stop); lia).
    rewrite RB. destruct ((stop <? length check) || (stop <? stop)) eqn:Ebr.
    - intros H; inv_ok H. cbn [p_bound p_rbound]. rewrite orb_true_iff, !Nat.ltb_lt in Ebr.
      rewrite <- CA by lia. apply Hstop2. lia.
    - intros H; inv_ok H. discriminate.
  Qed.

  Lemma how_accept x s r r' : s = omask ini x -> how C act ini mr x s r r' -> A x = true.
  Proof.
    intros -> [(H & _)|[(_ & H & _)|(E & _ & H & _ & [(-> & _)|(_ & H')])]]; unfold accept.
    - rewrite H. now rewrite orb_true_r.
    - now rewrite H.
    - rewrite E. cbn [andb]. replace (1 <=? nreq C x)%Z with true by lia.
      replace (nreq C x <=? mr)%Z with true by lia. now rewrite !orb_true_r.
    - now rewrite H'.
  Qed.

  Lemma verify_exact order bs t : 0 < bs ->
    (forall q r, q < r < length order -> A (nth q order 0) = true -> neg C (nth q order 0) = false ->
       omask ini (nth q order 0) = false -> omask ini (nth r order 0) = true -> good (nth r order 0) = true) ->
    forall k safe ref l0 s r l,
    k + t = (length order + bs - 1) / bs -> length safe = length order -> length ref = length order ->
    (forall q, k * bs <= q < length order -> nth q safe false = omask ini (nth q order 0)) ->
    verify C adaptive ini mr order bs (map (fun k => k * bs) (seq k t)) safe ref l0 = Ok (s, r, l) ->
    forall q, k * bs <= q < length order ->
      omask ini (nth q order 0) = true \/ nth q s false = true <->
      omask ini (nth q order 0) = true \/ forall i, k * bs <= i <= q -> A (nth i order 0) = true.
  Proof using P G Gneg.
    intros Hbs Hord. destruct (T_spec order bs Hbs) as (HT1 & HT2).
    induction t as [|t IH]; intros k safe ref l0 s r l Hk Hs Hr HI V q Hq.
    - rewrite Nat.add_0_r in Hk. rewrite <- Hk in HT1. lia.
    - cbn [seq map verify] in V. apply bind_ok in V as (p & B & V).
      assert (Hi : k * bs < length order) by (apply HT2; lia).
      assert (Hk' : S k + t = (length order + bs - 1) / bs) by (rewrite <- Hk; lia). clear Hk.
      set (n := length order) in *.
      set (idx := slice (k * bs) (k * bs + bs) order) in *.
      set (m := length idx) in *.
      assert (Hm : m = Nat.min bs (n - k * bs)) by (unfold m, idx; rewrite slice_length; fold n; lia).
      assert (SL : length (slice (k * bs) (k * bs + bs) safe) = m) by (rewrite slice_length; lia).
      assert (RL : length (slice (k * bs) (k * bs + bs) ref) = m) by (rewrite slice_length; lia).
      assert (M0 : 0 < m) by lia.
      assert (NI : forall i, i < m -> nth i idx 0 = nth (k * bs + i) order 0) by (intros; apply nth_slice; lia).
      assert (NS : forall i, i < m -> nth i (slice (k * bs) (k * bs + bs) safe) false = omask ini (nth i idx 0)).
      { intros i Hi'. rewrite nth_slice, NI by lia. apply HI. lia. }
      destruct (batch_pass_ok _ _ _ _ _ _ _ _ M0 SL RL B) as (K & PO).
      pose proof (po_len _ _ _ _ _ _ _ _ _ PO) as PL. pose proof (po_lenr _ _ _ _ _ _ _ _ _ PO) as PR.
      fold m in PL, PR.
      assert (ACC : forall i, i < K -> A (nth (k * bs + i) order 0) = true).
      { intros i Hi'. pose proof (po_K _ _ _ _ _ _ _ _ _ PO) as PK. fold m in PK.
        rewrite <- NI by lia. eapply how_accept; [|exact (po_acc _ _ _ _ _ _ _ _ _ PO i Hi')].
        apply NS. lia. }
      assert (SPL : forall l, length l = m -> nth q (splice safe (k * bs) l) false =
                 if (k * bs <=? q) && (q <? k * bs + m) then nth (q - k * bs) l false else nth q safe false).
      { intros l' Hl. rewrite nth_splice by lia. now rewrite Hl. }
      assert (SPL' : forall i l, k * bs + m <= i -> length l = m -> nth i (splice safe (k * bs) l) false = nth i safe false).
      { intros i l' Hi' Hl. rewrite nth_splice by lia. rewrite Hl.
        replace (i <? k * bs + m) with false by (symmetry; apply Nat.ltb_ge; lia). now rewrite andb_false_r. }
      destruct (p_break p) eqn:BR.
      + inv_ok V.
        destruct (pass_stop idx _ _ p M0 SL RL NS) as (K' & HK' & EK' & PS'); [|exact B|exact BR|].
        { intros a b Hab. rewrite !NI by (fold m in Hab; lia). apply Hord. fold m in Hab. lia. }
        fold m in HK', PS'. rewrite SPL by exact PL. rewrite NI in EK' by exact HK'.
        assert (K' = K) as ->.
        { pose proof (po_safe _ _ _ _ _ _ _ _ _ PO) as PS. fold m in PS.
          destruct (po_break _ _ _ _ _ _ _ _ _ PO BR) as (HK & _). fold m in HK.
          destruct (lt_eq_lt_dec K K') as [[X|X]|X]; [|auto|].
          - pose proof (PS K HK). rewrite PS' in H by lia.
            destruct (Nat.ltb_spec K K'), (Nat.ltb_spec K K); try discriminate; lia.
          - pose proof (PS K' HK'). rewrite PS' in H by lia.
            destruct (Nat.ltb_spec K' K'), (Nat.ltb_spec K' K); try discriminate; lia. }
        assert (STOP : k * bs + K <= q -> ~ forall i, k * bs <= i <= q -> A (nth i order 0) = true).
        { intros X H. rewrite H in EK' by lia. discriminate. }
        destruct ((k * bs <=? q) && (q <? k * bs + m)) eqn:IN.
        * apply andb_true_iff in IN as (I1 & I2). apply Nat.leb_le in I1. apply Nat.ltb_lt in I2.
          rewrite PS' by lia. destruct (Nat.ltb_spec (q - k * bs) K) as [X|X].
          -- split; [|tauto]. intros _. right. intros i Hi'. replace i with (k * bs + (i - k * bs)) by lia. apply ACC. lia.
          -- split; [intros [|]; [tauto|discriminate]|]. intros [|H]; [tauto|]. exfalso. apply STOP; auto. lia.
        * rewrite HI by lia. split; [tauto|]. intros [|H]; [tauto|]. exfalso. apply STOP; auto.
          apply andb_false_iff in IN as [IN|IN]; [apply Nat.leb_gt in IN|apply Nat.ltb_ge in IN]; lia.
      + destruct (po_cont _ _ _ _ _ _ _ _ _ PO BR) as (-> & _). fold m in ACC.
        assert (L1 : length (splice safe (k * bs) (p_safe p)) = n) by (rewrite splice_length; lia).
        assert (L2 : length (splice ref (k * bs) (p_ref p)) = n) by (rewrite splice_length; lia).
        pose proof (verify_ok C adaptive ini mr order bs Hbs t (S k) _ _ _ _ _ _ Hk' L1 L2 V) as (K & E & LO & _).
        destruct (le_lt_dec (S k * bs) q) as [X|X].
        * assert (Hmb : m = bs) by (cbn [Nat.mul] in X; lia).
          assert (HI' : forall i, S k * bs <= i < n -> nth i (splice safe (k * bs) (p_safe p)) false = omask ini (nth i order 0))
            by (intros i Hi'; rewrite SPL' by (cbn [Nat.mul] in Hi'; lia); apply HI; cbn [Nat.mul] in Hi'; lia).
          specialize (IH (S k) _ _ _ _ _ _ Hk' L1 L2 HI' V q (conj X (proj2 Hq))).
          rewrite IH. split; intros [|H]; try tauto; right; intros i Hi'.
          -- destruct (le_lt_dec (S k * bs) i) as [Y|Y]; [apply H; lia|].
             replace i with (k * bs + (i - k * bs)) by lia. apply ACC. cbn [Nat.mul] in Y. lia.
          -- apply H. cbn [Nat.mul] in Hi'. lia.
        * destruct (lo_before _ _ _ _ _ _ _ _ _ _ _ _ _ LO q X ltac:(lia)) as (-> & _).
          rewrite SPL by exact PL. cbn [Nat.mul] in X.
          replace ((k * bs <=? q) && (q <? k * bs + m)) with true
            by (symmetry; apply andb_true_iff; split; [apply Nat.leb_le|apply Nat.ltb_lt]; lia).
          rewrite (po_safe _ _ _ _ _ _ _ _ _ PO) by (fold m; lia). fold m.
          replace (q - k * bs <? m) with true by (symmetry; apply Nat.ltb_lt; lia).
          split; [|tauto]. intros _. right. intros i Hi'. replace i with (k * bs + (i - k * bs)) by lia. apply ACC. lia.
  Qed.
End Exact.

(** The safe set of an update that may shrink: the longest accepted prefix and the
    initial states. *)
Lemma update_exact C (good : nat -> bool) L mr bs order L' :
  (forall j k n, (1 <= n)%Z -> passes C j k n = good j) ->
  (forall x, neg C x = true -> good x = true) ->
  let act := l_adaptive L && (1 <? mr)%Z in let ok := accept C act (l_init L) mr in
  (forall x, omask (l_init L) x = false -> ok x = true -> good x = true) ->
  consistent L -> sorts (l_vals L) order ->
  (forall q r, q < r < size L -> ok (nth q order 0) = true -> neg C (nth q order 0) = false ->
     omask (l_init L) (nth q order 0) = false -> omask (l_init L) (nth r order 0) = true -> good (nth r order 0) = true) ->
  update_safe_set L C true mr bs order = Ok L' ->
  forall q, q < size L ->
    safe L' (nth q order 0) <-> initially_safe L (nth q order 0) \/ forall i, i <= q -> ok (nth i order 0) = true.
Proof.
  intros P Gneg act ok G HL Hord Hfed U q Hq.
  destruct (update_pos _ _ _ _ _ _ _ Hord U) as (Hbs & Hn).
  pose proof (order_length L order Hord) as OL.
  destruct (final_safe _ _ _ _ _ _ _ HL Hord U) as (s & r & sf & rf & l & SS & V & F).
  destruct (start_sets_ok L true bs HL Hbs Hn) as (s0 & r0 & SS0 & _ & _ & NS). rewrite SS in SS0. injection SS0 as <- <-.
  unfold safe. rewrite F by exact Hq. rewrite initially_safe_omask, orb_true_iff.
  unfold starts in V. destruct (Nat.eqb_spec bs 0); [lia|].
  assert (L1 : length (gather false s order) = length order) by (unfold gather; now rewrite map_length).
  assert (L2 : length (gather 0%Z r order) = length order) by (unfold gather; now rewrite map_length).
  assert (HI : forall i, 0 * bs <= i < length order -> nth i (gather false s order) false = omask (l_init L) (nth i order 0)).
  { intros i Hi. unfold gather. rewrite (nth_map' _ _ _ 0) by lia.
    rewrite (proj1 (NS _ (order_lt L order Hord i ltac:(lia)))). apply S0_init_shrink. }
  fold (size L) in *. rewrite <- OL in Hfed, Hq.
  rewrite (verify_exact C (l_adaptive L) (l_init L) mr good P G Gneg order bs ((length order + bs - 1) / bs) Hbs
    Hfed 0 _ _ _ _ _ _ eq_refl L1 L2 HI V q (conj (Nat.le_0_l q) Hq)).
  split; intros [|H]; try tauto; right; intros i Hi; apply H; lia.
Qed.

