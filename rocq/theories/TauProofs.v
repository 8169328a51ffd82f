(** Lemmas for refined checks with a converted tau. *)
From Coq Require Import Reals List Bool Arith ZArith Lia Lra FunctionalExtensionality.
From Verif Require Import Prelude NumModel GridModel SafeModel SafeSpec SafeProofs SafeProofs2 ListFacts CertModel CertProofs TauModel.
Import ListNotations.
Local Open Scope nat_scope.

Lemma part_IZR n : Int_part (IZR n) = n.
Proof.
  pose proof (base_Int_part (IZR n)) as (A & B).
  assert (IZR (Int_part (IZR n)) < IZR (n + 1))%R by (rewrite plus_IZR; lra).
  assert (IZR (n - 1) < IZR (Int_part (IZR n)))%R by (rewrite minus_IZR; lra).
  apply lt_IZR in H, H0. lia.
Qed.

Lemma trunc_IZR n : trunc (IZR n) = n.
Proof.
  unfold trunc. destruct (Rle_dec 0 (IZR n)).
  - apply part_IZR.
  - rewrite <- opp_IZR, part_IZR. lia.
Qed.

Lemma trunc_small x : (0 <= x < 1)%R -> trunc x = 0%Z.
Proof.
  intros H. unfold trunc. destruct (Rle_dec 0 x); [|lra].
  pose proof (base_Int_part x) as (A & B).
  assert (IZR (Int_part x) < 1)%R by lra. assert (-1 < IZR (Int_part x))%R by lra.
  apply lt_IZR in H0. apply (lt_IZR (-1)) in H1. lia.
Qed.

(** ** More tests pass: the safe set does not get smaller *)
Section Mono.
  Variables C1 C2 : cert.
  Hypothesis N : forall x, neg C1 x = neg C2 x.
  Hypothesis Q : forall x, nreq C1 x = nreq C2 x.
  Hypothesis P : forall j k n, (1 <= n)%Z -> passes C1 j k n = true -> passes C2 j k n = true.

  Lemma refined_mono fed : forall fed' ns, Forall (fun n => (1 <= n)%Z) ns ->
    forall q, nth q (map2 (fun k n => forallb (fun j => passes C1 j k n) fed) fed' ns) false = true ->
      nth q (map2 (fun k n => forallb (fun j => passes C2 j k n) fed) fed' ns) false = true.
  Proof using P.
    induction fed' as [|k fed' IH]; intros [|n ns] F [|q] H; try discriminate; cbn in *.
    - inversion F; subst. rewrite forallb_forall in *. auto.
    - inversion F; subst. now apply IH.
  Qed.

  Lemma prefix_mono a b : length a = length b -> (forall q, nth q a false = true -> nth q b false = true) ->
    prefix_len a <= prefix_len b.
  Proof.
    intros L H. destruct (prefix_len_spec a) as (A1 & A2 & A3). destruct (prefix_len_spec b) as (B1 & B2 & B3).
    destruct (le_lt_dec (prefix_len a) (prefix_len b)) as [|X]; auto.
    specialize (B3 ltac:(lia)). rewrite (H _ (A2 _ X)) in B3. discriminate.
  Qed.

  Lemma check_prefix (r : list Z) mr b : 
    Forall (fun n => (1 <= n)%Z) (firstn (prefix_len (skipn b (map (fun r => (1 <=? r)%Z && (r <=? mr)%Z) r))) (skipn b r)).
  Proof.
    set (chk := fun r => (1 <=? r)%Z && (r <=? mr)%Z).
    rewrite skipn_map. generalize (skipn b r). clear r. intros r.
    destruct (prefix_len_spec (map chk r)) as (A1 & A2 & _). apply Forall_forall. intros z Hz.
    destruct (In_nth _ _ 0%Z Hz) as (q & Hq & <-). rewrite firstn_length, map_length in *.
    rewrite nth_firstn. replace (q <? _) with true by (symmetry; apply Nat.ltb_lt; lia).
    specialize (A2 q ltac:(lia)). rewrite nth_indep with (d' := chk 0%Z) in A2 by (rewrite map_length; lia).
    rewrite map_nth in A2. unfold chk in A2. lia.
  Qed.


  Lemma filled_mono (l : list bool) b r1 r2 : r1 <= r2 -> b + r2 <= length l ->
    forall q x, nth q (fill_from (b + r1) false (firstn b l ++ repeat true r1 ++ skipn (b + r1) l)) false = true ->
    nth q (fill_from (b + r2) x (firstn b l ++ repeat true r2 ++ skipn (b + r2) l)) false = true /\
    nth q (firstn b l ++ repeat true r2 ++ skipn (b + r2) l) false = true.
  Proof.
    intros R H q x Hq.
    assert (LL : forall r, b + r <= length l -> length (firstn b l ++ repeat true r ++ skipn (b + r) l) = length l).
    { intros r Hr. rewrite !app_length, firstn_length, repeat_length, skipn_length. lia. }
    assert (QL : q < length l).
    { destruct (le_lt_dec (length l) q); auto. rewrite nth_overflow in Hq; [discriminate|].
      rewrite fill_from_length; rewrite LL; lia. }
    rewrite nth_fill_from in Hq by (rewrite LL; lia). destruct (Nat.ltb_spec q (b + r1)) as [Q1|]; [|discriminate].
    rewrite nth_fill_from by (rewrite LL; lia). replace (q <? b + r2) with true by (symmetry; apply Nat.ltb_lt; lia).
    rewrite nth_app_dec in *. rewrite firstn_length in *. rewrite Nat.min_l in * by lia.
    destruct (q <? b) eqn:QB; [auto|]. apply Nat.ltb_ge in QB.
    rewrite nth_app_dec, repeat_length. replace (q - b <? r2) with true by (symmetry; apply Nat.ltb_lt; lia).
    rewrite nth_repeat'. replace (q - b <? r2) with true by (symmetry; apply Nat.ltb_lt; lia). auto.
  Qed.

  Lemma pass_mono adaptive ini mr idx sb rf p1 p2 :
    length sb = length idx -> length rf = length idx ->
    batch_pass C1 adaptive ini mr idx sb rf = Ok p1 -> batch_pass C2 adaptive ini mr idx sb rf = Ok p2 ->
    (p_break p1 = false -> p1 = p2) /\
    (forall q, nth q (p_safe p1) false = true -> nth q (p_safe p2) false = true).
  Proof using All.
    intros LS LR. unfold batch_pass.
    assert (E1 : map (neg C1) idx = map (neg C2) idx) by (apply map_ext; auto).
    assert (E2 : map (nreq C1) = map (nreq C2)) by (apply functional_extensionality; intros; apply map_ext; auto).
    rewrite E1. cbv zeta. rewrite E2.
    set (safe1 := map2 orb sb (map (neg C2) idx)).
    set (ref1 := map2 _ rf (map (neg C2) idx)).
    set (bound := argmin_bool safe1).
    destruct (_ || _); [|intros H1 H2; inv_ok H1; inv_ok H2; auto].
    destruct (adaptive && _); [|intros H1 H2; inv_ok H1; inv_ok H2; auto].
    destruct ini as [m|]; [|discriminate]. destruct (negb _); [discriminate|].
    set (ref3 := map2 _ (firstn bound ref1 ++ _) _).
    set (chk := fun r => (1 <=? r)%Z && (r <=? mr)%Z).
    set (check := skipn bound (map chk ref3)).
    set (stop := prefix_len check).
    set (fed := firstn stop (skipn bound idx)). set (ns := firstn stop (skipn bound ref3)).
    set (f1 := map2 (fun k n => forallb (fun j => passes C1 j k n) fed) fed ns).
    set (f2 := map2 (fun k n => forallb (fun j => passes C2 j k n) fed) fed ns).
    assert (FM : forall q, nth q f1 false = true -> nth q f2 false = true).
    { apply refined_mono. apply check_prefix. }
    assert (FL : length f1 = length f2) by (unfold f1, f2; now rewrite !map2_length).
    pose proof (prefix_mono f1 f2 FL FM) as PM.
    set (r1 := if 0 <? stop then prefix_len f1 else 0).
    set (r2 := if 0 <? stop then prefix_len f2 else 0).
    assert (R12 : r1 <= r2) by (unfold r1, r2; destruct (0 <? stop); lia).
    assert (R2S : r2 <= stop).
    { unfold r2. destruct (0 <? stop); [|lia]. destruct (prefix_len_spec f2) as (A & _).
      unfold f2 in A at 2. rewrite map2_length in A. unfold fed in A. rewrite firstn_length in A. lia. }
    assert (B1 : bound + stop <= length safe1).
    { assert (LC : stop <= length check) by apply prefix_len_spec.
      unfold check in LC. rewrite skipn_length, map_length in LC.
      assert (L3 : length ref3 <= length safe1).
      { unfold ref3, safe1. rewrite !map2_length, app_length, firstn_length, !map_length, skipn_length. lia. }
      assert (bound <= length safe1).
      { unfold bound, argmin_bool. pose proof (first_false_spec safe1) as F. destruct (first_false safe1); lia. } lia. }
    intros H1 H2. destruct (_ || _) eqn:K1 in H1; inv_ok H1; cbn [p_break p_safe].
    - split; [discriminate|]. intros q Hq.
      destruct (filled_mono safe1 bound r1 r2 R12 ltac:(lia) q false Hq) as (G1 & G2).
      destruct (_ || _) in H2; inv_ok H2; auto.
    - apply orb_false_iff in K1 as (K1 & K2). apply Nat.ltb_ge in K1, K2.
      assert (r2 = r1) by lia.
      replace ((stop <? length check) || (r2 <? stop)) with false in H2
        by (symmetry; apply orb_false_iff; split; apply Nat.ltb_ge; lia).
      inv_ok H2. rewrite H. auto.
  Qed.

  Lemma verify_mono adaptive ini mr order bs t : 0 < bs -> forall k safe ref l0 s1 r1 l1 s2 r2 l2,
    k + t = (length order + bs - 1) / bs -> length safe = length order -> length ref = length order ->
    verify C1 adaptive ini mr order bs (map (fun k => k * bs) (seq k t)) safe ref l0 = Ok (s1, r1, l1) ->
    verify C2 adaptive ini mr order bs (map (fun k => k * bs) (seq k t)) safe ref l0 = Ok (s2, r2, l2) ->
    forall q, q < length order -> nth q s1 false = true -> nth q s2 false = true \/ nth q safe false = true.
  Proof using All.
    intros Hbs. destruct (T_spec order bs Hbs) as (HT1 & HT2).
    induction t as [|t IH]; intros k safe ref l0 s1 r1 l1 s2 r2 l2 Hk Hs Hr V1 V2 q Hq H.
    - cbn in V1. inv_ok V1. auto.
    - cbn [seq map verify] in V1, V2. apply bind_ok in V1 as (p1 & B1 & V1). apply bind_ok in V2 as (p2 & B2 & V2).
      assert (Hi : k * bs < length order) by (apply HT2; lia).
      assert (Hk' : S k + t = (length order + bs - 1) / bs) by (rewrite <- Hk; lia). clear Hk.
      set (n := length order) in *.
      set (m := length (slice (k * bs) (k * bs + bs) order)) in *.
      assert (Hm : m = Nat.min bs (n - k * bs)) by (unfold m; rewrite slice_length; fold n; lia).
      assert (SL : length (slice (k * bs) (k * bs + bs) safe) = m) by (rewrite slice_length; lia).
      assert (RL : length (slice (k * bs) (k * bs + bs) ref) = m) by (rewrite slice_length; lia).
      destruct (pass_mono _ _ _ _ _ _ _ _ SL RL B1 B2) as (PE & PM).
      assert (M0 : 0 < m) by lia.
      destruct (batch_pass_ok _ _ _ _ _ _ _ _ M0 SL RL B1) as (K1 & PO1).
      destruct (batch_pass_ok _ _ _ _ _ _ _ _ M0 SL RL B2) as (K2 & PO2).
      pose proof (po_len _ _ _ _ _ _ _ _ _ PO1) as PL1. pose proof (po_len _ _ _ _ _ _ _ _ _ PO2) as PL2.
      pose proof (po_lenr _ _ _ _ _ _ _ _ _ PO1) as RL1. pose proof (po_lenr _ _ _ _ _ _ _ _ _ PO2) as RL2.
      fold m in PL1, PL2, RL1, RL2.
      assert (SP : forall l, length l = m -> length (splice safe (k * bs) l) = n)
        by (intros l Hl; rewrite splice_length; lia).
      assert (RP : forall l, length l = m -> length (splice ref (k * bs) l) = n)
        by (intros l Hl; rewrite splice_length; lia).
      (* the second run keeps the entries of this batch *)
      assert (KEEP : k * bs <= q < k * bs + m -> nth q (splice safe (k * bs) (p_safe p2)) false = true -> nth q s2 false = true).
      { intros Q1 Q2. destruct (p_break p2) eqn:BR; [inv_ok V2; exact Q2|].
        apply verify_ok in V2 as (K & E & LO & _); [|exact Hbs|exact Hk'|now apply SP|now apply RP].
        destruct (lo_before _ _ _ _ _ _ _ _ _ _ _ _ _ LO q ltac:(lia) Hq) as (-> & _). exact Q2. }
      assert (SPL : forall l, length l = m -> nth q (splice safe (k * bs) l) false =
                 if (k * bs <=? q) && (q <? k * bs + m) then nth (q - k * bs) l false else nth q safe false).
      { intros l Hl. rewrite nth_splice by lia. now rewrite Hl. }
      destruct (p_break p1) eqn:BR1.
      + inv_ok V1. rewrite SPL in H by auto.
        destruct ((k * bs <=? q) && (q <? k * bs + m)) eqn:IN; [|now right].
        apply andb_true_iff in IN as (I1 & I2). apply Nat.leb_le in I1. apply Nat.ltb_lt in I2.
        left. apply KEEP; [split; assumption|]. rewrite SPL by auto. now apply PM.
      + specialize (PE eq_refl). subst p2. rewrite BR1 in V2.
        destruct (IH (S k) _ _ _ _ _ _ _ _ _ Hk' (SP _ PL1) (RP _ RL1) V1 V2 q Hq H) as [X|X]; [now left|].
        rewrite SPL in X by auto.
        destruct ((k * bs <=? q) && (q <? k * bs + m)) eqn:IN; [|now right].
        apply andb_true_iff in IN as (I1 & I2). apply Nat.leb_le in I1. apply Nat.ltb_lt in I2.
        left. apply KEEP; [split; assumption|]. rewrite SPL by auto. exact X.
  Qed.
End Mono.

Lemma final_safe L C sh mr bs order L' : consistent L -> sorts (l_vals L) order ->
  update_safe_set L C sh mr bs order = Ok L' ->
  exists s r sf rf last, start_sets L sh = Ok (s, r) /\
    verify C (l_adaptive L) (l_init L) mr order bs (starts (length order) bs)
      (gather false s order) (gather 0%Z r order) None = Ok (sf, rf, last) /\
    forall p, p < size L -> nth (nth p order 0) (l_safe L') false = omask (l_init L) (nth p order 0) || nth p sf false.
Proof.
  intros HL Hord H. destruct (update_pos _ _ _ _ _ _ _ Hord H) as (Hbs & Hn).
  pose proof (order_length L order Hord) as OL. pose proof (order_NoDup L order Hord) as ND.
  rewrite update_safe_set_eq in H. destruct (start_sets L sh) as [[s r]|] eqn:SS; [|discriminate]. cbn [bind fst snd] in H.
  apply bind_ok in H as ([[sf rf] last] & HV & H). exists s, r, sf, rf, last. split; [reflexivity|]. split; [exact HV|].
  assert (Lsf : length sf = size L).
  { unfold starts in HV. destruct (Nat.eqb_spec bs 0); [lia|].
    apply verify_ok in HV; auto; try (unfold gather; now rewrite map_length).
    destruct HV as (K & E & LO & _). rewrite (lo_len _ _ _ _ _ _ _ _ _ _ _ _ _ LO). exact OL. }
  destruct last as [[[i bd] rb]|]; [|discriminate].
  apply bind_ok in H as (k & _ & H). apply bind_ok in H as (c & _ & H).
  set (nodes := mask sf order) in *.
  set (s1 := scatter (repeat false (length (l_safe L))) nodes _) in *.
  destruct HL as [C1 C2 C3].
  assert (Ls1 : length s1 = size L).
  { unfold s1. rewrite scatter_length, repeat_length. auto. }
  destruct (assign_opt_ok s1 (l_init L) true) as (s2 & E2 & Ls2 & Ns2).
  { intros m Hm. rewrite Ls1; auto. }
  rewrite E2 in H; cbn [bind] in H. apply bind_ok in H as (r2 & _ & H). intros p Hp. inv_ok H. cbn [l_safe].
  rewrite Ns2 by (rewrite Ls1; now apply (order_lt L order Hord)).
  destruct (omask (l_init L) (nth p order 0)); [reflexivity|]. cbn [orb].
  unfold s1.
  destruct (nth p sf false) eqn:Ep.
  - assert (I : In (nth p order 0) nodes).
    { unfold nodes. rewrite (mask_In sf order 0) by lia. exists p. repeat split; auto; lia. }
    apply In_nth with (d := 0) in I as (q & Hq & Eq).
    rewrite <- Eq. rewrite scatter_at; auto.
    + rewrite nth_repeat'. destruct (Nat.ltb_spec q (length nodes)); auto; lia.
    + unfold nodes; now apply mask_NoDup.
    + now rewrite repeat_length.
    + intros j Hj. rewrite repeat_length, C1.
      unfold nodes in Hj. rewrite (mask_In sf order 0) in Hj by lia.
      destruct Hj as (q' & Hq' & _ & <-). apply (order_lt L order Hord). lia.
  - rewrite scatter_other.
    + rewrite nth_repeat'. now destruct (_ <? _).
    + unfold nodes. rewrite (mask_In sf order 0) by lia. intros (q & Hq & Q1 & Q2).
      apply (order_inj L order Hord) in Q2; try lia. congruence.
Qed.

Lemma update_mono C1 C2 : (forall x, neg C1 x = neg C2 x) -> (forall x, nreq C1 x = nreq C2 x) ->
  (forall j k n, (1 <= n)%Z -> passes C1 j k n = true -> passes C2 j k n = true) ->
  forall L mr bs order L1 L2, consistent L -> sorts (l_vals L) order ->
  update_safe_set L C1 true mr bs order = Ok L1 -> update_safe_set L C2 true mr bs order = Ok L2 ->
  forall x, x < size L -> safe L1 x -> safe L2 x.
Proof.
  intros N Q P L mr bs order L1 L2 HL Hord U1 U2 x Hx S1.
  destruct (update_pos _ _ _ _ _ _ _ Hord U1) as (Hbs & Hn).
  destruct (order_onto L order Hord x Hx) as (p & Hp & <-).
  pose proof (order_length L order Hord) as OL.
  destruct (final_safe _ _ _ _ _ _ _ HL Hord U1) as (s & r & sf1 & rf1 & l1 & SS & V1 & F1).
  destruct (final_safe _ _ _ _ _ _ _ HL Hord U2) as (s' & r' & sf2 & rf2 & l2 & SS' & V2 & F2).
  rewrite SS in SS'. injection SS' as <- <-. unfold safe in *. rewrite F1 in S1 by auto. rewrite F2 by auto.
  destruct (omask (l_init L) (nth p order 0)) eqn:EO; [reflexivity|]. cbn [orb] in *.
  unfold starts in V1, V2. destruct (Nat.eqb_spec bs 0); [lia|].
  destruct (start_sets_ok L true bs HL Hbs Hn) as (s0 & r0 & SS0 & _ & _ & NS). rewrite SS in SS0. injection SS0 as <- <-.
  destruct (verify_mono C1 C2 N Q P _ _ _ order bs ((length order + bs - 1) / bs) Hbs 0 _ _ _ _ _ _ _ _ _
     eq_refl ltac:(unfold gather; now rewrite map_length) ltac:(unfold gather; now rewrite map_length) V1 V2 p ltac:(unfold size in *; lia) S1)
    as [X|X]; [exact X|].
  unfold gather in X. rewrite (nth_map' _ _ _ 0) in X by (unfold size in *; lia).
  rewrite (proj1 (NS _ (order_lt L order Hord p Hp))), S0_init_shrink in X. congruence.
Qed.

(** ** Objects that are not adaptive do not use the refined check *)
Lemma batch_pass_not_adaptive C1 C2 ini mr idx sb rf : neg C1 = neg C2 ->
  batch_pass C1 false ini mr idx sb rf = batch_pass C2 false ini mr idx sb rf.
Proof. intros N. unfold batch_pass. rewrite N. reflexivity. Qed.

Lemma verify_not_adaptive C1 C2 ini mr order bs : neg C1 = neg C2 -> forall starts s r l,
  verify C1 false ini mr order bs starts s r l = verify C2 false ini mr order bs starts s r l.
Proof.
  intros N. induction starts as [|i t IH]; intros s r l; [reflexivity|]. cbn [verify].
  rewrite (batch_pass_not_adaptive C1 C2) by exact N. destruct (batch_pass _ _ _ _ _ _ _); [|reflexivity]. cbn [bind].
  now rewrite IH.
Qed.

Lemma update_not_adaptive L C1 C2 sh mr bs order : l_adaptive L = false -> neg C1 = neg C2 ->
  update_safe_set L C1 sh mr bs order = update_safe_set L C2 sh mr bs order.
Proof.
  intros A N. rewrite !update_safe_set_eq, A. destruct (start_sets L sh) as [[s r]|]; [|reflexivity]. cbn [bind fst snd].
  now rewrite (verify_not_adaptive C1 C2) by exact N.
Qed.

(** ** Thresholds *)
Local Open Scope R_scope.

Lemma trunc_pos x : 0 <= x -> 0 <= IZR (trunc x).
Proof.
  intros H. unfold trunc. destruct (Rle_dec 0 x); [|lra]. pose proof (base_Int_part x) as (A & B).
  apply IZR_le. assert (-1 < IZR (Int_part x)) by lra. apply (lt_IZR (-1)) in H0. lia.
Qed.

Lemma trunc_le x : 0 <= x -> IZR (trunc x) <= x.
Proof. intros H. unfold trunc. destruct (Rle_dec 0 x); [|lra]. apply base_Int_part. Qed.

Lemma threshold_anti S y s t : 0 <= lv_scalar S y -> 0 <= lf_scalar S y -> s <= t -> threshold S y t <= threshold S y s.
Proof.
  intros A B C. unfold threshold.
  assert (0 <= lv_scalar S y * (1 + lf_scalar S y)) by (apply Rmult_le_pos; lra).
  pose proof (Rmult_le_compat_l _ _ _ H C). lra.
Qed.

Lemma threshold_neg S y t : 0 <= lv_scalar S y -> 0 <= lf_scalar S y -> 0 <= t -> threshold S y t <= 0.
Proof.
  intros A B C. eapply Rle_trans; [apply (threshold_anti S y 0 t); auto|]. unfold threshold. lra.
Qed.

Lemma n_req_ge S sf y : decrease S y < 0 -> threshold S y (tau S) <= 0 ->
  Rmax sf 1 * threshold S y (tau S) / decrease S y <= IZR (n_req S sf y).
Proof.
  intros D T. unfold n_req. destruct Req_EM_T as [|_]; [lra|].
  match goal with |- _ <= IZR (ceilR ?r) => pose proof (ceilR_spec r) as (A & B) end.
  eapply Rle_trans; [apply Rmax_l|]. exact B.
Qed.

Lemma n_req_enough S sf y : decrease S y < 0 -> 0 <= lv_scalar S y -> 0 <= lf_scalar S y -> 0 <= tau S ->
  (1 <= n_req S sf y)%Z -> decrease S y <= threshold S y (tau S / IZR (n_req S sf y)).
Proof.
  intros D A B C N. pose proof (threshold_neg S y _ A B C) as T. pose proof (n_req_ge S sf y D T) as G.
  assert (P : 1 <= IZR (n_req S sf y)) by now apply IZR_le. set (n := IZR (n_req S sf y)) in *.
  replace (threshold S y (tau S / n)) with (threshold S y (tau S) / n) by (unfold threshold; field; lra).
  assert (G' : n * decrease S y <= Rmax sf 1 * threshold S y (tau S)).
  { replace (Rmax sf 1 * threshold S y (tau S)) with
      (Rmax sf 1 * threshold S y (tau S) / decrease S y * decrease S y) by (field; lra).
    apply Rmult_le_compat_neg_l with (r := decrease S y) in G; lra. }
  pose proof (Rmax_r sf 1). apply Rmult_le_reg_r with n; [lra|].
  unfold Rdiv. rewrite Rmult_assoc, Rinv_l, Rmult_1_r by lra. nra.
Qed.

Lemma n_req_more S sf y : decrease S y < 0 -> 0 <= lv_scalar S y -> 0 <= lf_scalar S y -> 0 <= tau S ->
  1 < sf -> (1 <= n_req S sf y)%Z -> decrease S y < threshold S y (tau S / IZR (n_req S sf y)).
Proof.
  intros D A B C F N. pose proof (threshold_neg S y _ A B C) as T. pose proof (n_req_ge S sf y D T) as G.
  assert (P : 1 <= IZR (n_req S sf y)) by now apply IZR_le. set (n := IZR (n_req S sf y)) in *.
  replace (threshold S y (tau S / n)) with (threshold S y (tau S) / n) by (unfold threshold; field; lra).
  destruct (Req_dec (threshold S y (tau S)) 0) as [Z|NZ].
  { rewrite Z. replace (0 / n) with 0 by (field; lra). exact D. }
  assert (G' : n * decrease S y <= Rmax sf 1 * threshold S y (tau S)).
  { replace (Rmax sf 1 * threshold S y (tau S)) with
      (Rmax sf 1 * threshold S y (tau S) / decrease S y * decrease S y) by (field; lra).
    apply Rmult_le_compat_neg_l with (r := decrease S y) in G; lra. }
  pose proof (Rmax_l sf 1). apply Rmult_lt_reg_r with n; [lra|].
  unfold Rdiv. rewrite Rmult_assoc, Rinv_l, Rmult_1_r by lra. nra.
Qed.
