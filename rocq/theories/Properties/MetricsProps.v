(** Property C108: the numbers that the adaptive example records. *)
From Coq Require Import Reals List Bool Arith ZArith Lia Lra Permutation.
From Verif Require Import Prelude ListFacts SafeModel SafeSpec SafeProofs SafeProofs2 MetricsModel.
From Verif.Properties Require Import SafeProps.
Import ListNotations.
Local Open Scope nat_scope.

(** The entries of a list never decrease. *)
Definition grows (l : list R) : Prop :=
  forall i j, i <= j < length l -> (nth i l 0 <= nth j l 0)%R.

(** The states of the object after each update. *)
Fixpoint snapshots (mr : Z) (bs : nat) (order : list nat) (cs : list cert) (L : lyap) : list lyap :=
  match cs with
  | [] => []
  | C :: rest =>
    match update_safe_set L C false mr bs order with
    | Ok L' => L' :: snapshots mr bs order rest L'
    | Err _ => []
    end
  end.
(** The share of the states that are safe. *)
Definition share (L : lyap) (f : R) : Prop :=
  exists l, NoDup l /\ (forall x, In x l <-> x < size L /\ safe L x) /\
    (f = INR (length l) / INR (size L))%R.

Lemma collect_snapshots n per mr bs order cs : forall L m L' m',
  collect n per mr bs order cs L m = Ok (L', m') ->
  length (snapshots mr bs order cs L) = length cs /\
  safe_level m' = safe_level m ++ map l_cmax (snapshots mr bs order cs L) /\
  safe_set_fraction m' = safe_set_fraction m ++
    map (fun L => IZR (Z.of_nat (length (filter (fun b => b) (l_safe L)))) / IZR n)%R
      (snapshots mr bs order cs L).
Proof.
  induction cs as [|C cs IH]; intros L m L' m' H; simpl in H |- *.
  - inv_ok H. rewrite !app_nil_r. auto.
  - apply bind_ok in H as (L1 & EU & H). apply bind_ok in H as (m1 & ER & H). rewrite EU.
    apply IH in H as (A & B & D). unfold record_metrics in ER. apply bind_ok in ER as (num & _ & ER).
    inv_ok ER. cbn in B, D. simpl. rewrite A, B, D, <- !app_assoc. auto.
Qed.

Lemma collect_count n per mr bs order cs : forall L m L' m',
  update_count m = Z.of_nat (length (num_measurements m)) ->
  num_measurements m = map (fun i => (Z.of_nat (i + 1) * per)%Z) (seq 0 (length (num_measurements m))) ->
  collect n per mr bs order cs L m = Ok (L', m') ->
  num_measurements m' = map (fun i => (Z.of_nat (i + 1) * per)%Z)
    (seq 0 (length (num_measurements m) + length cs)).
Proof.
  induction cs as [|C cs IH]; intros L m L' m' HC HN H; simpl in H |- *.
  - inv_ok H. now rewrite Nat.add_0_r.
  - apply bind_ok in H as (L1 & EU & H). apply bind_ok in H as (m1 & ER & H).
    unfold record_metrics in ER. apply bind_ok in ER as (num & EN & ER). inv_ok ER.
    set (k := length (num_measurements m)) in *.
    assert (E : num = (Z.of_nat (k + 1) * per)%Z).
    { destruct (Z.eqb_spec (update_count m + 1) 1) as [E1|E1].
      - inv_ok EN. assert (k = 0) by lia. rewrite H0. simpl Z.of_nat. lia.
      - assert (k > 0) by lia. unfold py_nth in EN. fold k in EN.
        destruct (Z.ltb_spec (-1) 0); [|lia]. cbn [bind] in EN.
        destruct (Z.leb_spec 0 (-1 + Z.of_nat k)); [|lia].
        destruct (Z.ltb_spec (-1 + Z.of_nat k) (Z.of_nat k)); [|lia]. cbn [andb] in EN.
        apply bind_ok in EN as (l & El & EN). inv_ok EN.
        destruct (nth_error (num_measurements m) (Z.to_nat (-1 + Z.of_nat k))) eqn:N; [|discriminate].
        inv_ok El. apply nth_error_nth with (d := 0%Z) in N. rewrite HN in N.
        rewrite nth_map' with (d' := 0) in N by (rewrite seq_length; lia).
        rewrite seq_nth in N by lia. rewrite <- N.
        replace (0 + Z.to_nat (-1 + Z.of_nat k) + 1) with k by lia.
        rewrite Nat2Z.inj_add. change (Z.of_nat 1) with 1%Z. ring. }
    apply IH in H.
    + rewrite H. cbn [num_measurements]. rewrite app_length. simpl. fold k. f_equal. f_equal. lia.
    + cbn. rewrite app_length. simpl. fold k. lia.
    + cbn [num_measurements]. rewrite app_length. simpl length. fold k. rewrite seq_app, map_app.
      simpl. rewrite <- HN, E. reflexivity.
Qed.

(** The i-th recorded number of measurements is i times the measurements per update. *)
Theorem C108_measurements : forall n per mr bs order cs L L' m,
  collect n per mr bs order cs L no_metrics = Ok (L', m) ->
  num_measurements m = map (fun i => (Z.of_nat i * per)%Z) (seq 1 (length cs)).
Proof.
  intros n per mr bs order cs L L' m H.
  rewrite (collect_count n per mr bs order cs L no_metrics L' m eq_refl eq_refl H). simpl.
  rewrite <- seq_shift, map_map. apply map_ext. intros i. f_equal. lia.
Qed.
Print Assumptions C108_measurements.

Lemma snapshots_firstn n per mr bs order cs : forall L m L' m' i,
  collect n per mr bs order cs L m = Ok (L', m') -> i < length cs ->
  exists m1, collect n per mr bs order (firstn (S i) cs) L m =
    Ok (nth i (snapshots mr bs order cs L) L, m1).
Proof.
  induction cs as [|C cs IH]; intros L m L' m' i H Hi; simpl in Hi; [lia|].
  simpl in H. apply bind_ok in H as (L1 & EU & H). apply bind_ok in H as (m1 & ER & H).
  cbn [firstn collect snapshots]. rewrite EU. cbn [bind]. rewrite ER. cbn [bind].
  destruct i as [|i]; [exists m1; reflexivity|].
  destruct (IH L1 m1 L' m' i H ltac:(lia)) as (m2 & E). exists m2. rewrite E. cbn [nth].
  f_equal. f_equal. apply nth_indep. apply collect_snapshots in H as (-> & _). lia.
Qed.

Lemma filter_map_length {A B} (f : A -> B) (p : B -> bool) l :
  length (filter p (map f l)) = length (filter (fun x => p (f x)) l).
Proof. induction l as [|a l IH]; simpl; [reflexivity|]. destruct (p (f a)); simpl; auto. Qed.
Lemma list_map_nth {A} (d : A) (l : list A) : l = map (fun i => nth i l d) (seq 0 (length l)).
Proof.
  induction l as [|a l IH]; [reflexivity|]. cbn [length seq map nth]. f_equal.
  rewrite <- seq_shift, map_map. exact IH.
Qed.
Lemma share_of L : consistent L ->
  share L (IZR (Z.of_nat (length (filter (fun b => b) (l_safe L)))) / IZR (Z.of_nat (size L)))%R.
Proof.
  intros HC. exists (filter (fun x => nth x (l_safe L) false) (seq 0 (size L))).
  split; [apply NoDup_filter, seq_NoDup|]. split.
  - intros x. rewrite filter_In, in_seq. unfold safe. split; intros (A & B); split; auto; lia.
  - rewrite !INR_IZR_INZ. do 3 f_equal. rewrite (list_map_nth false (l_safe L)) at 1.
    rewrite filter_map_length, (cons_safe _ HC). reflexivity.
Qed.
Lemma share_le L1 L2 f1 f2 : size L1 = size L2 -> 0 < size L1 ->
  (forall x, x < size L1 -> safe L1 x -> safe L2 x) -> share L1 f1 -> share L2 f2 -> (f1 <= f2)%R.
Proof.
  intros E P H (l1 & N1 & I1 & ->) (l2 & N2 & I2 & ->). rewrite <- E.
  apply Rmult_le_compat_r; [left; apply Rinv_0_lt_compat, lt_0_INR, P|].
  apply le_INR, NoDup_incl_length; auto. intros x Hx. apply I2. apply I1 in Hx as (A & B).
  split; [lia|auto].
Qed.
Lemma share_unit L f : 0 < size L -> share L f ->
  (0 <= f <= 1)%R /\ (f = 1%R <-> forall x, x < size L -> safe L x).
Proof.
  intros P (l & N & I & ->). assert (Q : (0 < INR (size L))%R) by (apply lt_0_INR, P).
  assert (LE : length l <= size L).
  { rewrite <- (seq_length (size L) 0). apply NoDup_incl_length; auto. intros x Hx.
    apply I in Hx. apply in_seq. lia. }
  pose proof (le_INR _ _ LE). pose proof (pos_INR (length l)). repeat split.
  - apply Rmult_le_pos; [lra|]. left. now apply Rinv_0_lt_compat.
  - apply Rmult_le_reg_r with (INR (size L)); [lra|]. unfold Rdiv. rewrite Rmult_assoc, Rinv_l; lra.
  - intros E x Hx. assert (E2 : INR (length l) = INR (size L)).
    { apply (f_equal (fun z => z * INR (size L))%R) in E. unfold Rdiv in E.
      rewrite Rmult_assoc, Rinv_l in E; lra. }
    apply INR_eq in E2.
    assert (In x l); [|now apply I].
    apply (NoDup_length_incl N (l' := seq 0 (size L))).
    + rewrite seq_length. lia.
    + intros y Hy. apply I in Hy. apply in_seq. lia.
    + apply in_seq. lia.
  - intros A. replace (length l) with (size L); [apply Rinv_r; lra|].
    apply Nat.le_antisymm; [|auto]. rewrite <- (seq_length (size L) 0) at 1.
    apply NoDup_incl_length; [apply seq_NoDup|]. intros x Hx. apply in_seq in Hx. apply I.
    split; [lia|]. apply A. lia.
Qed.

Lemma adjacent_grows (l : list R) :
  (forall i, S i < length l -> (nth i l 0 <= nth (S i) l 0)%R) -> grows l.
Proof.
  intros H i j (Hij & Hj). induction j as [|j IH].
  - assert (i = 0) by lia. subst. lra.
  - destruct (Nat.eq_dec i (S j)) as [->|]; [lra|].
    apply Rle_trans with (nth j l 0%R); [apply IH; lia|apply H; auto].
Qed.

(** Adjacent snapshots, and the first one with the object before. *)
Record steps_to (order : list nat) (mr : Z) (bs : nat) (L L' : lyap) : Prop := {
  st_inv : invariant L;
  st_sub : sublevel L order;
  st_sorts : sorts (l_vals L) order;
  st_update : exists C, update_safe_set L C false mr bs order = Ok L'
}.
Lemma steps_next order mr bs L L' : steps_to order mr bs L L' ->
  invariant L' /\ sublevel L' order /\ l_vals L' = l_vals L /\ size L' = size L /\ l_init L' = l_init L /\
  (forall x, x < size L -> safe L x -> safe L' x).
Proof.
  intros [HI HS Hs (C & EU)].
  destruct (C18_no_shrink_same_order L C mr bs order L' (proj1 HI) Hs HS EU) as (A & B).
  destruct (invariant_update _ _ _ _ _ _ _ HI Hs EU) as (D & F & G).
  pose proof (update_run _ _ _ _ _ _ _ (proj1 HI) Hs EU) as (Hb & Hn & K & E & RO).
  pose proof (ro_vals _ _ _ _ _ _ _ _ _ RO). auto 10.
Qed.
Lemma snapshots_steps n per mr bs order cs : forall L m L' m',
  invariant L -> sublevel L order -> sorts (l_vals L) order ->
  collect n per mr bs order cs L m = Ok (L', m') ->
  forall i, i < length cs ->
    steps_to order mr bs (nth i (L :: snapshots mr bs order cs L) L) (nth i (snapshots mr bs order cs L) L).
Proof.
  induction cs as [|C cs IH]; intros L m L' m' HI HS Hs H i Hi; simpl in Hi; [lia|].
  simpl in H. apply bind_ok in H as (L1 & EU & H). apply bind_ok in H as (m1 & ER & H).
  cbn [snapshots]. rewrite EU.
  assert (ST : steps_to order mr bs L L1) by (constructor; eauto).
  destruct i as [|i]; [exact ST|].
  destruct (steps_next _ _ _ _ _ ST) as (A & B & D & _).
  specialize (IH L1 m1 L' m' A B ltac:(now rewrite D) H i ltac:(lia)).
  apply collect_snapshots in H as (E & _). cbn [nth] in IH |- *.
  rewrite (nth_indep _ L L1) by (rewrite E; lia).
  destruct i as [|i]; [exact IH|]. rewrite (nth_indep _ L L1) by (rewrite E; lia). exact IH.
Qed.
Lemma snapshots_size n per mr bs order cs L m L' m' :
  invariant L -> sublevel L order -> sorts (l_vals L) order ->
  collect n per mr bs order cs L m = Ok (L', m') ->
  forall i, i <= length cs -> let X := nth i (L :: snapshots mr bs order cs L) L in
    invariant X /\ size X = size L /\ l_vals X = l_vals L /\ l_init X = l_init L.
Proof.
  intros HI HS Hs H i. induction i as [|i IH]; intros Hi X; [split; [exact HI|auto]|].
  pose proof (snapshots_steps n per mr bs order cs L m L' m' HI HS Hs H i ltac:(lia)) as ST.
  destruct (steps_next _ _ _ _ _ ST) as (A & _ & B & D & E & _).
  destruct (IH ltac:(lia)) as (_ & F & G & J). unfold X. cbn [nth]. split; [exact A|]. repeat split; congruence.
Qed.

(** The object of the example: a new object, updated any number of times with the values of
    the construction. *)
Lemma prepared vals ini ad L0 order pre :
  lyap_init vals ini ad = Ok L0 -> sorts vals order -> same_order order pre ->
  let L := exec_all L0 pre in
  invariant L /\ sublevel L order /\ sorts (l_vals L) order /\ size L = length vals /\ l_vals L = vals.
Proof.
  intros HI Hs HO L.
  assert (EV : l_vals L0 = vals).
  { unfold lyap_init in HI. apply bind_ok in HI as (? & _ & HI).
    apply bind_ok in HI as (? & _ & HI). inv_ok HI. reflexivity. }
  assert (HS : sublevel L0 order).
  { exists 0. intros p y (Hp & Ey).
    split; [|intros [|H]; [lia|]].
    - intros Hy. right. eapply init_safe_iff; eauto.
    - apply invariant_init in HI as ((_ & H2 & _) & _). now apply H2. }
  apply invariant_init in HI as (HI & Hsz & _).
  destruct (same_order_sublevel order pre L0 HI HS ltac:(now rewrite EV) HO) as (A & B & D).
  fold L in A, B, D. split; [auto|]. split; [auto|]. unfold size. rewrite D, EV. auto.
Qed.

(** The i-th recorded fraction is the share of the states that are safe after i updates, the
    i-th level the level after i updates.  The fractions never decrease. *)
Theorem C108_fractions : forall vals ini ad L0 pre order per mr bs cs L' m,
  lyap_init vals ini ad = Ok L0 -> sorts vals order -> same_order order pre ->
  let n := Z.of_nat (length vals) in let L := exec_all L0 pre in
  collect n per mr bs order cs L no_metrics = Ok (L', m) ->
  length (safe_set_fraction m) = length cs /\ length (safe_level m) = length cs /\
  grows (safe_set_fraction m) /\
  forall i, i < length cs ->
    (0 <= nth i (safe_set_fraction m) 0 <= 1)%R /\
    exists Li mi, collect n per mr bs order (firstn (S i) cs) L no_metrics = Ok (Li, mi) /\
      share Li (nth i (safe_set_fraction m) 0%R) /\ nth i (safe_level m) 0%R = l_cmax Li /\
      (nth i (safe_set_fraction m) 0%R = 1%R <-> forall x, x < length vals -> safe Li x).
Proof.
  intros vals ini ad L0 pre order per mr bs cs L' m HI Hs HO n L H.
  destruct (prepared _ _ _ _ _ _ HI Hs HO) as (I & SL & SS & SZ & EV). fold L in I, SL, SS, SZ, EV.
  destruct (collect_snapshots _ _ _ _ _ _ _ _ _ _ H) as (LEN & EL & EF). simpl in EL, EF.
  set (X := snapshots mr bs order cs L) in *.
  assert (Hpos : 0 < length cs -> 0 < size L).
  { intros HC. destruct (snapshots_steps _ _ _ _ _ _ _ _ _ _ I SL SS H 0 HC) as [_ _ _ (C & EU)].
    cbn [nth] in EU. apply (update_pos _ _ _ _ _ _ _ SS EU). }
  assert (HX : forall i, i < length cs -> invariant (nth i X L) /\ size (nth i X L) = size L).
  { intros i Hi. destruct (snapshots_size _ _ _ _ _ _ _ _ _ _ I SL SS H (S i) ltac:(lia)) as (A & B & _).
    cbn [nth] in A, B. fold X in A, B. auto. }
  assert (HF : forall i, i < length cs -> share (nth i X L) (nth i (safe_set_fraction m) 0%R)).
  { intros i Hi. rewrite EF, nth_map' with (d' := L) by lia. unfold n. rewrite <- SZ.
    destruct (HX i Hi) as ((A & _) & <-). now apply share_of. }
  split; [rewrite EF, map_length; exact LEN|]. split; [rewrite EL, map_length; exact LEN|]. split.
  - apply adjacent_grows. intros i Hi. rewrite EF, map_length, LEN in Hi.
    pose proof (snapshots_steps _ _ _ _ _ _ _ _ _ _ I SL SS H (S i) ltac:(lia)) as ST.
    cbn [nth] in ST. fold X in ST. destruct (steps_next _ _ _ _ _ ST) as (_ & _ & _ & E & _ & M).
    apply (share_le (nth i X L) (nth (S i) X L)); auto; try (apply HF; lia).
    rewrite (proj2 (HX i ltac:(lia))). apply Hpos. lia.
  - intros i Hi. specialize (HF i Hi). destruct (HX i Hi) as (A & B).
    destruct (share_unit _ _ ltac:(rewrite B; apply Hpos; lia) HF) as (U1 & U2). split; [exact U1|].
    destruct (snapshots_firstn _ _ _ _ _ _ _ _ _ _ i H Hi) as (mi & E).
    exists (nth i X L), mi. split; [exact E|]. split; [exact HF|]. split.
    + rewrite EL, nth_map' with (d' := L) by lia. reflexivity.
    + rewrite U2, B, SZ. reflexivity.
Qed.
Print Assumptions C108_fractions.

(** If the smallest state is in the initial set and some state is never found safe, the
    recorded levels never decrease either. *)
Theorem C108_levels : forall vals ini ad L0 pre order per mr bs cs L' m x0 x,
  lyap_init vals ini ad = Ok L0 -> sorts vals order -> same_order order pre ->
  let n := Z.of_nat (length vals) in let L := exec_all L0 pre in
  collect n per mr bs order cs L no_metrics = Ok (L', m) ->
  at_position order 0 x0 -> initially_safe L x0 -> x < length vals -> ~ safe L' x ->
  grows (safe_level m).
Proof.
  intros vals ini ad L0 pre order per mr bs cs L' m x0 x HI Hs HO n L H (_ & P0) I0 Hx NS.
  destruct (prepared _ _ _ _ _ _ HI Hs HO) as (I & SL & SS & SZ & EV). fold L in I, SL, SS, SZ, EV.
  destruct (collect_snapshots _ _ _ _ _ _ _ _ _ _ H) as (LEN & EL & _). simpl in EL.
  set (X := snapshots mr bs order cs L) in *.
  assert (SX : forall i, i <= length cs -> let Y := nth i (L :: X) L in
     invariant Y /\ size Y = size L /\ l_vals Y = l_vals L /\ l_init Y = l_init L).
  { intros i Hi. apply (snapshots_size _ _ _ _ _ _ _ _ _ _ I SL SS H i Hi). }
  assert (ST : forall i, i < length cs -> steps_to order mr bs (nth i (L :: X) L) (nth i X L)).
  { intros i Hi. apply (snapshots_steps _ _ _ _ _ _ _ _ _ _ I SL SS H i Hi). }
  assert (LAST : cs <> [] -> L' = nth (length cs - 1) X L).
  { intros NE. destruct cs as [|c cs']; [congruence|]. 
    destruct (snapshots_firstn _ _ _ _ _ _ _ _ _ _ (length (c :: cs') - 1) H) as (mi & E); [simpl; lia|].
    rewrite firstn_all2 in E by (simpl; lia). rewrite H in E. now injection E as -> _. }
  assert (NOT : forall i, i < length cs -> ~ safe (nth i X L) x).
  { intros i Hi. assert (G : forall k, i + k < length cs -> safe (nth i X L) x -> safe (nth (i + k) X L) x).
    { induction k as [|k IH]; intros Hk Sx; [now rewrite Nat.add_0_r|].
      specialize (IH ltac:(lia) Sx). replace (i + S k) with (S (i + k)) in * by lia.
      destruct (steps_next _ _ _ _ _ (ST (S (i + k)) Hk)) as (_ & _ & _ & _ & _ & M).
      apply M; [|exact IH]. cbn [nth]. destruct (SX (S (i + k)) ltac:(lia)) as (_ & E & _).
      cbn [nth] in E. lia. }
    intros Sx. apply NS. rewrite LAST; [|now destruct cs; simpl in Hi; [lia|]].
    replace (length cs - 1) with (i + (length cs - 1 - i)) by lia. apply G; [lia|exact Sx]. }
  apply adjacent_grows. intros i Hi. rewrite EL, map_length, LEN in Hi.
  rewrite EL, !nth_map' with (d' := L) by lia.
  destruct (ST i ltac:(lia)) as [_ _ _ (C1 & U1)].
  destruct (ST (S i) Hi) as [_ _ _ (C2 & U2)]. cbn [nth] in U2.
  destruct (SX i ltac:(lia)) as (IY & SY & VY & NY).
  destruct (SX (S i) ltac:(lia)) as (I1 & S1 & V1 & N1). cbn [nth] in I1, S1, V1, N1.
  destruct (SX (S (S i)) ltac:(lia)) as (I2 & S2 & V2 & N2). cbn [nth] in I2, S2, V2, N2.
  pose proof (NOT i ltac:(lia)) as NS1. pose proof (NOT (S i) ltac:(lia)) as NS2.
  set (Y := nth i (L :: X) L) in *. set (L1 := nth i X L) in *. set (L2 := nth (S i) X L) in *.
  assert (SSY : sorts (l_vals Y) order) by now rewrite VY.
  assert (SS1 : sorts (l_vals L1) order) by now rewrite V1.
  destruct (update_run _ _ _ _ _ _ _ (proj1 IY) SSY U1) as (Hb & Hn & K1 & E1 & R1).
  destruct (update_run _ _ _ _ _ _ _ (proj1 I1) SS1 U2) as (_ & _ & K2 & E2 & R2).
  assert (PX : exists p, p < size L /\ nth p order 0 = x).
  { apply (order_onto L order SS). lia. }
  destruct PX as (p & Hp & Ep).
  assert (SAFE1 : forall q, q < K1 -> safe L1 (nth q order 0)).
  { intros q Hq. pose proof (ro_KE _ _ _ _ _ _ _ _ _ R1).
    apply (safe_run _ _ _ _ _ _ _ _ _ (proj1 IY) SSY Hb Hn R1 q ltac:(lia)). right. now left. }
  assert (SAFE2 : forall q, q < K2 -> safe L2 (nth q order 0)).
  { intros q Hq. pose proof (ro_KE _ _ _ _ _ _ _ _ _ R2).
    apply (safe_run _ _ _ _ _ _ _ _ _ (proj1 I1) SS1 Hb ltac:(lia) R2 q ltac:(lia)). right. now left. }
  assert (A1 : K1 <= p).
  { destruct (Nat.le_gt_cases K1 p); auto. exfalso. apply NS1. rewrite <- Ep. auto. }
  assert (A2 : K2 <= p).
  { destruct (Nat.le_gt_cases K2 p); auto. exfalso. apply NS2. rewrite <- Ep. auto. }
  assert (A0 : 0 < K1).
  { apply (prefix_good_lt _ _ _ _ _ _ _ _ _ (proj1 IY) SSY Hb Hn R1 0 Hn).
    intros q Hq. assert (q = 0) by lia. subst q. rewrite P0. right. unfold S0.
    apply IY. unfold initially_safe. rewrite NY. exact I0. }
  assert (A3 : K1 - 1 < K2).
  { apply (prefix_good_lt _ _ _ _ _ _ _ _ _ (proj1 I1) SS1 Hb ltac:(lia) R2 (K1 - 1) ltac:(lia)).
    intros q Hq. right. unfold S0. apply SAFE1. lia. }
  rewrite (ro_cK _ _ _ _ _ _ _ _ _ R1) by lia. rewrite (ro_cK _ _ _ _ _ _ _ _ _ R2) by lia.
  unfold value. rewrite VY, V1. 
  destruct (Nat.eq_dec (K1 - 1) (K2 - 1)) as [->|]; [lra|].
  destruct SS as (_ & SS). apply SS; [lia|]. unfold size in *. lia.
Qed.
Print Assumptions C108_levels.

(** If everything is found safe, the level can drop: four states in batches of two, the third
    one is safe after the first update, all after the second one. *)
Definition after4 (s : list bool) (r : list Z) (c : R) : lyap :=
  {| l_init := Some [false; true; false; false]; l_adaptive := false; l_vals := vals4;
     l_safe := s; l_ref := r; l_cmax := c |}.
Lemma collect_step n per mr bs order C cs L L1 m m1 :
  update_safe_set L C false mr bs order = Ok L1 -> record_metrics n per L1 m = Ok m1 ->
  collect n per mr bs order (C :: cs) L m = collect n per mr bs order cs L1 m1.
Proof. intros E1 E2. cbn [collect]. rewrite E1. cbn [bind]. rewrite E2. reflexivity. Qed.
Lemma drop4 : exists L' m, collect 4 10 1 2 order4 [only [1; 2; 0]; only [0; 1; 2; 3]]
    (L4 (Some [false; true; false; false])) no_metrics = Ok (L', m) /\ safe_level m = [2; 1]%R.
Proof.
  eexists _, _. split.
  - erewrite (collect_step 4 10 1 2 order4 (only [1; 2; 0]) _ _ (after4 [true; true; true; false] [1; 1; 1; 0]%Z 2));
      [|reflexivity|reflexivity].
    erewrite (collect_step 4 10 1 2 order4 (only [0; 1; 2; 3]) [] _ (after4 [true; true; true; true] [1; 1; 1; 1]%Z 1));
      [|reflexivity|reflexivity].
    reflexivity.
  - reflexivity.
Qed.
Theorem C108_levels_refuted :
  ~ forall vals ini ad L0 pre order per mr bs cs L' m x0,
    lyap_init vals ini ad = Ok L0 -> sorts vals order -> same_order order pre ->
    let n := Z.of_nat (length vals) in let L := exec_all L0 pre in
    collect n per mr bs order cs L no_metrics = Ok (L', m) ->
    at_position order 0 x0 -> initially_safe L x0 -> grows (safe_level m).
Proof.
  intros H. destruct drop4 as (L' & m & E & EL).
  specialize (H vals4 (Some [false; true; false; false]) false
    (L4 (Some [false; true; false; false])) [] order4 10%Z 1%Z 2
    [only [1; 2; 0]; only [0; 1; 2; 3]] L' m 1 eq_refl order4_sorts I E).
  specialize (H (conj (Nat.lt_0_succ _) eq_refl) (ex_intro _ _ (conj eq_refl eq_refl)) 0 1).
  rewrite EL in H. simpl in H. specialize (H ltac:(lia)). lra.
Qed.
Print Assumptions C108_levels_refuted.

Example C108_ex : exists L' m,
  collect 4 10 1 2 order4 [only [1]; only [1; 2]; only []]
    (L4 (Some [false; true; false; false])) no_metrics = Ok (L', m) /\
  num_measurements m = [10; 20; 30]%Z /\ safe_level m = [0; 1; 1]%R /\
  safe_set_fraction m = [1 / 4; 2 / 4; 2 / 4]%R /\ ~ safe L' 3.
Proof.
  eexists _, _. split.
  - erewrite (collect_step 4 10 1 2 order4 (only [1]) _ _ (after4 [false; true; false; false] [0; 1; 0; 0]%Z 0));
      [|reflexivity|reflexivity].
    erewrite (collect_step 4 10 1 2 order4 (only [1; 2]) _ _ (after4 [false; true; true; false] [0; 1; 1; 0]%Z 1));
      [|reflexivity|reflexivity].
    erewrite (collect_step 4 10 1 2 order4 (only []) [] _ (after4 [false; true; true; false] [0; 1; 1; 0]%Z 1));
      [|reflexivity|reflexivity].
    reflexivity.
  - split; [reflexivity|]. split; [reflexivity|]. split; [reflexivity|]. discriminate.
Qed.
