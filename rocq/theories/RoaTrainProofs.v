(** Lemmas about the training of a Lyapunov network. *)
From Coq Require Import Reals List Bool Arith ZArith Lia Lra Permutation Sorted.
From Verif Require Import Prelude ListFacts NumModel NumProofs GridModel GridSpec GridProofs
  SafeModel SafeSpec SafeProofs SafeProofs2 Properties.SafeProps CertModel CertSpec CertProofs
  LoopModel LoopSpec LoopProofs ExUtilModel RoaTrainModel.
Import ListNotations.
Local Open Scope R_scope.

Lemma at_most_true c v : at_most c v = true <-> v <= c.
Proof. unfold at_most. destruct Rle_dec; split; intros; try lra; auto; discriminate. Qed.
Lemma at_most_false c v : at_most c v = false <-> c < v.
Proof. unfold at_most. destruct Rle_dec; split; intros; try lra; auto; discriminate. Qed.

Lemma or_where_map3 {A} (q : A -> bool) : forall m pts a, length m = length pts -> length a = length pts ->
  or_where m (map q (mask m pts)) a = map3 (fun (b : bool) x y => (y || (b && q x))%bool) m pts a.
Proof.
  induction m as [|b m IH]; intros [|x pts] [|y a] H1 H2; try discriminate; [reflexivity|].
  cbn in H1, H2. destruct b; cbn [mask map or_where map3]; rewrite IH by lia; f_equal;
    cbn [andb]; now rewrite ?orb_false_r.
Qed.
Lemma map3_length {A B C D} (f : A -> B -> C -> D) : forall l m k, length l = length m -> length k = length m ->
  length (map3 f l m k) = length m.
Proof. induction l as [|a l IH]; intros [|b m] [|c k] H1 H2; try discriminate; cbn in *; auto. Qed.
Lemma map3_nth {A B C D} (f : A -> B -> C -> D) da db dc d : forall l m k i, length l = length m -> length k = length m ->
  (i < length m)%nat -> nth i (map3 f l m k) d = f (nth i l da) (nth i m db) (nth i k dc).
Proof.
  induction l as [|a l IH]; intros [|b m] [|c k] [|i] H1 H2 H3; try discriminate; cbn in *; try lia; auto.
  apply IH; lia.
Qed.

Lemma iterate_S {A} (f : A -> A) n x : iterate (S n) f x = iterate n f (f x).
Proof. induction n as [|n IH]; [reflexivity|]. cbn [iterate] in *. now rewrite IH. Qed.
Lemma simulate_map F h : forall l, simulate F h l = map (iterate h F) l.
Proof.
  induction h as [|h IH]; intros l; cbn [simulate]; [symmetry; apply map_id|].
  rewrite IH, map_map. apply map_ext. intros x. now rewrite iterate_S.
Qed.

Lemma mask_map {A B} (f : A -> B) : forall m l, mask m (map f l) = map f (mask m l).
Proof. induction m as [|[] m IH]; intros [|x l]; cbn; auto. now rewrite IH. Qed.
Lemma mask_sorted m : forall n s, StronglySorted lt (mask m (seq s n)) /\ Forall (le s) (mask m (seq s n)).
Proof.
  induction m as [|b m IH]; intros [|n] s; cbn; try (split; constructor).
  - destruct b; split; constructor.
  - destruct (IH n (S s)) as (A & B). assert (C : Forall (le s) (mask m (seq (S s) n))).
    { eapply Forall_impl; [|exact B]. cbn; intros; lia. }
    destruct b; split; auto; constructor; auto.
Qed.
Lemma seq_nth_map {A} (d : A) (l : list A) : l = map (fun i => nth i l d) (seq 0 (length l)).
Proof.
  apply nth_ext with d d; [now rewrite map_length, seq_length|]. intros i Hi.
  rewrite nth_map' with (d' := 0%nat) by (rewrite seq_length; auto). now rewrite seq_nth.
Qed.

Section Train.
  Context {W : Type}.
  Variable g : grid.
  Variable F : list R -> list R.
  Variable S0 : W -> setup.
  Variable ini : option (list bool).

  (** An object that was only refreshed. *)
  Definition fresh (w : W) (o : object W) : Prop :=
    ob_setup o = S0 /\ (forall w, ob_values o w = lyapunov_function (S0 w)) /\
    (forall gr, ob_update o = Some gr -> ug_setup gr = S0 /\ ug_factor gr = 1 /\ ug_adaptive gr = false) /\
    l_adaptive (ob_lyap o) = false /\ ob_stuck o = false /\ sized g (ob_lyap o) /\ l_init (ob_lyap o) = ini /\
    l_vals (ob_lyap o) = map (lyapunov_function (S0 w)) (all_points g).

  Lemma fresh_new w0 o : new_object g w0 S0 ini false = Ok o -> fresh w0 o.
  Proof.
    intros H. pose proof (sized_new g w0 S0 ini false o H) as SZ. unfold new_object, lyap_init in H.
    destruct (assign_opt (repeat false _) _ _); [|discriminate]. cbn [bind] in H.
    destruct (assign_opt (repeat 0%Z _) _ _); [|discriminate]. cbn [bind] in H. injection H as <-.
    unfold fresh. cbn. repeat split; auto; try discriminate; apply SZ.
  Qed.

  Lemma refresh_ok w0 w bs order o o' : fresh w0 o -> refresh g w bs order o = Ok o' ->
    fresh w o' /\
    exists L, consistent L /\ l_init L = ini /\ l_adaptive L = false /\
      l_vals L = map (lyapunov_function (S0 w)) (all_points g) /\
      update_safe_set L (certificate (S0 w) 1 (grid_point g)) true 1 bs order = Ok (ob_lyap o').
  Proof.
    intros (E1 & E2 & E3 & E4 & E5 & E6 & E7 & E8). unfold refresh, ob_update_values. rewrite E5.
    set (L := update_values (ob_lyap o) (map (ob_values o w) (all_points g))).
    assert (SZ : sized g L).
    { destruct E6 as ([C1 C2 C3] & HS). split; [constructor|]; unfold size, L in *; cbn; rewrite ?map_length; try congruence.
      intros m Hm. rewrite <- HS. auto. }
    unfold ob_update_safe_set. cbn [ob_lyap with_lyap ob_update ob_setup ob_stuck ob_values ob_sample].
    set (gr := match ob_update o with None => _ | Some gr => gr end).
    assert (G : ug_setup gr = S0 /\ ug_factor gr = 1 /\ ug_adaptive gr = false).
    { unfold gr. destruct (ob_update o) as [g0|]; [now apply E3|]. cbn. repeat split; auto. }
    destruct G as (G1 & G2 & G3). change (l_adaptive L) with (l_adaptive (ob_lyap o)). rewrite G3, E4, E5. cbn [Bool.eqb andb].
    rewrite G1, G2. rewrite effect_consistent by apply SZ.
    destruct (update_safe_set L _ true 1 bs order) as [L'|] eqn:EU; cbn; [|discriminate].
    intros [= <-]. cbn.
    pose proof (sized_update g _ _ _ _ _ _ _ SZ EU) as SZ'.
    pose proof (update_fields _ _ _ _ _ _ _ EU) as (F1 & F2 & F3).
    assert (VL : l_vals L = map (lyapunov_function (S0 w)) (all_points g)) by (unfold L; cbn; now rewrite E2).
    split.
    - assert (A1 : l_adaptive L = false) by exact E4. assert (A2 : l_init L = ini) by exact E7.
      unfold fresh. cbn. repeat split; auto; try apply SZ'; try congruence.
    - exists L. split; [apply SZ|]. repeat split; auto.
  Qed.

  Definition current (t : trainer W) : Prop :=
    fresh (tr_params t) (tr_object t) /\ length (tr_estimate t) = length (all_points g).

  Lemma prepare_fresh calls : forall w o w' o', fresh w o -> prepare g calls w o = Ok (w', o') -> fresh w' o'.
  Proof.
    induction calls as [|[[w1 bs] order] calls IH]; intros w o w' o' HF; cbn [prepare].
    - intros [= <- <-]. exact HF.
    - destruct refresh as [o1|] eqn:E; [|discriminate]. cbn [bind]. intros H.
      apply (IH w1 o1 w' o'); auto. eapply refresh_ok; eauto.
  Qed.
  Lemma initialize_current w0 calls t : initialize g S0 ini w0 calls = Ok t -> current t /\ tr_estimate t = l_safe (ob_lyap (tr_object t)).
  Proof.
    unfold initialize. destruct new_object as [o|] eqn:E; [|discriminate]. cbn [bind].
    destruct prepare as [[w' o']|] eqn:EP; [|discriminate]. cbn [bind fst snd]. intros [= <-]. cbn. split; auto.
    assert (HF : fresh w' o') by (eapply prepare_fresh; [apply fresh_new; exact E|exact EP]).
    split; [exact HF|]. cbn. destruct HF as (_ & _ & _ & _ & _ & ([C1 _ _] & HS) & _). congruence.
  Qed.

  (** The state [k] is labelled in a round that starts from [t]. *)
  Definition gap (mult : R) (horizon : nat) (t : trainer W) (x : list R) : Prop :=
    let V := lyapunov_function (S0 (tr_params t)) in
    let c := l_cmax (ob_lyap (tr_object t)) in
    c < V x <= mult * c /\ V (iterate horizon F x) <= c.

  Lemma targets_ok mult horizon t : current t ->
    exists est, length est = length (all_points g) /\
      (forall k, (k < length (all_points g))%nat ->
         (nth k est false = true <-> nth k (tr_estimate t) false = true \/ gap mult horizon t (nth k (all_points g) []))) /\
      targets g F mult horizon t =
        (est,
         mask (map2 orb (map (at_most (mult * l_cmax (ob_lyap (tr_object t)))) (l_vals (ob_lyap (tr_object t)))) est) (all_points g),
         map to_float (mask (map2 orb (map (at_most (mult * l_cmax (ob_lyap (tr_object t)))) (l_vals (ob_lyap (tr_object t)))) est) est)).
  Proof.
    intros ((E1 & E2 & E3 & E4 & E5 & E6 & E7 & E8) & HL).
    unfold targets. eexists. split; [|split; [|reflexivity]].
    - rewrite E8, E1, simulate_map, !map_map, or_where_map3; [|rewrite map2_length, !map_length; lia|auto].
      apply map3_length; [rewrite map2_length, !map_length; lia|auto].
    - intros k Hk. rewrite E8, E1, simulate_map, !map_map, or_where_map3; [|rewrite map2_length, !map_length; lia|auto].
      rewrite map3_nth with (da := false) (db := []) (dc := false); [|rewrite map2_length, !map_length; lia|auto|auto].
      rewrite nth_map2' with (da := false) (db := false) by (rewrite map_length; auto).
      rewrite !nth_map' with (d' := []) by auto.
      rewrite orb_true_iff, !andb_true_iff, negb_true_iff, !at_most_true, at_most_false. unfold gap. tauto.
  Qed.

  Lemma round_ok mult horizon r t t' : current t -> train_round g F mult horizon r t = Ok t' ->
    current t' /\
    (forall k, (k < length (all_points g))%nat ->
      (nth k (tr_estimate t') false = true <->
       nth k (tr_estimate t) false = true \/ gap mult horizon t (nth k (all_points g) []) \/ safe (ob_lyap (tr_object t')) k)) /\
    exists L bs order, r = (tr_params t', bs, order) /\ consistent L /\ l_init L = ini /\ l_adaptive L = false /\
      l_vals L = map (lyapunov_function (S0 (tr_params t'))) (all_points g) /\
      update_safe_set L (certificate (S0 (tr_params t')) 1 (grid_point g)) true 1 bs order = Ok (ob_lyap (tr_object t')).
  Proof.
    destruct r as [[w' bs] order]. intros C H. unfold train_round in H.
    destruct (targets_ok mult horizon t C) as (est & LE & HE & ET). rewrite ET in H.
    destruct refresh as [o|] eqn:E; [|discriminate]. cbn [bind] in H. injection H as <-. cbn.
    destruct (refresh_ok _ _ _ _ _ _ (proj1 C) E) as (HF & L & HC & HI & HA & HV & EU).
    assert (LS : length (l_safe (ob_lyap o)) = length (all_points g)).
    { destruct HF as (_ & _ & _ & _ & _ & ([C1 _ _] & HS) & _). congruence. }
    split; [|split].
    - split; [exact HF|]. cbn. rewrite map2_length. lia.
    - intros k Hk. rewrite nth_map2' with (da := false) (db := false) by lia.
      rewrite orb_true_iff, HE by auto. unfold safe. tauto.
    - exists L, bs, order. auto 10.
  Qed.

  Lemma train_ok mult horizon rounds : forall t ts, current t -> train g F mult horizon rounds t = Ok ts ->
    length ts = S (length rounds) /\ nth 0 ts t = t /\ Forall current ts /\
    forall n, (n < length rounds)%nat -> exists r, nth_error rounds n = Some r /\
      train_round g F mult horizon r (nth n ts t) = Ok (nth (S n) ts t).
  Proof.
    induction rounds as [|r rounds IH]; intros t ts C; cbn [train].
    - intros [= <-]. cbn. repeat split; auto. intros; lia.
    - destruct train_round as [t'|] eqn:E; [|discriminate]. cbn [bind].
      destruct (train g F mult horizon rounds t') as [ts'|] eqn:ET; [|discriminate]. cbn [bind]. intros [= <-].
      destruct (round_ok _ _ _ _ _ C E) as (C' & _).
      destruct (IH t' ts' C' ET) as (L & N0 & FA & ST). cbn [length]. split; [lia|]. split; [reflexivity|]. split; [auto|].
      assert (D : forall n, (n < length ts')%nat -> nth n ts' t = nth n ts' t') by (intros; now apply nth_indep).
      intros [|n] Hn.
      + exists r. split; [reflexivity|]. cbn [nth]. rewrite D, N0 by lia. exact E.
      + destruct (ST n ltac:(lia)) as (r' & Er & Es). exists r'. split; [exact Er|].
        cbn [nth]. rewrite D by lia. change (nth (S n) (t :: ts') t) with (nth n ts' t). rewrite D by lia. exact Es.
  Qed.

  Lemma marks_ok mult horizon rounds t ts : current t -> train g F mult horizon rounds t = Ok ts ->
    tr_estimate t = l_safe (ob_lyap (tr_object t)) ->
    forall n k, (n <= length rounds)%nat -> (k < length (all_points g))%nat ->
      (nth k (tr_estimate (nth n ts t)) false = true <->
       (exists j, (j <= n)%nat /\ safe (ob_lyap (tr_object (nth j ts t))) k) \/
       (exists j, (j < n)%nat /\ gap mult horizon (nth j ts t) (nth k (all_points g) []))).
  Proof.
    intros C ET E0. destruct (train_ok _ _ _ _ _ C ET) as (L & N0 & FA & ST).
    induction n as [|n IH]; intros k Hn Hk.
    - rewrite N0, E0. split.
      + intros H. left. exists 0%nat. split; [lia|]. rewrite N0. exact H.
      + intros [(j & Hj & H)|(j & Hj & _)]; [|lia]. replace j with 0%nat in H by lia. rewrite N0 in H. exact H.
    - destruct (ST n ltac:(lia)) as (r & _ & Er).
      assert (Cn : current (nth n ts t)).
      { rewrite Forall_forall in FA. apply FA, nth_In. lia. }
      destruct (round_ok _ _ _ _ _ Cn Er) as (_ & M & _). rewrite (M k Hk), IH by lia. split.
      + intros [[(j & Hj & H)|(j & Hj & H)]|[H|H]].
        * left. exists j. split; [lia|auto].
        * right. exists j. split; [lia|auto].
        * right. exists n. split; [lia|auto].
        * left. exists (S n). split; [lia|auto].
      + intros [(j & Hj & H)|(j & Hj & H)].
        * destruct (Nat.eq_dec j (S n)) as [->|]; [auto|]. left; left. exists j. split; [lia|auto].
        * destruct (Nat.eq_dec j n) as [->|]; [auto|]. left; right. exists j. split; [lia|auto].
  Qed.
End Train.

Lemma mask_seq {A} (d : A) (m : list bool) (l : list A) : length m = length l ->
  mask m l = map (fun i => nth i l d) (mask m (seq 0 (length l))).
Proof. intros H. rewrite <- mask_map. now rewrite <- seq_nth_map. Qed.
Lemma mask_seq_In (m : list bool) n k : length m = n -> (In k (mask m (seq 0 n)) <-> (k < n)%nat /\ nth k m false = true).
Proof.
  intros H. rewrite (mask_In m (seq 0 n) 0%nat k) by (rewrite seq_length; lia). split.
  - intros (q & Hq & M & E). rewrite seq_length in Hq. rewrite seq_nth in E by lia. cbn in E. subst q. split; auto.
  - intros (Hk & M). exists k. rewrite seq_length, seq_nth by lia. auto.
Qed.
