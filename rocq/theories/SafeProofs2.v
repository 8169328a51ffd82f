(** Consequences of the analysis of [update_safe_set]. *)
From Coq Require Import Reals List Bool Arith ZArith Lia Lra Permutation.
From Verif Require Import Prelude ListFacts SafeModel SafeSpec SafeProofs.
Import ListNotations.

Lemma update_pos L C sh mr bs order L' :
  sorts (l_vals L) order ->
  update_safe_set L C sh mr bs order = Ok L' -> 0 < bs /\ 0 < size L.
Proof.
  intros Hs H. destruct (Nat.eq_dec bs 0) as [->|Hb].
  { rewrite update_safe_set_eq in H. apply bind_ok in H as (? & _ & H).
    apply bind_ok in H as ([[? ?] ?] & HV & H). simpl in HV. inv_ok HV. discriminate. }
  split; [lia|]. destruct (Nat.eq_dec (size L) 0) as [H0|]; [|lia].
  pose proof (order_length L order Hs) as OL. rewrite H0 in OL.
  destruct order; [|discriminate].
  rewrite update_safe_set_eq in H. apply bind_ok in H as (? & _ & H).
  apply bind_ok in H as ([[? ?] ?] & HV & H). unfold starts in HV.
  destruct (Nat.eqb_spec bs 0); [lia|]. simpl in HV.
  rewrite Nat.div_small in HV by lia. simpl in HV. inv_ok HV. discriminate.
Qed.

Lemma update_run L C sh mr bs order L' :
  consistent L -> sorts (l_vals L) order ->
  update_safe_set L C sh mr bs order = Ok L' ->
  0 < bs /\ 0 < size L /\ exists K E, run_ok L C sh mr bs order L' K E.
Proof.
  intros HL Hs H. destruct (update_pos _ _ _ _ _ _ _ Hs H) as (A & B).
  split; [auto|split; [auto|]]. eapply update_safe_set_ok; eauto.
Qed.

(** The states accepted without refinement. *)
Definition good L C sh x := neg C x = true \/ S0 L sh x = true.

Lemma how_good L C sh mr x r r' :
  how C false (l_init L) mr x (S0 L sh x) r r' -> good L C sh x.
Proof.
  unfold how, good. intros [(H & _)|[(_ & H & _)|(H & _)]]; auto; discriminate.
Qed.

Lemma S0_init_shrink L x : S0 L true x = omask (l_init L) x.
Proof. reflexivity. Qed.

Section Runs.
  Variables (L : lyap) (C : cert) (sh : bool) (mr : Z) (bs : nat) (order : list nat).
  Variables (L' : lyap) (K E : nat).
  Hypothesis HL : consistent L.
  Hypothesis Hord : sorts (l_vals L) order.
  Hypothesis Hbs : 0 < bs.
  Hypothesis Hn : 0 < size L.
  Hypothesis RO : run_ok L C sh mr bs order L' K E.
  Let n := size L.
  Let act := l_adaptive L && (1 <? mr)%Z.

  Lemma run_size : size L' = size L.
  Proof using All. unfold size. now rewrite (ro_vals _ _ _ _ _ _ _ _ _ RO). Qed.

  Lemma prefix_good_lt p :
    p < n -> (forall q, q <= p -> good L C sh (nth q order 0)) -> p < K.
  Proof using All.
    intros Hp Hg. destruct (Nat.lt_ge_cases p K) as [|HK]; auto. exfalso.
    destruct (ro_end _ _ _ _ _ _ _ _ _ RO ltac:(fold n; lia)) as (_ & b & B1 & B2 & B3 & _).
    destruct (Hg b ltac:(lia)); congruence.
  Qed.

  Lemma lt_prefix_good p : act = false ->
    p < K -> forall q, q <= p -> good L C sh (nth q order 0).
  Proof using All.
    intros Ha Hp q Hq.
    destruct (ro_how _ _ _ _ _ _ _ _ _ RO q ltac:(lia)) as (r & H).
    fold act in H. rewrite Ha in H. eapply how_good; eauto.
  Qed.

  Lemma stop_bad : act = false -> K < n -> ~ good L C sh (nth K order 0).
  Proof using All.
    intros Ha HK.
    destruct (ro_end _ _ _ _ _ _ _ _ _ RO HK) as (_ & b & B1 & B2 & B3 & B4).
    rewrite <- (B4 Ha). intros [H|H]; congruence.
  Qed.

  Lemma safe_run p : p < n ->
    (safe L' (nth p order 0) <->
     initially_safe L (nth p order 0) \/ p < K \/ (E <= p /\ S0 L sh (nth p order 0) = true)).
  Proof using All.
    intros Hp. unfold safe. rewrite (ro_safe _ _ _ _ _ _ _ _ _ RO p Hp).
    rewrite initially_safe_omask, orb_true_iff.
    pose proof (ro_KE _ _ _ _ _ _ _ _ _ RO) as HKE.
    destruct (Nat.ltb_spec p K); [tauto|]. destruct (Nat.ltb_spec p E).
    - split; [intros [|]; [tauto|discriminate]|intros [|[|]]; [tauto|lia|lia]].
    - split; intros [|]; auto. destruct H1 as [|(_ & ?)]; [lia|auto].
  Qed.

  Lemma value_mono p q : p <= q -> q < n ->
    (value L (nth p order 0%nat) <= value L (nth q order 0%nat))%R.
  Proof using All.
    intros H1 H2. destruct (Nat.eq_dec p q) as [->|]; [lra|].
    apply (proj2 Hord); auto; lia.
  Qed.

  (** Whenever something was accepted, the level is the value of an accepted
      position at or below which everything is accepted. *)
  Lemma level_position : 0 < K -> exists k, k < K /\ l_cmax L' = value L (nth k order 0).
  Proof using All.
    intros HK. destruct (Nat.eq_dec K n) as [Ek|Ek].
    - destruct (ro_cn' _ _ _ _ _ _ _ _ _ RO Ek) as [->|(Hlt & ->)].
      + exists (n - 1). split; [lia|reflexivity].
      + eexists; split; [|reflexivity].
        pose proof (Nat.div_mod (n + bs - 1) bs ltac:(lia)) as D.
        pose proof (Nat.mod_upper_bound (n + bs - 1) bs ltac:(lia)) as M.
        fold n. fold n in Hlt. set (T := (n + bs - 1) / bs) in *.
        assert (1 < T) by nia. assert ((T - 1) * bs < n) by nia. nia.
    - pose proof (ro_KE _ _ _ _ _ _ _ _ _ RO). fold n in H.
      exists (K - 1). split; [lia|]. apply (ro_cK _ _ _ _ _ _ _ _ _ RO). fold n; lia.
  Qed.
End Runs.

(** ** Histories *)

Definition invariant (L : lyap) : Prop :=
  consistent L /\
  (forall x, initially_safe L x -> safe L x /\ refinement L x = 1%Z) /\
  (forall x, x < size L -> (safe L x -> (1 <= refinement L x)%Z) /\
                           (~ safe L x -> refinement L x = 0%Z)).

Lemma invariant_init vals ini ad L :
  lyap_init vals ini ad = Ok L -> invariant L /\ size L = length vals /\ l_init L = ini.
Proof.
  unfold lyap_init. intros H. apply bind_ok in H as (s & Hs & H).
  apply bind_ok in H as (r & Hr & H). inv_ok H.
  assert (Hlen : forall m, ini = Some m -> length m = length vals).
  { intros m ->. simpl in Hs. unfold assign_mask in Hs. rewrite repeat_length in Hs.
    destruct (Nat.eqb_spec (length vals) (length m)); [auto|discriminate]. }
  destruct (assign_opt_ok (repeat false (length vals)) ini true) as (s' & Es & Ls & Ns).
  { intros m Hm. now rewrite repeat_length, Hlen. }
  destruct (assign_opt_ok (repeat 0%Z (length vals)) ini 1%Z) as (r' & Er & Lr & Nr).
  { intros m Hm. now rewrite repeat_length, Hlen. }
  rewrite Hs in Es; inv_ok Es. rewrite Hr in Er; inv_ok Er.
  rewrite repeat_length in *.
  split; [|auto]. split; [|split].
  - constructor; unfold size; simpl; auto.
  - intros x (m & Em & Hx). simpl in Em. subst ini.
    assert (x < length vals).
    { rewrite <- (Hlen m eq_refl). destruct (Nat.lt_ge_cases x (length m)); auto.
      rewrite nth_overflow in Hx by auto; discriminate. }
    unfold safe, refinement; simpl. rewrite Ns, Nr by auto. simpl. now rewrite Hx.
  - intros x Hx. unfold safe, refinement, size in *; simpl in *.
    rewrite Ns, Nr by auto. rewrite !nth_repeat'.
    destruct (omask ini x); split; intros; try lia; try congruence.
    + now destruct (x <? length vals).
    + destruct (x <? length vals); auto.
Qed.

Lemma init_safe_iff vals ini ad L x :
  lyap_init vals ini ad = Ok L -> safe L x -> initially_safe L x.
Proof.
  unfold lyap_init. intros H HS. apply bind_ok in H as (s & Hs & H).
  apply bind_ok in H as (r & Hr & H). inv_ok H. unfold safe in HS; unfold initially_safe; simpl in *.
  destruct ini as [m|]; simpl in Hs.
  - unfold assign_mask in Hs. rewrite repeat_length in Hs.
    destruct (Nat.eqb_spec (length vals) (length m)) as [E|]; [|discriminate]. inv_ok Hs.
    rename HS into H. exists m. split; auto.
    destruct (Nat.lt_ge_cases x (length m)).
    + rewrite nth_map2' with (da := false) (db := false) in H
        by (rewrite ?repeat_length; lia).
      destruct (nth x m false); auto. rewrite nth_repeat' in H.
      now destruct (x <? length vals).
    + rewrite nth_overflow in H; [discriminate|].
      rewrite map2_length, repeat_length; lia.
  - inv_ok Hs. rename HS into H. rewrite nth_repeat' in H. now destruct (x <? length vals).
Qed.

Lemma init_lt L x : consistent L -> initially_safe L x -> x < size L.
Proof.
  intros HL (m & Em & Hx). rewrite <- (cons_init L HL m Em).
  destruct (Nat.lt_ge_cases x (length m)); auto.
  rewrite nth_overflow in Hx by auto; discriminate.
Qed.

Lemma S0_R0 L sh x : invariant L -> x < size L ->
  (S0 L sh x = true -> (1 <= R0 L sh x)%Z) /\ (S0 L sh x = false -> R0 L sh x = 0%Z).
Proof.
  intros (_ & _ & H3) Hx. unfold S0, R0. destruct sh.
  - destruct (omask (l_init L) x); split; intros; try lia; discriminate.
  - destruct (H3 x Hx) as (A & B). unfold safe, refinement in *.
    split; [auto|]. intros E. apply B. congruence.
Qed.

Lemma invariant_update L C sh mr bs order L' :
  invariant L -> sorts (l_vals L) order ->
  update_safe_set L C sh mr bs order = Ok L' ->
  invariant L' /\ size L' = size L /\ l_init L' = l_init L.
Proof.
  intros HI Hs H. pose proof HI as (HL & H2 & H3).
  destruct (update_run _ _ _ _ _ _ _ HL Hs H) as (Hbs & Hn & K & E & RO).
  assert (Hsz : size L' = size L) by exact (run_size _ _ _ _ _ _ _ _ _ HL Hs Hbs Hn RO).
  assert (Hin : l_init L' = l_init L) by apply (ro_init _ _ _ _ _ _ _ _ _ RO).
  assert (Hini : forall x, initially_safe L' x <-> initially_safe L x).
  { intros x. unfold initially_safe. now rewrite Hin. }
  split; [|auto]. split; [apply (ro_cons _ _ _ _ _ _ _ _ _ RO)|]. split.
  - intros x Hx. apply Hini in Hx. pose proof (init_lt L x HL Hx) as Hlt.
    destruct (order_onto L order Hs x Hlt) as (p & Hp & <-). split.
    + apply (safe_run _ _ _ _ _ _ _ _ _ HL Hs Hbs Hn RO p Hp). auto.
    + apply (ro_ref1 _ _ _ _ _ _ _ _ _ RO); auto. now apply initially_safe_omask.
  - rewrite Hsz. intros x Hx. destruct (order_onto L order Hs x Hx) as (p & Hp & <-).
    set (x := nth p order 0) in *.
    destruct (omask (l_init L) x) eqn:Eo.
    { assert (Hi : initially_safe L x) by now apply initially_safe_omask.
      split.
      - intros _. unfold refinement. rewrite (ro_ref1 _ _ _ _ _ _ _ _ _ RO x Hx Eo). lia.
      - intros Hns. exfalso; apply Hns. apply (safe_run _ _ _ _ _ _ _ _ _ HL Hs Hbs Hn RO p Hp). auto. }
    assert (Hni : ~ initially_safe L x) by (rewrite initially_safe_omask; congruence).
    pose proof (safe_run _ _ _ _ _ _ _ _ _ HL Hs Hbs Hn RO p Hp) as SR. fold x in SR.
    destruct (S0_R0 L sh x HI Hx) as (SR1 & SR2).
    unfold refinement. split.
    + intros Hsafe. apply SR in Hsafe as [|[HK|(HE & HS)]]; [tauto| |].
      * pose proof (ro_acc _ _ _ _ _ _ _ _ _ RO p HK) as A. simpl in A. fold x in A.
        specialize (A Eo). destruct A as [(_ & ->)|[(_ & S & [->|(-> & _)])|(_ & _ & R & _)]];
          try lia. auto.
      * unfold x; rewrite (ro_after _ _ _ _ _ _ _ _ _ RO p ltac:(lia) Eo). auto.
    + intros Hns. assert (HKp : K <= p).
      { destruct (Nat.lt_ge_cases p K); auto. exfalso; apply Hns, SR; auto. }
      destruct (Nat.lt_ge_cases p E).
      * apply (ro_rej _ _ _ _ _ _ _ _ _ RO p); auto.
      * unfold x; rewrite (ro_after _ _ _ _ _ _ _ _ _ RO p ltac:(lia) Eo). apply SR2.
        destruct (S0 L sh (nth p order 0)) eqn:ES; auto. exfalso; apply Hns, SR; auto.
Qed.

Lemma invariant_exec L c : invariant L -> call_fits L c ->
  invariant (fst (exec L c)) /\ size (fst (exec L c)) = size L /\
  l_init (fst (exec L c)) = l_init L.
Proof.
  intros HI HF. destruct c as [vals|C sh mr bs order]; simpl in *.
  - split; [|auto]. destruct HI as ([C1 C2 C3] & H2 & H3).
    assert (E : size (update_values L vals) = size L) by auto.
    split; [constructor; rewrite ?E; auto|]. split; [exact H2|].
    rewrite E. exact H3.
  - rewrite effect_consistent by apply HI.
    destruct (update_safe_set L C sh mr bs order) as [L'|e] eqn:EU; simpl.
    + eapply invariant_update; eauto.
    + auto.
Qed.

Lemma invariant_history cs : forall L, invariant L -> history L cs ->
  invariant (exec_all L cs) /\ size (exec_all L cs) = size L /\
  l_init (exec_all L cs) = l_init L.
Proof.
  induction cs as [|c cs IH]; intros L HI HH; simpl in *; [auto|].
  destruct HH as (HF & HH). destruct (invariant_exec L c HI HF) as (A & B & D).
  destruct (IH _ A HH) as (A' & B' & D'). split; auto. split; congruence.
Qed.
