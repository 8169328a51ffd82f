(** Property C88: the shared feed dictionary and the stored graphs of
    compute_trajectory. *)
From Coq Require Import Reals List Bool Arith ZArith Lia Lra.
From Verif Require Import Prelude UtilModel GraphModel GraphSpec.
Import ListNotations.
Local Open Scope nat_scope.

(** ** Dictionaries *)
Lemma owner_eq_true a b : owner_eq a b = true <-> a = b.
Proof.
  destruct a, b; cbn; try (split; discriminate).
  - rewrite andb_true_iff, !Nat.eqb_eq. split; [intros (-> & ->); auto|intros [= -> ->]; auto].
  - rewrite Nat.eqb_eq. split; [intros ->; auto|intros [= ->]; auto].
Qed.
Lemma ph_eq_true a b : ph_eq a b = true <-> a = b.
Proof.
  destruct a as [o g w], b as [o' g' w']. unfold ph_eq. cbn.
  rewrite !andb_true_iff, owner_eq_true, !Nat.eqb_eq. split; [intros ((-> & ->) & ->); auto|intros [= -> -> ->]; auto].
Qed.
Lemma ph_eq_refl a : ph_eq a a = true.
Proof. now apply ph_eq_true. Qed.

Definition fitting (gr : nat) (e : placeholder * list R) : Prop :=
  ph_graph (fst e) = gr /\ length (snd e) = ph_width (fst e).
Lemma check_fits gr D : check gr D = None <-> Forall (fitting gr) D.
Proof.
  induction D as [|[q r] D IH]; cbn; [split; auto|].
  destruct (Nat.eqb_spec (ph_graph q) gr) as [E1|E1]; cbn.
  - destruct (Nat.eqb_spec (length r) (ph_width q)) as [E2|E2]; cbn.
    + rewrite IH. split; [intros H; constructor; [split; auto|auto]|intros H; now inversion H].
    + split; [discriminate|]. intros H. exfalso. apply E2. inversion H as [|? ? (_ & H1)]. exact H1.
  - split; [discriminate|]. intros H. exfalso. apply E1. inversion H as [|? ? (H1 & _)]. exact H1.
Qed.
Lemma set_fits gr D ph row : ph_graph ph = gr -> length row = ph_width ph ->
  Forall (fitting gr) D -> Forall (fitting gr) (feed_set D ph row).
Proof.
  intros Hg Hw. induction D as [|[q r] D IH]; cbn; intros H.
  - constructor; [split; auto|constructor].
  - inversion H; subst. destruct (ph_eq q ph) eqn:E; constructor; auto.
    apply ph_eq_true in E. subst q. split; auto.
Qed.
Lemma set_In D ph row : In (ph, row) (feed_set D ph row).
Proof.
  induction D as [|[q r] D IH]; cbn; auto. destruct (ph_eq q ph) eqn:E; cbn; auto.
  apply ph_eq_true in E. subst; auto.
Qed.
Lemma set_keeps D ph row q r : q <> ph -> In (q, r) D -> In (q, r) (feed_set D ph row).
Proof.
  intros N. induction D as [|[q' r'] D IH]; cbn; [auto|]. intros [E|H].
  - injection E as -> ->. destruct (ph_eq q ph) eqn:E; [apply ph_eq_true in E; contradiction|]. left; auto.
  - destruct ph_eq; right; auto.
Qed.
Lemma set_key D ph row : forall q r, In (q, r) (feed_set D ph row) -> (q = ph /\ r = row) \/ In (q, r) D.
Proof.
  induction D as [|[q' r'] D IH]; cbn; intros q r.
  - intros [[= -> ->]|[]]; auto.
  - destruct (ph_eq q' ph) eqn:E.
    + apply ph_eq_true in E. subst. intros [[= -> ->]|H]; auto.
    + intros [[= -> ->]|H]; auto. destruct (IH q r H); auto.
Qed.
Lemma set_twice D ph r1 r2 : feed_set (feed_set D ph r1) ph r2 = feed_set D ph r2.
Proof.
  induction D as [|[q r] D IH]; cbn.
  - now rewrite ph_eq_refl.
  - destruct (ph_eq q ph) eqn:E; cbn; rewrite E; [reflexivity|now rewrite IH].
Qed.

(** The dictionary has an entry that does not fit. *)
Definition bad (gr : nat) (D : dict) : Prop := exists e, In e D /\ ~ fitting gr e.
Lemma bad_check gr D : bad gr D -> exists e, check gr D = Some e.
Proof.
  intros (e & He & N). destruct (check gr D) eqn:E; eauto. exfalso. apply N.
  apply check_fits in E. rewrite Forall_forall in E. auto.
Qed.

Section Graph.
  Context {W : Type}.
  Variable dynamics : W -> nat -> list R -> list R -> list R.
  Variable policies : W -> nat -> list R -> list R.
  Variable output_dim : nat -> nat.
  Variable accepts : nat -> nat -> nat -> bool.
  Notation step := (step W dynamics policies output_dim accepts).
  Notation run := (run W dynamics policies output_dim accepts).
  Notation simulate_in := (simulate_in W dynamics policies output_dim).
  Notation throughout := (throughout dynamics policies output_dim accepts).
  Notation trajectory := (trajectory W dynamics policies output_dim accepts).

  Lemma run_app (P : process W) a b : run P (a ++ b) = run (run P a) b.
  Proof. apply fold_left_app. Qed.
  Lemma run_cons (P : process W) c b : run P (c :: b) = run (fst (step P c)) b.
  Proof. reflexivity. Qed.
  Lemma throughout_app Q P a b : throughout Q P (a ++ b) <-> throughout Q P a /\ throughout Q (run P a) b.
  Proof.
    revert P. induction a as [|c a IH]; intros P; cbn; [tauto|]. rewrite IH. tauto.
  Qed.

  (** *** One simulation *)
  Lemma assign_row_length d row r : assign_row d row = Ok r -> length r = d.
  Proof.
    unfold assign_row. destruct (Nat.eqb_spec (length row) d); [now intros [= <-]|].
    destruct (length row =? 1); [|discriminate]. intros [= <-]. apply repeat_length.
  Qed.
  Lemma simulate_in_fits w gr d p ph n : ph_graph ph = gr -> forall x D, length x = ph_width ph ->
    Forall (fitting gr) (feed_set D ph x) ->
    snd (simulate_in w gr d p ph (ph_width ph) n x D)
      = simulate (dynamics w d) (policies w p) (ph_width ph) (output_dim p) n x /\
    (n <> 0 -> Forall (fitting gr) (fst (simulate_in w gr d p ph (ph_width ph) n x D))).
  Proof.
    intros Hg. induction n as [|n IH]; intros x D Hx HF; [split; [reflexivity|congruence]|].
    cbn [GraphModel.simulate_in simulate]. rewrite (proj2 (check_fits gr _)) by exact HF.
    destruct (assign_row (ph_width ph) _) as [next|] eqn:EN; cbn [bind]; [|split; [reflexivity|intros _; exact HF]].
    destruct (assign_row (output_dim p) _) as [act|]; cbn [bind]; [|split; [reflexivity|intros _; exact HF]].
    pose proof (assign_row_length _ _ _ EN) as HN.
    assert (HF' : Forall (fitting gr) (feed_set (feed_set D ph x) ph next)).
    { now apply set_fits. }
    destruct (IH next (feed_set D ph x) HN HF') as (E1 & E2).
    destruct (simulate_in _ _ _ _ _ _ n next _) as [D' r] eqn:ES. cbn in E1, E2 |- *. rewrite <- E1.
    split; [reflexivity|]. intros _. destruct n; [|apply E2; discriminate].
    cbn in ES. injection ES as <- _. exact HF.
  Qed.
  (** Entries of other keys stay. *)
  Lemma simulate_in_keeps w gr d p ph wd n q r : q <> ph -> forall x D, In (q, r) D ->
    In (q, r) (fst (simulate_in w gr d p ph wd n x D)).
  Proof.
    intros N. induction n as [|n IH]; intros x D H; [exact H|]. cbn [GraphModel.simulate_in].
    pose proof (set_keeps D ph x q r N H) as H'. destruct check; [exact H'|].
    destruct (bind _ _) as [[next act]|]; [|exact H'].
    specialize (IH next _ H'). destruct (simulate_in _ _ _ _ _ _ n next _). exact IH.
  Qed.
  (** With a bad entry of another key the first step raises. *)
  Lemma simulate_in_bad w gr d p ph wd n x D : bad gr (feed_set D ph x) ->
    exists e, check gr (feed_set D ph x) = Some e /\
      simulate_in w gr d p ph wd (S n) x D = (feed_set D ph x, Err e).
  Proof.
    intros H. destruct (bad_check _ _ H) as (e & E). exists e. split; auto.
    cbn [GraphModel.simulate_in]. now rewrite E.
  Qed.

  (** *** Orderly programs *)
  Variables home dim : nat -> nat -> nat.
  Definition pair_ph (d p : nat) : placeholder :=
    {| ph_owner := Pair d p; ph_graph := home d p; ph_width := dim d p |}.
  Definition tidy_in (G : nat -> Prop) (P : process W) : Prop :=
    (forall gr, G gr -> Forall (fitting gr) (pr_dicts P gr)) /\
    (forall d p ph, stored P d p = Some ph -> ph = pair_ph d p).

  Definition tidy := tidy_in (fun _ => True).

  Lemma stored_cons (P : process W) d p ph d' p' dct g0 (w0 : W) :
    stored {| pr_world := w0; pr_graph := g0; pr_dicts := dct;
              pr_store := ((d, p), ph) :: pr_store P |} d' p'
    = if ((d =? d') && (p =? p')) then Some ph else stored P d' p'.
  Proof. unfold stored. cbn. now destruct (_ && _). Qed.

  Lemma tidy_step G P c : tidy_in G P -> orderly accepts home dim P c -> inside G P c ->
    tidy_in G (fst (step P c)) /\ snd (step P c) = expected dynamics policies output_dim P c.
  Proof.
    intros (T1 & T2) HO HI. destruct c as [w|gr|d p x n|k width row]; cbn in HI.
    - split; [split; auto|reflexivity].
    - split; [split; auto|reflexivity].
    - destruct HO as (Hg & Hx & HA). cbn [GraphModel.step expected]. unfold GraphModel.trajectory.
      set (found := match stored P d p with Some ph => _ | None => _ end).
      assert (HF : exists P', found = Ok (P', pair_ph d p) /\ pr_world P' = pr_world P /\
                pr_graph P' = pr_graph P /\ pr_dicts P' = pr_dicts P /\ tidy_in G P').
      { unfold found. destruct (stored P d p) as [ph|] eqn:ES.
        - exists P. rewrite (T2 d p ph ES). repeat split; auto.
        - rewrite HA. eexists. split; [unfold pair_ph; rewrite <- Hg, <- Hx; reflexivity|].
          repeat split; cbn; auto. intros d' p' ph. rewrite stored_cons.
          destruct (_ && _) eqn:E; [|apply T2]. apply andb_true_iff in E as (E1 & E2).
          apply Nat.eqb_eq in E1, E2. subst. intros [= <-]. unfold pair_ph. now rewrite <- Hg, <- Hx. }
      destruct HF as (P' & -> & Ew & Eg & Ed & (T1' & T2')).
      unfold compute_trajectory. destruct (n <=? 0)%Z; [cbn; split; [split; auto|reflexivity]|].
      rewrite Ew, Eg, Ed.
      assert (HF : Forall (fitting (pr_graph P)) (feed_set (pr_dicts P (pr_graph P)) (pair_ph d p) x)).
      { apply set_fits; auto. }
      pose proof (simulate_in_fits (pr_world P) (pr_graph P) d p (pair_ph d p) (Z.to_nat n - 1) (eq_sym Hg) x
                    (pr_dicts P (pr_graph P)) Hx HF) as (E1 & E2). cbn [pair_ph ph_width] in E1, E2.
      rewrite <- Hx in E1, E2.
      destruct (simulate_in _ _ _ _ _ _ _ x _) as [D r] eqn:ES. cbn [fst snd] in E1, E2. rewrite <- E1.
      destruct r as [sa|e]; cbn [bind fst snd]; (split; [|reflexivity]).
      + split; [|exact T2']. intros gr. cbn. rewrite Eg, Ed. destruct (Nat.eqb_spec gr (pr_graph P)) as [->|]; auto.
        destruct (Z.to_nat n - 1); [cbn in ES; injection ES as <- _; auto|intros _; apply E2; discriminate].
      + split; [|exact T2']. intros gr. cbn. rewrite Eg, Ed. destruct (Nat.eqb_spec gr (pr_graph P)) as [->|]; auto.
        destruct (Z.to_nat n - 1); [cbn in ES; injection ES as <- _; auto|intros _; apply E2; discriminate].
    - cbn in HO |- *.
      assert (HF : Forall (fitting (pr_graph P)) (feed_set (pr_dicts P (pr_graph P))
                {| ph_owner := Other k; ph_graph := pr_graph P; ph_width := width |} row)).
      { apply set_fits; auto. }
      rewrite (proj2 (check_fits _ _)) by exact HF. split; [|reflexivity]. split; [|exact T2].
      intros gr. cbn. destruct (Nat.eqb_spec gr (pr_graph P)) as [->|]; auto.
  Qed.
  Lemma tidy_in_run G cs : forall P, tidy_in G P ->
    throughout (fun P c => orderly accepts home dim P c /\ inside G P c) P cs ->
    tidy_in G (run P cs) /\ throughout (fun P c => snd (step P c) = expected dynamics policies output_dim P c) P cs.
  Proof.
    induction cs as [|c cs IH]; intros P HT HO; [split; [exact HT|exact I]|].
    destruct HO as ((H1 & H3) & H2). destruct (tidy_step G P c HT H1 H3) as (A & B).
    destruct (IH _ A H2) as (C & D). split; [exact C|split; [exact B|exact D]].
  Qed.
  Lemma throughout_impl (Q Q' : process W -> command W -> Prop) cs : (forall P c, Q P c -> Q' P c) -> forall P,
    throughout Q P cs -> throughout Q' P cs.
  Proof. intros H. induction cs as [|c cs IH]; intros P; [auto|]. intros (A & B). split; auto. Qed.
  Lemma inside_all (P : process W) c : inside (fun _ => True) P c.
  Proof. now destruct c. Qed.
  Lemma tidy_run cs P : tidy P -> throughout (orderly accepts home dim) P cs ->
    tidy (run P cs) /\ throughout (fun P c => snd (step P c) = expected dynamics policies output_dim P c) P cs.
  Proof.
    intros HT H. apply tidy_in_run; auto. revert H. apply throughout_impl. intros Q c Hc. split; [exact Hc|apply inside_all].
  Qed.
  Lemma tidy_start w gr : tidy (start w gr).
  Proof. split; [constructor|discriminate]. Qed.

  (** *** Stored pairs *)
  Lemma step_stored P c d p ph : stored P d p = Some ph -> stored (fst (step P c)) d p = Some ph.
  Proof.
    intros H. destruct c as [w|gr|d' p' x n|k width row]; cbn; auto.
    unfold GraphModel.trajectory. destruct (stored P d' p') as [ph'|] eqn:E.
    - destruct (n <=? 0)%Z; cbn; auto. destruct (simulate_in _ _ _ _ _ _ _ _ _). cbn. exact H.
    - destruct accepts; [|exact H].
      assert (K : forall dct g0 (w0 : W), stored {| pr_world := w0; pr_graph := g0; pr_dicts := dct;
              pr_store := ((d', p'), {| ph_owner := Pair d' p'; ph_graph := pr_graph P; ph_width := length x |}) :: pr_store P |}
              d p = Some ph).
      { intros. rewrite stored_cons. destruct (_ && _) eqn:EE; auto. apply andb_true_iff in EE as (E1 & E2).
        apply Nat.eqb_eq in E1, E2. subst. congruence. }
      destruct (n <=? 0)%Z; cbn; [apply K|]. destruct (simulate_in _ _ _ _ _ _ _ _ _). cbn. apply K.
  Qed.
  Lemma run_stored cs : forall P d p ph, stored P d p = Some ph -> stored (run P cs) d p = Some ph.
  Proof. induction cs as [|c cs IH]; intros P d p ph H; [exact H|]. rewrite run_cons. now apply IH, step_stored. Qed.

  (** A pair that was used in an orderly program is stored. *)
  Lemma used_stored P d p x n : orderly accepts home dim P (Trajectory d p x n) -> tidy P ->
    stored (fst (step P (Trajectory d p x n))) d p = Some (pair_ph d p).
  Proof.
    intros (Hg & Hx & HA) (_ & T2). cbn. unfold GraphModel.trajectory.
    destruct (stored P d p) as [ph|] eqn:E.
    - pose proof (T2 _ _ _ E) as ->. destruct (n <=? 0)%Z; cbn; auto.
      destruct (simulate_in _ _ _ _ _ _ _ _ _). cbn. exact E.
    - rewrite HA. assert (K : forall dct g0 (w0 : W), stored {| pr_world := w0; pr_graph := g0; pr_dicts := dct;
              pr_store := ((d, p), {| ph_owner := Pair d p; ph_graph := pr_graph P; ph_width := length x |}) :: pr_store P |}
              d p = Some (pair_ph d p)).
      { intros. rewrite stored_cons, !Nat.eqb_refl. cbn. unfold pair_ph. now rewrite Hg, Hx. }
      destruct (n <=? 0)%Z; cbn; [apply K|]. destruct (simulate_in _ _ _ _ _ _ _ _ _). cbn. apply K.
  Qed.
  Lemma used_run cs : forall P d p x n, tidy P -> throughout (orderly accepts home dim) P cs ->
    In (Trajectory d p x n) cs -> stored (run P cs) d p = Some (pair_ph d p) /\ length x = dim d p.
  Proof.
    induction cs as [|c cs IH]; intros P d p x n HT HH HI; [destruct HI|]. destruct HH as (H1 & H2).
    rewrite run_cons. destruct HI as [->|HI].
    - split; [apply run_stored, used_stored; auto|apply H1].
    - apply (IH _ d p x n); auto. apply tidy_step; auto. apply inside_all.
  Qed.

  (** *** Placeholders belong to their pair *)
  Definition owned (P : process W) : Prop := forall d p ph, stored P d p = Some ph -> ph_owner ph = Pair d p.
  Lemma owned_start w gr : owned (start w gr).
  Proof. discriminate. Qed.

  (** What the first part of a call of [compute_trajectory] finds. *)
  Definition found (P : process W) (d p k : nat) : option placeholder :=
    match stored P d p with
    | Some ph => Some ph
    | None => if accepts d p k
              then Some {| ph_owner := Pair d p; ph_graph := pr_graph P; ph_width := k |} else None
    end.
  Lemma trajectory_cases P d p x n : (1 <= n)%Z ->
    match found P d p (length x) with
    | None => trajectory P d p x n = (P, Err ValueError)
    | Some ph => exists P', stored P' d p = Some ph /\
        pr_graph P' = pr_graph P /\ pr_world P' = pr_world P /\
        (forall d' p', d' <> d \/ p' <> p -> stored P' d' p' = stored P d' p') /\
        pr_dicts P' = (fun gr => if gr =? pr_graph P
            then fst (simulate_in (pr_world P) (pr_graph P) d p ph (length x) (Z.to_nat n - 1) x (pr_dicts P (pr_graph P)))
            else pr_dicts P gr) /\
        trajectory P d p x n = (P',
          do sa <- snd (simulate_in (pr_world P) (pr_graph P) d p ph (length x) (Z.to_nat n - 1) x (pr_dicts P (pr_graph P)));
          Ok (x :: fst sa, snd sa))
    end.
  Proof.
    intros Hn. unfold found, GraphModel.trajectory. destruct (stored P d p) as [ph|] eqn:ES.
    - destruct (n <=? 0)%Z eqn:E0; [lia|]. destruct (simulate_in _ _ _ _ _ _ _ x _) as [D r]. cbn [fst snd].
      eexists. split; [|split; [|split; [|split; [|split; [|reflexivity]]]]]; cbn; auto.
    - destruct accepts; [|reflexivity]. destruct (n <=? 0)%Z eqn:E0; [lia|]. cbn [pr_world pr_graph pr_dicts].
      destruct (simulate_in _ _ _ _ _ _ _ x _) as [D r]. cbn [fst snd].
      eexists. split; [|split; [|split; [|split; [|split; [|reflexivity]]]]]; cbn; auto.
      + unfold stored. cbn. now rewrite !Nat.eqb_refl.
      + intros d' p' N. unfold stored. cbn.
        destruct (Nat.eqb_spec d d'), (Nat.eqb_spec p p'); cbn; auto. subst. destruct N; contradiction.
  Qed.
  Lemma owned_step P c : owned P -> owned (fst (step P c)).
  Proof.
    intros HO. destruct c as [w|gr|d p x n|k width row]; try exact HO.
    cbn. destruct (Z_le_gt_dec 1 n) as [Hn|Hn].
    - pose proof (trajectory_cases P d p x n Hn) as H. destruct (found P d p (length x)) as [ph|] eqn:EF.
      + destruct H as (P' & H1 & _ & _ & H2 & _ & H3). rewrite H3. cbn. intros d' p' ph' H'.
        destruct (Nat.eq_dec d' d) as [->|N]; [destruct (Nat.eq_dec p' p) as [->|N]|].
        * rewrite H1 in H'. injection H' as <-. unfold found in EF. destruct (stored P d p) eqn:ES.
          -- injection EF as ->. now apply HO.
          -- destruct accepts; [injection EF as <-; reflexivity|discriminate].
        * rewrite H2 in H' by auto. now apply HO.
        * rewrite H2 in H' by auto. now apply HO.
      + rewrite H. exact HO.
    - unfold GraphModel.trajectory. destruct (n <=? 0)%Z eqn:E0; [|lia].
      destruct (stored P d p) as [ph|] eqn:ES; [exact HO|]. destruct accepts; [|exact HO]. cbn.
      intros d' p' ph'. rewrite stored_cons. destruct (_ && _) eqn:E; [|apply HO].
      apply andb_true_iff in E as (E1 & E2). apply Nat.eqb_eq in E1, E2. subst. now intros [= <-].
  Qed.
  Lemma owned_run cs : forall P, owned P -> owned (run P cs).
  Proof. induction cs as [|c cs IH]; intros P H; [exact H|]. rewrite run_cons. now apply IH, owned_step. Qed.

  (** *** Bad entries *)
  (** The dictionary of graph [gr] has an entry of key [q] that does not fit. *)
  Definition broken (gr : nat) (q : placeholder) (P : process W) : Prop :=
    exists r, In (q, r) (pr_dicts P gr) /\ ~ fitting gr (q, r).
  (** A call that could repair it. *)
  Definition repairs (gr : nat) (q : placeholder) (c : command W) : Prop :=
    match c with
    | Trajectory d p x _ => ph_owner q = Pair d p /\ ph_graph q = gr /\ length x = ph_width q
    | Evaluate k width row => ph_owner q = Other k
    | _ => False
    end.
  (** An array written for key [q] that still does not fit. *)
  Lemma set_broken gr q D row r : In (q, r) D -> ~ fitting gr (q, r) ->
    forall ph, (ph = q -> ~ fitting gr (q, row)) ->
    exists r', In (q, r') (feed_set D ph row) /\ ~ fitting gr (q, r').
  Proof.
    intros H1 H2 ph H3. destruct (ph_eq q ph) eqn:E.
    - apply ph_eq_true in E. subst ph. exists row. split; [apply set_In|auto].
    - exists r. split; [|exact H2]. apply set_keeps; auto. intros ->. rewrite ph_eq_refl in E. discriminate.
  Qed.
  Lemma broken_step gr q P c : owned P -> broken gr q P -> (pr_graph P = gr -> ~ repairs gr q c) ->
    broken gr q (fst (step P c)) /\
    (pr_graph P = gr -> evaluation c -> exists e, snd (step P c) = Raised e).
  Proof.
    intros HO (r & Hr & Hb) HR. destruct c as [w|g|d p x n|k width row].
    - split; [exists r; auto|intros _ []].
    - split; [exists r; auto|intros _ []].
    - cbn [GraphModel.step evaluation]. destruct (Z_le_gt_dec 1 n) as [Hn|Hn].
      + pose proof (trajectory_cases P d p x n Hn) as H. destruct (found P d p (length x)) as [ph|] eqn:EF.
        * destruct H as (P' & _ & _ & _ & _ & HD & HT). rewrite HT. cbn [fst snd].
          assert (HW : ph_owner ph = Pair d p).
          { unfold found in EF. destruct (stored P d p) eqn:ES; [injection EF as ->; now apply HO|].
            destruct accepts; [injection EF as <-; reflexivity|discriminate]. }
          destruct (Nat.eq_dec (pr_graph P) gr) as [Eg|Ng].
          2: { split; [|intros; contradiction]. exists r. split; auto. rewrite HD.
               destruct (Nat.eqb_spec gr (pr_graph P)); [congruence|auto]. }
          destruct (Z.to_nat n - 1) as [|m] eqn:EM.
          { cbn in HD. split; [|lia]. exists r. split; auto. rewrite HD. now destruct (gr =? pr_graph P) eqn:E; [apply Nat.eqb_eq in E; rewrite <- E|]. }
          destruct (set_broken gr q (pr_dicts P gr) x r Hr Hb ph) as (r' & Hr' & Hb').
          { intros ->. intros (F1 & F2). cbn in F1, F2. apply (HR Eg). cbn. auto. }
          destruct (simulate_in_bad (pr_world P) gr d p ph (length x) m x (pr_dicts P gr)) as (e & Ee & ES).
          { exists (q, r'). auto. }
          rewrite Eg in HD |- *. rewrite ES in HD |- *. cbn [fst snd bind] in HD |- *.
          split; [|eauto]. exists r'. split; auto. rewrite HD, Nat.eqb_refl. exact Hr'.
        * rewrite H. cbn. split; [exists r; auto|eauto].
      + split; [|lia]. unfold GraphModel.trajectory. destruct (n <=? 0)%Z eqn:E0; [|lia].
        destruct (stored P d p) as [ph|] eqn:ES; [exists r; auto|]. destruct accepts; exists r; auto.
    - cbn. destruct (Nat.eq_dec (pr_graph P) gr) as [Eg|Ng].
      + destruct (set_broken gr q (pr_dicts P gr) row r Hr Hb
            {| ph_owner := Other k; ph_graph := gr; ph_width := width |}) as (r' & Hr' & Hb').
        { intros <-. exfalso. apply (HR Eg). reflexivity. }
        split.
        * exists r'. split; auto. cbn. rewrite <- Eg, Nat.eqb_refl, Eg. exact Hr'.
        * intros _ _. rewrite Eg. destruct (bad_check gr _ (ex_intro _ (q, r') (conj Hr' Hb'))) as (e & ->). eauto.
      + split; [|intros; contradiction]. exists r. split; auto. cbn. destruct (Nat.eqb_spec gr (pr_graph P)); [congruence|auto].
  Qed.
  Lemma broken_run gr q cs : forall P, owned P -> broken gr q P ->
    throughout (fun P c => pr_graph P = gr -> ~ repairs gr q c) P cs ->
    broken gr q (run P cs) /\
    throughout (fun P c => pr_graph P = gr -> evaluation c -> exists e, snd (step P c) = Raised e) P cs.
  Proof.
    induction cs as [|c cs IH]; intros P HO HB HT; [split; [exact HB|exact I]|].
    destruct HT as (H1 & H2). destruct (broken_step gr q P c HO HB H1) as (A & B).
    destruct (IH _ (owned_step P c HO) A H2) as (C & D). split; [exact C|split; [exact B|exact D]].
  Qed.
  Lemma throughout_all (Q : process W -> command W -> Prop) (K : command W -> Prop) cs :
    (forall P c, K c -> Q P c) -> Forall K cs -> forall P, throughout Q P cs.
  Proof. intros H HF. induction HF as [|c cs Hc _ IH]; intros P; [exact I|]. split; auto. Qed.

  (** ** C88 *)
  (** In an orderly program every call returns what it would return in a new
      process. *)
  Theorem C88_orderly w gr cs : throughout (orderly accepts home dim) (start w gr) cs ->
    throughout (fun P c => snd (step P c) = expected dynamics policies output_dim P c) (start w gr) cs.
  Proof. intros H. now apply (tidy_run cs (start w gr) (tidy_start w gr) H). Qed.

  (** What the wrong call writes. *)
  Lemma wrong_call P d p ph x n : tidy P -> stored P d p = Some ph -> ~ fitting (pr_graph P) (ph, x) -> (2 <= n)%Z ->
    (exists e, snd (step P (Trajectory d p x n)) = Raised e /\
       e = if ph_graph ph =? pr_graph P then ValueError else TypeError) /\
    pr_graph (fst (step P (Trajectory d p x n))) = pr_graph P /\
    pr_world (fst (step P (Trajectory d p x n))) = pr_world P /\
    (forall d' p', stored (fst (step P (Trajectory d p x n))) d' p' = stored P d' p') /\
    (forall g, pr_dicts (fst (step P (Trajectory d p x n))) g =
       if g =? pr_graph P then feed_set (pr_dicts P (pr_graph P)) ph x else pr_dicts P g).
  Proof.
    intros (T1 & T2) HS HF Hn. cbn [GraphModel.step].
    pose proof (trajectory_cases P d p x n ltac:(lia)) as H. unfold found in H. rewrite HS in H.
    destruct H as (P' & H1 & H2 & H3 & H4 & H5 & H6). rewrite H6. cbn [fst snd].
    destruct (Z.to_nat n - 1) as [|m] eqn:EM; [lia|].
    destruct (simulate_in_bad (pr_world P) (pr_graph P) d p ph (length x) m x (pr_dicts P (pr_graph P))) as (e & Ee & ES).
    { exists (ph, x). split; [apply set_In|exact HF]. }
    rewrite ES in H5 |- *. cbn [fst snd bind] in H5 |- *.
    split; [|split; [exact H2|split; [exact H3|split]]].
    - exists e. split; [reflexivity|]. clear - Ee T1 HF.
      specialize (T1 (pr_graph P) I). revert Ee. induction T1 as [|[q r] D (F1 & F2) _ IH]; cbn.
      + destruct (Nat.eqb_spec (ph_graph ph) (pr_graph P)); cbn; [|now intros [= <-]].
        destruct (Nat.eqb_spec (length x) (ph_width ph)); cbn; [|now intros [= <-]]. discriminate.
      + cbn in F1, F2. destruct (ph_eq q ph) eqn:E; cbn.
        * apply ph_eq_true in E. subst q. rewrite F1, Nat.eqb_refl. cbn.
          destruct (Nat.eqb_spec (length x) (ph_width ph)); cbn; [|now intros [= <-]].
          exfalso. apply HF. split; auto.
        * rewrite F1, F2, !Nat.eqb_refl. cbn. exact IH.
    - intros d' p'. destruct (Nat.eq_dec d' d) as [->|]; [|auto]. destruct (Nat.eq_dec p' p) as [->|]; [|auto]. congruence.
    - intros g. rewrite H5. reflexivity.
  Qed.

  Section Wrong.
    Variables (w : W) (gr0 : nat) (before : list (command W)) (d p : nat) (x0 : list R) (n0 : Z).
    Let P := run (start w gr0) before.
    Hypothesis Hbefore : throughout (orderly accepts home dim) (start w gr0) before.
    Hypothesis Hused : In (Trajectory d p x0 n0) before.

    Lemma P_tidy : tidy P.
    Proof. apply (tidy_run before (start w gr0) (tidy_start w gr0) Hbefore). Qed.
    Lemma P_owned : owned P.
    Proof. apply owned_run, owned_start. Qed.
    Lemma P_stored : stored P d p = Some (pair_ph d p) /\ length x0 = dim d p.
    Proof. apply (used_run before _ d p x0 n0 (tidy_start w gr0) Hbefore Hused). Qed.

    (** A state of another dimension is a ValueError... *)
    Theorem C88_other_dimension x n : pr_graph P = home d p -> length x <> dim d p -> (2 <= n)%Z ->
      snd (step P (Trajectory d p x n)) = Raised ValueError /\
      (** ... after which every evaluation in this graph fails ... *)
      (forall after, without (calls d p (dim d p)) after ->
         throughout (fun Q c => pr_graph Q = home d p -> evaluation c -> exists e, snd (step Q c) = Raised e)
           (fst (step P (Trajectory d p x n))) after) /\
      (** ... until [compute_trajectory] is called for this pair with a state of the
          right dimension. *)
      (forall y m rest, length y = dim d p -> (2 <= m)%Z ->
         throughout (orderly accepts home dim) (run P [Trajectory d p x n; Trajectory d p y m]) rest ->
         throughout (fun Q c => snd (step Q c) = expected dynamics policies output_dim Q c)
           (fst (step P (Trajectory d p x n))) (Trajectory d p y m :: rest)).
    Proof.
      intros Hg Hx Hn. destruct P_stored as (HS & _).
      destruct (wrong_call P d p (pair_ph d p) x n P_tidy HS) as ((e & E1 & E2) & A1 & A2 & A3 & A4); auto.
      { intros (_ & F). cbn in F. contradiction. }
      cbn [pair_ph ph_graph] in E2. rewrite Hg, Nat.eqb_refl in E2. subst e.
      split; [exact E1|]. split.
      - intros after HA. apply (broken_run (home d p) (pair_ph d p) after).
        + apply owned_step, P_owned.
        + exists x. rewrite A4, Hg, Nat.eqb_refl. split; [apply set_In|]. intros (_ & F). cbn in F. contradiction.
        + refine (throughout_all _ _ _ _ HA _). intros Q c H _ HR. apply H.
          destruct c as [?|?|d' p' y m|? ? ?]; cbn in HR |- *; try contradiction.
          * destruct HR as ([= -> ->] & _ & ->). auto.
          * discriminate.
      - intros y m rest Hy Hm HR. set (Q := fst (step P (Trajectory d p x n))) in *.
        assert (KQ : forall g, pr_dicts Q g = if g =? pr_graph P then feed_set (pr_dicts P (pr_graph P)) (pair_ph d p) x
            else pr_dicts P g) by exact A4.
        pose proof (trajectory_cases Q d p y m ltac:(lia)) as HT. unfold found in HT.
        rewrite (A3 d p), HS in HT. destruct HT as (Q' & B1 & B2 & B3 & B4 & B5 & B6).
        rewrite A1, A2 in B5, B6. rewrite A1 in B2. rewrite A2 in B3.
        assert (HF : Forall (fitting (pr_graph P)) (feed_set (pr_dicts Q (pr_graph P)) (pair_ph d p) y)).
        { rewrite KQ, Nat.eqb_refl, set_twice. apply set_fits; auto. apply P_tidy; exact I. }
        destruct (simulate_in_fits (pr_world P) (pr_graph P) d p (pair_ph d p) (Z.to_nat m - 1)
           (eq_sym Hg) y (pr_dicts Q (pr_graph P)) Hy HF) as (C1 & C2). cbn [pair_ph ph_width] in C1, C2.
        rewrite <- Hy in C1, C2.
        assert (HQ : tidy Q').
        { split.
          - intros g _. rewrite B5. destruct (Nat.eqb_spec g (pr_graph P)) as [->|Ng]; [apply C2; lia|].
            rewrite KQ. destruct (Nat.eqb_spec g (pr_graph P)); [contradiction|]. apply P_tidy; exact I.
          - intros d' p' ph. destruct (Nat.eq_dec d' d) as [->|N]; [destruct (Nat.eq_dec p' p) as [->|N]|].
            + rewrite B1. now intros [= <-].
            + rewrite B4, A3 by auto. apply P_tidy.
            + rewrite B4, A3 by auto. apply P_tidy. }
        assert (ES : fst (step Q (Trajectory d p y m)) = Q') by (cbn; now rewrite B6).
        split.
        + cbn [GraphModel.step expected]. rewrite B6. unfold compute_trajectory. destruct (m <=? 0)%Z eqn:E0; [lia|].
          rewrite A2, C1. cbn [fst snd]. now destruct (simulate _ _ _ _ _ y).
        + apply tidy_run.
          * rewrite ES. exact HQ.
          * exact HR.
    Qed.

    (** A call in a session of another graph is a TypeError... *)
    Theorem C88_other_graph x n : pr_graph P <> home d p -> (2 <= n)%Z ->
      snd (step P (Trajectory d p x n)) = Raised TypeError /\
      (** ... after which every evaluation in that graph fails for ever ... *)
      (forall after, throughout (fun Q c => pr_graph Q = pr_graph P -> evaluation c -> exists e, snd (step Q c) = Raised e)
         (fst (step P (Trajectory d p x n))) after) /\
      (** ... while evaluations in other graphs are not affected. *)
      (forall after, throughout (fun Q c => orderly accepts home dim Q c /\ inside (fun g => g <> pr_graph P) Q c)
           (fst (step P (Trajectory d p x n))) after ->
         throughout (fun Q c => snd (step Q c) = expected dynamics policies output_dim Q c)
           (fst (step P (Trajectory d p x n))) after).
    Proof.
      intros Hg Hn. destruct P_stored as (HS & _).
      destruct (wrong_call P d p (pair_ph d p) x n P_tidy HS) as ((e & E1 & E2) & A1 & A2 & A3 & A4); auto.
      { intros (F & _). cbn in F. congruence. }
      cbn [pair_ph ph_graph] in E2. destruct (Nat.eqb_spec (home d p) (pr_graph P)) as [E|_]; [congruence|]. subst e.
      split; [exact E1|]. split.
      - intros after. apply (broken_run (pr_graph P) (pair_ph d p) after).
        + apply owned_step, P_owned.
        + exists x. rewrite A4, Nat.eqb_refl. split; [apply set_In|]. intros (F & _). cbn in F. congruence.
        + apply (throughout_all _ (fun _ => True)); [|now apply Forall_forall].
          intros Q c _ _ HR. destruct c as [?|?|d' p' y m|? ? ?]; cbn in HR; try contradiction.
          * destruct HR as (_ & F & _). congruence.
          * discriminate.
      - intros after HA. apply (tidy_in_run (fun g => g <> pr_graph P) after); [|exact HA]. split.
        + intros g Ng. rewrite A4. destruct (Nat.eqb_spec g (pr_graph P)); [contradiction|]. now apply P_tidy.
        + intros d' p' ph. rewrite A3. apply P_tidy.
    Qed.

    (** With one state, nothing is evaluated. *)
    Theorem C88_one_state x : snd (step P (Trajectory d p x 1)) = Returned [x] [] /\
      (forall after, throughout (orderly accepts home dim) (fst (step P (Trajectory d p x 1))) after ->
         throughout (fun Q c => snd (step Q c) = expected dynamics policies output_dim Q c)
           (fst (step P (Trajectory d p x 1))) after).
    Proof.
      destruct P_stored as (HS & _). pose proof (trajectory_cases P d p x 1 ltac:(lia)) as H. unfold found in H.
      rewrite HS in H. destruct H as (P' & H1 & H2 & H3 & H4 & H5 & H6). cbn [GraphModel.step]. rewrite H6.
      split; [reflexivity|]. intros after HA. apply tidy_run; [|exact HA]. cbn [fst]. cbn in H5. split.
      - intros g _. rewrite H5. destruct (Nat.eqb_spec g (pr_graph P)) as [->|]; apply P_tidy; exact I.
      - intros d' p' ph. destruct (Nat.eq_dec d' d) as [->|N]; [destruct (Nat.eq_dec p' p) as [->|N]|].
        + rewrite H1. now intros [= <-].
        + rewrite H4 by auto. apply P_tidy.
        + rewrite H4 by auto. apply P_tidy.
    Qed.
  End Wrong.
End Graph.

(** ** A double integrator in which all functions agree with each other *)
Section Example.
  Local Open Scope R_scope.
  (** The world is a gain; dynamics 0 adds the action to every coordinate; policy 0
      has one output, the gain times the first coordinate. *)
  Definition ex_dyn (w : R) (d : nat) (x a : list R) : list R := map (fun xi => xi + nth 0 a 0) x.
  Definition ex_pol (w : R) (p : nat) (x : list R) : list R := [w * nth 0 x 0].
  Definition ex_out (p : nat) : nat := 1%nat.
  Definition ex_acc (d p n : nat) : bool := (1 <=? n)%nat.
  Notation ex_step := (step R ex_dyn ex_pol ex_out ex_acc).
  Notation ex_run := (run R ex_dyn ex_pol ex_out ex_acc).
  Definition ex_before : list (command R) := [Evaluate 0 3 [1; 2; 3]; Trajectory 0 0 [1; 0] 3; SetVariables 2].

  (** The hypotheses of the theorems hold, and the outcomes are not trivial. *)
  Example C88_orderly_ex :
    throughout ex_dyn ex_pol ex_out ex_acc (orderly ex_acc (fun _ _ => 7%nat) (fun _ _ => 2%nat))
      (start 1 7) (ex_before ++ [Trajectory 0 0 [1; 0] 3]) /\
    snd (ex_step (ex_run (start 1 7) ex_before) (Trajectory 0 0 [1; 0] 3))
      = Returned [[1; 0]; [3; 2]; [9; 8]] [[2]; [6]].
  Proof.
    split; [cbn; repeat split|]. lazy -[Rplus Rmult IZR]. repeat f_equal; lra.
  Qed.

  (** A call that is valid by itself and fails because of an earlier call ... *)
  Theorem C88_independent_calls_refuted :
    exists (cs : list (command R)) c,
      (exists s a, snd (ex_step (start 1 7%nat) c) = Returned s a) /\
      snd (ex_step (ex_run (start 1 7%nat) cs) c) = Raised ValueError.
  Proof.
    exists [Trajectory 0 0 [1] 3], (Trajectory 0 0 [1; 0] 3). split; [eexists; eexists; reflexivity|reflexivity].
  Qed.
  (** ... and makes the evaluations of other objects fail. *)
  Theorem C88_other_objects_refuted :
    exists (cs : list (command R)) c,
      snd (ex_step (start 1 7%nat) c) = Done /\ snd (ex_step (ex_run (start 1 7%nat) cs) c) = Raised TypeError.
  Proof.
    exists [Trajectory 0 0 [1; 0] 3; EnterSession 8; Trajectory 0 0 [1; 0] 3], (Evaluate 0 1 [5]).
    split; reflexivity.
  Qed.
  (** Both theorems about wrong calls have instances. *)
  Example C88_wrong_ex :
    snd (ex_step (ex_run (start 1 7) ex_before) (Trajectory 0 0 [1; 0; 0] 2)) = Raised ValueError /\
    snd (ex_step (ex_run (start 1 7) (ex_before ++ [EnterSession 8])) (Trajectory 0 0 [1; 0] 2)) = Raised TypeError.
  Proof.
    split.
    - refine (proj1 (C88_other_dimension ex_dyn ex_pol ex_out ex_acc (fun _ _ => 7%nat) (fun _ _ => 2%nat)
         1 7 ex_before 0 0 [1; 0] 3 _ _ [1; 0; 0] 2 _ _ _)).
      + cbn; repeat split.
      + cbn; auto.
      + reflexivity.
      + discriminate.
      + lia.
    - refine (proj1 (C88_other_graph ex_dyn ex_pol ex_out ex_acc (fun _ _ => 7%nat) (fun _ _ => 2%nat)
         1 7 (ex_before ++ [EnterSession 8]) 0 0 [1; 0] 3 _ _ [1; 0] 2 _ _)).
      + cbn; repeat split.
      + cbn; auto.
      + discriminate.
      + lia.
  Qed.
End Example.
