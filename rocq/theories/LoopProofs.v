(** Lemmas about programs that use a [Lyapunov] object. *)
From Coq Require Import Reals List Bool Arith ZArith Lia Lra.
From Verif Require Import Prelude ListFacts GridModel GridSpec SafeModel SafeSpec SafeProofs
  CertModel CertSpec SampleModel LoopModel LoopSpec.
Import ListNotations.
Local Open Scope R_scope.

Section Loop.
  Context {W : Type} (leb : list R -> list R -> bool) (g : grid).
  Notation run := (run leb g).
  Notation step := (step leb g).

  Lemma run_app (st : state W) a b : run st (a ++ b) = run (run st a) b.
  Proof. apply fold_left_app. Qed.
  Lemma run_cons (st : state W) c b : run st (c :: b) = run (fst (step st c)) b.
  Proof. reflexivity. Qed.

  Ltac values := unfold ob_update_values; destruct ob_stuck; cbn; auto.
  Ltac update := unfold ob_update_safe_set; destruct Bool.eqb; cbn; auto; destruct (_ && _); cbn; auto.

  (** A stored graph is kept. *)
  Lemma update_kept cs : forall (st : state W) gr, ob_update (snd st) = Some gr ->
    ob_update (snd (run st cs)) = Some gr.
  Proof.
    induction cs as [|c cs IH]; intros [w o] gr E; [exact E|]. rewrite run_cons. apply IH.
    destruct c; cbn; auto.
    - values.
    - cbn in E. unfold ob_update_safe_set; rewrite E; destruct Bool.eqb; cbn; auto; destruct (_ && _); cbn; auto.
      destruct update_effect; reflexivity.
    - unfold ob_get_safe_sample. destruct sample_call as [[[]|[]] ?]; cbn; auto.
  Qed.
  Lemma sample_kept cs : forall (st : state W) gr, ob_sample (snd st) = Some gr ->
    ob_sample (snd (run st cs)) = Some gr.
  Proof.
    induction cs as [|c cs IH]; intros [w o] gr E; [exact E|]. rewrite run_cons. apply IH.
    destruct c; cbn; auto.
    - values.
    - update. destruct update_effect; exact E.
    - unfold ob_get_safe_sample. cbn in E. rewrite E. destruct sample_call as [[[]|[]] ?]; cbn; auto.
  Qed.
  Lemma update_none cs : forall st : state W, without is_update cs -> ob_update (snd st) = None ->
    ob_update (snd (run st cs)) = None.
  Proof.
    induction cs as [|c cs IH]; intros [w o] H E; [exact E|]. inversion H; subst. rewrite run_cons. apply IH; auto.
    destruct c; cbn; auto.
    - values.
    - exfalso; auto. match goal with H : ~ is_update _ |- _ => apply H; exact I end.
    - unfold ob_get_safe_sample. destruct sample_call as [[[]|[]] ?]; cbn; auto.
  Qed.
  Lemma sample_none cs : forall st : state W, without is_sample cs -> ob_sample (snd st) = None ->
    ob_sample (snd (run st cs)) = None.
  Proof.
    induction cs as [|c cs IH]; intros [w o] H E; [exact E|]. inversion H; subst. rewrite run_cons. apply IH; auto.
    destruct c; cbn; auto.
    - values.
    - update. destruct update_effect; exact E.
    - exfalso. match goal with H : ~ is_sample _ |- _ => apply H; exact I end.
  Qed.

  (** The tensor of [update_values] is kept. *)
  Lemma values_kept cs : forall st : state W, ob_values (snd (run st cs)) = ob_values (snd st).
  Proof.
    induction cs as [|c cs IH]; intros [w o]; [reflexivity|]. rewrite run_cons, IH.
    destruct c; cbn; auto.
    - values.
    - update. destruct update_effect; reflexivity.
    - unfold ob_get_safe_sample. destruct sample_call as [[[]|[]] ?]; reflexivity.
  Qed.

  Lemma effect_fields L C sh mr bs order L' e : update_effect L C sh mr bs order = (L', e) ->
    l_init L' = l_init L /\ l_adaptive L' = l_adaptive L /\ l_vals L' = l_vals L.
  Proof.
    unfold update_effect. destruct verified as [[[s r] c]|]; [|intros [= <- _]; auto].
    destruct assign_opt; [|intros [= <- _]; auto]. destruct assign_opt; intros [= <- _]; auto.
  Qed.
  Lemma update_fields L C sh mr bs order L' : update_safe_set L C sh mr bs order = Ok L' ->
    l_init L' = l_init L /\ l_adaptive L' = l_adaptive L /\ l_vals L' = l_vals L.
  Proof.
    intros H. apply effect_ok in H. eapply effect_fields; exact H.
  Qed.

  (** Only [update_values] changes the values. *)
  Lemma vals_kept cs : forall st : state W, without is_values cs ->
    l_vals (book (run st cs)) = l_vals (book st).
  Proof.
    induction cs as [|c cs IH]; intros [w o] H; [reflexivity|]. inversion H; subst. rewrite run_cons, IH; auto.
    unfold book. destruct c; cbn; auto.
    - exfalso. match goal with H : ~ is_values _ |- _ => apply H; exact I end.
    - update.
      destruct update_effect as [L' e] eqn:E; cbn. apply effect_fields in E. apply E.
    - unfold ob_get_safe_sample. destruct sample_call as [[[]|[]] ?]; reflexivity.
  Qed.

  (** Without assignments the attributes stay. *)
  Lemma attributes_kept cs : forall st : state W, without is_assignment cs ->
    attributes (run st cs) = attributes st /\ l_init (book (run st cs)) = l_init (book st) /\
    l_adaptive (book (run st cs)) = l_adaptive (book st).
  Proof.
    induction cs as [|c cs IH]; intros [w o] H; [auto|]. inversion H; subst. rewrite run_cons.
    destruct (IH (fst (step (w, o) c)) ltac:(auto)) as (-> & -> & ->).
    unfold book, attributes. destruct c; cbn; auto.
    1,2: exfalso; match goal with H : ~ is_assignment _ |- _ => apply H; exact I end.
    - values.
    - update.
      destruct update_effect as [L' e] eqn:E; cbn. apply effect_fields in E. tauto.
    - unfold ob_get_safe_sample. destruct sample_call as [[[]|[]] ?]; cbn; auto.
  Qed.

  (** Without [update_safe_set], safe set, refinement and level stay. *)
  Lemma safe_kept cs : forall st : state W, without is_update cs ->
    l_safe (book (run st cs)) = l_safe (book st) /\ l_cmax (book (run st cs)) = l_cmax (book st).
  Proof.
    induction cs as [|c cs IH]; intros [w o] H; [auto|]. inversion H; subst. rewrite run_cons.
    destruct (IH (fst (step (w, o) c)) ltac:(auto)) as (-> & ->).
    unfold book. destruct c; cbn; auto.
    - values.
    - exfalso; match goal with H : ~ is_update _ |- _ => apply H; exact I end.
    - unfold ob_get_safe_sample. destruct sample_call as [[[]|[]] ?]; cbn; auto.
  Qed.

  (** The arrays keep their length. *)
  Definition sized (L : lyap) : Prop := consistent L /\ size L = length (all_points g).
  Lemma assign_length {A} (a : list A) m x b : assign_opt a m x = Ok b -> length b = length a.
  Proof.
    destruct m as [m|]; cbn; [|now intros [= <-]]. unfold assign_mask.
    destruct (Nat.eqb_spec (length a) (length m)) as [El|]; [|discriminate]. intros [= <-].
    rewrite map2_length. lia.
  Qed.
  Lemma assign_fits {A} (a : list A) m x b : assign_opt a (Some m) x = Ok b -> length m = length a.
  Proof. cbn. unfold assign_mask. destruct (Nat.eqb_spec (length a) (length m)); [auto|discriminate]. Qed.
  Lemma sized_update L C sh mr bs order L' : sized L -> update_safe_set L C sh mr bs order = Ok L' -> sized L'.
  Proof.
    intros ([C1 C2 C3] & HS). rewrite update_safe_set_eq. destruct start_sets; [|discriminate]. cbn [bind].
    destruct verify as [[[s r] [[[i b] rb]|]]|]; cbn [bind]; try discriminate.
    destruct py_nth; [|discriminate]. cbn [bind]. destruct py_nth; [|discriminate]. cbn [bind].
    destruct assign_opt eqn:E1; [|discriminate]. cbn [bind]. destruct (assign_opt (scatter (l_ref L) _ _) _ _) eqn:E2; [|discriminate]. cbn [bind].
    intros [= <-]. apply assign_length in E1, E2. rewrite scatter_length in E1. rewrite scatter_length in E2. rewrite repeat_length in E1.
    split; [|exact HS]. constructor; unfold size in *; cbn; auto; congruence.
  Qed.
  Lemma sized_run cs : forall st : state W, without is_assignment cs -> sized (book st) -> sized (book (run st cs)).
  Proof.
    induction cs as [|c cs IH]; intros [w o] H HS; [auto|]. inversion H; subst. rewrite run_cons.
    apply IH; auto. unfold book in *. destruct c; cbn in HS |- *; auto.
    1,2: exfalso; match goal with H : ~ is_assignment _ |- _ => apply H; exact I end.
    - values. destruct HS as ([C1 C2 C3] & HS). split; [constructor|]; unfold size in *; cbn; rewrite ?map_length; auto;
        try congruence. intros m Hm. rewrite <- HS. auto.
    - update.
      rewrite effect_consistent by apply HS.
      destruct update_safe_set eqn:E; cbn; auto. eapply sized_update; eauto.
    - unfold ob_get_safe_sample. destruct sample_call as [[[]|[]] ?]; cbn; auto.
  Qed.
  Lemma sized_new w0 S0 ini ad (o0 : object W) : new_object g w0 S0 ini ad = Ok o0 -> sized (ob_lyap o0).
  Proof.
    unfold new_object, lyap_init. destruct (assign_opt (repeat false _) _ _) eqn:E1; [|discriminate]. cbn [bind].
    destruct (assign_opt (repeat 0%Z _) _ _) eqn:E2; [|discriminate]. cbn [bind]. intros [= <-].
    pose proof (assign_length _ _ _ _ E1) as A1. pose proof (assign_length _ _ _ _ E2) as A2.
    rewrite repeat_length in A1, A2. cbn. split; [|unfold size; cbn; now rewrite map_length].
    constructor; unfold size; cbn; auto. intros m ->. apply assign_fits in E1. now rewrite repeat_length in E1.
  Qed.

  (** The same without the initial set, for any program. *)
  Definition lengths (L : lyap) : Prop :=
    length (l_safe L) = length (all_points g) /\ length (l_ref L) = length (all_points g) /\
    size L = length (all_points g).
  Lemma effect_lengths L C sh mr bs order L' e :
    lengths L -> update_effect L C sh mr bs order = (L', e) -> lengths L'.
  Proof.
    intros (H1 & H2 & H3). unfold update_effect.
    destruct verified as [[[s r] c]|] eqn:EV; [|intros [= <- _]; now split].
    apply verified_length in EV as (Es & Er).
    destruct (assign_opt s _ _) eqn:E1; [|intros [= <- _]; unfold lengths, size in *; cbn; repeat split; congruence].
    apply assign_length in E1.
    destruct (assign_opt r _ _) eqn:E2;
      [apply assign_length in E2|]; intros [= <- _]; unfold lengths, size in *; cbn; repeat split; congruence.
  Qed.
  Lemma lengths_run cs : forall st : state W, lengths (book st) -> lengths (book (run st cs)).
  Proof.
    induction cs as [|c cs IH]; intros [w o] HS; [auto|]. rewrite run_cons.
    apply IH. unfold book in *. destruct c; cbn in HS |- *; auto.
    - values. destruct HS as (H1 & H2 & H3). unfold lengths, size in *. cbn. rewrite map_length. auto.
    - update.
      destruct update_effect as [L' e] eqn:E; cbn. eapply effect_lengths; eauto.
    - unfold ob_get_safe_sample. destruct sample_call as [[[]|[]] ?]; cbn; auto.
  Qed.
  Lemma lengths_new w0 S0 ini ad (o0 : object W) : new_object g w0 S0 ini ad = Ok o0 -> lengths (ob_lyap o0).
  Proof.
    intros H. apply sized_new in H as ([C1 C2 C3] & H). unfold lengths. rewrite C1, C2. auto.
  Qed.

  (** The graphs of an object whose attributes are not assigned. *)
  Definition graphs_current (S0 : W -> setup) (sf : R) (m : nat) (o : object W) : Prop :=
    ob_setup o = S0 /\
    (forall gr, ob_update o = Some gr ->
       ug_setup gr = S0 /\ ug_factor gr = sf /\ ug_adaptive gr = l_adaptive (ob_lyap o)) /\
    (forall gr, ob_sample o = Some gr -> sg_setup gr = S0 /\ sg_width gr = (ndim g + m)%nat).
  Lemma graphs_run S0 sf m cs : forall st : state W, without is_assignment cs ->
    Forall (uses sf m) cs -> graphs_current S0 sf m (snd st) -> graphs_current S0 sf m (snd (run st cs)).
  Proof.
    induction cs as [|c cs IH]; intros [w o] H U (G1 & G2 & G3); [split; auto|].
    inversion H; subst. inversion U; subst. rewrite run_cons. apply IH; auto.
    cbn in G2, G3. destruct c; cbn.
    - split; auto.
    - exfalso; match goal with H : ~ is_assignment _ |- _ => apply H; exact I end.
    - exfalso; match goal with H : ~ is_assignment _ |- _ => apply H; exact I end.
    - unfold ob_update_values. destruct ob_stuck; split; auto.
    - match goal with H : uses _ _ _ |- _ => cbn in H; subst end.
      unfold ob_update_safe_set. destruct (ob_update o) as [gr|] eqn:EG.
      + destruct (G2 gr eq_refl) as (A1 & A2 & A3). destruct Bool.eqb; cbn.
        * destruct (_ && _); cbn; [split; [auto|]; split; [|auto]; cbn; intros gr' [= <-]; auto|].
          destruct update_effect as [L' e] eqn:E; cbn.
          apply effect_fields in E as (_ & E & _). split; [auto|]. split; [|auto]. cbn.
          intros gr' [= <-]. rewrite E. auto.
        * split; [auto|]. split; [|auto]. cbn. intros gr' [= <-]. auto.
      + cbn. rewrite Bool.eqb_reflx.
        destruct (_ && _); cbn; [split; [auto|]; split; [|auto]; cbn; intros gr' [= <-]; auto|].
        destruct update_effect as [L' e] eqn:E; cbn.
        apply effect_fields in E as (_ & E & _). split; [auto|]. split; [|auto]. cbn.
        intros gr' [= <-]. cbn. auto.
    - match goal with H : uses _ _ _ |- _ => cbn in H; subst end.
      unfold ob_get_safe_sample. destruct (ob_sample o) as [gr|] eqn:EG.
      + destruct sample_call as [[[]|[]] ?]; cbn; (split; [auto|split; [auto|]]); cbn; try rewrite EG; auto.
      + destruct sample_call as [[[]|[]] ?]; cbn; (split; [auto|split; [auto|]]); cbn; try rewrite EG; auto;
          intros gr' [= <-]; cbn; auto.
  Qed.
End Loop.
