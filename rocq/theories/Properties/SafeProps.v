(** Properties C15-C19 and C23 (set part): the safe set computed by
    [Lyapunov.update_safe_set]. *)
From Coq Require Import Reals List Bool Arith ZArith Lia Lra Permutation.
From Verif Require Import Prelude ListFacts SafeModel SafeSpec SafeProofs SafeProofs2.
Import ListNotations.

(** ** A concrete object: four grid states with values 2, 0, 1, 3. *)

Definition vals4 : list R := [2; 0; 1; 3]%R.
Definition order4 : list nat := [1; 2; 0; 3].
Definition only (l : list nat) : cert :=
  {| neg := fun x => existsb (Nat.eqb x) l; nreq := fun _ => 0%Z;
     passes := fun _ _ _ => false |}.
Definition L4 (ini : option (list bool)) : lyap :=
  {| l_init := ini; l_adaptive := false; l_vals := vals4;
     l_safe := match ini with Some m => m | None => [false; false; false; false] end;
     l_ref := match ini with
              | Some m => map (fun b : bool => if b then 1%Z else 0%Z) m
              | None => [0; 0; 0; 0]%Z end;
     l_cmax := 0%R |}.
Definition init3 : option (list bool) := Some [false; false; false; true].

Lemma order4_sorts : sorts vals4 order4.
Proof.
  split.
  - unfold order4, vals4; simpl.
    apply Permutation_trans with [1; 0; 2; 3]; repeat constructor.
  - intros p q Hpq Hq. unfold vals4, order4 in *; simpl in Hq.
    assert (Hc : (p = 0 \/ p = 1 \/ p = 2) /\ (q = 1 \/ q = 2 \/ q = 3)) by lia.
    destruct Hc as ([->|[->| ->]] & [->|[->| ->]]); simpl; try lia; lra.
Qed.

Lemma L4_init ini : (forall m, ini = Some m -> length m = 4) ->
  lyap_init vals4 ini false = Ok (L4 ini).
Proof.
  intros H. destruct ini as [m|]; [|reflexivity].
  specialize (H m eq_refl).
  destruct m as [|a [|b [|c [|d [|]]]]]; try discriminate.
  destruct a, b, c, d; reflexivity.
Qed.

Lemma L4_consistent ini : (forall m, ini = Some m -> length m = 4) -> consistent (L4 ini).
Proof. intros H. apply L4_init in H. now apply invariant_init in H as ((A & _) & _). Qed.

(** ** C15: the certified prefix *)

(** Without refinement and with [can_shrink=True], the call succeeds and a grid
    state is safe iff it is in the initial set, or it and all states before it
    in the order are certified or initially safe. *)
Theorem C15_certified_prefix : forall L C mr bs order,
  consistent L -> sorts (l_vals L) order -> 0 < size L -> 0 < bs ->
  l_adaptive L = false \/ (mr <= 1)%Z ->
  exists L', update_safe_set L C true mr bs order = Ok L' /\
    forall x, x < size L ->
      (safe L' x <->
       initially_safe L x \/
       exists p, at_position order p x /\
         forall q y, q <= p -> at_position order q y ->
           neg C y = true \/ initially_safe L y).
Proof.
  intros L C mr bs order HL Hs Hn Hbs Hact.
  assert (Ha : l_adaptive L && (1 <? mr)%Z = false).
  { destruct Hact as [->|H]; auto. apply andb_false_iff; right. now apply Z.ltb_ge. }
  destruct (update_safe_set_total L C true mr bs order HL Hs Hbs Hn (or_introl Ha))
    as (L' & EU).
  exists L'. split; auto.
  destruct (update_run _ _ _ _ _ _ _ HL Hs EU) as (_ & _ & K & E & RO).
  pose proof (order_length L order Hs) as OL.
  assert (G : forall y, good L C true y <-> neg C y = true \/ initially_safe L y).
  { intros y. unfold good. rewrite S0_init_shrink, initially_safe_omask. tauto. }
  intros x Hx. destruct (order_onto L order Hs x Hx) as (p & Hp & <-).
  rewrite (safe_run _ _ _ _ _ _ _ _ _ HL Hs Hbs Hn RO p Hp). split.
  - intros [H|[H|(_ & H)]]; [auto| |].
    + right. exists p. split; [split; [lia|auto]|].
      intros q y Hq (Hq' & <-). apply G.
      eapply (lt_prefix_good _ _ _ _ _ _ _ _ _ HL Hs Hbs Hn RO p Ha H); auto.
    + left. apply initially_safe_omask. rewrite <- S0_init_shrink. exact H.
  - intros [H|(p' & (Hp' & Ep) & HG)]; [auto|]. right; left.
    rewrite OL in Hp'. apply (order_inj L order Hs) in Ep; auto. subst p'.
    apply (prefix_good_lt _ _ _ _ _ _ _ _ _ HL Hs Hbs Hn RO p Hp).
    intros q Hq. apply G. apply (HG q); auto. split; [lia|auto].
Qed.
Print Assumptions C15_certified_prefix.

(** Four states, batches of two, state 0 (value 2) not certified: the states with
    values 0 and 1 are safe, the certified state with value 3 is not. *)
Example C15_ex : exists L',
  update_safe_set (L4 None) (only [1; 2; 3]) true 1 2 order4 = Ok L' /\
  l_safe L' = [false; true; true; false].
Proof. eexists; split; reflexivity. Qed.

(** The same in terms of the Lyapunov values only: every state such that all
    states with at most its value are certified is safe; and a safe state is
    initially safe, or it and every state with a smaller value is certified or
    initially safe. *)
Theorem C15_sublevel_set : forall L C mr bs order L',
  consistent L -> sorts (l_vals L) order ->
  l_adaptive L = false \/ (mr <= 1)%Z ->
  update_safe_set L C true mr bs order = Ok L' ->
  forall x, x < size L ->
    ((forall y, y < size L -> (value L y <= value L x)%R ->
        neg C y = true \/ initially_safe L y) -> safe L' x) /\
    (safe L' x -> ~ initially_safe L x ->
       neg C x = true /\
       forall y, y < size L -> (value L y < value L x)%R ->
         neg C y = true \/ initially_safe L y).
Proof.
  intros L C mr bs order L' HL Hs Hact EU x Hx.
  destruct (update_pos _ _ _ _ _ _ _ Hs EU) as (Hbs & Hn).
  destruct (C15_certified_prefix L C mr bs order HL Hs Hn Hbs Hact) as (L'' & EU' & H).
  rewrite EU in EU'; inv_ok EU'. specialize (H x Hx).
  pose proof (order_length L order Hs) as OL.
  destruct (order_onto L order Hs x Hx) as (p & Hp & Ep). split.
  - intros HG. apply H. right. exists p. split; [split; [lia|auto]|].
    intros q y Hq (Hq' & <-). apply HG.
    + apply (order_lt L order Hs). lia.
    + subst x. destruct (Nat.eq_dec q p) as [->|]; [lra|].
      apply (proj2 Hs); [lia|]. exact Hp.
  - intros Hsafe Hni. apply H in Hsafe as [|(p' & (Hp' & Ep') & HG)]; [tauto|].
    rewrite OL in Hp'. assert (p' = p) by (apply (order_inj L order Hs); auto; congruence).
    subst p'. split.
    + destruct (HG p x (le_n p) (conj (eq_ind_r (fun n => p < n) Hp' OL) Ep)); tauto.
    + intros y Hy Hv. destruct (order_onto L order Hs y Hy) as (q & Hq & Eq).
      apply (HG q); [|split; [lia|auto]].
      destruct (Nat.lt_ge_cases p q) as [Hlt|]; auto. exfalso.
      pose proof (proj2 Hs p q Hlt Hq) as Hle. rewrite Ep, Eq in Hle.
      unfold value in Hv. lra.
Qed.
Print Assumptions C15_sublevel_set.

Example C15_sublevel_set_ex :
  safe {| l_init := None; l_adaptive := false; l_vals := vals4;
          l_safe := [false; true; true; false]; l_ref := [0; 1; 1; 0]%Z;
          l_cmax := 1%R |} 2 /\
  update_safe_set (L4 None) (only [1; 2; 3]) true 1 3 order4 =
    Ok {| l_init := None; l_adaptive := false; l_vals := vals4;
          l_safe := [false; true; true; false]; l_ref := [0; 1; 1; 0]%Z;
          l_cmax := 1%R |}.
Proof. split; reflexivity. Qed.

(** Neither the batch size nor the previous safe set and refinement matter. *)
Theorem C15_batch_size_and_past_irrelevant : forall L1 L2 C mr bs1 bs2 order L1' L2',
  consistent L1 -> consistent L2 ->
  l_init L1 = l_init L2 -> l_adaptive L1 = l_adaptive L2 -> l_vals L1 = l_vals L2 ->
  l_adaptive L1 = false \/ (mr <= 1)%Z ->
  sorts (l_vals L1) order ->
  update_safe_set L1 C true mr bs1 order = Ok L1' ->
  update_safe_set L2 C true mr bs2 order = Ok L2' ->
  l_safe L1' = l_safe L2' /\ l_ref L1' = l_ref L2'.
Proof.
  intros L1 L2 C mr bs1 bs2 order L1' L2' HL1 HL2 Ei Ea Ev Hact Hs E1 E2.
  assert (Hs2 : sorts (l_vals L2) order) by now rewrite <- Ev.
  assert (Hsz : size L1 = size L2) by (unfold size; now rewrite Ev).
  destruct (update_run _ _ _ _ _ _ _ HL1 Hs E1) as (Hb1 & Hn1 & K1 & En1 & RO1).
  destruct (update_run _ _ _ _ _ _ _ HL2 Hs2 E2) as (Hb2 & Hn2 & K2 & En2 & RO2).
  assert (Ha1 : l_adaptive L1 && (1 <? mr)%Z = false).
  { destruct Hact as [->|H]; auto. apply andb_false_iff; right. now apply Z.ltb_ge. }
  assert (Ha2 : l_adaptive L2 && (1 <? mr)%Z = false) by now rewrite <- Ea.
  assert (Gd : forall x, good L1 C true x <-> good L2 C true x).
  { intros x. unfold good. rewrite !S0_init_shrink, Ei. tauto. }
  pose proof (ro_KE _ _ _ _ _ _ _ _ _ RO1) as B1.
  pose proof (ro_KE _ _ _ _ _ _ _ _ _ RO2) as B2.
  assert (EK : K1 = K2).
  { destruct (Nat.lt_trichotomy K1 K2) as [Hlt|[|Hlt]]; auto; exfalso.
    - apply (stop_bad _ _ _ _ _ _ _ _ _ HL1 Hs Hb1 Hn1 RO1 Ha1); [lia|].
      apply Gd.
      apply (lt_prefix_good _ _ _ _ _ _ _ _ _ HL2 Hs2 Hb2 Hn2 RO2 K1 Ha2); lia.
    - apply (stop_bad _ _ _ _ _ _ _ _ _ HL2 Hs2 Hb2 Hn2 RO2 Ha2); [lia|].
      apply Gd.
      apply (lt_prefix_good _ _ _ _ _ _ _ _ _ HL1 Hs Hb1 Hn1 RO1 K2 Ha1); lia. }
  subst K2.
  pose proof (run_size _ _ _ _ _ _ _ _ _ HL1 Hs Hb1 Hn1 RO1) as Z1.
  pose proof (run_size _ _ _ _ _ _ _ _ _ HL2 Hs2 Hb2 Hn2 RO2) as Z2.
  destruct (ro_cons _ _ _ _ _ _ _ _ _ RO1) as [C1 C2 _].
  destruct (ro_cons _ _ _ _ _ _ _ _ _ RO2) as [D1 D2 _].
  split.
  - apply (list_ext false); [lia|]. intros x Hx.
    destruct (order_onto L1 order Hs x ltac:(lia)) as (p & Hp & <-).
    rewrite (ro_safe _ _ _ _ _ _ _ _ _ RO1 p Hp).
    rewrite (ro_safe _ _ _ _ _ _ _ _ _ RO2 p ltac:(lia)).
    rewrite !S0_init_shrink, Ei. destruct (omask _ _); auto. simpl.
    destruct (p <? K1), (p <? En1), (p <? En2); auto.
  - apply (list_ext 0%Z); [lia|]. intros x Hx.
    destruct (order_onto L1 order Hs x ltac:(lia)) as (p & Hp & <-).
    pose proof (order_lt L1 order Hs p Hp) as Hlt.
    destruct (omask (l_init L1) (nth p order 0)) eqn:Eo.
    { rewrite (ro_ref1 _ _ _ _ _ _ _ _ _ RO1) by (auto; lia).
      rewrite (ro_ref1 _ _ _ _ _ _ _ _ _ RO2); auto; [lia|congruence]. }
    assert (Eo2 : omask (l_init L2) (nth p order 0) = false) by congruence.
    assert (Hval : forall L C bs L' E (HL : consistent L) (Hs : sorts (l_vals L) order)
        (RO : run_ok L C true mr bs order L' K1 E), p < size L ->
        l_adaptive L && (1 <? mr)%Z = false ->
        omask (l_init L) (nth p order 0) = false ->
        nth (nth p order 0) (l_ref L') 0%Z = if p <? K1 then 1%Z else 0%Z).
    { intros L C0 bs L' E HL Hs0 RO Hp0 Ha Ho. destruct (Nat.ltb_spec p K1).
      - pose proof (ro_acc _ _ _ _ _ _ _ _ _ RO p H Ho) as A. simpl in A.
        rewrite Ha in A.
        destruct A as [(_ & ->)|[(_ & S & _)|(F & _)]]; auto; [|discriminate].
        congruence.
      - destruct (Nat.lt_ge_cases p E).
        + apply (ro_rej _ _ _ _ _ _ _ _ _ RO p); auto.
        + rewrite (ro_after _ _ _ _ _ _ _ _ _ RO p); auto.
          unfold R0. now rewrite Ho. }
    rewrite (Hval L1 C bs1 L1' En1), (Hval L2 C bs2 L2' En2); auto. lia.
Qed.
Print Assumptions C15_batch_size_and_past_irrelevant.

Example C15_batch_size_and_past_irrelevant_ex :
  rmap (fun L => (l_safe L, l_ref L))
       (update_safe_set (L4 init3) (only [1; 2]) true 1 1 order4)
  = Ok ([false; true; true; true], [0; 1; 1; 1]%Z) /\
  rmap (fun L => (l_safe L, l_ref L))
       (update_safe_set (L4 init3) (only [1; 2]) true 1 10 order4)
  = Ok ([false; true; true; true], [0; 1; 1; 1]%Z).
Proof. split; reflexivity. Qed.

(** ** C16 and C19: histories of calls *)

(** After every history of [update_values] and [update_safe_set] calls on a new
    object, with any arguments and also if some of the calls raise, the initial
    set is safe with refinement 1. *)
Theorem C16_initial_set_kept : forall vals ini adaptive L cs,
  lyap_init vals ini adaptive = Ok L -> history L cs ->
  forall x, initially_safe L x ->
    safe (exec_all L cs) x /\ refinement (exec_all L cs) x = 1%Z.
Proof.
  intros vals ini ad L cs HI HH x Hx.
  apply invariant_init in HI as (HI & _).
  destruct (invariant_history cs L HI HH) as ((_ & H & _) & _ & E).
  apply H. destruct Hx as (m & A & B). exists m. split; congruence.
Qed.
Print Assumptions C16_initial_set_kept.

(** The refinement is at least 1 exactly on the safe states, 0 elsewhere. *)
Theorem C19_refinement_matches : forall vals ini adaptive L cs,
  lyap_init vals ini adaptive = Ok L -> history L cs ->
  forall x, x < length vals ->
    (safe (exec_all L cs) x <-> (1 <= refinement (exec_all L cs) x)%Z) /\
    (~ safe (exec_all L cs) x <-> refinement (exec_all L cs) x = 0%Z).
Proof.
  intros vals ini ad L cs HI HH x Hx.
  apply invariant_init in HI as (HI & Hsz & _).
  destruct (invariant_history cs L HI HH) as ((_ & _ & H) & E & _).
  rewrite E, Hsz in H. destruct (H x Hx) as (A & B).
  assert (D : safe (exec_all L cs) x \/ ~ safe (exec_all L cs) x).
  { unfold safe. destruct (nth x (l_safe (exec_all L cs)) false); auto. }
  split; split; auto.
  - intros H1. destruct D as [|D]; auto. apply B in D. lia.
  - intros H1 H2. apply A in H2. lia.
Qed.
Print Assumptions C19_refinement_matches.

(** A history with an adaptive object: certified, refined, failing call. *)
Definition La : lyap :=
  {| l_init := Some [false; true; false; false]; l_adaptive := true; l_vals := vals4;
     l_safe := [false; true; false; false]; l_ref := [0; 1; 0; 0]%Z; l_cmax := 0%R |}.
Definition cert_ref : cert :=
  {| neg := fun x => Nat.eqb x 2; nreq := fun x => if Nat.eqb x 0 then 3%Z else 9%Z;
     passes := fun _ _ n => Z.leb 2 n |}.
Definition calls4 : list call :=
  [CallSafe cert_ref true 5 2 order4; CallSafe cert_ref true 5 0 order4;
   CallValues [5; 0; 1; 3]%R].

Example C16_C19_ex :
  lyap_init vals4 (Some [false; true; false; false]) true = Ok La /\
  history La calls4 /\
  l_safe (exec_all La calls4) = [true; true; true; false] /\
  l_ref (exec_all La calls4) = [3; 1; 1; 0]%Z /\
  snd (exec (exec_all La [CallSafe cert_ref true 5 2 order4])
            (CallSafe cert_ref true 5 0 order4)) = Some NameError.
Proof.
  split; [reflexivity|]. split; [|split; [reflexivity|split; reflexivity]].
  repeat split; simpl; try apply order4_sorts.
Qed.

(** ** C17: the published level *)

(** If the state with the smallest value is certified or known to be safe, every
    grid state below the published level is safe, and the level is the value of
    a safe state.  This holds for every kind of call. *)
Theorem C17_below_level_is_safe : forall L C can_shrink mr bs order L' x0,
  consistent L -> sorts (l_vals L) order ->
  update_safe_set L C can_shrink mr bs order = Ok L' ->
  at_position order 0 x0 ->
  neg C x0 = true \/ (if can_shrink then initially_safe L x0 else safe L x0) ->
  (forall x, x < size L -> (value L x < l_cmax L')%R -> safe L' x) /\
  (exists x, x < size L /\ safe L' x /\ value L x = l_cmax L').
Proof.
  intros L C sh mr bs order L' x0 HL Hs EU (_ & E0) Hx0.
  destruct (update_run _ _ _ _ _ _ _ HL Hs EU) as (Hbs & Hn & K & E & RO).
  assert (HK : 0 < K).
  { apply (prefix_good_lt _ _ _ _ _ _ _ _ _ HL Hs Hbs Hn RO 0 Hn).
    intros q Hq. assert (q = 0) by lia. subst q. rewrite E0.
    unfold good, S0. destruct sh; [rewrite <- initially_safe_omask; auto|auto]. }
  pose proof (ro_KE _ _ _ _ _ _ _ _ _ RO) as HKE.
  destruct (level_position _ _ _ _ _ _ _ _ _ HL Hs Hbs Hn RO HK) as (k & Hk & Ek).
  split.
  - intros x Hx Hv. destruct (order_onto L order Hs x Hx) as (p & Hp & <-).
    apply (safe_run _ _ _ _ _ _ _ _ _ HL Hs Hbs Hn RO p Hp). right; left.
    destruct (Nat.lt_ge_cases p K); auto. exfalso.
    pose proof (value_mono _ _ _ _ _ _ _ _ _ HL Hs Hbs Hn RO k p ltac:(lia) Hp).
    rewrite Ek in Hv. lra.
  - exists (nth k order 0). split; [apply (order_lt L order Hs); lia|].
    split; [|auto]. apply (safe_run _ _ _ _ _ _ _ _ _ HL Hs Hbs Hn RO k ltac:(lia)). auto.
Qed.
Print Assumptions C17_below_level_is_safe.

Example C17_below_level_is_safe_ex :
  rmap (fun L => (l_safe L, l_cmax L))
    (update_safe_set (L4 None) (only [1; 2]) true 1 2 order4)
  = Ok ([false; true; true; false], 1%R) /\
  at_position order4 0 1 /\ neg (only [1; 2]) 1 = true.
Proof. repeat split; simpl; lia. Qed.

(** Without refinement: if the states up to position [p] are certified or
    initially safe and the one at position [p+1] is not, then the level is the
    value of the state at position [p]. *)
Theorem C17_level_is_last_certified : forall L C mr bs order L' p,
  consistent L -> sorts (l_vals L) order ->
  l_adaptive L = false \/ (mr <= 1)%Z ->
  update_safe_set L C true mr bs order = Ok L' ->
  S p < size L ->
  (forall q y, q <= p -> at_position order q y ->
     neg C y = true \/ initially_safe L y) ->
  (forall y, at_position order (S p) y -> neg C y = false /\ ~ initially_safe L y) ->
  l_cmax L' = value L (nth p order 0).
Proof.
  intros L C mr bs order L' p HL Hs Hact EU Hp Hg Hb.
  destruct (update_run _ _ _ _ _ _ _ HL Hs EU) as (Hbs & Hn & K & E & RO).
  assert (Ha : l_adaptive L && (1 <? mr)%Z = false).
  { destruct Hact as [->|H]; auto. apply andb_false_iff; right. now apply Z.ltb_ge. }
  pose proof (order_length L order Hs) as OL.
  assert (G : forall y, good L C true y <-> neg C y = true \/ initially_safe L y).
  { intros y. unfold good. rewrite S0_init_shrink, initially_safe_omask. tauto. }
  assert (H1 : p < K).
  { apply (prefix_good_lt _ _ _ _ _ _ _ _ _ HL Hs Hbs Hn RO p ltac:(lia)).
    intros q Hq. apply G, (Hg q); auto. split; [lia|auto]. }
  assert (H2 : K <= S p).
  { destruct (Nat.lt_ge_cases (S p) K) as [H|]; auto. exfalso.
    pose proof (lt_prefix_good _ _ _ _ _ _ _ _ _ HL Hs Hbs Hn RO (S p) Ha H (S p)
                  (le_n _)) as A.
    apply G in A. destruct (Hb (nth (S p) order 0)) as (B1 & B2); [split; [lia|auto]|].
    destruct A; [congruence|tauto]. }
  rewrite (ro_cK _ _ _ _ _ _ _ _ _ RO) by lia. do 2 f_equal. lia.
Qed.
Print Assumptions C17_level_is_last_certified.

Example C17_level_is_last_certified_ex :
  rmap l_cmax (update_safe_set (L4 None) (only [1; 2; 3]) true 1 1 order4) = Ok 1%R.
Proof. reflexivity. Qed.

(** If every state is certified or initially safe, the level is the largest
    value if one batch suffices, and otherwise the value of the last state
    before the last batch. *)
Theorem C17_level_all_certified : forall L C mr bs order L',
  consistent L -> sorts (l_vals L) order ->
  l_adaptive L = false \/ (mr <= 1)%Z ->
  update_safe_set L C true mr bs order = Ok L' ->
  (forall y, y < size L -> neg C y = true \/ initially_safe L y) ->
  l_cmax L' = value L (nth (if size L <=? bs then size L - 1
                            else ((size L + bs - 1) / bs - 1) * bs - 1) order 0).
Proof.
  intros L C mr bs order L' HL Hs Hact EU Hg.
  destruct (update_run _ _ _ _ _ _ _ HL Hs EU) as (Hbs & Hn & K & E & RO).
  assert (Ha : l_adaptive L && (1 <? mr)%Z = false).
  { destruct Hact as [->|H]; auto. apply andb_false_iff; right. now apply Z.ltb_ge. }
  assert (H1 : size L - 1 < K).
  { apply (prefix_good_lt _ _ _ _ _ _ _ _ _ HL Hs Hbs Hn RO (size L - 1) ltac:(lia)).
    intros q Hq. unfold good. rewrite S0_init_shrink, <- initially_safe_omask.
    apply Hg. apply (order_lt L order Hs). lia. }
  pose proof (ro_KE _ _ _ _ _ _ _ _ _ RO).
  rewrite (ro_cn _ _ _ _ _ _ _ _ _ RO) by (auto; lia).
  now destruct (size L <=? bs).
Qed.
Print Assumptions C17_level_all_certified.

Example C17_level_all_certified_ex :
  rmap l_cmax (update_safe_set (L4 None) (only [0; 1; 2; 3]) true 1 4 order4) = Ok 3%R /\
  rmap l_cmax (update_safe_set (L4 None) (only [0; 1; 2; 3]) true 1 3 order4) = Ok 2%R.
Proof. split; reflexivity. Qed.

(** Hence the level depends on the batch size although the safe set does not. *)
Theorem C17_level_batch_independent_refuted :
  ~ (forall L C mr bs1 bs2 order L1 L2,
       consistent L -> sorts (l_vals L) order -> l_adaptive L = false ->
       update_safe_set L C true mr bs1 order = Ok L1 ->
       update_safe_set L C true mr bs2 order = Ok L2 ->
       l_cmax L1 = l_cmax L2).
Proof.
  intros H.
  specialize (H (L4 None) (only [0; 1; 2; 3]) 1%Z 4 3 order4 _ _
    (L4_consistent None ltac:(discriminate)) order4_sorts eq_refl eq_refl eq_refl).
  simpl in H. lra.
Qed.
Print Assumptions C17_level_batch_independent_refuted.

(** If the state with the smallest value is neither certified nor initially
    safe, the published level is the largest value of all, although only the
    initial set is safe. *)
Theorem C17_level_nothing_certified : forall L C mr bs order L' x0,
  consistent L -> sorts (l_vals L) order ->
  l_adaptive L = false \/ (mr <= 1)%Z ->
  update_safe_set L C true mr bs order = Ok L' ->
  at_position order 0 x0 -> neg C x0 = false -> ~ initially_safe L x0 ->
  (forall x, x < size L -> (value L x <= l_cmax L')%R) /\
  (forall x, x < size L -> safe L' x -> initially_safe L x).
Proof.
  intros L C mr bs order L' x0 HL Hs Hact EU (Hp0 & E0) Hneg Hni.
  destruct (update_run _ _ _ _ _ _ _ HL Hs EU) as (Hbs & Hn & K & E & RO).
  assert (Ha : l_adaptive L && (1 <? mr)%Z = false).
  { destruct Hact as [->|H]; auto. apply andb_false_iff; right. now apply Z.ltb_ge. }
  assert (HK : K = 0).
  { destruct (Nat.eq_dec K 0) as [|Hk]; auto. exfalso.
    pose proof (lt_prefix_good _ _ _ _ _ _ _ _ _ HL Hs Hbs Hn RO 0 Ha ltac:(lia) 0
                  (le_n _)) as [A|A]; rewrite E0 in A; [congruence|].
    rewrite S0_init_shrink, <- initially_safe_omask in A. tauto. }
  split.
  - intros x Hx. rewrite (ro_c0 _ _ _ _ _ _ _ _ _ RO HK).
    destruct (order_onto L order Hs x Hx) as (p & Hp & <-).
    apply (value_mono _ _ _ _ _ _ _ _ _ HL Hs Hbs Hn RO); lia.
  - intros x Hx Hsafe. destruct (order_onto L order Hs x Hx) as (p & Hp & <-).
    apply (safe_run _ _ _ _ _ _ _ _ _ HL Hs Hbs Hn RO p Hp) in Hsafe.
    destruct Hsafe as [|[|(_ & A)]]; auto; [lia|].
    rewrite S0_init_shrink in A. now apply initially_safe_omask.
Qed.
Print Assumptions C17_level_nothing_certified.

Example C17_level_nothing_certified_ex :
  rmap (fun L => (l_safe L, l_cmax L))
    (update_safe_set (L4 None) (only []) true 1 4 order4)
  = Ok ([false; false; false; false], 3%R).
Proof. reflexivity. Qed.

(** So "every state below the published level is safe" is false in general. *)
Theorem C17_unconditional_refuted :
  ~ (forall L C mr bs order L' x,
       consistent L -> sorts (l_vals L) order ->
       update_safe_set L C true mr bs order = Ok L' ->
       x < size L -> (value L x < l_cmax L')%R -> safe L' x).
Proof.
  intros H.
  specialize (H (L4 None) (only []) 1%Z 4 order4 _ 1
    (L4_consistent None ltac:(discriminate)) order4_sorts eq_refl).
  simpl in H. assert (A : 1 < size (L4 None)) by (unfold size; simpl; lia).
  specialize (H A). unfold value in H; simpl in H. specialize (H ltac:(lra)).
  discriminate.
Qed.
Print Assumptions C17_unconditional_refuted.

(** ** C18: can_shrink=False *)

(** The safe set is a sublevel set in the order plus the initial set. *)
Definition sublevel (L : lyap) (order : list nat) : Prop :=
  exists k, forall p x, at_position order p x ->
    (safe L x <-> p < k \/ initially_safe L x).

(** While the order of the states does not change, [can_shrink=False] keeps
    every safe state; refinement, certificates and batch size are arbitrary. *)
Theorem C18_no_shrink_same_order : forall L C mr bs order L',
  consistent L -> sorts (l_vals L) order -> sublevel L order ->
  update_safe_set L C false mr bs order = Ok L' ->
  (forall x, x < size L -> safe L x -> safe L' x) /\ sublevel L' order.
Proof.
  intros L C mr bs order L' HL Hs (k & Hk) EU.
  destruct (update_run _ _ _ _ _ _ _ HL Hs EU) as (Hbs & Hn & K & E & RO).
  pose proof (order_length L order Hs) as OL.
  pose proof (ro_KE _ _ _ _ _ _ _ _ _ RO) as HKE.
  assert (HkK : k <= K \/ K = size L).
  { destruct (Nat.eq_dec K (size L)); auto. left.
    destruct (ro_end _ _ _ _ _ _ _ _ _ RO ltac:(lia)) as (_ & b & B1 & _ & B3 & _).
    destruct (Nat.le_gt_cases k K); auto. exfalso.
    assert (A : safe L (nth b order 0)).
    { apply (Hk b); [split; [lia|auto]|]. left; lia. }
    unfold safe in A. unfold S0 in B3. congruence. }
  assert (SF : forall p, p < size L -> (safe L' (nth p order 0) <->
                 p < K \/ initially_safe L (nth p order 0))).
  { intros p Hp. rewrite (safe_run _ _ _ _ _ _ _ _ _ HL Hs Hbs Hn RO p Hp).
    split; [|tauto]. intros [|[|(A & B)]]; auto.
    apply (Hk p) in B; [|split; [lia|auto]]. destruct B; auto. lia. }
  split.
  - intros x Hx Hsafe. destruct (order_onto L order Hs x Hx) as (p & Hp & <-).
    apply (SF p Hp). apply (Hk p) in Hsafe; [|split; [lia|auto]].
    destruct Hsafe; auto. lia.
  - exists K. intros p x (Hp & <-). rewrite OL in Hp. rewrite (SF p Hp).
    unfold initially_safe. now rewrite (ro_init _ _ _ _ _ _ _ _ _ RO).
Qed.
Print Assumptions C18_no_shrink_same_order.

Lemma sublevel_shrink L C mr bs order L' :
  consistent L -> sorts (l_vals L) order ->
  update_safe_set L C true mr bs order = Ok L' -> sublevel L' order.
Proof.
  intros HL Hs EU.
  destruct (update_run _ _ _ _ _ _ _ HL Hs EU) as (Hbs & Hn & K & E & RO).
  exists K. intros p x (Hp & <-). rewrite (order_length L order Hs) in Hp.
  rewrite (safe_run _ _ _ _ _ _ _ _ _ HL Hs Hbs Hn RO p Hp).
  unfold initially_safe. rewrite (ro_init _ _ _ _ _ _ _ _ _ RO). fold (initially_safe L (nth p order 0)).
  rewrite S0_init_shrink, <- initially_safe_omask. tauto.
Qed.

(** All calls of a history use the given order: [update_values] is not called. *)
Fixpoint same_order (order : list nat) (cs : list call) : Prop :=
  match cs with
  | [] => True
  | CallValues _ :: _ => False
  | CallSafe _ _ _ _ o :: cs' => o = order /\ same_order order cs'
  end.

Lemma same_order_sublevel order cs : forall L,
  invariant L -> sublevel L order -> sorts (l_vals L) order -> same_order order cs ->
  invariant (exec_all L cs) /\ sublevel (exec_all L cs) order /\
  l_vals (exec_all L cs) = l_vals L.
Proof.
  induction cs as [|c cs IH]; intros L HI HS Hs HO; simpl in *; auto.
  destruct c as [|C sh mr bs o]; [contradiction|]. destruct HO as (-> & HO). simpl.
  rewrite effect_consistent by apply HI.
  destruct (update_safe_set L C sh mr bs order) as [L'|e] eqn:EU; simpl; [|auto].
  pose proof (update_run _ _ _ _ _ _ _ (proj1 HI) Hs EU) as (Hb & Hn & K & E & RO).
  pose proof (ro_vals _ _ _ _ _ _ _ _ _ RO) as EV.
  destruct (invariant_update _ _ _ _ _ _ _ HI Hs EU) as (HI' & _).
  destruct (IH L') as (A & B & D); auto.
  - destruct sh.
    + eapply sublevel_shrink; eauto. apply (proj1 HI).
    + eapply C18_no_shrink_same_order; eauto. apply (proj1 HI).
  - now rewrite EV.
  - split; auto. split; auto. congruence.
Qed.

(** For a new object and any history of [update_safe_set] calls without a change
    of the Lyapunov values, a further call with [can_shrink=False] removes
    nothing. *)
Theorem C18_no_shrink_history : forall vals ini adaptive L cs order C mr bs L',
  lyap_init vals ini adaptive = Ok L -> sorts vals order -> same_order order cs ->
  update_safe_set (exec_all L cs) C false mr bs order = Ok L' ->
  forall x, x < length vals -> safe (exec_all L cs) x -> safe L' x.
Proof.
  intros vals ini ad L cs order C mr bs L' HI Hs HO EU x Hx Hsafe.
  assert (EV : l_vals L = vals).
  { unfold lyap_init in HI. apply bind_ok in HI as (? & _ & HI).
    apply bind_ok in HI as (? & _ & HI). inv_ok HI. reflexivity. }
  assert (HS : sublevel L order).
  { exists 0. intros p y (Hp & Ey).
    split; [|intros [|H]; [lia|]].
    - intros Hy. right. eapply init_safe_iff; eauto.
    - apply invariant_init in HI as ((_ & H2 & _) & _). now apply H2. }
  apply invariant_init in HI as (HI & Hsz & _).
  destruct (same_order_sublevel order cs L HI HS ltac:(now rewrite EV) HO) as (A & B & D).
  destruct (C18_no_shrink_same_order (exec_all L cs) C mr bs order L') as (R & _); auto.
  - apply (proj1 A).
  - now rewrite D, EV.
  - apply R; auto. unfold size. now rewrite D, EV.
Qed.
Print Assumptions C18_no_shrink_history.

(** After a certificate for states 1 and 2, no certificate at all: the safe set
    stays.  The published level stays as well. *)
Example C18_no_shrink_history_ex :
  let L1 := exec_all (L4 init3) [CallSafe (only [1; 2]) true 1 2 order4] in
  l_safe L1 = [false; true; true; true] /\
  rmap (fun L => (l_safe L, l_cmax L)) (update_safe_set L1 (only []) false 1 2 order4)
  = Ok ([false; true; true; true], 1%R) /\
  rmap l_safe (update_safe_set L1 (only []) true 1 2 order4)
  = Ok [false; false; false; true].
Proof. repeat split. Qed.

(** If the Lyapunov values change in between, [can_shrink=False] can remove safe
    states: state 1 was safe, but with the new values it comes after state 0,
    which is not certified. *)
Theorem C18_values_changed_refuted :
  ~ (forall vals ini adaptive L cs order C mr bs L' x,
       lyap_init vals ini adaptive = Ok L -> history L cs ->
       sorts (l_vals (exec_all L cs)) order ->
       update_safe_set (exec_all L cs) C false mr bs order = Ok L' ->
       x < length vals -> safe (exec_all L cs) x -> safe L' x).
Proof.
  intros H.
  assert (P : forall a b : R, (a <= b)%R -> sorts [a; b] [0; 1]).
  { intros a b Hab. split; [apply Permutation_refl|]. intros p q H1 H2. simpl in H2.
    assert (p = 0 /\ q = 1) as (-> & ->) by lia. exact Hab. }
  assert (P' : forall a b : R, (b <= a)%R -> sorts [a; b] [1; 0]).
  { intros a b Hab. split; [apply perm_swap|]. intros p q H1 H2. simpl in H2.
    assert (p = 0 /\ q = 1) as (-> & ->) by lia. exact Hab. }
  assert (A := H [1; 0]%R None false _
    [CallSafe (only [1]) true 1 5 [1; 0]; CallValues [0; 1]%R] [0; 1]
    (only []) 1%Z 5 _ 1 eq_refl
    (conj (P' 1%R 0%R ltac:(lra)) (conj eq_refl I)) (P 0%R 1%R ltac:(lra))
    eq_refl (le_n 2) eq_refl).
  discriminate.
Qed.
Print Assumptions C18_values_changed_refuted.

(** ** C23: monotonicity in the certificate *)

(** A certificate that holds at fewer states gives a smaller safe set. *)
Theorem C23_fewer_certificates_smaller_set : forall L C1 C2 mr bs1 bs2 order L1 L2,
  consistent L -> sorts (l_vals L) order ->
  l_adaptive L = false \/ (mr <= 1)%Z ->
  (forall x, x < size L -> neg C1 x = true -> neg C2 x = true) ->
  update_safe_set L C1 true mr bs1 order = Ok L1 ->
  update_safe_set L C2 true mr bs2 order = Ok L2 ->
  forall x, x < size L -> safe L1 x -> safe L2 x.
Proof.
  intros L C1 C2 mr bs1 bs2 order L1 L2 HL Hs Hact HC E1 E2 x Hx.
  destruct (update_pos _ _ _ _ _ _ _ Hs E1) as (Hb1 & Hn).
  destruct (update_pos _ _ _ _ _ _ _ Hs E2) as (Hb2 & _).
  destruct (C15_certified_prefix L C1 mr bs1 order HL Hs Hn Hb1 Hact) as (M1 & F1 & A1).
  destruct (C15_certified_prefix L C2 mr bs2 order HL Hs Hn Hb2 Hact) as (M2 & F2 & A2).
  rewrite E1 in F1; inv_ok F1. rewrite E2 in F2; inv_ok F2.
  revert H0. rewrite (A1 x Hx), (A2 x Hx).
  intros [|(p & Hp & HG)]; [auto|right]. exists p. split; auto.
  intros q y Hq Hy. destruct (HG q y Hq Hy) as [G|]; auto. left. apply HC; auto.
  destruct Hy as (H & <-). apply (order_lt L order Hs).
  now rewrite <- (order_length L order Hs).
Qed.
Print Assumptions C23_fewer_certificates_smaller_set.

(** The level is at most the old one as well, provided that the smallest state is
    certified (or initially safe) in both cases and the larger set is not
    everything. *)
Theorem C23_fewer_certificates_lower_level : forall L C1 C2 mr bs1 bs2 order L1 L2 x0 xb,
  consistent L -> sorts (l_vals L) order ->
  l_adaptive L = false \/ (mr <= 1)%Z ->
  (forall x, x < size L -> neg C1 x = true -> neg C2 x = true) ->
  update_safe_set L C1 true mr bs1 order = Ok L1 ->
  update_safe_set L C2 true mr bs2 order = Ok L2 ->
  at_position order 0 x0 -> neg C1 x0 = true \/ initially_safe L x0 ->
  xb < size L -> neg C2 xb = false -> ~ initially_safe L xb ->
  (l_cmax L1 <= l_cmax L2)%R.
Proof.
  intros L C1 C2 mr bs1 bs2 order L1 L2 x0 xb HL Hs Hact HC E1 E2 (Hp0 & E0) Hx0 Hxb Hn2 Hni.
  assert (Ha : l_adaptive L && (1 <? mr)%Z = false).
  { destruct Hact as [->|H]; auto. apply andb_false_iff; right. now apply Z.ltb_ge. }
  destruct (update_run _ _ _ _ _ _ _ HL Hs E1) as (Hb1 & Hn & K1 & En1 & RO1).
  destruct (update_run _ _ _ _ _ _ _ HL Hs E2) as (Hb2 & _ & K2 & En2 & RO2).
  assert (G : forall C y, good L C true y <-> neg C y = true \/ initially_safe L y).
  { intros C y. unfold good. rewrite S0_init_shrink, initially_safe_omask. tauto. }
  pose proof (ro_KE _ _ _ _ _ _ _ _ _ RO1) as B1.
  pose proof (ro_KE _ _ _ _ _ _ _ _ _ RO2) as B2.
  assert (HK1 : 0 < K1).
  { apply (prefix_good_lt _ _ _ _ _ _ _ _ _ HL Hs Hb1 Hn RO1 0 Hn).
    intros q Hq. assert (q = 0) by lia. subst q. rewrite E0. now apply G. }
  assert (HK2 : K2 < size L).
  { destruct (order_onto L order Hs xb Hxb) as (p & Hp & Ep).
    destruct (Nat.lt_ge_cases p K2) as [H|]; [|lia]. exfalso.
    pose proof (lt_prefix_good _ _ _ _ _ _ _ _ _ HL Hs Hb2 Hn RO2 p Ha H p (le_n _)) as A.
    rewrite Ep in A. apply G in A. destruct A; [congruence|tauto]. }
  assert (HK : K1 <= K2).
  { destruct (Nat.le_gt_cases K1 K2) as [|H]; auto. exfalso.
    pose proof (lt_prefix_good _ _ _ _ _ _ _ _ _ HL Hs Hb1 Hn RO1 K2 Ha H K2 (le_n _)) as A.
    apply (stop_bad _ _ _ _ _ _ _ _ _ HL Hs Hb2 Hn RO2 Ha HK2). apply G.
    apply G in A. destruct A as [A|]; auto. left. apply HC; auto.
    apply (order_lt L order Hs); lia. }
  destruct (level_position _ _ _ _ _ _ _ _ _ HL Hs Hb1 Hn RO1 HK1) as (k & Hk & ->).
  rewrite (ro_cK _ _ _ _ _ _ _ _ _ RO2) by lia.
  apply (value_mono _ _ _ _ _ _ _ _ _ HL Hs Hb1 Hn RO1); lia.
Qed.
Print Assumptions C23_fewer_certificates_lower_level.

Example C23_ex :
  rmap (fun L => (l_safe L, l_cmax L))
    (update_safe_set (L4 None) (only [1]) true 1 2 order4)
  = Ok ([false; true; false; false], 0%R) /\
  rmap (fun L => (l_safe L, l_cmax L))
    (update_safe_set (L4 None) (only [1; 2]) true 1 3 order4)
  = Ok ([false; true; true; false], 1%R).
Proof. split; reflexivity. Qed.

(** Without these provisos the level can grow when certificates get lost. *)
Theorem C23_level_monotone_refuted :
  ~ (forall L C1 C2 mr bs order L1 L2,
       consistent L -> sorts (l_vals L) order -> l_adaptive L = false ->
       (forall x, x < size L -> neg C1 x = true -> neg C2 x = true) ->
       update_safe_set L C1 true mr bs order = Ok L1 ->
       update_safe_set L C2 true mr bs order = Ok L2 ->
       (l_cmax L1 <= l_cmax L2)%R).
Proof.
  intros H.
  specialize (H (L4 None) (only []) (only [1; 2]) 1%Z 4 order4 _ _
    (L4_consistent None ltac:(discriminate)) order4_sorts eq_refl
    ltac:(discriminate) eq_refl eq_refl).
  simpl in H. lra.
Qed.
Print Assumptions C23_level_monotone_refuted.
