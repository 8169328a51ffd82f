(** Proofs about names and variables of function objects: calls. *)
From Coq Require Import List Ascii String Arith Bool Lia.
From Verif Require Import Prelude ScopeModel ScopeSpec ScopeProofs ScopeProofs2.
Import ListNotations.

Lemma core_exists st : inv st -> forall i o, at_ st i o -> (forall a b, o_kind o <> Sum a b) ->
  exists r, core st i r /\ (is_kind st r Triang \/ exists ws, is_kind st r (Network ws)).
Proof.
  intros I. intros i. induction i as [i IH] using lt_wf_ind. intros o A N.
  destruct (o_kind o) as [ws| |a b|a] eqn:E.
  - exists i. split; [eapply core_here; [exists o; eauto|discriminate]|]. right. exists ws, o. auto.
  - exists i. split; [eapply core_here; [exists o; eauto|discriminate]|]. left. exists o. auto.
  - now destruct (N a b).
  - pose proof (i_kinds _ I _ _ A) as K. rewrite E in K. destruct K as [L (oa & B & NS)].
    destruct (IH a L oa B NS) as (r & C & D). exists r. split; auto. eapply core_sat; eauto. exists o. auto.
Qed.

(** Setting the flag. *)
Lemma at_created st i j oj : at_ (set_created st i) j oj -> exists o, at_ st j o /\ o_kind oj = o_kind o /\
  o_scope oj = o_scope o /\ o_template oj = o_template o /\ o_created oj = (if j =? i then true else o_created o).
Proof.
  unfold set_created. destruct (nth_error (objs st) i) as [oi|] eqn:E.
  - unfold at_, set_objs. cbn [objs]. intros A. destruct (Nat.eqb_spec j i) as [->|N].
    + exists oi. split; auto. assert (L : i < List.length (objs st)) by (apply nth_error_Some; congruence).
      rewrite (nth_error_nth' _ oi) in A by (rewrite set_nth_length; auto). rewrite nth_set_nth, Nat.eqb_refl in A.
      replace (i <? List.length (objs st)) with true in A by (symmetry; now apply Nat.ltb_lt). injection A as <-. auto.
    + exists oj. assert (L : j < List.length (objs st)) by (rewrite <- (set_nth_length i (Obj (o_kind oi) (o_scope oi) (o_template oi) true)); apply nth_error_Some; congruence).
      rewrite (nth_error_nth' _ oi) in A by (rewrite set_nth_length; auto). rewrite nth_set_nth in A.
      replace (i =? j) with false in A by (symmetry; apply Nat.eqb_neq; auto). cbn in A. rewrite <- (nth_error_nth' _ oi) in A by auto. auto.
  - intros A. exists oj. destruct (Nat.eqb_spec j i) as [->|N]; auto. unfold at_ in A. congruence.
Qed.
Lemma at_created_inv st i j o : at_ st j o -> exists oj, at_ (set_created st i) j oj /\ o_kind oj = o_kind o /\
  o_scope oj = o_scope o /\ o_template oj = o_template o /\ o_created oj = (if j =? i then true else o_created o).
Proof.
  intros A. pose proof (at_lt _ _ _ A) as L.
  assert (LS : List.length (objs (set_created st i)) = List.length (objs st)).
  { unfold set_created. destruct (nth_error (objs st) i); auto. cbn. now rewrite set_nth_length. }
  destruct (nth_error (objs (set_created st i)) j) as [oj|] eqn:E; [|apply nth_error_None in E; lia].
  destruct (at_created _ _ _ _ E) as (o' & A' & H). pose proof (at_fun _ _ _ _ A A') as <-. exists oj. auto.
Qed.
Lemma created_vars st i : variables (set_created st i) = variables st /\ var_store (set_created st i) = var_store st /\
  names (set_created st i) = names st /\ name_scope (set_created st i) = name_scope st /\
  outer (set_created st i) = outer st /\ variable_scope (set_created st i) = variable_scope st.
Proof. unfold set_created. destruct (nth_error (objs st) i); repeat split. Qed.
Lemma kind_created st i j k : is_kind (set_created st i) j k <-> is_kind st j k.
Proof.
  split.
  - intros (o & A & E). destruct (at_created _ _ _ _ A) as (o' & A' & H1 & _). exists o'. split; auto. congruence.
  - intros (o & A & E). destruct (at_created_inv _ i _ _ A) as (o' & A' & H1 & _). exists o'. split; auto. congruence.
Qed.
Lemma core_created st i j r : core (set_created st i) j r <-> core st j r.
Proof. split; apply core_mono; intros; now apply kind_created with (i := i). Qed.
Lemma collection_created st i s : collection (set_created st i) s = collection st s.
Proof. unfold collection. destruct (created_vars st i) as (-> & _). reflexivity. Qed.

Lemma inv_created st i o : inv st -> at_ st i o ->
  (forall r ws, core st i r -> is_kind st r (Network ws) -> o_created o = true) ->
  inv (set_created st i) /\ ext st (set_created st i).
Proof.
  intros I A H. destruct (created_vars st i) as (EV & ES & EN & ENS & EO & EVS). split.
  - constructor.
    + intros j oj B. destruct (at_created _ _ _ _ B) as (o' & B' & _ & Q & _). rewrite Q. unfold taken. rewrite EN.
      exact (i_obj _ I _ _ B').
    + intros j l oj ol N B C. destruct (at_created _ _ _ _ B) as (o1 & B1 & _ & Q1 & _). destruct (at_created _ _ _ _ C) as (o2 & B2 & _ & Q2 & _).
      rewrite Q1, Q2. exact (i_distinct _ I j l o1 o2 N B1 B2).
    + rewrite ENS, EO. intros s Hs. destruct (i_scope _ I s Hs) as [|[N T]]; auto. right. split; auto. intros p P. unfold taken. rewrite EN.
      destruct (T p P) as [T1 T2]. split; auto. intros j oj B. destruct (at_created _ _ _ _ B) as (o1 & B1 & _ & Q1 & _). rewrite Q1. eauto.
    + intros j oj B. destruct (at_created _ _ _ _ B) as (o1 & B1 & Q0 & Q1 & Q2 & _). rewrite Q0, Q1, Q2. exact (i_template _ I _ _ B1).
    + intros j oj B. destruct (at_created _ _ _ _ B) as (o1 & B1 & Q0 & _). rewrite Q0. pose proof (i_kinds _ I _ _ B1) as IK.
      destruct (o_kind o1); auto. destruct IK as [L (oa & B2 & N)]. split; auto. destruct (at_created_inv _ i _ _ B2) as (ob & B3 & Q3 & _).
      exists ob. split; auto. rewrite Q3. auto.
    + intros j oj B. destruct (at_created _ _ _ _ B) as (o1 & B1 & Q0 & Q1 & _ & Q3). rewrite Q0, Q1. pose proof (i_own _ I _ _ B1) as IO.
      rewrite collection_created, ES. destruct (o_kind o1) eqn:EK; auto.
      all: intros r ws' C KR; apply core_created in C; apply (proj1 (kind_created _ _ _ _)) in KR; specialize (IO r ws' C KR); rewrite Q3;
        destruct (Nat.eqb_spec j i) as [->|]; auto;
        pose proof (at_fun _ _ _ _ A B1) as <-; rewrite (H r ws' C KR) in IO; exact IO.
    + intros j oj r B C KR N. destruct (at_created _ _ _ _ B) as (o1 & B1 & _ & Q1 & _). rewrite Q1, collection_created.
      apply core_created in C. apply (proj1 (kind_created _ _ _ _)) in KR. exact (i_own_tri _ I _ _ _ B1 C KR N).
    + rewrite ES. intros k v G. destruct (i_store _ I k v G) as (j & oj & B & C & P).
      destruct (at_created_inv _ i _ _ B) as (o1 & B1 & _ & Q1 & _ & Q2). exists j, o1. split; auto. rewrite Q1, Q2, C.
      split; auto. now destruct (j =? i).
    + rewrite EV. intros u Hu. destruct (i_vars _ I u Hu) as (j & oj & B & P).
      destruct (at_created_inv _ i _ _ B) as (o1 & B1 & _ & Q1 & _). exists j, o1. split; auto. now rewrite Q1.
  - intros j oj B. destruct (at_created_inv _ i _ _ B) as (o1 & B1 & Q0 & Q1 & _ & Q2). exists o1. split; auto. split; auto. split; auto.
    split; [intros Q; rewrite Q2, Q; now destruct (j =? i)|]. intros _. apply collection_created.
Qed.

(** The first evaluation of a network, or of a saturated network. *)
Lemma inv_first st st1 i o r ws : inv st -> at_ st i o -> o_created o = false ->
  core st i r -> is_kind st r (Network ws) ->
  grown st st1 (o_scope o) ws ->
  inv (set_created st1 i) /\ ext st (set_created st1 i) /\
  collection (set_created st1 i) (o_scope o) = seq (List.length (variables st)) (List.length ws).
Proof.
  intros I A NC C KR G. destruct (created_vars st1 i) as (EV & ES & EN & ENS & EO & EVS).
  destruct G as [(us & GV & GL & GP) G2 G3 G4 G5 G6 G7 G8].
  assert (AT : forall j oj, at_ st1 j oj <-> at_ st j oj) by (intros; unfold at_; rewrite G8; tauto).
  assert (KD : forall j k, is_kind st1 j k <-> is_kind st j k) by (intros j k; unfold is_kind; rewrite G8; tauto).
  assert (CO : forall j r, core st1 j r <-> core st j r) by (intros; split; apply core_mono; intros; now apply KD).
  assert (GP' : forall u, In u us -> pre (o_scope o) u) by (intros u Hu; eapply pre_trans; [apply pre_app|apply GP, Hu]).
  assert (OT : forall j oj, at_ st j oj -> j <> i -> collection st1 (o_scope oj) = collection st (o_scope oj)).
  { intros j oj B N. rewrite !collection_coll, GV. eapply coll_other with (s := o_scope o); eauto.
    - exact (i_distinct _ I j i oj o N B A).
    - exact (i_distinct _ I i j o oj (not_eq_sym N) A B). }
  assert (OI : collection st (o_scope o) = []).
  { pose proof (i_own _ I _ _ A) as IO. destruct (o_kind o) eqn:EK.
    - specialize (IO r ws C KR). now rewrite NC in IO.
    - exfalso. assert (r = i) by (eapply core_fun; [exact C|]; eapply core_here; [exists o; eauto|discriminate]). subst r.
      destruct KR as (o' & A' & Q). pose proof (at_fun _ _ _ _ A A') as <-. congruence.
    - exact IO.
    - specialize (IO r ws C KR). now rewrite NC in IO. }
  assert (OW : collection st1 (o_scope o) = seq (List.length (variables st)) (List.length ws)).
  { rewrite collection_coll, GV, coll_all.
    - rewrite <- collection_coll, OI, GL. reflexivity.
    - intros u Hu. apply (scope_match st i o u I A). auto. }
  split; [|split].
  - constructor.
    + intros j oj B. destruct (at_created _ _ _ _ B) as (o' & B' & _ & Q & _). rewrite Q. apply AT in B'.
      destruct (i_obj _ I _ _ B') as (u & E & N & T). exists u. split; auto. split; auto. intros p P. unfold taken. rewrite EN. apply G4, T, P.
    + intros j l oj ol N B D. destruct (at_created _ _ _ _ B) as (o1 & B1 & _ & Q1 & _). destruct (at_created _ _ _ _ D) as (o2 & B2 & _ & Q2 & _).
      apply AT in B1, B2. rewrite Q1, Q2. exact (i_distinct _ I j l o1 o2 N B1 B2).
    + rewrite ENS, EO, G5, G7. intros s Hs. destruct (i_scope _ I s Hs) as [|[N T]]; auto. right. split; auto. intros p P. unfold taken. rewrite EN.
      destruct (T p P) as [T1 T2]. split; [now apply G4|]. intros j oj B. destruct (at_created _ _ _ _ B) as (o1 & B1 & _ & Q1 & _). apply AT in B1. rewrite Q1. eauto.
    + intros j oj B. destruct (at_created _ _ _ _ B) as (o1 & B1 & Q0 & Q1 & Q2 & _). apply AT in B1. rewrite Q0, Q1, Q2. exact (i_template _ I _ _ B1).
    + intros j oj B. destruct (at_created _ _ _ _ B) as (o1 & B1 & Q0 & _). apply AT in B1. rewrite Q0. pose proof (i_kinds _ I _ _ B1) as IK.
      destruct (o_kind o1); auto. destruct IK as [L (oa & B2 & N)]. split; auto. apply AT in B2. destruct (at_created_inv _ i _ _ B2) as (ob & B3 & Q3 & _).
      exists ob. split; auto. rewrite Q3. auto.
    + intros j oj B. destruct (at_created _ _ _ _ B) as (o1 & B1 & Q0 & Q1 & _ & Q3). apply AT in B1. rewrite Q0, Q1, collection_created, ES.
      pose proof (i_own _ I _ _ B1) as IO. destruct (Nat.eqb_spec j i) as [->|N].
      * pose proof (at_fun _ _ _ _ A B1) as <-. destruct (o_kind o) eqn:EK.
        -- rewrite OW, Q3. intros r' ws' C' K'. apply core_created, CO in C'. apply (proj1 (kind_created _ _ _ _)) in K'. apply (proj1 (KD _ _)) in K'.
           pose proof (core_fun _ _ _ _ C C') as <-. pose proof (kind_fun _ _ _ _ KR K') as E. injection E as <-. exact G2.
        -- exfalso. assert (r = i) by (eapply core_fun; [exact C|]; eapply core_here; [exists o; eauto|discriminate]). subst r.
           destruct KR as (o' & A' & Q). pose proof (at_fun _ _ _ _ A A') as <-. congruence.
        -- exfalso. assert (r = i) by (eapply core_fun; [exact C|]; eapply core_here; [exists o; eauto|discriminate]). subst r.
           destruct KR as (o' & A' & Q). pose proof (at_fun _ _ _ _ A A') as <-. congruence.
        -- rewrite OW, Q3. intros r' ws' C' K'. apply core_created, CO in C'. apply (proj1 (kind_created _ _ _ _)) in K'. apply (proj1 (KD _ _)) in K'.
           pose proof (core_fun _ _ _ _ C C') as <-. pose proof (kind_fun _ _ _ _ KR K') as E. injection E as <-. exact G2.
      * rewrite (OT j o1 B1 N). rewrite Q3. destruct (o_kind o1) eqn:EK; auto.
        all: intros r' ws' C' K'; apply core_created, CO in C'; apply (proj1 (kind_created _ _ _ _)) in K'; apply (proj1 (KD _ _)) in K'; specialize (IO r' ws' C' K');
          destruct (o_created o1); auto; rewrite <- IO; apply map_ext; intros w; apply G3; intros w' _ E;
          assert (P1 : pre (o_scope o) (o_scope o1 ++ slash ++ w)) by (rewrite E; apply pre_app);
          apply N; symmetry; exact (scope_unique st i j o o1 _ I A B1 P1 (pre_app _ _)).
    + intros j oj r' B C' K' N. destruct (at_created _ _ _ _ B) as (o1 & B1 & _ & Q1 & _). apply AT in B1. rewrite Q1, collection_created.
      apply core_created, CO in C'. apply (proj1 (kind_created _ _ _ _)) in K'. apply (proj1 (KD _ _)) in K'. rewrite (OT j o1 B1).
      * exact (i_own_tri _ I _ _ _ B1 C' K' N).
      * intros ->. pose proof (core_fun _ _ _ _ C C') as <-. pose proof (kind_fun _ _ _ _ KR K') as E. discriminate.
    + rewrite ES. intros k v G.
      destruct (in_dec (list_eq_dec ascii_dec) k (map (fun w => o_scope o ++ slash ++ w) ws)) as [Hk|Hk].
      * apply in_map_iff in Hk as (w & <- & _). apply AT in A. destruct (at_created_inv _ i _ _ A) as (o1 & B1 & _ & Q1 & _ & Q2).
        exists i, o1. split; auto. rewrite Q1, Q2, Nat.eqb_refl. split; auto. apply pre_app.
      * rewrite G3 in G by (intros w Hw E; apply Hk; apply in_map_iff; eauto).
        destruct (i_store _ I k v G) as (j & oj & B & D & P). apply AT in B.
        destruct (at_created_inv _ i _ _ B) as (o1 & B1 & _ & Q1 & _ & Q2). exists j, o1. split; auto. rewrite Q1, Q2, D.
        split; auto. now destruct (j =? i).
    + rewrite EV, GV. intros u Hu. apply in_app_iff in Hu as [Hu|Hu].
      * destruct (i_vars _ I u Hu) as (j & oj & B & P). apply AT in B.
        destruct (at_created_inv _ i _ _ B) as (o1 & B1 & _ & Q1 & _). exists j, o1. split; auto. now rewrite Q1.
      * apply AT in A. destruct (at_created_inv _ i _ _ A) as (o1 & B1 & _ & Q1 & _). exists i, o1. split; auto. rewrite Q1. auto.
  - intros j oj B. pose proof B as B0. apply AT in B. destruct (at_created_inv _ i _ _ B) as (o1 & B1 & Q0 & Q1 & _ & Q2). exists o1.
    split; auto. split; auto. split; auto.
    split; [intros Q; rewrite Q2, Q; now destruct (j =? i)|]. intros D. rewrite collection_created. apply (OT j oj B0).
    intros ->. pose proof (at_fun _ _ _ _ A B0) as <-. destruct D as [D|D]; [congruence|].
    assert (r = i) by (eapply core_fun; [exact C|]; eapply core_here; [exists o; eauto|discriminate]). subst r.
    destruct KR as (o' & A' & Q). pose proof (at_fun _ _ _ _ A A') as <-. congruence.
  - rewrite collection_created. exact OW.
Qed.

(** ** Evaluations *)
Lemma run_within st : inv st -> forall a r, core st a r -> forall fuel sc re, a < fuel ->
  (forall ws, is_kind st r (Network ws) -> run fuel st a (Some (sc, re)) = get_variables st sc re ws) /\
  (forall or, at_ st r or -> o_kind or = Triang -> run fuel st a (Some (sc, re)) = Ok (collection st (o_scope or), st)).
Proof.
  intros I a r C. induction C as [i k K N|i a r K C IH]; intros fuel sc re L; (destruct fuel as [|fuel]; [lia|]).
  - split.
    + intros ws (o & A & E). cbn [run]. unfold at_ in A. rewrite A, E. reflexivity.
    + intros o A E. cbn [run]. pose proof (i_own _ I _ _ A) as IO. rewrite E in IO. destruct IO as (v & EC).
      unfold at_ in A. rewrite A, E, EC. reflexivity.
  - destruct K as (o & A & E). pose proof (i_kinds _ I _ _ A) as IK. rewrite E in IK. destruct IK as [La _].
    cbn [run]. unfold at_ in A. rewrite A, E. apply IH. lia.
Qed.

(** The variables that object [i] uses. *)
Inductive uses (st : state) : nat -> list nat -> Prop :=
| uses_net i o r ws : at_ st i o -> core st i r -> is_kind st r (Network ws) -> o_created o = true ->
    uses st i (collection st (o_scope o))
| uses_tri i r or : core st i r -> at_ st r or -> o_kind or = Triang -> uses st i (collection st (o_scope or))
| uses_sum i a b p q : is_kind st i (Sum a b) -> uses st a p -> uses st b q -> uses st i (p ++ q).

Lemma ext_kind st st' i k : ext st st' -> is_kind st i k -> is_kind st' i k.
Proof. intros X (o & A & E). destruct (X i o A) as (o' & A' & E' & _). exists o'. split; auto. congruence. Qed.
Lemma ext_core st st' i r : ext st st' -> core st i r -> core st' i r.
Proof. intros X. apply core_mono. intros. eapply ext_kind; eauto. Qed.
Lemma uses_ext st st' i ids : ext st st' -> uses st i ids -> uses st' i ids.
Proof.
  intros X U. induction U as [i o r ws A C K D|i r or C A E|i a b p q K U1 IH1 U2 IH2].
  - destruct (X i o A) as (o' & A' & E1 & E2 & E3 & E4). rewrite <- E4 by auto. rewrite <- E2.
    eapply uses_net; eauto using ext_core, ext_kind.
  - destruct (X r or A) as (o' & A' & E1 & E2 & E3 & E4). rewrite <- E4 by auto. rewrite <- E2.
    eapply uses_tri; eauto using ext_core. congruence.
  - eapply uses_sum; eauto using ext_kind.
Qed.
Lemma core_not_sum st i r a b : core st i r -> is_kind st i (Sum a b) -> r = i.
Proof. intros C K. destruct C as [i k K' N|i c r K' C]; auto. pose proof (kind_fun _ _ _ _ K K'). discriminate. Qed.
Lemma uses_fun st i p q : uses st i p -> uses st i q -> p = q.
Proof.
  intros U. revert q. induction U as [i o r ws A C K D|i r or C A E|i a b p1 p2 K U1 IH1 U2 IH2]; intros q V.
  - destruct V as [i o' r' ws' A' C' K' D'|i r' or' C' A' E'|i a b q1 q2 K' V1 V2].
    + pose proof (at_fun _ _ _ _ A A') as <-. reflexivity.
    + pose proof (core_fun _ _ _ _ C C') as <-. exfalso. destruct K as (o2 & B & E2). pose proof (at_fun _ _ _ _ A' B) as <-. congruence.
    + pose proof (core_not_sum _ _ _ _ _ C K') as ->. pose proof (kind_fun _ _ _ _ K K'). discriminate.
  - destruct V as [i o' r' ws' A' C' K' D'|i r' or' C' A' E'|i a b q1 q2 K' V1 V2].
    + pose proof (core_fun _ _ _ _ C C') as <-. exfalso. destruct K' as (o2 & B & E2). pose proof (at_fun _ _ _ _ A B) as <-. congruence.
    + pose proof (core_fun _ _ _ _ C C') as <-. pose proof (at_fun _ _ _ _ A A') as <-. reflexivity.
    + pose proof (core_not_sum _ _ _ _ _ C K') as ->. destruct K' as (o2 & B & E2). pose proof (at_fun _ _ _ _ A B) as <-. congruence.
  - destruct V as [i o' r' ws' A' C' K' D'|i r' or' C' A' E'|i a' b' q1 q2 K' V1 V2].
    + pose proof (core_not_sum _ _ _ _ _ C' K) as ->. pose proof (kind_fun _ _ _ _ K K'). discriminate.
    + pose proof (core_not_sum _ _ _ _ _ C' K) as ->. destruct K as (o2 & B & E2). pose proof (at_fun _ _ _ _ A' B) as <-. congruence.
    + pose proof (kind_fun _ _ _ _ K K') as Q. injection Q as <- <-. f_equal; auto.
Qed.

Lemma mark_ok st n : inv st -> inv (set_names st (snd (unique_name (names st) n))) /\ ext st (set_names st (snd (unique_name (names st) n))).
Proof.
  intros I. destruct (unique_name (names st) n) as [u d] eqn:E. cbn [snd]. apply unique_spec in E as (_ & _ & U). split.
  - apply inv_names; auto. intros m Hm. apply U. now left.
  - now apply ext_same.
Qed.

Lemma run_spec fuel : forall i st, i < fuel -> inv st -> i < List.length (objs st) ->
  exists ids st2, run fuel st i None = Ok (ids, st2) /\ inv st2 /\ ext st st2 /\ uses st2 i ids.
Proof.
  induction fuel as [|fuel IH]; intros i st L I LO; [lia|].
  destruct (nth_error (objs st) i) as [o|] eqn:A; [|apply nth_error_None in A; lia]. cbn [run]. rewrite A.
  set (st0 := set_names st _).
  destruct (mark_ok st (o_scope o ++ of_string "evaluate") I) as [I0 X0]. fold st0 in I0, X0.
  assert (A0 : at_ st0 i o) by exact A.
  destruct (o_kind o) as [ws| |a b|a] eqn:EK.
  - (* network *)
    assert (K0 : is_kind st0 i (Network ws)) by (exists o; auto).
    assert (C0 : core st0 i i) by (eapply core_here; [eauto|discriminate]).
    pose proof (i_template _ I0 _ _ A0) as T. rewrite EK in T. rewrite T.
    pose proof (i_own _ I0 _ _ A0) as IO. rewrite EK in IO. specialize (IO i ws C0 K0).
    destruct (o_created o) eqn:ED.
    + rewrite (gv_reuse st0 (o_scope o) ws _ IO). cbn [bind fst snd]. do 2 eexists. split; [reflexivity|].
      destruct (inv_created st0 i o I0 A0) as [J X]; [auto|]. split; auto. split; [exact (ext_trans _ _ _ X0 X)|].
      refine (uses_ext st0 _ i _ X _). eapply uses_net; eauto.
    + pose proof (i_kinds _ I0 _ _ A0) as ND. rewrite EK in ND.
      destruct (gv_new (o_scope o) ws st0 ND) as (st1 & E & G).
      { intros w _. destruct (get (var_store st0) (o_scope o ++ slash ++ w)) as [v|] eqn:Q; auto. exfalso.
        destruct (i_store _ I0 _ _ Q) as (j & oj & B & D & P). pose proof (scope_unique st0 j i oj o _ I0 B A0 P (pre_app _ _)) as ->.
        pose proof (at_fun _ _ _ _ A0 B) as <-. congruence. }
      rewrite E. cbn [bind fst snd]. do 2 eexists. split; [reflexivity|].
      destruct (inv_first st0 st1 i o i ws I0 A0 ED C0 K0 G) as (J & X & Q). split; auto. split; [exact (ext_trans _ _ _ X0 X)|].
      refine (eq_ind _ (fun l => uses (set_created st1 i) i l) _ _ Q). assert (A1 : at_ st1 i o) by (unfold at_; rewrite (gr_objs _ _ _ _ G); exact A0).
      destruct (at_created_inv st1 i i o A1) as (o1 & B1 & Q0 & Q1 & _ & Q2). rewrite Nat.eqb_refl in Q2. rewrite <- Q1.
      eapply uses_net; eauto; [eapply ext_core; eauto|eapply ext_kind; eauto].
  - (* triangulation *)
    pose proof (i_own _ I0 _ _ A0) as IO. rewrite EK in IO. destruct IO as (v & EC). rewrite EC. cbn [bind fst snd].
    do 2 eexists. split; [reflexivity|].
    assert (C0 : core st0 i i) by (eapply core_here; [exists o; eauto|discriminate]).
    destruct (inv_created st0 i o I0 A0) as [J X].
    { intros r ws C (o' & B & E). pose proof (core_fun _ _ _ _ C0 C) as <-. pose proof (at_fun _ _ _ _ A0 B) as <-. congruence. }
    split; auto. split; [exact (ext_trans _ _ _ X0 X)|]. refine (uses_ext st0 _ i _ X _). rewrite <- EC. eapply uses_tri; eauto.
  - (* sum *)
    pose proof (i_kinds _ I0 _ _ A0) as IK. rewrite EK in IK. destruct IK as [La Lb].
    destruct (IH a st0 ltac:(lia) I0) as (p & st1 & E1 & I1 & X1 & U1); [cbn; lia|]. rewrite E1. cbn [bind fst snd].
    assert (LL : List.length (objs st0) <= List.length (objs st1)).
    { apply Nat.nlt_ge. intros H. destruct (nth_error (objs st0) (List.length (objs st1))) as [o2|] eqn:B; [|apply nth_error_None in B; lia].
      destruct (X1 _ _ B) as (o3 & B3 & _). apply at_lt in B3. lia. }
    destruct (IH b st1 ltac:(lia) I1) as (q & st2 & E2 & I2 & X2 & U2); [cbn in LL |- *; lia|]. rewrite E2. cbn [bind fst snd].
    do 2 eexists. split; [reflexivity|].
    pose proof (ext_trans _ _ _ X1 X2) as X12. destruct (X12 i o A0) as (o' & A' & E' & _).
    destruct (inv_created st2 i o' I2 A') as [J X].
    { intros r ws C KR. assert (is_kind st2 i (Sum a b)) as KS by (exists o'; split; auto; congruence).
      pose proof (core_not_sum _ _ _ _ _ C KS) as ->. pose proof (kind_fun _ _ _ _ KR KS). discriminate. }
    split; auto. split; [eapply ext_trans; [exact X0|eapply ext_trans; eauto]|].
    refine (uses_ext st2 _ i _ X _). eapply uses_sum; eauto using uses_ext. exists o'. split; auto. congruence.
  - (* saturation *)
    destruct (core_exists st0 I0 i o A0) as (r & C0 & KR); [congruence|].
    assert (Ca : core st0 a r /\ a < i).
    { pose proof (i_kinds _ I0 _ _ A0) as IK. rewrite EK in IK. destruct IK as [La _]. split; auto.
      destruct C0 as [i' k' K' N'|i' a' r' K' C']; assert (KS : is_kind st0 i' (Saturated a)) by (exists o; auto).
      - exfalso. exact (N' a (kind_fun _ _ _ _ K' KS)).
      - pose proof (kind_fun _ _ _ _ K' KS) as Q. injection Q as <-. auto. }
    destruct Ca as [Ca La]. destruct (run_within st0 I0 a r Ca fuel (o_template o) (o_created o) ltac:(lia)) as [RN RT].
    destruct KR as [(or & B & E)|(ws & KR)].
    + rewrite (RT or B E). cbn [bind fst snd]. do 2 eexists. split; [reflexivity|].
      destruct (inv_created st0 i o I0 A0) as [J X].
      { intros r' ws C (o' & B' & E'). pose proof (core_fun _ _ _ _ C0 C) as <-. pose proof (at_fun _ _ _ _ B B') as <-. congruence. }
      split; auto. split; [exact (ext_trans _ _ _ X0 X)|]. refine (uses_ext st0 _ i _ X _). eapply uses_tri; eauto.
    + rewrite (RN ws KR).
      pose proof (i_template _ I0 _ _ A0) as T. rewrite EK in T. rewrite T.
      pose proof (i_own _ I0 _ _ A0) as IO. rewrite EK in IO. specialize (IO r ws C0 KR).
      destruct (o_created o) eqn:ED.
      * rewrite (gv_reuse st0 (o_scope o) ws _ IO). cbn [bind fst snd]. do 2 eexists. split; [reflexivity|].
        destruct (inv_created st0 i o I0 A0) as [J X]; [auto|]. split; auto. split; [exact (ext_trans _ _ _ X0 X)|].
        refine (uses_ext st0 _ i _ X _). eapply uses_net; eauto.
      * assert (ND : NoDup ws).
        { destruct KR as (or & B & E). pose proof (i_kinds _ I0 _ _ B) as ND. now rewrite E in ND. }
        destruct (gv_new (o_scope o) ws st0 ND) as (st1 & E & G).
        { intros w _. destruct (get (var_store st0) (o_scope o ++ slash ++ w)) as [v|] eqn:Q; auto. exfalso.
          destruct (i_store _ I0 _ _ Q) as (j & oj & B & D & P). pose proof (scope_unique st0 j i oj o _ I0 B A0 P (pre_app _ _)) as ->.
          pose proof (at_fun _ _ _ _ A0 B) as <-. congruence. }
        rewrite E. cbn [bind fst snd]. do 2 eexists. split; [reflexivity|].
        destruct (inv_first st0 st1 i o r ws I0 A0 ED C0 KR G) as (J & X & Q). split; auto. split; [exact (ext_trans _ _ _ X0 X)|].
        refine (eq_ind _ (fun l => uses (set_created st1 i) i l) _ _ Q). assert (A1 : at_ st1 i o) by (unfold at_; rewrite (gr_objs _ _ _ _ G); exact A0).
        destruct (at_created_inv st1 i i o A1) as (o1 & B1 & Q0 & Q1 & _ & Q2). rewrite Nat.eqb_refl in Q2. rewrite <- Q1.
        eapply uses_net; eauto; [eapply ext_core; eauto|eapply ext_kind; eauto].
Qed.
