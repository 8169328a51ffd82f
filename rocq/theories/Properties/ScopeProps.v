(** Property C110: variables and parameters of function objects. *)
From Coq Require Import List Ascii String Arith Bool Lia.
From Verif Require Import Prelude ScopeModel ScopeSpec ScopeProofs ScopeProofs2 ScopeProofs3.
Import ListNotations.

Lemma step_ok st c st2 : inv st -> allowed st c -> step st c = Ok st2 -> inv st2 /\ ext st st2.
Proof.
  intros I AL E. destruct c as [n k|i|n|n| |n]; cbn [step] in E.
  - eapply new_ok; eauto.
  - destruct (lt_dec i (List.length (objs st))) as [L|L].
    + destruct (run_spec (S i) i st ltac:(lia) I L) as (ids & st1 & E1 & I1 & X1 & _). unfold call in E. rewrite E1 in E.
      injection E as <-. auto.
    + exfalso. unfold call in E. cbn [run] in E. replace (nth_error (objs st) i) with (@None obj) in E; [discriminate|].
      symmetry. apply nth_error_None. lia.
  - destruct (unique_name (names st) (below (name_scope st) n)) as [u d] eqn:EU. injection E as <-.
    split; [now apply inv_enter with (n := n)|now apply ext_same].
  - destruct (unique_name (names st) (below (name_scope st) n)) as [u d] eqn:EU. injection E as <-.
    split; [now apply inv_enter with (n := n)|now apply ext_same].
  - destruct (outer st) as [|[ns vs] rest] eqn:EO; [discriminate|]. injection E as <-.
    split; [now apply inv_leave|now apply ext_same].
  - injection E as <-. apply mark_ok; auto.
Qed.
Lemma history_ok st st2 : history st st2 -> inv st -> inv st2 /\ ext st st2.
Proof.
  intros H I. induction H as [st|st st1 c st2 H IH AL E]; [split; [auto|apply ext_refl]|].
  destruct (IH I) as [I1 X1]. destruct (step_ok _ _ _ I1 AL E) as [I2 X2]. split; auto. eapply ext_trans; eauto.
Qed.
Lemma history_inv st : history start st -> inv st.
Proof. intros H. exact (proj1 (history_ok _ _ H inv_start)). Qed.
Lemma ext_lt st st' i : ext st st' -> i < List.length (objs st) -> i < List.length (objs st').
Proof.
  intros X L. destruct (nth_error (objs st) i) as [o|] eqn:A; [|apply nth_error_None in A; lia].
  destruct (X i o A) as (o' & A' & _). eapply at_lt; eauto.
Qed.
Lemma call_spec st i : inv st -> i < List.length (objs st) ->
  exists ids st1, call st i = Ok (ids, st1) /\ inv st1 /\ ext st st1 /\ uses st1 i ids.
Proof. intros I L. exact (run_spec (S i) i st ltac:(lia) I L). Qed.
Lemma call_lt st i r : call st i = Ok r -> i < List.length (objs st).
Proof.
  intros E. apply Nat.nle_gt. intros L. unfold call in E. cbn [run] in E.
  replace (nth_error (objs st) i) with (@None obj) in E; [discriminate|]. symmetry. now apply nth_error_None.
Qed.

(** Every object can be evaluated at any time, and all its evaluations use the same
    variables, whatever happens in between. *)
Theorem C110_sharing : forall st i,
  history start st -> i < List.length (objs st) ->
  exists ids st1, call st i = Ok (ids, st1) /\
    forall st2, history st1 st2 -> exists st3, call st2 i = Ok (ids, st3).
Proof.
  intros st i H L. pose proof (history_inv _ H) as I.
  destruct (call_spec st i I L) as (ids & st1 & E & I1 & X1 & U1). exists ids, st1. split; auto.
  intros st2 H2. destruct (history_ok _ _ H2 I1) as [I2 X2].
  destruct (call_spec st2 i I2) as (ids3 & st3 & E3 & I3 & X3 & U3).
  { eapply ext_lt; [exact X2|]. eapply ext_lt; eauto. }
  exists st3. rewrite E3. do 2 f_equal.
  eapply uses_fun; [exact U3|]. eapply uses_ext; [exact X3|]. eapply uses_ext; eauto.
Qed.
Print Assumptions C110_sharing.

(** ** [parameters] *)
Inductive params (st : state) : nat -> list nat -> Prop :=
| par_core i r o : core st i r -> at_ st r o -> (forall a b, o_kind o <> Sum a b) -> params st i (collection st (o_scope o))
| par_sum i a b p q : is_kind st i (Sum a b) -> params st a p -> params st b q -> params st i (p ++ q).

Lemma scope_core st : inv st -> forall i r, core st i r -> forall o fuel, at_ st r o -> i < fuel -> scope_name fuel st i = Ok (o_scope o).
Proof.
  intros I i r C. induction C as [i k K N|i a r K C IH]; intros o fuel A L; (destruct fuel as [|fuel]; [lia|]); cbn [scope_name].
  - unfold at_ in A. rewrite A. destruct K as (o' & B & E). pose proof (at_fun _ _ _ _ A B) as <-.
    destruct (o_kind o) eqn:EK; auto. exfalso. now apply (N a).
  - destruct K as (o' & B & E). pose proof (i_kinds _ I _ _ B) as IK. rewrite E in IK. destruct IK as [La _].
    unfold at_ in B. rewrite B, E. apply IH; auto. lia.
Qed.
Lemma parameters_ok st fuel : inv st -> forall i, i < fuel -> i < List.length (objs st) ->
  exists p, parameters_of fuel st i = Ok p /\ params st i p.
Proof.
  intros I. induction fuel as [|fuel IH]; intros i L LO; [lia|].
  destruct (nth_error (objs st) i) as [o|] eqn:A; [|apply nth_error_None in A; lia].
  destruct (o_kind o) as [ws| |a b|a] eqn:EK.
  3:{ pose proof (i_kinds _ I _ _ A) as IK. rewrite EK in IK. destruct IK as [La Lb].
      destruct (IH a) as (p & Ep & Pp); [lia|lia|]. destruct (IH b) as (q & Eq & Pq); [lia|lia|].
      exists (p ++ q). cbn [parameters_of]. rewrite A, EK, Ep. cbn [bind]. rewrite Eq. split; auto.
      eapply par_sum; eauto. exists o. auto. }
  all: destruct (core_exists st I i o A) as (r & C & KR); [congruence|];
    assert (exists or, at_ st r or /\ forall a b, o_kind or <> Sum a b) as (or & B & N)
      by (destruct KR as [(or & B & E)|(ws' & or & B & E)]; exists or; split; auto; congruence);
    exists (collection st (o_scope or)); split; [|eapply par_core; eauto];
    cbn [parameters_of]; rewrite A, EK, (scope_core st I i r C or (S fuel) B L); reflexivity.
Qed.

Lemma own_empty st i o r : inv st -> at_ st i o -> core st i r -> is_kind st r (Network []) -> collection st (o_scope o) = [].
Proof.
  intros I A C K. pose proof (i_own _ I _ _ A) as IO.
  assert (H : (if o_created o then map (fun w => get (var_store st) (o_scope o ++ slash ++ w)) [] = map Some (collection st (o_scope o))
               else collection st (o_scope o) = []) -> collection st (o_scope o) = []).
  { destruct (o_created o); auto. destruct (collection st (o_scope o)); [auto|discriminate]. }
  destruct (o_kind o) eqn:EK.
  - apply H, (IO r); auto.
  - exfalso. assert (i = r) by (eapply core_fun; [eapply core_here; [exists o; eauto|discriminate]|exact C]). subst r.
    destruct K as (o' & B & E). pose proof (at_fun _ _ _ _ A B) as <-. congruence.
  - exact IO.
  - apply H, (IO r); auto.
Qed.
Lemma ordinary_params st i : inv st -> ordinary st i -> forall p ids, params st i p -> uses st i ids -> p = ids.
Proof.
  intros I O. induction O as [i ws K|i K|i a b K Oa IHa Ob IHb|i a r K Ca KR]; intros p ids P U.
  - assert (C : core st i i) by (eapply core_here; [eauto|discriminate]).
    destruct P as [i r o C1 A N|i a b p q KS P1 P2]; [|pose proof (kind_fun _ _ _ _ K KS); discriminate].
    pose proof (core_fun _ _ _ _ C C1) as <-.
    destruct U as [i o' r ws' A' C' K' D|i r or C' A' E|i a b p q KS U1 U2].
    + now pose proof (at_fun _ _ _ _ A A') as <-.
    + pose proof (core_fun _ _ _ _ C C') as <-. now pose proof (at_fun _ _ _ _ A A') as <-.
    + pose proof (kind_fun _ _ _ _ K KS). discriminate.
  - assert (C : core st i i) by (eapply core_here; [eauto|discriminate]).
    destruct P as [i r o C1 A N|i a b p q KS P1 P2]; [|pose proof (kind_fun _ _ _ _ K KS); discriminate].
    pose proof (core_fun _ _ _ _ C C1) as <-.
    destruct U as [i o' r ws' A' C' K' D|i r or C' A' E|i a b p q KS U1 U2].
    + now pose proof (at_fun _ _ _ _ A A') as <-.
    + pose proof (core_fun _ _ _ _ C C') as <-. now pose proof (at_fun _ _ _ _ A A') as <-.
    + pose proof (kind_fun _ _ _ _ K KS). discriminate.
  - destruct P as [i r o C1 A N|i a' b' p q KS P1 P2].
    + exfalso. pose proof (core_not_sum _ _ _ _ _ C1 K) as ->. destruct K as (o' & B & E). pose proof (at_fun _ _ _ _ A B) as <-.
      exact (N a b E).
    + pose proof (kind_fun _ _ _ _ K KS) as Q. injection Q as <- <-.
      destruct U as [i o' r ws' A' C' K' D|i r or C' A' E|i a' b' p' q' KS' U1 U2].
      * exfalso. pose proof (core_not_sum _ _ _ _ _ C' K) as ->. pose proof (kind_fun _ _ _ _ K K'). discriminate.
      * exfalso. pose proof (core_not_sum _ _ _ _ _ C' K) as ->. destruct K as (o' & B & E'). pose proof (at_fun _ _ _ _ A' B) as <-. congruence.
      * pose proof (kind_fun _ _ _ _ K KS') as Q. injection Q as <- <-. f_equal; auto.
  - assert (C : core st i r) by (eapply core_sat; eauto).
    destruct P as [i r' o C1 A N|i a' b' p q KS P1 P2]; [|pose proof (kind_fun _ _ _ _ K KS); discriminate].
    pose proof (core_fun _ _ _ _ C C1) as <-.
    destruct U as [i o' r' ws' A' C' K' D|i r' or C' A' E|i a' b' p q KS U1 U2].
    + pose proof (core_fun _ _ _ _ C C') as <-. destruct KR as [KR|KR]; [pose proof (kind_fun _ _ _ _ KR K'); discriminate|].
      rewrite (own_empty st i o' r I A' C KR).
      assert (Cr : core st r r) by (eapply core_here; [eauto|discriminate]).
      now rewrite (own_empty st r o r I A Cr KR).
    + pose proof (core_fun _ _ _ _ C C') as <-. now pose proof (at_fun _ _ _ _ A A') as <-.
    + pose proof (kind_fun _ _ _ _ K KS). discriminate.
Qed.

Lemma ordinary_ext st st' i : ext st st' -> ordinary st i -> ordinary st' i.
Proof.
  intros X O. induction O as [i ws K|i K|i a b K Oa IHa Ob IHb|i a r K Ca KR].
  - eapply ord_network, ext_kind; eauto.
  - eapply ord_triang, ext_kind; eauto.
  - eapply ord_sum; eauto using ext_kind.
  - eapply ord_sat; eauto using ext_kind, ext_core. destruct KR; [left|right]; eapply ext_kind; eauto.
Qed.

(** Once an object has been evaluated, [parameters] lists exactly the variables that
    its evaluations use, in the same order. *)
Theorem C110_parameters : forall st i ids st1 st2,
  history start st -> ordinary st i -> call st i = Ok (ids, st1) -> history st1 st2 ->
  parameters st2 i = Ok ids.
Proof.
  intros st i ids st1 st2 H O E H2. pose proof (history_inv _ H) as I. pose proof (call_lt _ _ _ E) as L.
  destruct (call_spec st i I L) as (ids' & st1' & E' & I1 & X1 & U1). rewrite E in E'. injection E' as <- <-.
  destruct (history_ok _ _ H2 I1) as [I2 X2].
  destruct (parameters_ok st2 (S i) I2 i) as (p & Ep & Pp); [lia| |].
  { eapply ext_lt; [exact X2|]. eapply ext_lt; eauto. }
  unfold parameters. rewrite Ep. f_equal. eapply ordinary_params; eauto.
  - eapply ordinary_ext; [|exact O]. eapply ext_trans; eauto.
  - eapply uses_ext; eauto.
Qed.
Print Assumptions C110_parameters.

(** ** How many variables, and before the first evaluation *)
Lemma collection_NoDup st s : NoDup (collection st s).
Proof. apply NoDup_filter, seq_NoDup. Qed.
Lemma collection_name st i o v : inv st -> at_ st i o -> In v (collection st (o_scope o)) ->
  v < List.length (variables st) /\ pre (o_scope o) (nth v (variables st) []).
Proof.
  intros I A V. apply filter_In in V as [V M]. apply in_seq in V. split; [lia|].
  now apply (proj1 (scope_match st i o _ I A)).
Qed.

(** A network has one variable for each name it asks for, a triangulation one. *)
Theorem C110_own_variables : forall st i ids st1,
  history start st -> call st i = Ok (ids, st1) ->
  (forall ws, is_kind st i (Network ws) -> List.length ids = List.length ws /\ NoDup ids) /\
  (is_kind st i Triang -> List.length ids = 1).
Proof.
  intros st i ids st1 H E. pose proof (history_inv _ H) as I. pose proof (call_lt _ _ _ E) as L.
  destruct (call_spec st i I L) as (ids' & st1' & E' & I1 & X1 & U1). rewrite E in E'. injection E' as <- <-.
  split.
  - intros ws K. apply (ext_kind _ _ _ _ X1) in K.
    assert (C : core st1 i i) by (eapply core_here; [eauto|discriminate]).
    destruct U1 as [i o r ws' A' C' K' D|i r or C' A' E'|i a b p q KS U1 U2].
    + split; [|apply collection_NoDup]. pose proof (core_fun _ _ _ _ C C') as <-. pose proof (kind_fun _ _ _ _ K K') as Q.
      injection Q as <-. pose proof (i_own _ I1 _ _ A') as IO. destruct K as (o' & B & EK).
      pose proof (at_fun _ _ _ _ A' B) as <-. rewrite EK in IO. specialize (IO i ws C ltac:(exists o; auto)). rewrite D in IO.
      apply (f_equal (@List.length _)) in IO. now rewrite !map_length in IO.
    + pose proof (core_fun _ _ _ _ C C') as <-. destruct K as (o' & B & EK). pose proof (at_fun _ _ _ _ A' B) as <-. congruence.
    + pose proof (kind_fun _ _ _ _ K KS). discriminate.
  - intros K. apply (ext_kind _ _ _ _ X1) in K.
    assert (C : core st1 i i) by (eapply core_here; [eauto|discriminate]).
    destruct U1 as [i o r ws' A' C' K' D|i r or C' A' E'|i a b p q KS U1 U2].
    + pose proof (core_fun _ _ _ _ C C') as <-. pose proof (kind_fun _ _ _ _ K K'). discriminate.
    + pose proof (core_fun _ _ _ _ C C') as <-. pose proof (i_own _ I1 _ _ A') as IO. rewrite E' in IO.
      destruct IO as (v & ->). reflexivity.
    + pose proof (kind_fun _ _ _ _ K KS). discriminate.
Qed.

(** Before its first evaluation a network has no parameters; the value of a
    triangulation is there from the start. *)
Theorem C110_new_objects : forall st n st1,
  history start st ->
  (forall ws, allowed st (New n (Network ws)) -> new st n (Network ws) = Ok st1 ->
     parameters st1 (List.length (objs st)) = Ok []) /\
  (allowed st (New n Triang) -> new st n Triang = Ok st1 ->
     exists v st2, parameters st1 (List.length (objs st)) = Ok [v] /\
       call st1 (List.length (objs st)) = Ok ([v], st2)).
Proof.
  intros st n st1 H. pose proof (history_inv _ H) as I. set (i := List.length (objs st)).
  assert (G : forall k, allowed st (New n k) -> new st n k = Ok st1 ->
            inv st1 /\ exists o, at_ st1 i o /\ o_kind o = k /\ o_created o = false).
  { intros k AL E. destruct (new_ok _ _ _ _ I AL E) as [I1 X1]. split; auto.
    unfold new in E. destruct (check_kind st k); [cbn [bind] in E|discriminate].
    destruct (unique_name (names st) (below (name_scope st) n)) as [u d].
    assert (Q : objs st1 = objs st ++ [Obj k (u ++ slash) (below (variable_scope st) (u ++ slash)) false]).
    { destruct k; try (injection E as <-; reflexivity). unfold add_variable in E.
      destruct (unique_name _ _) in E. cbn [snd] in E. injection E as <-. reflexivity. }
    eexists. unfold at_, i. rewrite Q, nth_error_app2, Nat.sub_diag by lia. cbn. auto. }
  split.
  - intros ws AL E. destruct (G _ AL E) as (I1 & o & A & EK & EC).
    assert (C : core st1 i i) by (eapply core_here; [exists o; eauto|congruence]).
    unfold parameters. cbn [parameters_of]. unfold at_ in A. rewrite A, EK, (scope_core st1 I1 i i C o (S i) A) by lia.
    cbn [bind]. pose proof (i_own _ I1 _ _ A) as IO. rewrite EK, EC in IO. f_equal. apply (IO i ws C). exists o; auto.
  - intros AL E. destruct (G _ AL E) as (I1 & o & A & EK & EC).
    assert (C : core st1 i i) by (eapply core_here; [exists o; eauto|congruence]).
    pose proof (i_own _ I1 _ _ A) as IO. rewrite EK in IO. destruct IO as (v & EV).
    assert (EP : parameters st1 i = Ok [v]).
    { unfold parameters. cbn [parameters_of]. unfold at_ in A. rewrite A, EK, (scope_core st1 I1 i i C o (S i) A) by lia.
      cbn [bind]. now rewrite EV. }
    destruct (call_spec st1 i I1 (at_lt _ _ _ A)) as (ids & st2 & E2 & I2 & X2 & U2). exists v, st2. split; auto.
    rewrite E2. do 2 f_equal. eapply uses_fun; [exact U2|]. eapply uses_ext; [exact X2|]. rewrite <- EV.
    eapply uses_tri; eauto.
Qed.

(** ** Different objects *)
(** Every parameter belongs to a network or a triangulation. *)
Lemma params_owner st i p v : inv st -> params st i p -> In v p ->
  exists r o, at_ st r o /\ (forall a, o_kind o <> Saturated a) /\ (forall a b, o_kind o <> Sum a b) /\ In v (collection st (o_scope o)).
Proof.
  intros I P. induction P as [i r o C A N|i a b p q K P1 IH1 P2 IH2]; intros V.
  - exists r, o. split; auto. split; auto. clear - C A. induction C as [i k K N|i a r K C IH]; auto.
    destruct K as (o' & B & E). pose proof (at_fun _ _ _ _ A B) as <-. now rewrite E.
  - apply in_app_iff in V as [V|V]; auto.
Qed.
Theorem C110_disjoint : forall st i j p q,
  history start st -> i <> j ->
  (is_kind st i Triang \/ exists ws, is_kind st i (Network ws)) ->
  (is_kind st j Triang \/ exists ws, is_kind st j (Network ws)) ->
  parameters st i = Ok p -> parameters st j = Ok q -> disjoint p q.
Proof.
  intros st i j p q H N KI KJ EP EQ. pose proof (history_inv _ H) as I.
  assert (G : forall i p, (is_kind st i Triang \/ exists ws, is_kind st i (Network ws)) -> parameters st i = Ok p ->
            exists o, at_ st i o /\ p = collection st (o_scope o)).
  { clear - I. intros i p K E.
    assert (exists o, at_ st i o /\ (forall a, o_kind o <> Saturated a) /\ forall a b, o_kind o <> Sum a b) as (o & A & N1 & N2)
      by (destruct K as [(o & A & E')|(ws & o & A & E')]; exists o; repeat split; auto; congruence).
    exists o. split; auto. destruct (parameters_ok st (S i) I i ltac:(lia) (at_lt _ _ _ A)) as (p' & E' & P).
    unfold parameters in E. rewrite E in E'. injection E' as <-.
    assert (C : core st i i) by (eapply core_here; [exists o; eauto|exact N1]).
    destruct P as [i r o' C' A' N'|i a b p q KS P1 P2].
    - pose proof (core_fun _ _ _ _ C C') as <-. now pose proof (at_fun _ _ _ _ A A') as <-.
    - destruct KS as (o' & A' & E''). pose proof (at_fun _ _ _ _ A A') as <-. exfalso. exact (N2 _ _ E''). }
  destruct (G i p KI EP) as (oi & Ai & ->). destruct (G j q KJ EQ) as (oj & Aj & ->).
  intros v Vi Vj. apply N.
  eapply (scope_unique st i j oi oj (nth v (variables st) [])); eauto; eapply collection_name; eauto.
Qed.
Print Assumptions C110_disjoint.

(** The deviation: evaluating the saturation of a network creates variables of its
    own.  No object lists them in its [parameters], in particular neither the
    saturation nor the network, and the network uses others. *)
Theorem C110_saturated_network : forall st i a r ws ids st1,
  history start st -> is_kind st i (Saturated a) -> core st a r -> is_kind st r (Network ws) ->
  call st i = Ok (ids, st1) ->
  List.length ids = List.length ws /\
  forall st2, history st1 st2 ->
    (forall j p, parameters st2 j = Ok p -> disjoint p ids) /\
    (forall used st3, call st2 r = Ok (used, st3) -> disjoint used ids).
Proof.
  intros st i a r ws ids st1 H K C KR E. pose proof (history_inv _ H) as I. pose proof (call_lt _ _ _ E) as L.
  destruct (call_spec st i I L) as (ids' & st1' & E' & I1 & X1 & U1). rewrite E in E'. injection E' as <- <-.
  assert (Ci : core st1 i r) by (eapply ext_core; [exact X1|]; eapply core_sat; eauto).
  apply (ext_kind _ _ _ _ X1) in K. apply (ext_kind _ _ _ _ X1) in KR.
  assert (G : exists o, at_ st1 i o /\ o_kind o = Saturated a /\ o_created o = true /\ ids = collection st1 (o_scope o)).
  { destruct K as (o & A & EK). exists o. split; auto. split; auto.
    destruct U1 as [i o' r' ws' A' C' K' D|i r' or C' A' E'|i a' b p q KS U1 U2].
    - pose proof (at_fun _ _ _ _ A A') as <-. auto.
    - pose proof (core_fun _ _ _ _ Ci C') as <-. destruct KR as (o'' & B & E''). pose proof (at_fun _ _ _ _ A' B) as <-. congruence.
    - destruct KS as (o' & B & E''). pose proof (at_fun _ _ _ _ A B) as <-. congruence. }
  destruct G as (o & A & EK & D & ->). split.
  { pose proof (i_own _ I1 _ _ A) as IO. rewrite EK in IO. specialize (IO r ws Ci KR). rewrite D in IO.
    apply (f_equal (@List.length _)) in IO. now rewrite !map_length in IO. }
  intros st2 H2. destruct (history_ok _ _ H2 I1) as [I2 X2].
  assert (G : forall st2 , inv st2 -> ext st1 st2 -> exists o2, at_ st2 i o2 /\ o_kind o2 = Saturated a /\
            collection st1 (o_scope o) = collection st2 (o_scope o2)).
  { clear - I1 A EK D U1 Ci KR. intros st2 I2 X2.
    destruct (ext_kind _ _ i (Saturated a) X2) as (o2 & A2 & E2); [exists o; auto|].
    exists o2. split; auto. split; auto. pose proof (uses_ext _ _ _ _ X2 U1) as U2.
    destruct U2 as [i o' r' ws' A' C' K' D'|i r' or C' A' E'|i a' b p q KS U1' U2'].
    - now pose proof (at_fun _ _ _ _ A2 A') as <-.
    - apply (ext_core _ _ _ _ X2) in Ci. apply (ext_kind _ _ _ _ X2) in KR.
      pose proof (core_fun _ _ _ _ Ci C') as <-. destruct KR as (o'' & B & E''). pose proof (at_fun _ _ _ _ A' B) as <-. congruence.
    - destruct KS as (o' & B & E''). pose proof (at_fun _ _ _ _ A2 B) as <-. congruence. }
  split.
  - intros j p EP v Vp Vi. destruct (G st2 I2 X2) as (o2 & A2 & E2 & EC). rewrite EC in Vi.
    assert (Lj : j < List.length (objs st2)).
    { apply Nat.nle_gt. intros Lj. unfold parameters in EP. cbn [parameters_of] in EP.
      replace (nth_error (objs st2) j) with (@None obj) in EP; [discriminate|]. symmetry. now apply nth_error_None. }
    destruct (parameters_ok st2 (S j) I2 j ltac:(lia) Lj) as (p' & E' & P). unfold parameters in EP. rewrite EP in E'. injection E' as <-.
    destruct (params_owner _ _ _ _ I2 P Vp) as (s & os & As & N1 & N2 & Vs).
    destruct (collection_name _ _ _ _ I2 A2 Vi) as [_ P1]. destruct (collection_name _ _ _ _ I2 As Vs) as [_ P2].
    pose proof (scope_unique _ _ _ _ _ _ I2 A2 As P1 P2) as <-. pose proof (at_fun _ _ _ _ A2 As) as <-. exact (N1 _ E2).
  - intros used st3 E3 v Vu Vi.
    destruct (call_spec st2 r I2 (call_lt _ _ _ E3)) as (used' & st3' & E3' & I3 & X3 & U3).
    rewrite E3 in E3'. injection E3' as <- <-.
    destruct (G st3 I3 (ext_trans _ _ _ X2 X3)) as (o2 & A2 & E2 & EC). rewrite EC in Vi.
    pose proof (ext_kind _ _ _ _ (ext_trans _ _ _ X2 X3) KR) as KR3.
    assert (C3 : core st3 r r) by (eapply core_here; [eauto|discriminate]).
    destruct U3 as [r o' r' ws' A' C' K' D'|r r' or C' A' E'|r a' b p q KS U1' U2'].
    + destruct (collection_name _ _ _ _ I3 A2 Vi) as [_ P1]. destruct (collection_name _ _ _ _ I3 A' Vu) as [_ P2].
      pose proof (scope_unique _ _ _ _ _ _ I3 A2 A' P1 P2) as <-.
      destruct KR3 as (o'' & B & E''). pose proof (at_fun _ _ _ _ A2 B) as <-. congruence.
    + pose proof (core_fun _ _ _ _ C3 C') as <-. destruct KR3 as (o'' & B & E''). pose proof (at_fun _ _ _ _ A' B) as <-. congruence.
    + pose proof (kind_fun _ _ _ _ KR3 KS). discriminate.
Qed.
Print Assumptions C110_saturated_network.

(** ** Examples *)
Local Open Scope string_scope.
Definition net ws := Network (map of_string ws).
Definition result (cs : list command) : state := match execute start cs with Ok st => st | Err _ => start end.

(** Two networks with the same name, a triangulation, a network with that name
    within a scope, and the sum of a network and the triangulation. *)
Definition mixed : list command :=
  [New (of_string "net") (net ["kernel"; "bias"]); New (of_string "net") (net ["kernel"]);
   New (of_string "tri") Triang; EnterName (of_string "scope"); New (of_string "net") (net ["kernel"]); Leave;
   New (of_string "sum") (Sum 0 2); Call 4; Call 3; Call 1; Call 0].
Definition with_saturation : list command :=
  (mixed ++ [New (of_string "sat") (Saturated 1); New (of_string "sat") (Saturated 2); Call 5])%list.

Definition allowedb (st : state) (c : command) : bool :=
  let plainb n := negb (match n with [] => true | _ => false end) &&
                  forallb (fun c => negb (Ascii.eqb c "/"%char) && negb (Ascii.eqb c "."%char)) n in
  let top := match variable_scope st with [] => true | _ => false end in
  match c with
  | New n (Network ws) => plainb n && top && Nat.eqb (List.length (nodup (list_eq_dec ascii_dec) ws)) (List.length ws)
  | New n (Saturated _) => plainb n && top
  | New n _ | EnterName n | EnterVariable n => plainb n
  | _ => true
  end.
Fixpoint allowed_all (st : state) (cs : list command) : bool :=
  match cs with
  | [] => true
  | c :: cs => allowedb st c && match step st c with Ok st => allowed_all st cs | Err _ => false end
  end.
Lemma allowedb_ok st c : allowedb st c = true -> allowed st c.
Proof.
  assert (P : forall n, negb (match n with [] => true | _ => false end) &&
     forallb (fun c => negb (Ascii.eqb c "/"%char) && negb (Ascii.eqb c "."%char)) n = true -> plain n).
  { intros n E. apply andb_true_iff in E as [E1 E2]. rewrite forallb_forall in E2. split; [destruct n; [discriminate|intro Q; discriminate]|].
    split; intro Q; apply E2 in Q; cbn in Q; discriminate. }
  unfold allowedb, allowed. destruct c as [n k|i|n|n| |n]; auto.
  destruct k as [ws| |a b|a]; auto.
  - intros E. apply andb_true_iff in E as [E E3]. apply andb_true_iff in E as [E1 E2]. split; [auto|]. split.
    + now destruct (variable_scope st).
    + apply Nat.eqb_eq in E3. apply (@NoDup_incl_NoDup _ (nodup (list_eq_dec ascii_dec) ws)).
      * apply NoDup_nodup.
      * apply Nat.eq_le_incl. symmetry. exact E3.
      * intros x V. now apply nodup_In in V.
  - intros E. apply andb_true_iff in E as [E1 E2]. split; [auto|]. now destruct (variable_scope st).
Qed.
Lemma history_more a b c : history a b -> history b c -> history a c.
Proof. intros H K. induction K as [|b st1 cmd st2 K IH AL E]; auto. exact (h_step _ _ _ _ (IH H) AL E). Qed.
Lemma allowed_history cs : forall st, allowed_all st cs = true -> exists st2, execute st cs = Ok st2 /\ history st st2.
Proof.
  induction cs as [|c cs IH]; intros st E; [exists st; split; [reflexivity|constructor]|].
  cbn [allowed_all] in E. apply andb_true_iff in E as [E1 E2]. apply allowedb_ok in E1.
  destruct (step st c) as [st1|] eqn:ES; [|discriminate]. destruct (IH st1 E2) as (st2 & X & Y). exists st2. split.
  - cbn [execute]. now rewrite ES.
  - eapply history_more; [|exact Y]. eapply h_step; [constructor|exact E1|exact ES].
Qed.

Theorem C110_example : exists st, execute start with_saturation = Ok st /\ history start st /\
  map (parameters st) (seq 0 7) =
    [Ok [1; 2]; Ok [4]; Ok [0]; Ok [3]; Ok [1; 2; 0]; Ok [4]; Ok [0]] /\
  (exists st2, call st 4 = Ok ([1; 2; 0], st2)) /\
  (exists st2, call st 5 = Ok ([5], st2)) /\ (exists st2, call st 6 = Ok ([0], st2)) /\
  ordinary st 4 /\ ordinary st 6 /\
  nth 3 (variables st) [] = of_string "scope/net//kernel".
Proof.
  destruct (allowed_history with_saturation start) as (st & E & H); [vm_compute; reflexivity|].
  exists st. split; auto. split; auto. assert (Q : st = result with_saturation) by (unfold result; now rewrite E).
  assert (K : forall i k, match nth_error (objs (result with_saturation)) i with Some o => Some (o_kind o) | None => None end = Some k ->
            is_kind (result with_saturation) i k).
  { intros i k F. unfold is_kind. destruct (nth_error (objs (result with_saturation)) i) as [o|]; [|discriminate].
    exists o. split; auto. congruence. }
  rewrite Q. clear Q. split; [vm_compute; reflexivity|].
  split; [eexists; vm_compute; reflexivity|]. split; [eexists; vm_compute; reflexivity|]. split; [eexists; vm_compute; reflexivity|].
  split.
  { apply (ord_sum _ 4 0 2); [apply K; vm_compute; reflexivity| |].
    - apply (ord_network _ 0 (map of_string ["kernel"; "bias"])), K. vm_compute. reflexivity.
    - apply ord_triang, K. vm_compute. reflexivity. }
  split; [|vm_compute; reflexivity].
  apply (ord_sat _ 6 2 2); [apply K; vm_compute; reflexivity| |left; apply K; vm_compute; reflexivity].
  apply (core_here _ 2 Triang); [apply K; vm_compute; reflexivity|discriminate].
Qed.

(** ** What goes wrong with other programs *)
(** A network that is constructed within a [tf.variable_scope] does not list its
    variables; a function whose name is that of the scope may list them instead. *)
Theorem C110_variable_scope_refuted :
  (exists st st2, execute start [EnterVariable (of_string "a"); New (of_string "net") (net ["w"]); Leave; Call 0] = Ok st /\
     call st 0 = Ok ([0], st2) /\ parameters st2 0 = Ok []) /\
  (exists st st2, execute start [New (of_string "a") Triang; EnterVariable (of_string "a"); New (of_string "net") (net ["w"]); Leave; Call 1] = Ok st /\
     call st 1 = Ok ([1], st2) /\ parameters st2 1 = Ok [] /\ parameters st2 0 = Ok [0; 1]).
Proof.
  split.
  - eexists. eexists. split; [vm_compute; reflexivity|]. split; vm_compute; reflexivity.
  - eexists. eexists. split; [vm_compute; reflexivity|]. split; [vm_compute; reflexivity|]. split; vm_compute; reflexivity.
Qed.

(** A dot in a name matches any character: the second triangulation reads the values of
    the first one and lists both. *)
Theorem C110_dots_refuted :
  exists st st2, execute start [New (of_string "tau_0_1") Triang; New (of_string "tau_0.1") Triang] = Ok st /\
    call st 1 = Ok ([0], st2) /\ parameters st 1 = Ok [0; 1] /\ parameters st 0 = Ok [0] /\
    variables st = [of_string "tau_0_1/vertex_values"; of_string "tau_0.1/vertex_values"].
Proof. eexists. eexists. split; [vm_compute; reflexivity|]. repeat split; vm_compute; reflexivity. Qed.
