(** Proofs about names and variables of function objects: constructors and calls. *)
From Coq Require Import List Ascii String Arith Bool Lia.
From Verif Require Import Prelude ScopeModel ScopeSpec ScopeProofs.
Import ListNotations.

Lemma at_lt st i o : at_ st i o -> i < List.length (objs st).
Proof. intros H. apply nth_error_Some. unfold at_ in H. congruence. Qed.
Lemma at_fun st i o o' : at_ st i o -> at_ st i o' -> o = o'.
Proof. unfold at_. congruence. Qed.
Lemma kind_fun st i k k' : is_kind st i k -> is_kind st i k' -> k = k'.
Proof. intros (o & A & <-) (o' & A' & <-). f_equal. eapply at_fun; eauto. Qed.
Lemma core_lt st i r : core st i r -> i < List.length (objs st).
Proof. intros C. destruct C as [i k (o & A & _)|i a r (o & A & _)]; eapply at_lt; exact A. Qed.
Lemma core_fun st i r r' : core st i r -> core st i r' -> r = r'.
Proof.
  intros C. revert r'. induction C as [i k K N|i a r K C IH]; intros r' C'.
  - destruct C' as [i' k' K' N'|i a r' K' C']; auto. exfalso. apply (N a). eapply kind_fun; eauto.
  - destruct C' as [i' k' K' N'|i a' r' K' C'].
    + exfalso. apply (N' a). eapply kind_fun; eauto.
    + pose proof (kind_fun _ _ _ _ K K') as E. injection E as <-. auto.
Qed.
Lemma collection_coll st s : collection st s = coll (variables st) s. Proof. reflexivity. Qed.

(** Objects and variables of other scopes do not matter. *)
Lemma coll_other st i o us s : inv st -> at_ st i o -> ~ pre (o_scope o) s -> ~ pre s (o_scope o) ->
  (forall u, In u us -> pre s u) -> coll (variables st ++ us) (o_scope o) = coll (variables st) (o_scope o).
Proof.
  intros I A N1 N2 H. apply coll_none. intros u Hu. destruct (re_match (o_scope o) u) eqn:E; auto.
  apply (scope_match st i o u I A) in E. destruct (pre_both _ _ _ E (H u Hu)); contradiction.
Qed.
Lemma coll_fresh st s : inv st -> no_dot s -> (forall i o, at_ st i o -> ~ pre (o_scope o) s /\ ~ pre s (o_scope o)) ->
  coll (variables st) s = [].
Proof.
  intros I N H. apply filter_none. intros v Hv. apply in_seq in Hv.
  destruct (re_match s (nth v (variables st) [])) eqn:E; auto. apply re_match_pre in E; auto.
  destruct (i_vars _ I (nth v (variables st) [])) as (i & o & A & P); [apply nth_In; lia|].
  destruct (H i o A). destruct (pre_both _ _ _ E P); contradiction.
Qed.

Section New.
Variables (st : state) (k : kind) (u : name) (d : list (name * nat)) (us : list name).
Hypothesis I : inv st.
Hypothesis F : ~ taken st u.
Hypothesis ND : no_dot u.
Hypothesis U : forall m, taken st m \/ m = u -> in_use d m = true.
Hypothesis K : forall p, inside p u -> p = u \/ (taken st p /\ forall i o, at_ st i o -> o_scope o <> p ++ slash).
Hypothesis CK : check_kind st k = Ok tt.
Hypothesis AL : match k with Network ws => variable_scope st = [] /\ NoDup ws | Saturated _ => variable_scope st = [] | _ => True end.
Hypothesis HU : forall n, In n us -> pre (u ++ slash) n.
Hypothesis LU : List.length us = match k with Triang => 1 | _ => 0 end.

Definition onew := Obj k (u ++ slash) (below (variable_scope st) (u ++ slash)) false.
Definition st' := State d (variables st ++ us) (var_store st) (name_scope st) (variable_scope st) (outer st) (objs st ++ [onew]).

Lemma at_old i o : at_ st i o -> at_ st' i o.
Proof. intros A. unfold at_, st'. cbn [objs]. rewrite nth_error_app1; auto. eapply at_lt; eauto. Qed.
Lemma at_new i o : at_ st' i o -> at_ st i o \/ (i = List.length (objs st) /\ o = onew).
Proof.
  unfold at_, st'. cbn [objs]. intros A. destruct (lt_dec i (List.length (objs st))).
  - rewrite nth_error_app1 in A by auto. auto.
  - rewrite nth_error_app2 in A by lia. destruct (i - List.length (objs st)) as [|[|]] eqn:E; try discriminate.
    injection A as <-. right. split; auto. lia.
Qed.
Lemma kind_old i k' : is_kind st i k' -> is_kind st' i k'.
Proof. intros (o & A & E). exists o. split; auto. now apply at_old. Qed.
Lemma kind_back i k' : is_kind st' i k' -> i < List.length (objs st) -> is_kind st i k'.
Proof. intros (o & A & E) L. exists o. split; auto. destruct (at_new _ _ A) as [|[-> _]]; auto. lia. Qed.
Lemma core_old i r : core st i r -> core st' i r.
Proof. apply core_mono. apply kind_old. Qed.
Lemma core_back i r : core st' i r -> i < List.length (objs st) -> core st i r /\ r < List.length (objs st).
Proof.
  intros C. induction C as [i k' K' N|i a r K' C IH]; intros L.
  - split; auto. eapply core_here; [apply kind_back; eauto|auto].
  - pose proof (kind_back _ _ K' L) as KB. destruct KB as (o & A & E).
    pose proof (i_kinds _ I _ _ A) as IK. rewrite E in IK. destruct IK as [L2 _].
    destruct IH as [C2 L3]; [lia|]. split; auto. eapply core_sat; eauto. exists o. auto.
Qed.
Lemma old_coll i o : at_ st i o -> collection st' (o_scope o) = collection st (o_scope o).
Proof.
  intros A. destruct (fresh_object st i o u I F K A) as (N1 & N2 & _). rewrite !collection_coll. cbn [variables st'].
  eapply coll_other; eauto.
Qed.
Lemma new_coll : collection st' (u ++ slash) = seq (List.length (variables st)) (List.length us).
Proof.
  assert (NS : no_dot (u ++ slash)).
  { unfold no_dot, slash. rewrite in_app_iff. intros [H|[H|[]]]; [auto|discriminate]. }
  rewrite collection_coll. cbn [variables st']. rewrite coll_all.
  - rewrite coll_fresh with (st := st); auto. intros i o A. destruct (fresh_object st i o u I F K A) as (N1 & N2 & _). auto.
  - intros n Hn. apply re_match_pre; auto.
Qed.

Lemma inv_new : inv st'.
Proof.
  constructor.
  - intros i o A. destruct (at_new _ _ A) as [B|[_ ->]].
    + destruct (i_obj _ I _ _ B) as (w & E & N & T). exists w. split; auto. split; auto. intros p P. apply U. left. apply T, P.
    + exists u. split; auto. split; auto. intros p P. apply U. destruct (K p P) as [->|[T _]]; auto.
  - intros i j oi oj N A B P. destruct (at_new _ _ A) as [A'|[-> ->]], (at_new _ _ B) as [B'|[-> ->]].
    + exact (i_distinct _ I i j oi oj N A' B' P).
    + exact (proj1 (fresh_object st i oi u I F K A') P).
    + exact (proj1 (proj2 (fresh_object st j oj u I F K B')) P).
    + now apply N.
  - intros s Hs. destruct (i_scope _ I s Hs) as [|[N T]]; auto. right. split; auto. intros p P. destruct (T p P) as [T1 T2].
    split; [apply U; now left|]. intros i o A. destruct (at_new _ _ A) as [A'|[_ ->]]; eauto.
    cbn [o_scope onew]. intros E. apply slash_inj in E. subst p. contradiction.
  - intros i o A. destruct (at_new _ _ A) as [A'|[_ ->]]; [exact (i_template _ I _ _ A')|].
    cbn [onew o_kind o_template o_scope]. destruct k; auto.
    + destruct AL as [-> _]. reflexivity.
    + rewrite AL. reflexivity.
  - intros i o A. destruct (at_new _ _ A) as [A'|[-> ->]].
    + pose proof (i_kinds _ I _ _ A') as IK. destruct (o_kind o); auto. destruct IK as [L (oa & B & E)]. split; auto.
      exists oa. split; auto. now apply at_old.
    + cbn [onew o_kind]. destruct k as [ws| |a b|a]; auto.
      * apply AL.
      * unfold check_kind in CK. destruct (_ && _) eqn:E1; [|discriminate]. apply andb_true_iff in E1 as [E1 E2].
        apply Nat.ltb_lt in E1, E2. auto.
      * cbn in CK. destruct (nth_error (objs st) a) as [oa|] eqn:E; [|discriminate]. change (at_ st a oa) in E.
        split; [eapply at_lt; eauto|]. exists oa. split; [now apply at_old|]. intros b c Q. rewrite Q in CK. discriminate.
  - intros i o A. destruct (at_new _ _ A) as [A'|[-> ->]].
    + rewrite (old_coll i o A'). pose proof (i_own _ I _ _ A') as IO. pose proof (at_lt _ _ _ A') as L.
      destruct (o_kind o); auto; intros r ws' C KR; destruct (core_back _ _ C L) as [C' L']; apply (IO r ws'); auto; now apply kind_back.
    + cbn [onew o_kind o_scope o_created]. rewrite new_coll, LU. destruct k; auto. now exists (List.length (variables st)).
  - intros i o r A C KR N. destruct (at_new _ _ A) as [A'|[-> ->]].
    + rewrite (old_coll i o A'). pose proof (at_lt _ _ _ A') as L. destruct (core_back _ _ C L) as [C' L'].
      apply (i_own_tri _ I i o r); auto. now apply kind_back.
    + cbn [onew o_scope]. rewrite new_coll, LU. destruct k eqn:Ek; auto.
      exfalso. apply N. destruct C as [i k' K' N'|i a r K' C]; auto. exfalso.
      destruct K' as (o & B & E). pose proof (at_fun _ _ _ _ A B) as <-. cbn in E. congruence.
  - intros k' v G. destruct (i_store _ I k' v G) as (i & o & A & H). exists i, o. split; auto. now apply at_old.
  - intros n Hn. cbn [variables st'] in Hn. apply in_app_iff in Hn as [Hn|Hn].
    + destruct (i_vars _ I n Hn) as (i & o & A & H). exists i, o. split; auto. now apply at_old.
    + exists (List.length (objs st)), onew. split; [|now apply HU]. unfold at_, st'. cbn [objs].
      rewrite nth_error_app2, Nat.sub_diag by lia. reflexivity.
Qed.
Lemma ext_new : ext st st'.
Proof.
  intros i o A. exists o. split; [now apply at_old|]. repeat split; auto. intros _. now apply old_coll with (i := i).
Qed.
End New.

Lemma new_ok st n k st2 : inv st -> allowed st (New n k) -> new st n k = Ok st2 -> inv st2 /\ ext st st2.
Proof.
  intros I AL H. unfold new in H. destruct (check_kind st k) as [[]|] eqn:CK; [|discriminate]. cbn [bind] in H.
  destruct (unique_name (names st) (below (name_scope st) n)) as [u d] eqn:EU.
  assert (P : plain n) by (destruct k; cbn in AL; tauto).
  destruct (fresh_scope _ _ _ _ I P EU) as (F & ND & U & K).
  assert (AL' : match k with Network ws => variable_scope st = [] /\ NoDup ws | Saturated _ => variable_scope st = [] | _ => True end)
    by (destruct k; cbn in AL; tauto).
  assert (U' : forall m, taken st m \/ m = u -> in_use d m = true) by (intros m; apply U).
  destruct k eqn:EK.
  1,3,4: injection H as <-;
    pose proof (inv_new st k u d [] I F ND U' K) as J; pose proof (ext_new st k u d [] I F K) as X;
    unfold st' in J, X; rewrite app_nil_r, EK in *; split; [apply J|apply X]; auto; cbn; try contradiction; auto; intros ? [].
  unfold add_variable in H. cbn [names set_objs set_names snd] in H.
  destruct (unique_name d ((u ++ slash) ++ of_string "vertex_values")) as [w d2] eqn:EW. injection H as <-.
  pose proof (unique_pre _ _ _ _ EW) as PW. apply unique_spec in EW as (_ & _ & U2).
  assert (HU : forall n0, In n0 [w] -> pre (u ++ slash) n0).
  { intros n0 [<-|[]]. eapply pre_trans; [|exact PW]. apply pre_app. }
  split.
  - refine (inv_new st Triang u d2 [w] I F ND _ K CK AL' HU eq_refl). intros m Hm. apply U2. left. now apply U'.
  - refine (ext_new st Triang u d2 [w] I F K HU).
Qed.
