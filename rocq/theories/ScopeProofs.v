(** Proofs about names and variables of function objects. *)
From Coq Require Import List Ascii String Arith Bool Lia DecimalString.
From Coq Require DecimalNat FinFun.
From Verif Require Import Prelude ScopeModel ScopeSpec.
Import ListNotations.

Definition pre (p s : name) : Prop := exists r, s = p ++ r.
Lemma pre_refl s : pre s s. Proof. exists []. now rewrite app_nil_r. Qed.
Lemma pre_trans a b c : pre a b -> pre b c -> pre a c.
Proof. intros (r & ->) (s & ->). exists (r ++ s). now rewrite app_assoc. Qed.
Lemma pre_app a b : pre a (a ++ b). Proof. now exists b. Qed.
Lemma pre_both a b s : pre a s -> pre b s -> pre a b \/ pre b a.
Proof.
  intros (r & ->) (q & E). apply app_eq_app in E as (l & [(H1 & _)|(H1 & _)]).
  - right. rewrite H1. apply pre_app.
  - left. rewrite H1. apply pre_app.
Qed.

Lemma re_match_pre p : ~ In "."%char p -> forall s, re_match p s = true <-> pre p s.
Proof.
  induction p as [|c p IH]; intros N s.
  - split; auto. intros _. now exists s.
  - destruct s as [|d s]; cbn [re_match].
    + split; [discriminate|]. intros (r & E). discriminate.
    + assert (Nc : Ascii.eqb c "."%char = false) by (apply Ascii.eqb_neq; intros ->; apply N; now left).
      rewrite Nc. cbn [orb]. rewrite andb_true_iff, IH by (intros H; apply N; now right). rewrite Ascii.eqb_eq. split.
      * intros (-> & r & ->). now exists r.
      * intros (r & E). injection E as -> ->. split; auto. apply pre_app.
Qed.

Lemma name_eqb_eq a b : name_eqb a b = true <-> a = b.
Proof. unfold name_eqb. destruct list_eq_dec; split; auto; discriminate. Qed.
Lemma get_cons k v d n : get ((k, v) :: d) n = if name_eqb k n then Some v else get d n.
Proof. reflexivity. Qed.
Lemma in_use_cons k v d n : in_use ((k, v) :: d) n = true <-> k = n \/ in_use d n = true.
Proof.
  unfold in_use. rewrite get_cons. destruct (name_eqb k n) eqn:E.
  - apply name_eqb_eq in E. split; auto.
  - split; [auto|]. intros [H|H]; auto. apply name_eqb_eq in H. congruence.
Qed.
Lemma in_use_keys d n : in_use d n = true <-> In n (map fst d).
Proof.
  induction d as [|[k v] d IH]; [cbn; split; [discriminate|contradiction]|].
  rewrite in_use_cons, IH. reflexivity.
Qed.

Lemma of_string_inj a b : of_string a = of_string b -> a = b.
Proof. intros H. rewrite <- (string_of_list_ascii_of_string a), <- (string_of_list_ascii_of_string b). unfold of_string in H. now rewrite H. Qed.
Lemma decimal_inj k l : decimal k = decimal l -> k = l.
Proof.
  unfold decimal. intros H. apply of_string_inj in H.
  assert (E : NilEmpty.uint_of_string (NilEmpty.string_of_uint (Nat.to_uint k)) = NilEmpty.uint_of_string (NilEmpty.string_of_uint (Nat.to_uint l))) by now rewrite H.
  rewrite !NilEmpty.usu in E. injection E as E. now apply DecimalNat.Unsigned.to_uint_inj.
Qed.
Lemma numbered_inj n k l : numbered n k = numbered n l -> k = l.
Proof. unfold numbered. intros H. apply app_inv_head in H. injection H as H. now apply decimal_inj. Qed.
Lemma decimal_chars k c : In c (decimal k) -> c <> "/"%char /\ c <> "."%char.
Proof.
  unfold decimal. generalize (Nat.to_uint k). intros u. induction u; cbn; intros H; try contradiction;
    destruct H as [<-|H]; auto; split; discriminate.
Qed.

Lemma unique_spec d n u d' : unique_name d n = (u, d') ->
  in_use d u = false /\ (u = n \/ exists k, u = numbered n k) /\
  (forall m, in_use d' m = true <-> in_use d m = true \/ m = u).
Proof.
  unfold unique_name. destruct (get d n) as [i|] eqn:E.
  - set (d1 := (n, S i) :: d).
    assert (U : forall m, in_use d1 m = true <-> in_use d m = true).
    { intros m. unfold d1. rewrite in_use_cons. split; [|auto]. intros [<-|]; auto. unfold in_use. now rewrite E. }
    destruct (find _ _) as [c|] eqn:F.
    + intros H. injection H as <- <-. apply find_some in F as [F1 F2].
      apply in_map_iff in F1 as (k & <- & _). apply negb_true_iff in F2. split; [|split; eauto].
      * destruct (in_use d (numbered n k)) eqn:Q; auto. apply U in Q. congruence.
      * intros m. rewrite in_use_cons, U. intuition congruence.
    + intros _. exfalso.
      pose proof (find_none _ _ F) as N.
      assert (I : incl (map (numbered n) (seq i (S (List.length d1)))) (map fst d1)).
      { intros c Hc. apply N in Hc. apply negb_false_iff in Hc. now apply in_use_keys. }
      apply NoDup_incl_length in I.
      * rewrite !map_length, seq_length in I. lia.
      * apply FinFun.Injective_map_NoDup; [intros x y; apply numbered_inj|apply seq_NoDup].
  - intros H. injection H as <- <-. split; [unfold in_use; now rewrite E|]. split; auto.
    intros m. rewrite in_use_cons. intuition congruence.
Qed.

(** [p] is a scope around (or equal to) the scope [u]. *)
Definition inside (p u : name) : Prop := pre (p ++ slash) (u ++ slash).

Lemma inside_refl u : inside u u. Proof. apply pre_refl. Qed.
Lemma slash_split (a r m : name) : ~ In "/"%char m -> a ++ slash ++ r = m ++ slash -> a = m /\ r = [].
Proof.
  revert a. induction m as [|c m IH]; intros a N E.
  - destruct a as [|x a].
    + cbn in E. injection E as ->. auto.
    + cbn in E. injection E as -> E. destruct a; discriminate.
  - destruct a as [|x a].
    + cbn in E. injection E as E1 _. exfalso. apply N. rewrite <- E1. now left.
    + cbn in E. injection E as -> E. destruct (IH a) as [-> ->]; auto. intros H. apply N. now right.
Qed.
Lemma inside_below p ns m : ~ In "/"%char m -> inside p (below ns m) ->
  p = below ns m \/ (ns <> [] /\ inside p ns).
Proof.
  unfold inside, below. intros N (r & E). destruct ns as [|x ns].
  - left. rewrite <- app_assoc in E. symmetry in E. now apply slash_split in E as [-> _].
  - rewrite <- !app_assoc in E. apply app_eq_app in E as (l & [(H1 & H2)|(H1 & H2)]).
    + (* x :: ns = p ++ l *)
      right. split; [discriminate|]. rewrite H1, <- app_assoc. destruct l as [|c l].
      * apply pre_refl.
      * cbn in H2. injection H2 as <- H2. exists (l ++ slash). now rewrite <- !app_assoc.
    + destruct l as [|c l].
      * right. split; [discriminate|]. rewrite app_nil_r in H1. rewrite H1. apply pre_refl.
      * left. cbn in H2. injection H2 as <- H2. symmetry in H2. apply slash_split in H2 as [-> _]; auto.
Qed.

(** ** Collections *)
Definition coll (vars : list name) (scope : name) : list nat :=
  filter (fun v => re_match scope (nth v vars [])) (seq 0 (List.length vars)).
Lemma coll_app vars scope us : coll (vars ++ us) scope =
  coll vars scope ++ filter (fun v => re_match scope (nth (v - List.length vars) us [])) (seq (List.length vars) (List.length us)).
Proof.
  unfold coll. rewrite app_length, seq_app, filter_app. f_equal.
  - apply filter_ext_in. intros v Hv. apply in_seq in Hv. rewrite app_nth1 by lia. reflexivity.
  - apply filter_ext_in. intros v Hv. apply in_seq in Hv. rewrite app_nth2 by lia. reflexivity.
Qed.
Lemma filter_all {A} (f : A -> bool) l : (forall x, In x l -> f x = true) -> filter f l = l.
Proof. induction l as [|a l IH]; intros H; [reflexivity|]. cbn. rewrite (H a (or_introl eq_refl)), IH; auto. intros; apply H; now right. Qed.
Lemma filter_none {A} (f : A -> bool) l : (forall x, In x l -> f x = false) -> filter f l = [].
Proof. induction l as [|a l IH]; intros H; [reflexivity|]. cbn. rewrite (H a (or_introl eq_refl)), IH; auto. intros; apply H; now right. Qed.
Lemma coll_all vars scope us : (forall u, In u us -> re_match scope u = true) ->
  coll (vars ++ us) scope = coll vars scope ++ seq (List.length vars) (List.length us).
Proof.
  intros H. rewrite coll_app, filter_all; auto. intros v Hv. apply in_seq in Hv. apply H, nth_In. lia.
Qed.
Lemma coll_none vars scope us : (forall u, In u us -> re_match scope u = false) ->
  coll (vars ++ us) scope = coll vars scope.
Proof.
  intros H. rewrite coll_app, filter_none, app_nil_r; auto. intros v Hv. apply in_seq in Hv. apply H, nth_In. lia.
Qed.

(** ** [get_variables] *)
Lemma pre_numbered n k : pre n (numbered n k). Proof. apply pre_app. Qed.
Lemma unique_pre d n u d' : unique_name d n = (u, d') -> pre n u.
Proof. intros H. apply unique_spec in H as (_ & [-> | (k & ->)] & _); [apply pre_refl|apply pre_numbered]. Qed.

Lemma gv_reuse st scope ws : forall vs,
  map (fun w => get (var_store st) (scope ++ slash ++ w)) ws = map Some vs ->
  get_variables st scope true ws = Ok (vs, st).
Proof.
  induction ws as [|w ws IH]; intros [|v vs] H; try discriminate; [reflexivity|].
  pose proof (f_equal (hd None) H) as H1. pose proof (f_equal (@tl _) H) as H2. cbn [map hd tl] in H1, H2. cbn [get_variables]. rewrite H1. cbn [bind fst snd].
  now rewrite (IH vs H2).
Qed.

Record grown (st st' : state) (scope : name) (ws : list name) : Prop := {
  gr_vars : exists us, variables st' = variables st ++ us /\ List.length us = List.length ws /\
              forall u, In u us -> pre (scope ++ slash) u;
  gr_store : map (fun w => get (var_store st') (scope ++ slash ++ w)) ws =
             map Some (seq (List.length (variables st)) (List.length ws));
  gr_old : forall k, (forall w, In w ws -> k <> scope ++ slash ++ w) -> get (var_store st') k = get (var_store st) k;
  gr_names : forall m, in_use (names st) m = true -> in_use (names st') m = true;
  gr_ns : name_scope st' = name_scope st;
  gr_vs : variable_scope st' = variable_scope st;
  gr_outer : outer st' = outer st;
  gr_objs : objs st' = objs st
}.
Lemma gv_new scope ws : forall st, NoDup ws -> (forall w, In w ws -> get (var_store st) (scope ++ slash ++ w) = None) ->
  exists st', get_variables st scope false ws = Ok (seq (List.length (variables st)) (List.length ws), st') /\ grown st st' scope ws.
Proof.
  induction ws as [|w ws IH]; intros st ND F.
  - exists st. split; [reflexivity|]. constructor; auto. exists []. rewrite app_nil_r. repeat split; auto. contradiction.
  - inversion ND as [|? ? N1 N2]; subst. cbn [get_variables]. rewrite (F w) by now left. cbn [bind].
    unfold add_variable. destruct (unique_name (names st) (scope ++ slash ++ w)) as [u d] eqn:EU. cbn [bind fst snd].
    set (st1 := State d _ _ _ _ _ _).
    destruct (IH st1 N2) as (st' & E & G).
    { intros w' Hw. cbn [var_store st1]. rewrite get_cons. destruct (name_eqb _ _) eqn:Q.
      - apply name_eqb_eq in Q. do 2 apply app_inv_head in Q. subst. contradiction.
      - apply F. now right. }
    exists st'. rewrite E. cbn [bind fst snd]. split.
    { cbn [variables st1]. rewrite app_length. cbn [List.length]. rewrite Nat.add_1_r. reflexivity. }
    destruct G as [(us & GV & GL & GP) G2 G3 G4 G5 G6 G7 G8]. cbn [variables st1 var_store names name_scope variable_scope outer objs] in *.
    constructor; auto.
    + exists (u :: us). rewrite GV, <- app_assoc. split; [reflexivity|]. split; [cbn; lia|].
      intros u' [<-|H]; auto. apply unique_pre in EU. eapply pre_trans; [|exact EU]. rewrite app_assoc. apply pre_app.
    + cbn [map List.length seq]. rewrite G3.
      * rewrite get_cons. replace (name_eqb _ _) with true by (symmetry; now apply name_eqb_eq).
        rewrite G2, app_length. cbn [List.length]. rewrite Nat.add_1_r. reflexivity.
      * intros w' Hw Q. do 2 apply app_inv_head in Q. subst. contradiction.
    + intros k Hk. rewrite G3 by (intros; apply Hk; now right). rewrite get_cons.
      destruct (name_eqb _ _) eqn:Q; auto. apply name_eqb_eq in Q. exfalso. apply (Hk w); auto. now left.
    + intros m Hm. apply G4. apply unique_spec in EU as (_ & _ & U). apply U. auto.
Qed.

(** ** The invariant *)
Definition no_dot (n : name) : Prop := ~ In "."%char n.
Definition at_ (st : state) (i : nat) (o : obj) : Prop := nth_error (objs st) i = Some o.
Definition taken (st : state) (p : name) : Prop := in_use (names st) p = true.

Record inv (st : state) : Prop := {
  i_obj : forall i o, at_ st i o -> exists u, o_scope o = u ++ slash /\ no_dot u /\ forall p, inside p u -> taken st p;
  i_distinct : forall i j oi oj, i <> j -> at_ st i oi -> at_ st j oj -> ~ pre (o_scope oi) (o_scope oj);
  i_scope : forall s, In s (name_scope st :: map fst (outer st)) -> s = [] \/
    (no_dot s /\ forall p, inside p s -> taken st p /\ forall i o, at_ st i o -> o_scope o <> p ++ slash);
  i_template : forall i o, at_ st i o -> match o_kind o with Network _ | Saturated _ => o_template o = o_scope o | _ => True end;
  i_kinds : forall i o, at_ st i o ->
    match o_kind o with
    | Network ws => NoDup ws
    | Sum a b => a < i /\ b < i
    | Saturated a => a < i /\ exists oa, at_ st a oa /\ forall b c, o_kind oa <> Sum b c
    | Triang => True
    end;
  i_own : forall i o, at_ st i o ->
    match o_kind o with
    | Triang => exists v, collection st (o_scope o) = [v]
    | Sum _ _ => collection st (o_scope o) = []
    | _ => forall r ws, core st i r -> is_kind st r (Network ws) ->
             if o_created o then map (fun w => get (var_store st) (o_scope o ++ slash ++ w)) ws = map Some (collection st (o_scope o))
             else collection st (o_scope o) = []
    end;
  i_own_tri : forall i o r, at_ st i o -> core st i r -> is_kind st r Triang -> i <> r -> collection st (o_scope o) = [];
  i_store : forall k v, get (var_store st) k = Some v -> exists i o, at_ st i o /\ o_created o = true /\ pre (o_scope o) k;
  i_vars : forall u, In u (variables st) -> exists i o, at_ st i o /\ pre (o_scope o) u
}.

Lemma inv_start : inv start.
Proof.
  constructor; unfold at_, start; cbn; try (intros; destruct i; discriminate); try contradiction; try discriminate; auto.
  intros s [<-|[]]; auto.
Qed.

Lemma scope_no_dot st i o : inv st -> at_ st i o -> no_dot (o_scope o).
Proof.
  intros I A. destruct (i_obj _ I _ _ A) as (u & -> & N & _). unfold no_dot, slash. rewrite in_app_iff.
  intros [H|[H|[]]]; [auto|discriminate].
Qed.
Lemma scope_match st i o u : inv st -> at_ st i o -> re_match (o_scope o) u = true <-> pre (o_scope o) u.
Proof. intros I A. apply re_match_pre. eapply scope_no_dot; eauto. Qed.
Lemma scope_unique st i j oi oj u : inv st -> at_ st i oi -> at_ st j oj ->
  pre (o_scope oi) u -> pre (o_scope oj) u -> i = j.
Proof.
  intros I A B P Q. destruct (Nat.eq_dec i j) as [|N]; auto. exfalso.
  destruct (pre_both _ _ _ P Q) as [H|H].
  - exact (i_distinct _ I i j oi oj N A B H).
  - exact (i_distinct _ I j i oj oi (not_eq_sym N) B A H).
Qed.

(** What later states keep. *)
Definition ext (st st' : state) : Prop := forall i o, at_ st i o -> exists o', at_ st' i o' /\
  o_kind o' = o_kind o /\ o_scope o' = o_scope o /\ (o_created o = true -> o_created o' = true) /\
  (o_created o = true \/ o_kind o = Triang -> collection st' (o_scope o) = collection st (o_scope o)).
Lemma ext_refl st : ext st st.
Proof. intros i o A. exists o. auto. Qed.
Lemma ext_trans a b c : ext a b -> ext b c -> ext a c.
Proof.
  intros H K i o A. destruct (H i o A) as (o' & A' & E1 & E2 & E3 & E4).
  destruct (K i o' A') as (o2 & A2 & F1 & F2 & F3 & F4). exists o2.
  split; auto. split; [congruence|]. split; [congruence|]. split; auto.
  intros C. rewrite <- E4 by auto. rewrite <- E2. apply F4. destruct C; [auto|right; congruence].
Qed.

Lemma core_mono st st' i r : (forall i k, is_kind st i k -> is_kind st' i k) -> core st i r -> core st' i r.
Proof. intros H C. induction C; [eapply core_here; eauto|eapply core_sat; eauto]. Qed.
Ltac same_own I6 := let A := fresh in let C := fresh in let K := fresh in
  intros ? ? A; specialize (I6 _ _ A);
  match goal with |- match o_kind ?o with _ => _ end => destruct (o_kind o) end; try exact I6;
  intros ? ? C K; refine (I6 _ _ _ K); refine (core_mono _ _ _ _ _ C); auto.
Ltac same_tri I7 := let A := fresh in let C := fresh in let K := fresh in let N := fresh in
  intros ? ? ? A C K N; refine (I7 _ _ _ A _ K N); refine (core_mono _ _ _ _ _ C); auto.

(** Names only. *)
Lemma inv_names st d : inv st -> (forall m, in_use (names st) m = true -> in_use d m = true) -> inv (set_names st d).
Proof.
  intros [I1 I2 I3 I4 I5 I6 I7 I8 I9] M. constructor; try assumption; try same_own I6; try same_tri I7.
  - intros i o A. destruct (I1 i o A) as (u & E & N & T). exists u. split; auto. split; auto. intros p P. apply M, T, P.
  - intros s Hs. destruct (I3 s Hs) as [|[N K]]; auto. right. split; auto. intros p P. destruct (K p P). split; auto. now apply M.
Qed.
Lemma ext_same st st' : objs st' = objs st -> variables st' = variables st -> ext st st'.
Proof.
  intros E V i o A. exists o. unfold at_ in *. rewrite E. repeat split; auto. intros _. unfold collection. now rewrite V.
Qed.

Definition segment (m : name) : Prop := ~ In "/"%char m /\ ~ In "."%char m.
Lemma below_unique d ns n u d' : plain n -> unique_name d (below ns n) = (u, d') ->
  exists m, u = below ns m /\ segment m.
Proof.
  intros (_ & P1 & P2) H. apply unique_spec in H as (_ & [-> | (k & ->)] & _).
  - exists n. split; [auto|split; auto].
  - exists (numbered n k). split.
    + unfold below, numbered. destruct ns; auto. rewrite <- !app_assoc. reflexivity.
    + split; unfold numbered; rewrite in_app_iff; intros [H|[H|H]]; auto; try discriminate; now apply decimal_chars in H.
Qed.

(** A fresh scope below the open one. *)
Lemma fresh_scope st n u d : inv st -> plain n -> unique_name (names st) (below (name_scope st) n) = (u, d) ->
  (~ taken st u) /\ no_dot u /\
  (forall m, in_use d m = true <-> taken st m \/ m = u) /\
  (forall p, inside p u -> p = u \/ (taken st p /\ forall i o, at_ st i o -> o_scope o <> p ++ slash)).
Proof.
  intros I P E. destruct (below_unique _ _ _ _ _ P E) as (m & Eu & S1 & S2).
  apply unique_spec in E as (F & _ & U). unfold taken.
  destruct (i_scope _ I (name_scope st) (or_introl eq_refl)) as [Z|[Z K]].
  - split; [congruence|]. rewrite Z in Eu. cbn in Eu. subst m. split; auto. split; auto.
    intros p Hp. left. change u with (below [] u) in Hp. apply inside_below in Hp as [->|[N _]]; auto. now destruct N.
  - split; [congruence|]. split; [|split; auto].
    + subst u. unfold below, no_dot. destruct (name_scope st) as [|c ns]; auto. rewrite !in_app_iff. intros [H|[[H|[]]|H]]; auto; discriminate.
    + intros p Hp. subst u. apply inside_below in Hp as [->|[_ Hp]]; auto. right. now apply K.
Qed.

Lemma slash_inj (p q : name) : p ++ slash = q ++ slash -> p = q.
Proof. apply app_inv_tail. Qed.

Lemma fresh_object st i o u : inv st -> ~ taken st u ->
  (forall p, inside p u -> p = u \/ (taken st p /\ forall i o, at_ st i o -> o_scope o <> p ++ slash)) ->
  at_ st i o -> ~ pre (o_scope o) (u ++ slash) /\ ~ pre (u ++ slash) (o_scope o) /\ o_scope o <> u ++ slash.
Proof.
  intros I F K A. destruct (i_obj _ I _ _ A) as (p & E & _ & T). rewrite E. repeat split.
  - intros H. destruct (K p H) as [-> | [_ K2]].
    + apply F, T, inside_refl.
    + exact (K2 i o A E).
  - intros H. apply F, T. exact H.
  - intros H. apply slash_inj in H. subst p. apply F, T, inside_refl.
Qed.

Lemma inv_enter st n vs' u d : inv st -> plain n -> unique_name (names st) (below (name_scope st) n) = (u, d) ->
  inv (State d (variables st) (var_store st) u vs' ((name_scope st, variable_scope st) :: outer st) (objs st)).
Proof.
  intros I P E. destruct (fresh_scope _ _ _ _ I P E) as (F & ND & U & K).
  pose proof I as I0. destruct I as [I1 I2 I3 I4 I5 I6 I7 I8 I9]. constructor; try assumption; try same_own I6; try same_tri I7.
  - intros i o A. destruct (I1 i o A) as (w & Ew & N & T). exists w. split; auto. split; auto. intros p Hp. apply U. left. apply T, Hp.
  - cbn [name_scope outer map fst]. intros s [<-|Hs].
    + right. split; auto. intros p Hp. split.
      * apply U. destruct (K p Hp) as [->|[T _]]; auto.
      * intros i o A. change (at_ st i o) in A. destruct (K p Hp) as [->|[_ T]]; [|eauto].
        exact (proj2 (proj2 (fresh_object st i o u I0 F K A))).
    + destruct (I3 s Hs) as [|[N T]]; auto. right. split; auto. intros p Hp. destruct (T p Hp). split; auto. apply U. now left.
Qed.

Lemma inv_leave st ns vs rest : inv st -> outer st = (ns, vs) :: rest ->
  inv (State (names st) (variables st) (var_store st) ns vs rest (objs st)).
Proof.
  intros [I1 I2 I3 I4 I5 I6 I7 I8 I9] E. constructor; try assumption; try same_own I6; try same_tri I7.
  cbn [name_scope outer]. intros s Hs. destruct (I3 s) as [|[N T]]; auto. rewrite E. cbn. auto.
Qed.
