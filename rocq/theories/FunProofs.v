(** Function objects: proofs. *)
From Coq Require Import Reals List Bool Arith Lia Lra.
From Verif Require Import Prelude ListFacts FunModel FunSpec.
Import ListNotations.
Local Open Scope R_scope.

Lemma veq_refl v : veq v v.
Proof. destruct v; simpl; auto. unfold teq; auto. Qed.
Lemma req_refl a : req a a.
Proof. destruct a; simpl; auto. apply veq_refl. Qed.

Lemma bdim_ok a b r : bdim a b = Ok r ->
  (forall i, (i < r -> bidx a i < a)%nat) /\ (forall i, (i < r -> bidx b i < b)%nat).
Proof.
  unfold bdim, bidx.
  destruct (Nat.eqb_spec a b), (Nat.eqb_spec a 1), (Nat.eqb_spec b 1);
    intros H; injection H as <- || discriminate; subst; split; intros; try lia; congruence.
Qed.

Lemma op2_req f a b a' b' : veq a a' -> veq b b' -> req (op2 f a b) (op2 f a' b').
Proof.
  destruct a as [x|t], a' as [x'|t'], b as [y|u], b' as [y'|u']; simpl; try tauto;
    try (intros -> ->; reflexivity).
  - intros -> (E1 & E2 & E3). unfold teq; simpl. repeat split; auto.
    intros; f_equal; auto.
  - intros (E1 & E2 & E3) ->. unfold teq; simpl. repeat split; auto.
    intros; f_equal; auto.
  - intros (E1 & E2 & E3) (F1 & F2 & F3). rewrite <- E1, <- E2, <- F1, <- F2.
    destruct (bdim (rows t) (rows u)) as [r|] eqn:Hr; simpl; auto.
    destruct (bdim (cols t) (cols u)) as [c|] eqn:Hc; simpl; auto.
    destruct (bdim_ok _ _ _ Hr) as [Hr1 Hr2], (bdim_ok _ _ _ Hc) as [Hc1 Hc2].
    unfold teq; simpl. repeat split; auto. intros i j Hi Hj.
    rewrite E3, F3; auto.
Qed.

Lemma bind_req a b (f g : value -> res value) : req a b ->
  (forall v w, veq v w -> req (f v) (g w)) -> req (bind a f) (bind b g).
Proof. destruct a, b; simpl; tauto || auto. Qed.

Lemma functions_nil e o : build e = Ok o -> functions_of e = [] <-> exists x, o = PN x.
Proof.
  revert o; induction e as [f|x|a IHa b IHb|a IHa b IHb|a IHa]; intros o; simpl.
  - intros H; injection H as <-. split; [discriminate|intros (x & [=])].
  - intros H; injection H as <-. split; eauto.
  - destruct (build a) as [x|]; simpl; [|discriminate]. destruct (build b) as [y|]; simpl; [|discriminate].
    specialize (IHa _ eq_refl). specialize (IHb _ eq_refl). intros H.
    split; intros E.
    + apply app_eq_nil in E as [E1 E2]. apply IHa in E1 as (x' & ->). apply IHb in E2 as (y' & ->).
      simpl in H. injection H as <-. eauto.
    + destruct E as (z & ->). destruct x, y; simpl in H; try discriminate.
      rewrite (proj2 IHa), (proj2 IHb); eauto.
  - destruct (build a) as [x|]; simpl; [|discriminate]. destruct (build b) as [y|]; simpl; [|discriminate].
    specialize (IHa _ eq_refl). specialize (IHb _ eq_refl). intros H.
    split; intros E.
    + apply app_eq_nil in E as [E1 E2]. apply IHa in E1 as (x' & ->). apply IHb in E2 as (y' & ->).
      simpl in H. injection H as <-. eauto.
    + destruct E as (z & ->). destruct x, y; simpl in H; try discriminate.
      rewrite (proj2 IHa), (proj2 IHb); eauto.
  - destruct (build a) as [x|]; simpl; [|discriminate]. specialize (IHa _ eq_refl).
    intros H; injection H as <-. rewrite IHa. destruct x; simpl; split; intros (z & E); try discriminate; eauto.
Qed.

(** The object built evaluates to the meaning of the expression. *)
Definition obj_eval (s : store) (o : pyobj) (points : tensor) : res value := eval s (lift o) points.

Lemma build_meaning e : forall o, build e = Ok o -> forall s x, req (obj_eval s o x) (meaning s e x).
Proof.
  induction e as [f|z|a IHa b IHb|a IHa b IHb|a IHa]; intros o; simpl.
  - intros H; injection H as <-. intros; apply req_refl.
  - intros H; injection H as <-. intros; simpl. reflexivity.
  - destruct (build a) as [u|]; simpl; [|discriminate]. destruct (build b) as [v|]; simpl; [|discriminate].
    intros H s x. specialize (IHa _ eq_refl s x). specialize (IHb _ eq_refl s x). unfold obj_eval in *.
    assert (G : req (do p <- eval s (lift u) x; do q <- eval s (lift v) x; op2 Rplus p q)
                    (do p <- meaning s a x; do q <- meaning s b x; op2 Rplus p q)).
    { apply bind_req; auto. intros p p' Hp. apply bind_req; auto. intros q q' Hq. apply op2_req; auto. }
    destruct u, v; simpl in H; try discriminate; injection H as <-; exact G.
  - destruct (build a) as [u|]; simpl; [|discriminate]. destruct (build b) as [v|]; simpl; [|discriminate].
    intros H s x. specialize (IHa _ eq_refl s x). specialize (IHb _ eq_refl s x). unfold obj_eval in *.
    assert (G : req (do p <- eval s (lift u) x; do q <- eval s (lift v) x; op2 Rmult p q)
                    (do p <- meaning s a x; do q <- meaning s b x; op2 Rmult p q)).
    { apply bind_req; auto. intros p p' Hp. apply bind_req; auto. intros q q' Hq. apply op2_req; auto. }
    destruct u, v; simpl in H; try discriminate; injection H as <-; exact G.
  - destruct (build a) as [u|]; simpl; [|discriminate].
    intros H s x. injection H as <-. specialize (IHa _ eq_refl s x). unfold obj_eval in *.
    destruct u as [f|z]; simpl in *.
    + apply bind_req; auto. intros p p' Hp. simpl. destruct p, p'; simpl in *; try tauto.
      * subst; ring.
      * destruct Hp as (E1 & E2 & E3). unfold teq; simpl. repeat split; auto.
        intros i j Hi Hj. rewrite E3 by auto. ring.
    + destruct (meaning s a x) as [p|]; simpl in *; auto. destruct p; simpl in *; try tauto. subst; auto.
Qed.

Lemma build_fails e : (exists o, build e = Ok o) \/ build e = Err TypeError.
Proof.
  induction e as [f|z|a IHa b IHb|a IHa b IHb|a IHa]; simpl; eauto.
  - destruct IHa as [(u & ->)| ->]; simpl; auto. destruct IHb as [(v & ->)| ->]; simpl; auto.
    destruct u, v; simpl; eauto.
  - destruct IHa as [(u & ->)| ->]; simpl; auto. destruct IHb as [(v & ->)| ->]; simpl; auto.
    destruct u, v; simpl; eauto.
  - destruct IHa as [(u & ->)| ->]; simpl; eauto.
Qed.

Lemma build_ok_iff e : (exists o, build e = Ok o) <-> ~ number_first e.
Proof.
  induction e as [f|z|a IHa b IHb|a IHa b IHb|a IHa]; simpl.
  - split; [tauto|eauto].
  - split; [tauto|eauto].
  - split.
    + intros (o & H). apply bind_ok in H as (u & Hu & H). apply bind_ok in H as (v & Hv & H).
      intros [C|[C|[C1 C2]]].
      * apply IHa; eauto.
      * apply IHb; eauto.
      * apply (functions_nil _ _ Hu) in C1 as (x & ->). destruct v; simpl in H; [discriminate|].
        apply C2. apply (functions_nil _ _ Hv). eauto.
    + intros N. destruct (proj2 IHa) as (u & Hu); [tauto|]. destruct (proj2 IHb) as (v & Hv); [tauto|].
      rewrite Hu, Hv; simpl. destruct u as [f|x]; simpl; eauto. destruct v as [g|y]; simpl; eauto.
      exfalso. apply N. right; right. split.
      * apply (functions_nil _ _ Hu). eauto.
      * rewrite (functions_nil _ _ Hv). intros (z & [=]).
  - split.
    + intros (o & H). apply bind_ok in H as (u & Hu & H). apply bind_ok in H as (v & Hv & H).
      intros [C|[C|[C1 C2]]].
      * apply IHa; eauto.
      * apply IHb; eauto.
      * apply (functions_nil _ _ Hu) in C1 as (x & ->). destruct v; simpl in H; [discriminate|].
        apply C2. apply (functions_nil _ _ Hv). eauto.
    + intros N. destruct (proj2 IHa) as (u & Hu); [tauto|]. destruct (proj2 IHb) as (v & Hv); [tauto|].
      rewrite Hu, Hv; simpl. destruct u as [f|x]; simpl; eauto. destruct v as [g|y]; simpl; eauto.
      exfalso. apply N. right; right. split.
      * apply (functions_nil _ _ Hu). eauto.
      * rewrite (functions_nil _ _ Hv). intros (z & [=]).
  - rewrite <- IHa. split; intros (o & H).
    + apply bind_ok in H as (u & Hu & _). eauto.
    + rewrite H. simpl. eauto.
Qed.

Lemma build_parameters e : forall o, build e = Ok o ->
  parameters (lift o) = flat_map parameters (functions_of e).
Proof.
  induction e as [f|z|a IHa b IHb|a IHa b IHb|a IHa]; intros o; simpl.
  - intros H; injection H as <-. simpl. now rewrite app_nil_r.
  - intros H; injection H as <-. reflexivity.
  - intros H. apply bind_ok in H as (u & Hu & H). apply bind_ok in H as (v & Hv & H).
    rewrite flat_map_app, <- (IHa _ Hu), <- (IHb _ Hv).
    destruct u, v; simpl in H; try discriminate; injection H as <-; reflexivity.
  - intros H. apply bind_ok in H as (u & Hu & H). apply bind_ok in H as (v & Hv & H).
    rewrite flat_map_app, <- (IHa _ Hu), <- (IHb _ Hv).
    destruct u, v; simpl in H; try discriminate; injection H as <-; reflexivity.
  - intros H. apply bind_ok in H as (u & Hu & H). injection H as <-. rewrite <- (IHa _ Hu).
    destruct u; simpl; auto. now rewrite app_nil_r.
Qed.

(** ** copy_parameters *)
Lemma assign_ok : forall ps qs s, length ps = length qs -> NoDup ps ->
  (forall v, In v ps -> ~ In v qs) ->
  map (assign s ps qs) ps = map s qs /\ forall v, ~ In v ps -> assign s ps qs v = s v.
Proof.
  induction ps as [|p ps IH]; intros [|q qs] s L N D; simpl in *; try discriminate; auto.
  inversion N as [|? ? Np N']; subst.
  destruct (IH qs (upd s p (s q))) as [E O]; auto.
  { intros v Hv C. apply (D v); auto. }
  split.
  - f_equal.
    + rewrite O by auto. unfold upd. now rewrite Nat.eqb_refl.
    + rewrite E. apply map_ext_in. intros v Hv. unfold upd.
      destruct (Nat.eqb_spec v p) as [->|]; auto. exfalso. apply (D p); auto.
  - intros v Hv. rewrite O by tauto. unfold upd. destruct (Nat.eqb_spec v p); auto. subst; tauto.
Qed.

Lemma same_shape_alike t u : same_shape t u = true <-> alike t u.
Proof. unfold same_shape, alike. rewrite andb_true_iff, !Nat.eqb_eq. tauto. Qed.
Lemma shapes_ok (s : store) ps qs : Forall2 (fun p q => alike (s p) (s q)) ps qs ->
  forallb (fun b => b) (map2 (fun p q => same_shape (s p) (s q)) ps qs) = true.
Proof. induction 1; simpl; auto. apply same_shape_alike in H. now rewrite H. Qed.

Lemma twins_ext s s' f g : (forall v, In v (parameters f) -> s' v = s v) ->
  (forall v, In v (parameters g) -> s' v = s v) -> twins s f g -> twins s' f g.
Proof.
  intros A B T; induction T as [vs ws d ev F|c|f g f' g' T1 IH1 T2 IH2]; simpl in *.
  - constructor. induction F; constructor.
    + rewrite A, B; simpl; auto.
    + apply IHF; intros; [apply A|apply B]; simpl; auto.
  - constructor.
  - constructor; [apply IH1|apply IH2]; intros v Hv;
      solve [apply A, in_or_app; auto | apply B, in_or_app; auto].
Qed.

Lemma eval_ext f : forall s s', (forall v, In v (parameters f) -> s' v = s v) ->
  forall x, eval s' f x = eval s f x.
Proof.
  induction f as [vs d ev|c|f IHf g IHg|f IHf g IHg|f IHf lo up]; intros s s' H x; simpl in *; auto.
  - f_equal. apply map_ext_in. auto.
  - rewrite (IHf s s'), (IHg s s'); auto; intros; apply H; apply in_or_app; auto.
  - rewrite (IHf s s'), (IHg s s'); auto; intros; apply H; apply in_or_app; auto.
  - rewrite (IHf s s'); auto.
Qed.

Lemma twins_length s f g : twins s f g -> length (parameters f) = length (parameters g).
Proof.
  induction 1; simpl; auto.
  - eapply Forall2_len; eauto.
  - rewrite !app_length; congruence.
Qed.

Lemma twins_eval s f g : twins s f g -> forall s' s'', map s' (parameters f) = map s'' (parameters g) ->
  forall x, eval s' f x = eval s'' g x.
Proof.
  induction 1 as [vs ws d ev F|c|f g f' g' T1 IH1 T2 IH2]; intros s' s'' E x; simpl in *; auto.
  - now rewrite E.
  - rewrite !map_app in E. apply app_inj_len in E as [E1 E2].
    + rewrite (IH1 _ _ E1), (IH2 _ _ E2). auto.
    + rewrite !map_length. eapply twins_length; eauto.
Qed.

Lemma NoDup_split {A} (l m : list A) : NoDup (l ++ m) ->
  NoDup l /\ NoDup m /\ forall v, In v l -> ~ In v m.
Proof.
  induction l as [|a l IH]; simpl; intros N.
  - repeat split; auto. constructor.
  - inversion N as [|? ? Na N']; subst. destruct (IH N') as (X & Y & Z). repeat split; auto.
    + constructor; auto. intros C; apply Na, in_or_app; auto.
    + intros v [->|Hv]; auto. intros C; apply Na, in_or_app; auto.
Qed.

Lemma separate_mul f g f' g' : separate (Multiplied f g) (Multiplied f' g') ->
  separate f f' /\ separate g g' /\
  (forall v, In v (parameters f) -> ~ In v (parameters g)) /\
  (forall v, In v (parameters f) -> ~ In v (parameters g')) /\
  (forall v, In v (parameters g) -> ~ In v (parameters f')).
Proof.
  intros [N D]; simpl in *. 
  destruct (NoDup_split _ _ N) as (N1 & N2 & X).
  split; [|split; [|split; [|split]]]; auto; try split; auto;
    intros v Hv C; apply (D v); apply in_or_app; auto.
Qed.

(** No value can be computed with the function. *)
Definition useless (r : option fn) : Prop :=
  match r with
  | None => True
  | Some h => dims h = Err AttributeError /\ forall s x, exists e, eval s h x = Err e
  end.

Lemma useless_lift r : useless r -> forall s x, exists e, eval s (lift_opt r) x = Err e.
Proof. destruct r; simpl; [intros [_ H]|]; eauto. Qed.

Lemma copy_twins f : forall g s, twins s f g -> separate f g ->
  exists s' r, copy_parameters s f g = (s', Ok r) /\ useless r /\
    map s' (parameters f) = map s (parameters g) /\ outside f s s'.
Proof.
  induction f as [vs d ev|c|f IHf g IHg|f IHf g IHg|f IHf lo up]; intros o s T S;
    inversion T as [ws ws' d' ev' F|c'|f1 g1 f' g' T1 T2]; subst.
  - destruct S as [N D]; simpl in *. unfold base_copy. rewrite shapes_ok by auto.
    destruct (assign_ok vs ws' s) as [E O]; auto; [eapply Forall2_len; eauto|].
    do 2 eexists. split; [reflexivity|]. repeat split; auto.
  - simpl. unfold base_copy; simpl. do 2 eexists. split; [reflexivity|]. repeat split; auto.
  - apply separate_mul in S as (S1 & S2 & D1 & D2 & D3).
    destruct (IHf f' s T1 S1) as (s1 & r1 & C1 & U1 & E1 & O1).
    assert (T2' : twins s1 g g').
    { eapply twins_ext; [| |exact T2]; intros v Hv; apply O1; intros C; [apply (D1 v)|apply (D2 v)]; auto. }
    destruct (IHg g' s1 T2' S2) as (s2 & r2 & C2 & U2 & E2 & O2).
    simpl. rewrite C1, C2. do 2 eexists. split; [reflexivity|]. split; [|split].
    + split; [reflexivity|]. intros t x. simpl. destruct (useless_lift _ U1 t x) as (e & ->). simpl; eauto.
    + rewrite !map_app, E2, <- E1. f_equal.
      * apply map_ext_in. intros v Hv. apply O2. apply D1; auto.
      * apply map_ext_in. intros v Hv. apply O1. intros C; apply (D2 v); auto.
    + intros v Hv. simpl in Hv. rewrite O2, O1; auto; intros C; apply Hv; apply in_or_app; auto.
Qed.

(** [copy_parameters] never returns something that can be saturated. *)
Lemma copy_not_dims f : forall s o r, snd (copy_parameters s f o) = Ok (Some r) ->
  dims r = Err AttributeError.
Proof.
  induction f as [vs d ev|c|f IHf g IHg|f IHf g IHg|f IHf lo up]; intros s o r; simpl.
  - unfold base_copy. destruct forallb; simpl; discriminate.
  - discriminate.
  - destruct (fun1 o) as [o1|]; simpl; [|discriminate].
    destruct (copy_parameters s f o1) as [s1 [r1|]]; simpl; [|discriminate].
    destruct (copy_parameters s1 g o1) as [s2 [r2|]]; simpl; [|discriminate].
    intros H; injection H as <-. reflexivity.
  - destruct (fun1 o) as [o1|]; simpl; [|discriminate].
    destruct (copy_parameters s f o1) as [s1 [r1|]]; simpl; [|discriminate].
    destruct (fun2 o) as [o2|]; simpl; [|discriminate].
    destruct (copy_parameters s1 g o2) as [s2 [r2|]]; simpl; [|discriminate].
    intros H; injection H as <-. reflexivity.
  - destruct (wrapped o) as [o1|]; simpl; [|discriminate].
    specialize (IHf s o1). destruct (copy_parameters s f o1) as [s1 [[r1|]|]]; simpl in *; try discriminate.
    rewrite (IHf r1 eq_refl). discriminate.
Qed.

(** ** Saturation *)
Lemma op2_fits f a b : fits b a -> exists c, op2 f a b = Ok c /\ shape c = shape a /\
  forall i j, (i < fst (shape a))%nat -> (j < snd (shape a))%nat ->
    at_pos c i j = f (at_pos a i j) (at_pos b i j).
Proof.
  destruct a as [x|t], b as [y|u]; unfold fits; simpl; intros [Hr Hc].
  - eexists; split; [reflexivity|]. auto.
  - eexists; split; [reflexivity|]. simpl.
    assert (rows u = 1%nat) by lia. assert (cols u = 1%nat) by lia. split; [congruence|].
    intros i j Hi Hj. reflexivity.
  - eexists; split; [reflexivity|]. simpl. auto.
  - unfold bdim.
    assert (E1 : (if (rows t =? rows u)%nat then Ok (rows t)
       else if (rows t =? 1)%nat then Ok (rows u) else if (rows u =? 1)%nat then Ok (rows t) else Err ValueError)
       = Ok (rows t)).
    { destruct (Nat.eqb_spec (rows t) (rows u)), (Nat.eqb_spec (rows t) 1), (Nat.eqb_spec (rows u) 1);
        auto; try lia; destruct Hr; congruence. }
    assert (E2 : (if (cols t =? cols u)%nat then Ok (cols t)
       else if (cols t =? 1)%nat then Ok (cols u) else if (cols u =? 1)%nat then Ok (cols t) else Err ValueError)
       = Ok (cols t)).
    { destruct (Nat.eqb_spec (cols t) (cols u)), (Nat.eqb_spec (cols t) 1), (Nat.eqb_spec (cols u) 1);
        auto; try lia; destruct Hc; congruence. }
    rewrite E1, E2. simpl. eexists; split; [reflexivity|]. simpl. split; auto.
    intros i j Hi Hj. unfold bidx.
    destruct (Nat.eqb_spec (rows t) 1), (Nat.eqb_spec (cols t) 1), (Nat.eqb_spec (rows u) 1), (Nat.eqb_spec (cols u) 1);
      try reflexivity; try (assert (i = 0%nat) by lia; subst); try (assert (j = 0%nat) by lia; subst); reflexivity.
Qed.
