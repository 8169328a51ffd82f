(** Properties C44 - C46: function arithmetic, copying parameters, saturation. *)
From Coq Require Import Reals List Bool Arith Lia Lra.
From Verif Require Import Prelude ListFacts FunModel FunSpec FunProofs.
Import ListNotations.
Local Open Scope R_scope.

(** A leaf x |-> p x with the variable p, and some values. *)
Definition gain (v : nat) : fn := Leaf [v] (1, 1)%nat (fun ps x =>
  match ps with
  | p :: _ => Ok (Tensor {| rows := rows x; cols := cols x; entry := fun i j => entry p 0 0 * entry x i j |})
  | [] => Err OtherError
  end).
Definition scalar (x : R) : tensor := {| rows := 1; cols := 1; entry := fun _ _ => x |}.
(** Variable v has the value v + 1. *)
Definition vars : store := fun v => scalar (INR v + 1).

(** ** C44 *)

(** Whatever is written with +, *, unary - from functions and numbers evaluates,
    at all points, to the pointwise combination; it fails at the same points with
    the same error. *)
Theorem C44_pointwise : forall e f, build e = Ok (PF f) ->
  forall s x, req (eval s f x) (meaning s e x).
Proof. intros e f H s x. exact (build_meaning e _ H s x). Qed.

Theorem C44_numbers : forall e x, build e = Ok (PN x) ->
  functions_of e = [] /\ forall s y, req (Ok (Number x)) (meaning s e y).
Proof.
  intros e x H. split.
  - apply (functions_nil _ _ H). eauto.
  - intros s y. exact (build_meaning e _ H s y).
Qed.

(** Entry by entry, for operands of the same shape. *)
Theorem C44_entries : forall s f g x t u, eval s f x = Ok (Tensor t) -> eval s g x = Ok (Tensor u) ->
  rows t = rows u -> cols t = cols u ->
  exists a m n,
    eval s (Added f g) x = Ok (Tensor a) /\ eval s (Multiplied f g) x = Ok (Tensor m) /\
    eval s (lift (py_neg (PF f))) x = Ok (Tensor n) /\
    (forall w, In w [a; m; n] -> rows w = rows t /\ cols w = cols t) /\
    forall i j, (i < rows t)%nat -> (j < cols t)%nat ->
      entry a i j = entry t i j + entry u i j /\ entry m i j = entry t i j * entry u i j /\
      entry n i j = - entry t i j.
Proof.
  intros s f g x t u Ef Eg Er Ec. simpl. rewrite Ef, Eg. simpl.
  unfold bdim. rewrite <- Er, <- Ec, !Nat.eqb_refl. simpl. do 3 eexists.
  split; [reflexivity|]. split; [reflexivity|]. split; [reflexivity|]. split.
  - intros w [<-|[<-|[<-|[]]]]; simpl; auto.
  - intros i j Hi Hj. simpl. unfold bidx. split; [|split]; [| |ring].
    + destruct (Nat.eqb_spec (rows t) 1), (Nat.eqb_spec (cols t) 1); repeat f_equal; lia.
    + destruct (Nat.eqb_spec (rows t) 1), (Nat.eqb_spec (cols t) 1); repeat f_equal; lia.
Qed.

(** The parameters are those of the functions from left to right. *)
Theorem C44_parameters : forall e f, build e = Ok (PF f) ->
  parameters f = flat_map parameters (functions_of e).
Proof. intros e f H. exact (build_parameters e _ H). Qed.

(** Expressions are accepted unless a number is added to or multiplied with a
    function from the left, which is a TypeError. *)
Theorem C44_accepted : forall e,
  ((exists o, build e = Ok o) <-> ~ number_first e) /\
  (forall err, build e = Err err -> err = TypeError).
Proof.
  intros e. split; [apply build_ok_iff|]. intros err H.
  destruct (build_fails e) as [(o & E)|E]; congruence.
Qed.

(** With several inputs the parts see the concatenated input. *)
Theorem C44_several_inputs : forall s f g xs x, hcat xs = Ok x ->
  call s (Added f g) xs = (do a <- eval s f x; do b <- eval s g x; op2 Rplus a b) /\
  call s (Multiplied f g) xs = (do a <- eval s f x; do b <- eval s g x; op2 Rmult a b).
Proof. intros s f g xs x H. simpl. rewrite H. auto. Qed.

(** -(p0 x) * (p1 x + 3) at x = 2 with p0 = 1 and p1 = 2. *)
Example C44_ex : exists f t, build (UMul (UNeg (UF (gain 0))) (UAdd (UF (gain 1)) (UN 3))) = Ok (PF f) /\
  eval vars f (scalar 2) = Ok (Tensor t) /\ entry t 0 0 = -14 /\ parameters f = [0; 1]%nat.
Proof.
  do 2 eexists. split; [reflexivity|]. split; [reflexivity|]. split; [|reflexivity]. simpl. lra.
Qed.
(** 1 + f is rejected although f + 1 is fine. *)
Theorem C44_commutes_refuted :
  build (UAdd (UN 1) (UF (gain 0))) = Err TypeError /\ exists o, build (UAdd (UF (gain 0)) (UN 1)) = Ok o.
Proof. split; [reflexivity|]. eexists; reflexivity. Qed.

(** ** C45 *)

(** For products of leaves and constants: afterwards the function evaluates like
    the source did everywhere, the source and all other variables are as before.
    What the call returns is of no use. *)
Theorem C45_products : forall s f g, twins s f g -> separate f g ->
  exists s' r, copy_parameters s f g = (s', Ok r) /\
    (forall x, eval s' f x = eval s g x) /\ (forall x, eval s' g x = eval s g x) /\
    (forall v, ~ In v (parameters f) -> s' v = s v) /\
    (forall h, r = Some h -> forall t x, exists e, eval t h x = Err e).
Proof.
  intros s f g T S. destruct (copy_twins f g s T S) as (s' & r & C & U & E & O).
  exists s', r. split; auto. split; [|split; [|split]].
  - intros x. eapply twins_eval; eauto.
  - intros x. apply eval_ext. intros v Hv. apply O. intros Hf. apply (proj2 S v); auto.
  - exact O.
  - intros h -> t x. apply U.
Qed.

(** For sums the second summand gets the parameters of the first one. *)
Theorem C45_sums : forall s f1 f2 g1 g2, twins s f1 g1 -> twins s f2 g1 ->
  separate (Multiplied f1 f2) (Multiplied g1 g1) ->
  exists s' r, copy_parameters s (Added f1 f2) (Added g1 g2) = (s', Ok r) /\
    (forall x, eval s' f1 x = eval s g1 x) /\ (forall x, eval s' f2 x = eval s g1 x).
Proof.
  intros s f1 f2 g1 g2 T1 T2 S.
  destruct (copy_twins (Multiplied f1 f2) (Multiplied g1 g1) s (twin_mul _ _ _ _ _ T1 T2) S)
    as (s' & r & C & _ & E & O).
  assert (L1 := twins_length _ _ _ T1).
  cbn [copy_parameters fun1 fun2] in C |- *.
  destruct (copy_parameters s f1 g1) as [s1 [r1|]]; [|discriminate].
  destruct (copy_parameters s1 f2 g1) as [s2 [r2|]]; [|discriminate].
  assert (s2 = s') by congruence. subst s2. exists s'. eexists. split; [reflexivity|].
  simpl in E. rewrite !map_app in E. apply app_inj_len in E as [E1 E2]; [|now rewrite !map_length].
  split; intros x; eapply twins_eval; eauto.
Qed.

(** So a copied sum does not evaluate like its source. *)
Theorem C45_sums_refuted : exists f g s' r x v w,
  separate f g /\ copy_parameters vars f g = (s', Ok r) /\
  eval s' f x = Ok (Tensor v) /\ eval s' g x = Ok (Tensor w) /\
  f = Added (gain 0) (gain 1) /\ g = Added (gain 2) (gain 3) /\ ~ teq v w.
Proof.
  exists (Added (gain 0) (gain 1)), (Added (gain 2) (gain 3)).
  do 2 eexists. exists (scalar 1). do 2 eexists.
  split. { split; simpl; [repeat constructor; simpl; intuition lia|intuition lia]. }
  split; [reflexivity|]. split; [reflexivity|]. split; [reflexivity|]. split; [reflexivity|].
  split; [reflexivity|]. intros (_ & _ & H). specialize (H 0%nat 0%nat). simpl in H.
  assert (1 < 2)%nat by lia. specialize (H ltac:(lia) ltac:(lia)). lra.
Qed.

(** [Saturation.copy_parameters] never succeeds, but the values are copied before
    it fails. *)
Theorem C45_saturation : forall s f lo up other,
  (forall r, snd (copy_parameters s (Saturated f lo up) other) <> Ok r) /\
  (forall g lo' up', other = Saturated g lo' up' -> twins s f g -> separate f g ->
     exists s', copy_parameters s (Saturated f lo up) other = (s', Err AttributeError) /\
       (forall x, eval s' f x = eval s g x)).
Proof.
  intros s f lo up other. split.
  - intros r. simpl. destruct (wrapped other) as [o|]; [|discriminate].
    pose proof (copy_not_dims f s o) as D.
    destruct (copy_parameters s f o) as [s1 [[h|]|]]; simpl in *; try discriminate.
    rewrite (D h eq_refl). discriminate.
  - intros g lo' up' -> T S. destruct (copy_twins f g s T S) as (s' & r & C & U & E & O).
    exists s'. split; [|intros x; eapply twins_eval; eauto].
    simpl. rewrite C. f_equal. destruct r as [h|]; [|reflexivity].
    destruct U as [U _]. simpl. now rewrite U.
Qed.

(** Without leaves of the same shapes the call is rejected and nothing is copied. *)
Theorem C45_shapes : forall s vs d ev other,
  Exists (fun p => ~ alike (s (fst p)) (s (snd p))) (combine vs (parameters other)) ->
  copy_parameters s (Leaf vs d ev) other = (s, Err ValueError).
Proof.
  intros s vs d ev other H. simpl. unfold base_copy.
  replace (forallb _ _) with false; auto. symmetry. revert H. generalize (parameters other) as qs.
  induction vs as [|p vs IH]; intros [|q qs]; simpl; intros H; try (inversion H; fail).
  inversion H as [? ? E|? ? E]; subst; simpl in *.
  - destruct (same_shape (s p) (s q)) eqn:Q; [|reflexivity]. apply same_shape_alike in Q. contradiction.
  - rewrite IH by auto. apply andb_false_r.
Qed.

Example C45_ex : twins vars (Multiplied (gain 0) (gain 1)) (Multiplied (gain 2) (gain 3)) /\
  separate (Multiplied (gain 0) (gain 1)) (Multiplied (gain 2) (gain 3)) /\
  exists t, eval (fst (copy_parameters vars (Multiplied (gain 0) (gain 1)) (Multiplied (gain 2) (gain 3))))
    (Multiplied (gain 0) (gain 1)) (scalar 1) = Ok (Tensor t) /\ entry t 0 0 = 12.
Proof.
  split; [repeat constructor|]. split.
  - split; simpl; [repeat constructor; simpl; intuition lia|intuition lia].
  - eexists. split; [reflexivity|]. simpl. lra.
Qed.
Example C45_sat_ex : twins vars (gain 0) (gain 1) /\ separate (gain 0) (gain 1) /\
  twins vars (gain 2) (gain 1) /\ separate (Multiplied (gain 0) (gain 2)) (Multiplied (gain 1) (gain 1)).
Proof.
  split; [repeat constructor|]. split; [|split; [repeat constructor|]];
    split; simpl; try (repeat constructor; simpl; intuition lia); intuition lia.
Qed.

(** ** C46 *)

(** Bounds that are numbers or can be stretched to the shape of the output: every
    entry ends up in its interval, unchanged if it was there, else at the violated
    bound.  With crossed bounds the result is the upper one. *)
Theorem C46_saturation : forall s f x v lo up, eval s f x = Ok v -> fits lo v -> fits up v ->
  exists w, eval s (Saturated f lo up) x = Ok w /\ shape w = shape v /\
    forall i j, (i < fst (shape v))%nat -> (j < snd (shape v))%nat ->
      let l := at_pos lo i j in let u := at_pos up i j in
      let r := at_pos v i j in let y := at_pos w i j in
      (l <= u -> l <= y <= u /\ (l <= r <= u -> y = r) /\ (r < l -> y = l) /\ (u < r -> y = u)) /\
      (u < l -> y = u).
Proof.
  intros s f x v lo up E Fl Fu. cbn [eval]. rewrite E. cbn [bind].
  destruct (op2_fits Rmax v lo Fl) as (a & Ea & Sa & Ha). rewrite Ea. cbn [bind].
  destruct (op2_fits Rmin a up) as (w & Ew & Sw & Hw).
  { unfold fits. rewrite Sa. exact Fu. }
  exists w. split; auto. split; [congruence|]. intros i j Hi Hj.
  set (l := at_pos lo i j). set (u := at_pos up i j). set (r := at_pos v i j). set (y := at_pos w i j).
  assert (Ey : y = Rmin (Rmax r l) u).
  { unfold y. rewrite Hw by (rewrite Sa; auto). rewrite Ha by auto. reflexivity. }
  rewrite Ey. unfold Rmin, Rmax.
  split; intros; repeat destruct Rle_dec; repeat split; intros; lra.
Qed.

(** It is the closest value in the interval. *)
Theorem C46_closest : forall s f x v lo up w, eval s f x = Ok v -> fits lo v -> fits up v ->
  eval s (Saturated f lo up) x = Ok w ->
  forall i j, (i < fst (shape v))%nat -> (j < snd (shape v))%nat ->
  forall z, at_pos lo i j <= z <= at_pos up i j ->
  Rabs (at_pos w i j - at_pos v i j) <= Rabs (z - at_pos v i j).
Proof.
  intros s f x v lo up w E Fl Fu Ew i j Hi Hj z Hz.
  destruct (C46_saturation s f x v lo up E Fl Fu) as (w' & Ew' & _ & H).
  assert (w' = w) by congruence. subst w'. specialize (H i j Hi Hj). cbv zeta in H.
  destruct H as [H _]. destruct H as (A & B & C & D); [lra|].
  destruct (Rlt_dec (at_pos v i j) (at_pos lo i j)) as [L|L].
  - rewrite (C L). unfold Rabs. repeat destruct Rcase_abs; lra.
  - destruct (Rlt_dec (at_pos up i j) (at_pos v i j)) as [U|U].
    + rewrite (D U). unfold Rabs. repeat destruct Rcase_abs; lra.
    + rewrite B by lra. unfold Rabs. repeat destruct Rcase_abs; lra.
Qed.

(** Only functions with dimensions (leaves and saturations) can be saturated, and
    the result takes a single input. *)
(** Functions with input and output dimension [d]: basic functions and saturations
    of functions with these dimensions. *)
Inductive dimensioned (d : nat * nat) : fn -> Prop :=
| dim_leaf vars ev : dimensioned d (Leaf vars d ev)
| dim_saturated f lo up : dimensioned d f -> dimensioned d (Saturated f lo up).
Lemma dims_dimensioned f d : dims f = Ok d <-> dimensioned d f.
Proof.
  induction f as [vars d' ev|c|f _ g _|f _ g _|f IH lo up]; cbn.
  - split; [intros [= <-]; constructor|intros H; now inversion H].
  - split; [discriminate|intros H; inversion H].
  - split; [discriminate|intros H; inversion H].
  - split; [discriminate|intros H; inversion H].
  - change (dims f = Ok d <-> dimensioned d (Saturated f lo up)). rewrite IH.
    split; [now constructor|intros H; now inversion H].
Qed.
Lemma dims_err f e : dims f = Err e -> e = AttributeError.
Proof.
  induction f as [vars d' ev|c|f _ g _|f _ g _|f IH lo up]; cbn; try discriminate; try (now intros [= <-]).
  exact IH.
Qed.

Theorem C46_construction : forall f lo up,
  (forall d, dimensioned d f -> make_saturation (Some f) lo up = Ok (Saturated f lo up) /\
     dims (Saturated f lo up) = Ok d) /\
  ((forall d, ~ dimensioned d f) -> make_saturation (Some f) lo up = Err AttributeError) /\
  (forall s x y, call s (Saturated f lo up) [x; y] = Err TypeError).
Proof.
  intros f lo up. split; [|split].
  - intros d H. apply dims_dimensioned in H. cbn [make_saturation]. rewrite H. split; [reflexivity|exact H].
  - intros H. cbn [make_saturation]. destruct (dims f) as [d|e] eqn:E; cbn.
    + exfalso. apply (H d). now apply dims_dimensioned.
    + now apply dims_err in E as ->.
  - reflexivity.
Qed.

Example C46_ex : fits (Number (-1)) (Tensor (scalar 4)) /\
  fits (Tensor (scalar 3)) (Tensor (scalar 4)) /\
  exists t, eval vars (Saturated (gain 1) (Number (-1)) (Tensor (scalar 3))) (scalar 2) = Ok (Tensor t) /\
    entry t 0 0 = 3.
Proof.
  split; [split; simpl; auto|]. split; [split; simpl; auto|]. eexists. split; [reflexivity|].
  simpl. unfold Rmin, Rmax. repeat destruct Rle_dec; lra.
Qed.

Print Assumptions C44_pointwise.
Print Assumptions C44_numbers.
Print Assumptions C44_entries.
Print Assumptions C44_parameters.
Print Assumptions C44_accepted.
Print Assumptions C44_several_inputs.
Print Assumptions C44_commutes_refuted.
Print Assumptions C45_products.
Print Assumptions C45_sums.
Print Assumptions C45_sums_refuted.
Print Assumptions C45_saturation.
Print Assumptions C45_shapes.
Print Assumptions C46_saturation.
Print Assumptions C46_closest.
Print Assumptions C46_construction.
