(** Property C114: gradient steps in the training of Lyapunov networks, examples and what
    keeping the normalization means for the objective. *)
From Coq Require Import Reals List Bool Arith ZArith Lia Lra Psatz.
From Coquelicot Require Import Coquelicot.
From Verif Require Import Prelude FunModel QuadModel QuadProofs NNModel NNProofs LyapNetModel LyapNetSpec AutoNetModel AutoNetSpec AutoNetProofs2 AutoNNModel.
From Verif.Properties Require Import AutoNetProps AutoNNProps.
From Verif Require Import NumModel GridModel TriModel AutoTriModel SafeModel CertModel LoopModel ExUtilModel RoaTrainModel PolGradModel TrainGradModel TrainGradSpec Properties.PolGradProps Properties.TrainGradProps.
Import ListNotations.
Local Open Scope R_scope.

(** One layer with one unit and no activation: V(x) = ((w^2 + o) x)^2 with o = 1e-8. *)
Definition o : R := 1 / 100000000.
Definition one_unit : lyapunov_network := {| input_dim := 1; output_dims := [1%nat]; hidden_dims := [1%nat]; activations := [fun u => u]; eps := o |}.
Definition weight (w : R) : tensor := {| rows := 1; cols := 1; FunModel.entry := fun _ _ => w |}.
Definition two (x y : R) : tensor := {| rows := 2; cols := 1; FunModel.entry := fun i _ => if Nat.eqb i 0 then x else y |}.
Definition kw (w : R) : R := w * w + o.
(** The states 1 and 1/2, the dynamics 2 x, and the first state labelled. *)
Definition two_states : batch := {| b_states := two 1 (1 / 2); b_next := two 2 1; b_labels := fun i => Nat.eqb i 0; b_weights := fun _ => 1 |}.

Lemma one_eval w x y : exists V, lyapunov_eval one_unit [weight w] (two x y) = Ok V /\
  FunModel.entry V 0%nat 0%nat = kw w * x * (kw w * x) /\ FunModel.entry V 1%nat 0%nat = kw w * y * (kw w * y).
Proof. eexists. split; [reflexivity|]. cbn. unfold kw, Rsqr. split; ring. Qed.

Lemma one_objective w : 1 / 2 <= w <= 1 ->
  training_objective one_unit 2 1000 o two_states [weight w] =
  Ok ((3000 * (kw w * kw w) / (kw w * kw w + o) + (2 - kw w * kw w / 4)) / 2).
Proof.
  intros Hw. unfold training_objective. cbn [two_states b_states b_next].
  destruct (one_eval w 1 (1 / 2)) as (V & -> & v0 & v1). destruct (one_eval w 2 1) as (V' & -> & v0' & v1'). cbn [bind rows two].
  unfold rsum. cbn [seq map fold_right b_labels b_weights Nat.eqb to_float]. rewrite v0, v1, v0', v1'.
  assert (Ho : 0 < o < 1 / 1000) by (unfold o; lra).
  assert (K : 1 / 4 < kw w < 101 / 100) by (unfold kw; nra). assert (Q : 1 / 16 < kw w * kw w < 2) by nra.
  unfold classifier_loss, decrease_loss. f_equal. change (INR 2) with 2.
  rewrite (Rmax_right (- (2 * 1 - 1) * (2 - kw w * 1 * (kw w * 1)))) by nra.
  rewrite (Rmax_left (- (2 * 0 - 1) * (2 - kw w * (1 / 2) * (kw w * (1 / 2))))) by nra.
  rewrite (Rmax_left (kw w * 2 * (kw w * 2) - kw w * 1 * (kw w * 1))) by nra.
  replace (kw w * 1 * (kw w * 1)) with (kw w * kw w) by ring.
  change (to_float (b_labels two_states 0)) with 1. change (to_float (b_labels two_states 1)) with 0.
  change (b_weights two_states 0) with 1. change (b_weights two_states 1) with 1.
  unfold Rdiv at 5. rewrite Rmult_0_l. field. lra.
Qed.

Lemma one_backprop w x y d : rows d = 2%nat -> cols d = 1%nat -> exists gX g,
  lyapunov_gradients one_unit [fun _ => 1] [weight w] (two x y) d = Ok (gX, [g]) /\ rows g = 1%nat /\ cols g = 1%nat /\
  FunModel.entry g 0%nat 0%nat = 4 * w * kw w * (x * x * FunModel.entry d 0%nat 0%nat + y * y * FunModel.entry d 1%nat 0%nat).
Proof.
  intros Hr Hc. destruct d as [r c f]. cbn in Hr, Hc. subst r c. cbn [FunModel.entry].
  unfold lyapunov_gradients, one_unit. cbn. eexists. eexists. split; [reflexivity|]. split; [reflexivity|]. split; [reflexivity|].
  cbn. unfold kw. ring.
Qed.

Lemma one_gradients w : 1 / 2 <= w <= 1 -> exists G, training_gradients one_unit [fun _ => 1] 2 1000 o two_states [weight w] = Ok [G] /\
  rows G = 1%nat /\ cols G = 1%nat /\
  FunModel.entry G 0%nat 0%nat = 4 * w * kw w * (1500 / (kw w * kw w + o) - 1 / 8).
Proof.
  intros Hw. unfold training_gradients. cbn [two_states b_states b_next].
  destruct (one_eval w 1 (1 / 2)) as (V & -> & v0 & v1). destruct (one_eval w 2 1) as (V' & -> & v0' & v1'). cbn [bind].
  change (rows (two 1 (1 / 2))) with 2%nat.
  assert (Ho : 0 < o < 1 / 1000) by (unfold o; lra).
  assert (K : 1 / 4 < kw w < 101 / 100) by (unfold kw; nra). assert (Q : 1 / 16 < kw w * kw w < 2) by nra.
  match goal with |- context[lyapunov_gradients one_unit _ _ (two 1 (1 / 2)) ?d] =>
    destruct (one_backprop w 1 (1 / 2) d eq_refl eq_refl) as (gX & g & EG & r & c & N); rewrite EG; clear EG end.
  cbn [bind].
  match goal with |- context[lyapunov_gradients one_unit _ _ (two 2 1) ?d] =>
    destruct (one_backprop w 2 1 d eq_refl eq_refl) as (gX' & g' & EG & r' & c' & N'); rewrite EG; clear EG end.
  cbn [bind snd map2]. eexists. split; [reflexivity|]. cbn [rows cols FunModel.entry]. split; [exact r|]. split; [exact c|].
  rewrite N, N'. clear N N' r c r' c' g g' gX gX'. unfold column. cbn [FunModel.entry].
  change (b_labels two_states 0) with true. change (b_labels two_states 1) with false.
  change (b_weights two_states 0) with 1. change (b_weights two_states 1) with 1. rewrite v0, v1, v0', v1'.
  unfold to_float, maximum_grad. change (INR 2) with 2.
  repeat match goal with |- context[Rle_dec 0 ?a] => let C := fresh in destruct (Rle_dec 0 a) as [C|C]; [try (exfalso; clear - C Q K; nra)|try (exfalso; apply C; clear - Q K; nra)] end.
  replace (kw w * 1 * (kw w * 1)) with (kw w * kw w) by ring. unfold Rdiv at 3 7. rewrite ?Rmult_0_l. field. lra.
Qed.

(** The step is against the exact derivative of the objective with the normalization kept;
    on [two_states] every small step increases the objective that is printed. *)
Lemma one_step : exists eta, 0 < eta /\ forall learning_rate, 0 < learning_rate < eta ->
  exists ps' before after, training_update one_unit [fun _ => 1] 2 1000 o learning_rate two_states [weight 1] = Ok ps' /\
    training_objective one_unit 2 1000 o two_states [weight 1] = Ok before /\
    training_objective one_unit 2 1000 o two_states ps' = Ok after /\ before < after.
Proof.
  destruct (one_gradients 1 ltac:(lra)) as (G & EG & Gr & Gc & N). set (g := FunModel.entry G 0%nat 0%nat) in *.
  assert (Ho : 0 < o < 1 / 1000) by (unfold o; lra).
  assert (K1 : 1 < kw 1 < 101 / 100) by (unfold kw; nra). assert (Q1 : 1 < kw 1 * kw 1 < 2) by nra.
  assert (P : 0 < g).
  { rewrite N. apply Rmult_lt_0_compat; [lra|]. assert (1 < 1500 / (kw 1 * kw 1 + o)); [|lra].
    apply (Rmult_lt_reg_r (kw 1 * kw 1 + o)); [lra|]. unfold Rdiv. rewrite Rmult_assoc, Rinv_l by lra. lra. }
  exists (1 / 2 / g). split; [apply Rdiv_lt_0_compat; lra|]. intros lr [L1 L2].
  assert (LG : 0 < lr * g < 1 / 2).
  { split; [now apply Rmult_lt_0_compat|]. apply (Rmult_lt_compat_r g) in L2; [|exact P]. unfold Rdiv in L2 at 1. rewrite Rmult_assoc, Rinv_l in L2 by lra. lra. }
  set (w := 1 - lr * g). assert (Hw : 1 / 2 <= w <= 1) by (unfold w; lra).
  eexists. exists ((3000 * (kw 1 * kw 1) / (kw 1 * kw 1 + o) + (2 - kw 1 * kw 1 / 4)) / 2).
  exists ((3000 * (kw w * kw w) / (kw w * kw w + o) + (2 - kw w * kw w / 4)) / 2).
  split. { unfold training_update. rewrite EG. cbn [bind map2]. reflexivity. }
  split. { apply one_objective. lra. }
  split.
  { rewrite <- (one_objective w Hw). unfold training_objective. cbn [two_states b_states b_next].
    assert (E : forall x y, lyapunov_eval one_unit [descend lr (weight 1) G] (two x y) = lyapunov_eval one_unit [weight w] (two x y)).
    { intros x y. unfold lyapunov_eval, one_unit. cbn. fold g. change (1 - lr * g) with w. reflexivity. }
    now rewrite !E. }
  assert (K : 1 / 4 < kw w < kw 1) by (unfold kw, w in *; nra). assert (Q : 1 / 16 < kw w * kw w < kw 1 * kw 1) by nra.
  set (q := kw w * kw w) in *. set (q1 := kw 1 * kw 1) in *.
  assert (E : (3000 * q / (q + o) + (2 - q / 4)) / 2 - (3000 * q1 / (q1 + o) + (2 - q1 / 4)) / 2 =
    (q1 - q) / 2 * (1 / 4 - 3000 * o / ((q + o) * (q1 + o)))) by (field; lra).
  assert (0 < (q1 - q) / 2 * (1 / 4 - 3000 * o / ((q + o) * (q1 + o)))); [|lra].
  apply Rmult_lt_0_compat; [lra|].
  assert (3000 * o / ((q + o) * (q1 + o)) < 1 / 4); [|lra].
  assert (D : 1 / 16 < (q + o) * (q1 + o)) by nra.
  apply (Rmult_lt_reg_r ((q + o) * (q1 + o))); [lra|]. unfold Rdiv at 1. rewrite Rmult_assoc, Rinv_l by lra. unfold o in *; lra.
Qed.

Lemma one_hypotheses b : cols (b_states b) = 1%nat -> cols (b_next b) = 1%nat -> rows (b_next b) = rows (b_states b) -> forall w,
  make_lyapunov_network 1 [1%nat] [fun u => u] o = Ok one_unit /\
  (forall a, In a (combine [fun u : R => u] [fun _ : R => 1]) -> forall u : R, is_derive (fst a) u (snd a u)) /\
  List.Forall2 (fun s W => shaped (fst s) (snd s) W) (variable_shapes 1 [1%nat]) [weight w].
Proof.
  intros _ _ _ w. split; [reflexivity|]. split.
  - intros a [<-|[]] u. cbn. exact (is_derive_id (K:=R_AbsRing) u).
  - constructor; [|constructor]. split; reflexivity.
Qed.
Lemma below_cases (P : nat -> Prop) : P 0%nat -> P 1%nat -> forall i, (i < 2)%nat -> P i.
Proof. intros A B [|[|i]] H; [exact A|exact B|lia]. Qed.
Lemma two_no_ties V V' : lyapunov_eval one_unit [weight 1] (b_states two_states) = Ok V ->
  lyapunov_eval one_unit [weight 1] (b_next two_states) = Ok V' -> no_ties 2 two_states V V'.
Proof.
  intros E E'. destruct (one_eval 1 1 (1 / 2)) as (U & EU & v0 & v1). destruct (one_eval 1 2 1) as (U' & EU' & v0' & v1').
  change (lyapunov_eval one_unit [weight 1] (two 1 (1 / 2)) = Ok V) in E. change (lyapunov_eval one_unit [weight 1] (two 2 1) = Ok V') in E'.
  rewrite EU in E. rewrite EU' in E'. assert (U = V) by congruence. assert (U' = V') by congruence. subst U U'.
  assert (K : 1 < kw 1 < 101 / 100) by (unfold kw, o; lra).
  refine (below_cases _ _ _); rewrite ?v0, ?v1, ?v0', ?v1'; split; try nra; intros _; nra.
Qed.

(** With the objective instead of the one with its normalization kept, [C114_step] would be
    false. *)
Theorem C114_normalization_refuted :
  ~ forall n dims acts dacts e v ps safe_level lagrange eps b V V' gs G i j,
    make_lyapunov_network n dims acts e = Ok v -> length acts = length dims -> length dacts = length dims ->
    (forall a, In a (combine acts dacts) -> forall u : R, is_derive (fst a) u (snd a u)) ->
    List.Forall2 (fun s W => shaped (fst s) (snd s) W) (variable_shapes n dims) ps ->
    cols (b_states b) = n -> cols (b_next b) = n -> rows (b_next b) = rows (b_states b) ->
    lyapunov_eval v ps (b_states b) = Ok V -> lyapunov_eval v ps (b_next b) = Ok V' -> no_ties safe_level b V V' ->
    training_gradients v dacts safe_level lagrange eps b ps = Ok gs ->
    In G gs -> (i < rows G)%nat -> (j < cols G)%nat -> FunModel.entry G i j <> 0 ->
    exists eta, 0 < eta /\ forall learning_rate, 0 < learning_rate < eta ->
      exists ps' before after, training_update v dacts safe_level lagrange eps learning_rate b ps = Ok ps' /\
        training_objective v safe_level lagrange eps b ps = Ok before /\
        training_objective v safe_level lagrange eps b ps' = Ok after /\ after < before.
Proof.
  intros H. destruct (one_gradients 1 ltac:(lra)) as (G & EG & Gr & Gc & N).
  destruct (one_hypotheses two_states eq_refl eq_refl eq_refl 1) as (M & D & F).
  destruct (one_eval 1 1 (1 / 2)) as (V & EV & _). destruct (one_eval 1 2 1) as (V' & EV' & _).
  assert (Hr : (0 < rows G)%nat) by (rewrite Gr; lia). assert (Hc : (0 < cols G)%nat) by (rewrite Gc; lia).
  assert (P : FunModel.entry G 0%nat 0%nat <> 0).
  { rewrite N. assert (Ho : 0 < o < 1 / 1000) by (unfold o; lra).
    assert (K1 : 1 < kw 1 < 101 / 100) by (unfold kw; nra). assert (Q1 : 1 < kw 1 * kw 1 < 2) by nra.
    assert (1 < 1500 / (kw 1 * kw 1 + o)). { apply (Rmult_lt_reg_r (kw 1 * kw 1 + o)); [lra|]. unfold Rdiv. rewrite Rmult_assoc, Rinv_l by lra. lra. }
    apply Rgt_not_eq. apply Rmult_lt_0_compat; lra. }
  destruct (H 1%nat [1%nat] [fun u => u] [fun _ => 1] o one_unit [weight 1] 2 1000 o two_states V V' [G] G 0%nat 0%nat M eq_refl eq_refl D F eq_refl eq_refl eq_refl
    EV EV' (two_no_ties V V' EV EV') EG (or_introl eq_refl) Hr Hc P) as (e1 & P1 & S1).
  destruct one_step as (e2 & P2 & S2). assert (B : 0 < Rmin e1 e2 / 2 < e1 /\ 0 < Rmin e1 e2 / 2 < e2).
  { pose proof (Rmin_l e1 e2). pose proof (Rmin_r e1 e2). pose proof (Rmin_glb_lt e1 e2 0 P1 P2). lra. }
  destruct B as [B1 B2]. destruct (S1 _ B1) as (p1 & b1 & a1 & U1 & O1 & A1 & L1). destruct (S2 _ B2) as (p2 & b2 & a2 & U2 & O2 & A2 & L2).
  assert (p1 = p2) by congruence. subst p2. assert (b1 = b2) by congruence. assert (a1 = a2) by congruence. lra.
Qed.

(** A case for the positive theorems: on the same batch the step decreases the objective with
    the normalization kept; with the dynamics x/2 the gradients are those of the objective;
    pre-training towards the values 3 and 1/10 decreases the mean distance. *)
Definition halved : batch := {| b_states := two 1 (1 / 2); b_next := two (1 / 2) (1 / 4); b_labels := fun i => Nat.eqb i 0; b_weights := fun _ => 1 |}.
Definition C114_targets (i : nat) : R := match i with O => 3 | _ => 1 / 10 end.

Example C114_ex :
  (exists eta, 0 < eta /\ forall learning_rate, 0 < learning_rate < eta ->
    exists ps' before after V, training_update one_unit [fun _ => 1] 2 1000 o learning_rate two_states [weight 1] = Ok ps' /\
      training_objective one_unit 2 1000 o two_states [weight 1] = Ok before /\
      lyapunov_eval one_unit [weight 1] (b_states two_states) = Ok V /\
      frozen_objective one_unit 2 1000 o two_states V ps' = Ok after /\ after < before) /\
  (exists g, training_gradients one_unit [fun _ => 1] 2 1000 o halved [weight 1] = Ok [g] /\
    FunModel.entry g 0%nat 0%nat = - (kw 1 / 2) /\
    forall d, same_shape (weight 1) d ->
    exists L, (forall z, training_objective one_unit 2 1000 o halved (moved_all z [weight 1] [d]) = Ok (L z)) /\ is_derive L 0 (tdots [g] [d])) /\
  (exists eta, 0 < eta /\ forall learning_rate, 0 < learning_rate < eta ->
    exists ps' before after, pre_update one_unit [fun _ => 1] C114_targets learning_rate (two 1 (1 / 2)) [weight 1] = Ok ps' /\
      pre_objective one_unit C114_targets (two 1 (1 / 2)) [weight 1] = Ok before /\
      pre_objective one_unit C114_targets (two 1 (1 / 2)) ps' = Ok after /\ after < before).
Proof.
  assert (Ho : 0 < o < 1 / 1000) by (unfold o; lra).
  assert (K1 : 1 < kw 1 < 101 / 100) by (unfold kw; nra). assert (Q1 : 1 < kw 1 * kw 1 < 11 / 10) by nra.
  destruct (one_eval 1 1 (1 / 2)) as (V & EV & v0 & v1).
  split; [|split].
  - destruct (one_gradients 1 ltac:(lra)) as (G & EG & Gr & Gc & N).
    destruct (one_hypotheses two_states eq_refl eq_refl eq_refl 1) as (M & D & F). destruct (one_eval 1 2 1) as (V' & EV' & _).
    assert (Hr : (0 < rows G)%nat) by (rewrite Gr; lia). assert (Hc : (0 < cols G)%nat) by (rewrite Gc; lia).
    assert (P : FunModel.entry G 0%nat 0%nat <> 0).
    { rewrite N. assert (1 < 1500 / (kw 1 * kw 1 + o)). { apply (Rmult_lt_reg_r (kw 1 * kw 1 + o)); [lra|]. unfold Rdiv. rewrite Rmult_assoc, Rinv_l by lra. lra. }
      apply Rgt_not_eq. apply Rmult_lt_0_compat; lra. }
    destruct (C114_step 1%nat [1%nat] [fun u => u] [fun _ => 1] o one_unit [weight 1] 2 1000 o two_states V V' [G] G 0%nat 0%nat M eq_refl eq_refl D F eq_refl eq_refl eq_refl
      EV EV' (two_no_ties V V' EV EV') EG (or_introl eq_refl) Hr Hc P) as (eta & E1 & S1).
    exists eta. split; [exact E1|]. intros lr L. destruct (S1 lr L) as (ps' & b0 & a0 & A1 & A2 & A3 & A4). exists ps', b0, a0, V. repeat (split; [assumption|]). assumption.
  - destruct (one_eval 1 (1 / 2) (1 / 4)) as (V' & EV' & v0' & v1').
    destruct (one_hypotheses halved eq_refl eq_refl eq_refl 1) as (M & D & F).
    assert (T : forall i, (i < rows (b_states halved))%nat -> FunModel.entry V i 0%nat <> 2 /\ FunModel.entry V i 0%nat + o <> 0 /\
      (b_labels halved i = true -> FunModel.entry V' i 0%nat < FunModel.entry V i 0%nat)).
    { refine (below_cases _ _ _); rewrite ?v0, ?v1, ?v0', ?v1'; (split; [nra|]); (split; [nra|]); intros _; nra. }
    destruct (C114_objective_gradients 1%nat [1%nat] [fun u => u] [fun _ => 1] o one_unit [weight 1] 2 1000 o halved V V' M eq_refl eq_refl D F eq_refl eq_refl eq_refl EV EV' T)
      as (gs & EG & S).
    assert (X : exists g, training_gradients one_unit [fun _ => 1] 2 1000 o halved [weight 1] = Ok [g] /\ FunModel.entry g 0%nat 0%nat = - (kw 1 / 2)).
    { clear S EG. unfold training_gradients. change (b_states halved) with (two 1 (1 / 2)). change (b_next halved) with (two (1 / 2) (1 / 4)). rewrite EV, EV'. cbn [bind].
      change (rows (two 1 (1 / 2))) with 2%nat.
      match goal with |- context[lyapunov_gradients one_unit _ _ (two 1 (1 / 2)) ?d] =>
        destruct (one_backprop 1 1 (1 / 2) d eq_refl eq_refl) as (gX & g & EG & r & c & N); rewrite EG; clear EG end.
      cbn [bind].
      match goal with |- context[lyapunov_gradients one_unit _ _ (two (1 / 2) (1 / 4)) ?d] =>
        destruct (one_backprop 1 (1 / 2) (1 / 4) d eq_refl eq_refl) as (gX' & g' & EG & r' & c' & N'); rewrite EG; clear EG end.
      cbn [bind snd map2]. eexists. split; [reflexivity|]. cbn [rows cols FunModel.entry].
      rewrite N, N'. clear N N' r c r' c' g g' gX gX'. unfold column. cbn [FunModel.entry].
      change (b_labels halved 0) with true. change (b_labels halved 1) with false.
      change (b_weights halved 0) with 1. change (b_weights halved 1) with 1. rewrite v0, v1, v0', v1'.
      unfold to_float, maximum_grad. change (INR 2) with 2.
      repeat match goal with |- context[Rle_dec 0 ?a] => let C := fresh in destruct (Rle_dec 0 a) as [C|C]; [try (exfalso; clear - C Q1 K1; nra)|try (exfalso; apply C; clear - Q1 K1; nra)] end.
      field. }
    destruct X as (g & Eg & Ng). assert (gs = [g]) by congruence. subst gs. exists g. split; [exact Eg|]. split; [exact Ng|].
    intros d Sd. apply S. constructor; [exact Sd|constructor].
  - destruct (one_hypotheses halved eq_refl eq_refl eq_refl 1) as (M & D & F).
    assert (T : forall i, (i < rows (two 1 (1 / 2)))%nat -> FunModel.entry V i 0%nat <> C114_targets i).
    { refine (below_cases _ _ _); rewrite ?v0, ?v1; cbn; nra. }
    destruct (C114_pre_training 1%nat [1%nat] [fun u => u] [fun _ => 1] o one_unit [weight 1] C114_targets (two 1 (1 / 2)) V M eq_refl eq_refl D F eq_refl EV T)
      as (gs & EG & _ & _ & S). apply S.
    unfold pre_gradients in EG. rewrite EV in EG. cbn [bind] in EG. change (rows (two 1 (1 / 2))) with 2%nat in EG.
    match type of EG with context[lyapunov_gradients one_unit _ _ (two 1 (1 / 2)) ?d] =>
      destruct (one_backprop 1 1 (1 / 2) d eq_refl eq_refl) as (gX & g & EG' & r & c & N); rewrite EG' in EG; clear EG' end.
    cbn [bind snd] in EG. assert (gs = [g]) by congruence. subst gs. exists g, 0%nat, 0%nat. rewrite r, c. split; [now left|]. split; [lia|]. split; [lia|].
    rewrite N. unfold column. cbn [FunModel.entry C114_targets]. rewrite v0, v1. change (INR 2) with 2. unfold tf_sign.
    repeat match goal with |- context[Rlt_dec ?b ?a] => let C := fresh in destruct (Rlt_dec b a) as [C|C]; [try (exfalso; clear - C Q1 K1; nra)|try (exfalso; apply C; clear - Q1 K1; nra)] end.
    nra.
Qed.
