(** Property C118: an example, and states in which the constraint holds. *)
From Coq Require Import Reals List Bool Arith ZArith Lia Lra FunctionalExtensionality.
From Coquelicot Require Import Coquelicot.
From Verif Require Import Prelude FunModel QuadModel QuadProofs NNModel NNProofs AutoNetSpec AutoNetProofs2 AutoNNModel AutoNNSpec AutoNNProofs.
From Verif.Properties Require Import AutoNetProps AutoNNProps.
From Verif Require Import NumModel NumProofs ListFacts GridModel GridSpec GridProofs TriModel TriSpec TriProofs TriProofs2 TriInstances SafeModel CertModel RLModel RLProofs
  TriLyapModel TriLyapSpec TriSlopeProofs AutoTriModel AutoTriSpec AutoTriProofs Properties.TriProps Properties.TriContProps Properties.TriLyapProps Properties.GridTests
  Properties.AutoTriProps Properties.AutoTriProps2 PolGradModel PolGradSpec PolGradProofs Properties.PolGradProps Properties.PolGradProps2 Properties.PolGradProps3
  ConsGradModel ConsGradSpec ConsGradProofs Properties.ConsGradProps.
Import ListNotations.
Local Open Scope R_scope.

(** The system x + u with the error bound u^2/8, the rewards -u and a discount factor of
    1/2. *)
Definition rough (T : tf_tri) : learner :=
  {| rl_policy := fun _ => []; rl_dynamics := fun s a => Uncertain [coordinate s 0 + coordinate a 0] [coordinate a 0 * coordinate a 0 / 8];
     rl_reward := fun s a => - coordinate a 0; rl_value := T; rl_gamma := 1 / 2 |}.
Definition rough_rates : rates := {| d_reward := fun s a => [-1]; d_dynamics := fun s a d => [coordinate d 0] |}.
Definition rough_errors : error_rates := fun s a d => [coordinate a 0 / 4 * coordinate d 0].
Definition careful : update := {| ca := 1; cb := 1; u_tau := 1 / 100; multiplier := 1 |}.

(** Singular values of matrices with one entry *)
Definition sign (x : R) : R := if Rlt_dec x 0 then -1 else 1.
Definition svd1 (A : tensor) : (nat -> R) * tensor * tensor :=
  (fun _ => Rabs (FunModel.entry A 0 0), gain (sign (FunModel.entry A 0%nat 0%nat)), gain 1).
Definition sign_rates (ps : list tensor) : list tensor := map (fun A => gain (sign (FunModel.entry A 0%nat 0%nat))) ps.
Lemma sign_abs x : sign x * x = Rabs x.
Proof. unfold sign. destruct Rlt_dec; [rewrite Rabs_left by lra|rewrite Rabs_right by lra]; ring. Qed.
Lemma svd1_lipschitz A : rows A = 1%nat -> cols A = 1%nat -> lipschitz svd1 [A] = Ok (Rabs (FunModel.entry A 0%nat 0%nat)).
Proof.
  intros r c. unfold lipschitz. cbn [parameter_iter in_pairs last app bind fold_left]. unfold svd. cbn [svd1]. rewrite r, c. cbn. f_equal. rewrite <- sign_abs. ring.
Qed.
Lemma svd1_right k : 0 < k -> right_lipschitz svd1 [gain k] (sign_rates [gain k]).
Proof.
  intros Hk. split; [repeat constructor|]. intros dps F. inversion F as [|? d ? ? [r c] F']; subst. inversion F'; subst. cbn [gain rows cols] in r, c.
  exists (fun z => Rabs (k + z * FunModel.entry d 0%nat 0%nat)). split.
  - intros z. apply svd1_lipschitz; reflexivity.
  - apply (is_derive_ext_loc (fun z => k + z * FunModel.entry d 0%nat 0%nat)).
    + assert (Q : continuous (fun z : R => k + z * FunModel.entry d 0%nat 0%nat) 0).
      { apply (ex_derive_continuous (fun z : R => k + z * FunModel.entry d 0%nat 0%nat)). exists (FunModel.entry d 0%nat 0%nat). apply dline. }
      assert (P : locally (k + 0 * FunModel.entry d 0%nat 0%nat) (fun y => 0 < y)).
      { apply (open_gt 0). lra. }
      specialize (Q _ P). unfold filtermap in Q. revert Q. apply filter_imp. intros z Hz. cbn beta in Hz. now rewrite Rabs_right by lra.
    + eapply dconv; [apply dline|]. unfold tdots, sign_rates, tdot. cbn. unfold sign. destruct Rlt_dec; [lra|]. ring.
Qed.

Lemma rough_uncertain T : uncertain (rough T) 1 1.
Proof. intros s a _. eexists. eexists. split; [reflexivity|]. now split. Qed.
Lemma rough_smooth T project t s a : TriSpec.setup dl2 inv1 grid3 hat_values 1 project t -> 3 / 16 <= coordinate s 0 + a <= 5 / 16 ->
  smooth_state (rough T) rough_rates grid3 t 1 s [a].
Proof.
  intros SU H. constructor.
  - split; [reflexivity|]. intros c v c0 L D. specialize (D 0%nat ltac:(lia)).
    cbn [rough rough_rates rl_reward d_reward sumn].
    assert (Q : forall z : R, -1 * coordinate (c z) 0 = - coordinate (c z) 0) by (intros; ring).
    apply (is_derive_ext (fun z => -1 * coordinate (c z) 0)); [exact Q|].
    eapply dconv; [apply dscal; exact D|]. unfold coordinate. cbn [nth]. ring.
  - reflexivity.
  - intros d Ld. split; [reflexivity|]. intros c v c0 L D. specialize (D 0%nat ltac:(lia)).
    change (dims grid3) with 1%nat. cbn [rough rough_rates next_of rl_dynamics d_dynamics sumn].
    apply (is_derive_ext (fun z => coordinate d 0 * (coordinate s 0 + coordinate (c z) 0))).
    { intros z. unfold next_of, rough, coordinate. cbn. ring. }
    eapply dconv; [apply dscal; apply (dplus (fun _ => coordinate s 0) (fun z => coordinate (c z) 0)); [apply dconst|exact D]|].
    unfold coordinate. cbn. ring.
  - exists 0%Z, (1 / 16). split; [lra|]. intros x Lx Hx. change (dims grid3) with 1%nat in *. destruct x as [|y [|]]; try discriminate.
    apply (hat_simplex project); auto. specialize (Hx 0%nat ltac:(lia)). unfold next_of, rough, coordinate in Hx. cbn in Hx. unfold coordinate in H.
    apply Rabs_def2 in Hx. lra.
  - intros _ j Hj. change (dims grid3) with 1%nat in Hj. assert (j = 0)%nat by lia. subst j.
    unfold next_of, rough, coordinate. cbn. unfold coordinate in H. unfold lower, upper. cbn. lra.
Qed.
Lemma rough_right T s a : right_errors (rough T) rough_errors 1 1 s [a].
Proof.
  intros d Ld. split; [reflexivity|]. intros c v c0 L D. specialize (D 0%nat ltac:(lia)). cbn [sumn].
  apply (is_derive_ext (fun z => coordinate d 0 / 8 * (coordinate (c z) 0 * coordinate (c z) 0))).
  { intros z. unfold error_of, rough, coordinate. cbn. apply Rminus_diag_uniq. field. }
  eapply dconv; [apply dscal; apply (dmult (fun z => coordinate (c z) 0) (fun z => coordinate (c z) 0)); exact D|].
  rewrite c0. unfold rough_errors, coordinate. cbn [nth]. field.
Qed.

Lemma hat_steep project t x : TriSpec.setup dl2 inv1 grid3 hat_values 1 project t -> 0 < x < 1 / 2 -> steepness t [x] = 1.
Proof.
  intros SU Hx. destruct (three_value _ _ 0 1 0 (1 / 2) 0 project t x SU ltac:(intros; lra)) as (_ & _ & M & EM & S1 & _).
  unfold steepness. rewrite EM. cbn. rewrite S1 by lra. rewrite Rabs_right by lra. rewrite Rmax_left; lra.
Qed.
Lemma hat_inside project t x : TriSpec.setup dl2 inv1 grid3 hat_values 1 project t -> 0 <= x <= 1 / 2 -> triangulated t [x] = x.
Proof.
  intros SU Hx. destruct (three_value _ _ 0 1 0 (1 / 2) 0 project t x SU ltac:(intros; lra)) as (V1 & _). rewrite V1 by lra. field.
Qed.
(** The constrained gradient with the gain [k] in state 1/4 *)
Lemma rough_gradients T t project k : TriSpec.setup dl2 inv1 grid3 hat_values 1 project t -> wraps T t hat_values -> 0 <= k < 1 ->
  exists G, constrained_gradients (rough T) rough_rates rough_errors careful linear [fun _ => 1] [gain k] (sign_rates [gain k]) 1 [[1 / 4]] [-1] = Ok [G] /\
    rows G = 1%nat /\ cols G = 1%nat /\ FunModel.entry G 0%nat 0%nat = - (1 / 4 * (1 / 2 - k / 16) - 1 / 100).
Proof.
  intros SU WR Hk.
  destruct (hat_one _ _ _ (1 / 4 + k / 4) (1 / 2 * -1) SU WR) as (d & s & M & EG & EM & Hd & _ & _).
  destruct (hat_one _ _ _ (1 / 4 + k / 4) (Ropp 1 * -1 * -1) SU WR) as (d' & s' & M' & EG' & EM' & Hd' & _ & _).
  rewrite EM in EM'. injection EM' as <-. apply (hat_slope _ _ _ _ SU) in EM; [|lra]. subst M.
  assert (EB : tf_backprop1 T [1 / 4 + k / 4] [1 / 2 * -1] = Ok ([d], s)).
  { destruct (backprop_one _ _ _ _ _ _ _ SU WR [1 / 4 + k / 4] (1 / 2 * -1) eq_refl) as (dx & s1 & EB & _ & EG1). rewrite EG in EG1. injection EG1 as <- <-. exact EB. }
  assert (EB' : tf_backprop1 T [1 / 4 + k / 4] [Ropp 1 * -1 * -1] = Ok ([d'], s')).
  { destruct (backprop_one _ _ _ _ _ _ _ SU WR [1 / 4 + k / 4] (Ropp 1 * -1 * -1) eq_refl) as (dx & s1 & EB' & _ & EG1). rewrite EG' in EG1. injection EG1 as <- <-. exact EB'. }
  unfold constrained_gradients. rewrite linear_eval. cbn [bind]. unfold all_rows, row. cbn [rows cols seq map combine mapM fst snd FunModel.entry nth].
  unfold constrained_backprop1 at 1. cbn [rough rough_rates rl_dynamics rl_value rl_gamma careful multiplier u_tau]. unfold coordinate. cbn [nth].
  replace (1 / 4 + (1 / 4 * k + 0) * 1) with (1 / 4 + k / 4) by field. rewrite EB. cbn [bind fst]. rewrite EB'. cbn [bind fst].
  rewrite lv_steep, (current_is _ _ _ _ _ _ _ SU WR), (hat_steep _ _ _ SU) by lra.
  eexists. split; [reflexivity|]. split; [reflexivity|]. split; [reflexivity|].
  unfold lipschitz_backprop1, CertModel.sum. cbn [map2 fold_right rough rl_value]. rewrite lv_steep, (current_is _ _ _ _ _ _ _ SU WR), (hat_steep _ _ _ SU) by lra.
  cbn. rewrite Hd, Hd' by (intros; lra). unfold sign. destruct Rlt_dec; [lra|]. cbn. unfold coordinate. cbn. field.
Qed.
Lemma rough_loss T t project k : TriSpec.setup dl2 inv1 grid3 hat_values 1 project t -> wraps T t hat_values -> 0 <= k <= 1 ->
  network_loss (rough T) linear [gain k] 1 [[1 / 4]] [-1] = Ok (k / 8 - 1 / 8).
Proof.
  intros SU WR Hk. unfold network_loss. rewrite linear_eval. cbn [bind]. unfold loss_of, all_rows, row. cbn [rows cols seq map combine mapM fst snd FunModel.entry nth].
  unfold future_value. cbn [rough rl_dynamics rl_reward rl_value rl_gamma]. unfold coordinate. cbn [nth bind].
  rewrite (hat_value _ _ _ _ SU WR), (hat_inside _ _ _ SU) by lra. cbn. f_equal. field.
Qed.
(** The gradient without the constraint *)
Lemma rough_plain T t project k : TriSpec.setup dl2 inv1 grid3 hat_values 1 project t -> wraps T t hat_values -> 0 <= k < 1 ->
  exists G, network_gradients (rough T) rough_rates linear [fun _ => 1] [gain k] 1 [[1 / 4]] [-1] = Ok [G] /\ FunModel.entry G 0%nat 0%nat = 1 / 8.
Proof.
  intros SU WR Hk. destruct (hat_one _ _ _ (1 / 4 + k / 4) (1 / 2 * -1) SU WR) as (d & s & M & EG & EM & Hd & _ & _).
  apply (hat_slope _ _ _ _ SU) in EM; [|lra]. subst M.
  assert (EB : tf_backprop1 T [1 / 4 + k / 4] [1 / 2 * -1] = Ok ([d], s)).
  { destruct (backprop_one _ _ _ _ _ _ _ SU WR [1 / 4 + k / 4] (1 / 2 * -1) eq_refl) as (dx & s1 & EB & _ & EG1). rewrite EG in EG1. injection EG1 as <- <-. exact EB. }
  unfold network_gradients. rewrite linear_eval. cbn [bind]. unfold loss_backprop, all_rows, row. cbn [rows cols seq map combine mapM fst snd FunModel.entry nth].
  unfold future_backprop1 at 1. cbn [rough rough_rates rl_dynamics rl_value rl_gamma]. unfold coordinate. cbn [nth].
  replace (1 / 4 + (1 / 4 * k + 0) * 1) with (1 / 4 + k / 4) by field. rewrite EB. cbn [bind fst].
  eexists. split; [reflexivity|]. cbn. rewrite Hd by (intros; lra). unfold coordinate. cbn. field.
Qed.
(** The constraint in state 1/4 with the gain [k] *)
Definition satisfied (T : tf_tri) (k : R) : Prop :=
  exists lip, lipschitz svd1 [gain k] = Ok lip /\
  let L := safe_lyapunov T (ca careful + cb careful * lip) (u_tau careful) in
  v_decrease_bound L [1 / 4] (rl_dynamics (rough T) [1 / 4] [k * (1 / 4)]) < threshold L [1 / 4] (u_tau careful).
Lemma satisfied_in T t project k : TriSpec.setup dl2 inv1 grid3 hat_values 1 project t -> wraps T t hat_values -> 1 / 8 <= k < 1 -> satisfied T k.
Proof.
  intros SU WR Hk. exists (Rabs k). split; [apply svd1_lipschitz; reflexivity|]. cbv zeta. unfold v_decrease_bound, v_decrease_confidence, threshold. cbn [rough rl_dynamics].
  rewrite error_steep, lv_steep, (current_is _ _ _ _ _ _ _ SU WR). unfold lf_scalar. cbn [safe_lyapunov lip_f lyapunov_function careful ca cb u_tau].
  unfold neg_triangulated. rewrite (current_is _ _ _ _ _ _ _ SU WR). unfold coordinate. cbn [nth].
  rewrite !(hat_steep _ _ _ SU), !(hat_inside _ _ _ SU) by lra. rewrite Rabs_right by lra. unfold CertModel.sum. cbn. assert (k * k <= k) by nra. nra.
Qed.

(** In state 1/4 with the gain 1/4, a small step decreases the loss. *)
Example C118_ex : exists t T G, TriSpec.setup dl2 inv1 grid3 hat_values 1 true t /\ wraps T t hat_values /\
  constrained_gradients (rough T) rough_rates rough_errors careful linear [fun _ => 1] [gain (1 / 4)] (sign_rates [gain (1 / 4)]) 1 [[1 / 4]] [-1] = Ok [G] /\
  FunModel.entry G 0%nat 0%nat = - (711 / 6400) /\
  exists eta, 0 < eta /\ forall learning_rate, 0 < learning_rate < eta ->
    exists ps' before after, constrained_step (rough T) rough_rates rough_errors careful linear [fun _ => 1] sign_rates 1 learning_rate [[1 / 4]] [-1] [gain (1 / 4)] = Ok ps' /\
      constrained_loss svd1 (rough T) careful linear [gain (1 / 4)] 1 [[1 / 4]] [-1] = Ok before /\
      constrained_loss svd1 (rough T) careful linear ps' 1 [[1 / 4]] [-1] = Ok after /\ after < before.
Proof.
  destruct (hat_setup true) as (t & SU).
  assert (WR : wraps (TfTri hat_values t) t hat_values).
  { split; [reflexivity|]. exists (t_params t). destruct t; reflexivity. }
  destruct (rough_gradients _ _ _ (1 / 4) SU WR ltac:(lra)) as (G & EG & rG & cG & HG).
  assert (GN : FunModel.entry G 0%nat 0%nat = - (711 / 6400)) by (rewrite HG; lra).
  exists t, (TfTri hat_values t), G. do 4 (split; [auto|]).
  apply (C118_step dl2 inv1 grid3 hat_values true t (rough (TfTri hat_values t)) rough_rates rough_errors careful svd1 linear [fun _ => 1] [gain (1 / 4)] sign_rates 1 [[1 / 4]] [-1] _ [G] G 0 0
    SU WR (linear_eval (1 / 4) (1 / 4)) eq_refl); auto.
  - cbn [nn_layers linear layers nonlinearities use_bias combine but_last removelast zip map app last smooth_at]. intros W B ps' E. cbn in E. injection E as <- <- <-.
    split; [intros; exact I|]. intros; exact I.
  - apply rough_uncertain.
  - apply svd1_right. lra.
  - intros i Hi. cbn [length] in Hi. assert (i = 0)%nat by lia. subst i. cbn [nth cols]. unfold row. cbn [cols seq map FunModel.entry nth].
    split; [apply (rough_smooth _ true); auto; unfold coordinate; cbn; lra|apply rough_right].
  - left; reflexivity.
  - rewrite rG; lia.
  - rewrite cG; lia.
  - rewrite GN. lra.
Qed.

Lemma gain_loss P W : rows W = 1%nat -> cols W = 1%nat -> network_loss P linear [W] 1 [[1 / 4]] [-1] = network_loss P linear [gain (FunModel.entry W 0%nat 0%nat)] 1 [[1 / 4]] [-1].
Proof.
  intros r c. unfold network_loss, nn_eval, linear, dense, matmul. cbn [hidden zip but_last bind snd fst last layers nonlinearities use_bias removelast combine].
  cbn [array rows cols gain]. rewrite r, c. reflexivity.
Qed.
(** The term is not restricted to states where it is relevant for safety: in state 1/4 the
    constraint holds with the gain 1/4, and still after every step without the
    constraint, which improves the objective of the unconstrained problem.  The steps
    with the constraint make it worse. *)
Theorem C118_relevant_refuted : exists t T, TriSpec.setup dl2 inv1 grid3 hat_values 1 true t /\ wraps T t hat_values /\ satisfied T (1 / 4) /\
  forall learning_rate, 0 < learning_rate < 1 ->
  exists before W plain W' constrained, network_loss (rough T) linear [gain (1 / 4)] 1 [[1 / 4]] [-1] = Ok before /\
    network_step (rough T) rough_rates linear [fun _ => 1] 1 learning_rate [[1 / 4]] [-1] [gain (1 / 4)] = Ok [W] /\
    network_loss (rough T) linear [W] 1 [[1 / 4]] [-1] = Ok plain /\ plain < before /\ satisfied T (FunModel.entry W 0%nat 0%nat) /\
    constrained_step (rough T) rough_rates rough_errors careful linear [fun _ => 1] sign_rates 1 learning_rate [[1 / 4]] [-1] [gain (1 / 4)] = Ok [W'] /\
    network_loss (rough T) linear [W'] 1 [[1 / 4]] [-1] = Ok constrained /\ before < constrained.
Proof.
  destruct (hat_setup true) as (t & SU).
  assert (WR : wraps (TfTri hat_values t) t hat_values).
  { split; [reflexivity|]. exists (t_params t). destruct t; reflexivity. }
  exists t, (TfTri hat_values t). split; auto. split; auto. split; [apply (satisfied_in _ t true); auto; lra|]. intros lr Hlr.
  destruct (rough_gradients _ _ _ (1 / 4) SU WR ltac:(lra)) as (G & EG & _ & _ & HG).
  destruct (rough_plain _ _ _ (1 / 4) SU WR ltac:(lra)) as (G' & EG' & HG').
  eexists. exists (descend lr (gain (1 / 4)) G'). eexists. exists (descend lr (gain (1 / 4)) G). eexists.
  assert (H1 : FunModel.entry (descend lr (gain (1 / 4)) G') 0%nat 0%nat = 1 / 4 - lr * (1 / 8)) by (cbn; rewrite HG'; reflexivity).
  assert (H2 : FunModel.entry (descend lr (gain (1 / 4)) G) 0%nat 0%nat = 1 / 4 + lr * (711 / 6400)) by (cbn; rewrite HG; lra).
  split; [apply (rough_loss _ t true); auto; lra|]. split; [unfold network_step; now rewrite EG'|].
  split; [rewrite gain_loss by reflexivity; rewrite H1; apply (rough_loss _ t true); auto; lra|]. split; [lra|].
  split; [rewrite H1; apply (satisfied_in _ t true); auto; lra|]. split; [unfold constrained_step; now rewrite EG|].
  split; [rewrite gain_loss by reflexivity; rewrite H2; apply (rough_loss _ t true); auto; lra|]. lra.
Qed.
Print Assumptions C118_relevant_refuted.
