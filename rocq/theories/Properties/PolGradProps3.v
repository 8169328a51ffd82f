(** Property C113: policy optimization by gradient descent, examples and what happens
    when the next state is on a face of a simplex. *)
From Coq Require Import Reals List Bool Arith ZArith Lia Lra FunctionalExtensionality.
From Coquelicot Require Import Coquelicot.
From Verif Require Import Prelude FunModel QuadModel QuadProofs NNModel NNProofs AutoNetSpec AutoNetProofs2 AutoNNModel AutoNNSpec AutoNNProofs.
From Verif.Properties Require Import AutoNetProps AutoNNProps.
From Verif Require Import NumModel NumProofs ListFacts GridModel GridSpec GridProofs TriModel TriSpec TriProofs TriProofs2 TriInstances SafeModel CertModel RLModel RLProofs
  TriLyapModel TriLyapSpec TriSlopeProofs AutoTriModel AutoTriSpec AutoTriProofs Properties.TriProps Properties.TriContProps Properties.TriLyapProps Properties.GridTests
  Properties.AutoTriProps Properties.AutoTriProps2 PolGradModel PolGradSpec PolGradProofs Properties.PolGradProps Properties.PolGradProps2.
Import ListNotations.
Local Open Scope R_scope.

(** The system x + u with the rewards -x^2 - u^2, a discount factor of 1/2 and the value
    function of test_1d. *)
Definition toy (T : tf_tri) : learner :=
  {| rl_policy := fun _ => []; rl_dynamics := fun s a => Exact [coordinate s 0 + coordinate a 0];
     rl_reward := fun s a => - (coordinate s 0 * coordinate s 0) - coordinate a 0 * coordinate a 0; rl_value := T; rl_gamma := 1 / 2 |}.
Definition toy_rates : rates :=
  {| d_reward := fun s a => [-2 * coordinate a 0]; d_dynamics := fun s a d => [coordinate d 0] |}.

Lemma hat_simplex project t x : TriSpec.setup dl2 inv1 grid3 hat_values 1 project t -> 1 / 8 < x < 3 / 8 -> find_simplex t [x] = Ok 0%Z.
Proof.
  intros SU Hx. pose proof (su_made _ _ _ _ _ _ _ SU) as E.
  assert (exists t', make_tri dl2 inv1 grid3 hat_values project = Ok t' /\ find_simplex t' [x] = Ok 0%Z) as (t' & E' & F).
  { eexists. split.
    - unfold make_tri, delaunay1d, simplex_indices, hyperplane, state_to_index, index_to_state. run. reflexivity.
    - destruct project; unfold find_simplex, state_to_rectangle; run; reflexivity. }
  rewrite E in E'. now injection E' as <-.
Qed.
Lemma toy_smooth T project t s a : TriSpec.setup dl2 inv1 grid3 hat_values 1 project t -> coordinate s 0 + a = 1 / 4 ->
  smooth_state (toy T) toy_rates grid3 t 1 s [a].
Proof.
  intros SU H. constructor.
  - split; [reflexivity|]. intros c v c0 L D. specialize (D 0%nat ltac:(lia)).
    cbn [toy toy_rates rl_reward d_reward sumn].
    assert (Q : forall z : R, -1 * (coordinate (c z) 0 * coordinate (c z) 0) = - (coordinate (c z) 0 * coordinate (c z) 0)) by (intros; ring).
    eapply dconv; [apply (dplus (fun _ => - (coordinate s 0 * coordinate s 0)) (fun z => - (coordinate (c z) 0 * coordinate (c z) 0)));
      [apply dconst|apply (is_derive_ext (fun z => -1 * (coordinate (c z) 0 * coordinate (c z) 0))); [exact Q|
        apply dscal; apply (dmult (fun z => coordinate (c z) 0) (fun z => coordinate (c z) 0)); exact D]]|].
    rewrite c0. unfold coordinate. cbn [nth]. ring.
  - reflexivity.
  - intros d Ld. split; [reflexivity|]. intros c v c0 L D. specialize (D 0%nat ltac:(lia)).
    change (dims grid3) with 1%nat. cbn [toy toy_rates next_of rl_dynamics d_dynamics sumn].
    apply (is_derive_ext (fun z => coordinate d 0 * (coordinate s 0 + coordinate (c z) 0))).
    { intros z. unfold next_of, toy, coordinate. cbn. ring. }
    eapply dconv; [apply dscal; apply (dplus (fun _ => coordinate s 0) (fun z => coordinate (c z) 0)); [apply dconst|exact D]|].
    unfold coordinate. cbn. ring.
  - exists 0%Z, (1 / 8). split; [lra|]. intros x Lx Hx. change (dims grid3) with 1%nat in *. destruct x as [|y [|]]; try discriminate.
    apply (hat_simplex project); auto. specialize (Hx 0%nat ltac:(lia)). unfold next_of, toy, coordinate in Hx. cbn in Hx. unfold coordinate in H.
    rewrite H in Hx. apply Rabs_def2 in Hx. lra.
  - intros _ j Hj. change (dims grid3) with 1%nat in Hj. assert (j = 0)%nat by lia. subst j.
    unfold next_of, toy, coordinate. cbn. unfold coordinate in H. rewrite H. unfold lower, upper. cbn. lra.
Qed.

(** A linear policy *)
Definition linear : network := {| layers := [1%nat]; nonlinearities := [None]; output_scale := 1; use_bias := true |}.
Definition gain (k : R) : tensor := {| rows := 1; cols := 1; FunModel.entry := fun _ _ => k |}.
Lemma linear_eval k x : nn_eval linear [gain k] (array 1 [[x]]) = Ok {| rows := 1; cols := 1; FunModel.entry := fun i j => (nth 0 (nth i [[x]] []) 0 * k + 0) * 1 |}.
Proof. reflexivity. Qed.
Lemma linear_loss T k x v : value_at_state T [x + k * x] = Ok v ->
  network_loss (toy T) linear [gain k] 1 [[x]] [-1] = Ok (x * x + k * x * (k * x) - 1 / 2 * v).
Proof.
  intros E. unfold network_loss. rewrite linear_eval. cbn [bind]. unfold loss_of, all_rows, row. cbn [rows cols seq map combine mapM fst snd FunModel.entry nth].
  unfold future_value. cbn [toy rl_dynamics rl_reward rl_value rl_gamma]. unfold coordinate. cbn [nth bind].
  replace (x + (x * k + 0) * 1) with (x + k * x) by ring. rewrite E. cbn. f_equal. ring.
Qed.
Lemma hat_value project t T x : TriSpec.setup dl2 inv1 grid3 hat_values 1 project t -> wraps T t hat_values -> value_at_state T [x] = Ok (triangulated t [x]).
Proof.
  intros SU WR. rewrite (proj1 (value_ok _ _ _ _ _ _ _ SU WR [x] eq_refl)). unfold val, objective, triangulated.
  destruct (eval_value _ _ _ _ _ _ _ [x] SU eq_refl) as (o & EO & _ & _). rewrite EO. f_equal. unfold coordinate. cbn. ring.
Qed.
Lemma linear_gradients T t k x project : TriSpec.setup dl2 inv1 grid3 hat_values 1 project t -> wraps T t hat_values -> 0 <= x + k * x <= 1 ->
  exists M, gradient t [[x + k * x]] = Ok [[[M]]] /\
  exists G, network_gradients (toy T) toy_rates linear [fun _ => 1] [gain k] 1 [[x]] [-1] = Ok [G] /\ rows G = 1%nat /\ cols G = 1%nat /\
    FunModel.entry G 0%nat 0%nat = x * (2 * (k * x) - 1 / 2 * M).
Proof.
  intros SU WR Hx. destruct (hat_one _ _ _ (x + k * x) (1 / 2 * -1) SU WR) as (d & s & M & EG & EM & Hd & _ & _). exists M. split; [exact EM|].
  assert (EB : tf_backprop1 T [x + k * x] [1 / 2 * -1] = Ok ([d], s)).
  { destruct (backprop_one _ _ _ _ _ _ _ SU WR [x + k * x] (1 / 2 * -1) eq_refl) as (dx & s' & EB & _ & EG'). rewrite EG in EG'. injection EG' as <- <-. exact EB. }
  unfold network_gradients. rewrite linear_eval. cbn [bind]. unfold loss_backprop, all_rows, row. cbn [rows cols seq map combine mapM fst snd FunModel.entry nth].
  unfold future_backprop1 at 1. cbn [toy toy_rates rl_dynamics rl_value rl_gamma]. unfold coordinate. cbn [nth].
  replace (x + (x * k + 0) * 1) with (x + k * x) by ring. rewrite EB. cbn [bind fst].
  eexists. split; [reflexivity|]. split; [reflexivity|]. split; [reflexivity|]. cbn. rewrite Hd by auto. ring.
Qed.
Lemma hat_slope project t x M : TriSpec.setup dl2 inv1 grid3 hat_values 1 project t -> 0 < x < 1 / 2 -> gradient t [[x]] = Ok [[[M]]] -> M = 1.
Proof.
  intros SU Hx EM. destruct (three_value _ _ 0 1 0 (1 / 2) 0 project t x SU ltac:(intros; lra)) as (_ & _ & M' & EM' & S1 & _).
  rewrite EM in EM'. injection EM' as <-. rewrite S1 by lra. lra.
Qed.

(** In state 1/4 with gain 0, the next state is 1/4, where the slope of the value function
    is 1: a small step increases the gain and decreases the loss. *)
Example C113_network_ex : exists t T G, TriSpec.setup dl2 inv1 grid3 hat_values 1 true t /\ wraps T t hat_values /\
  network_gradients (toy T) toy_rates linear [fun _ => 1] [gain 0] 1 [[1 / 4]] [-1] = Ok [G] /\ FunModel.entry G 0%nat 0%nat = - (1 / 8) /\
  exists eta, 0 < eta /\ forall learning_rate, 0 < learning_rate < eta ->
    exists ps' after, network_step (toy T) toy_rates linear [fun _ => 1] 1 learning_rate [[1 / 4]] [-1] [gain 0] = Ok ps' /\
      network_loss (toy T) linear ps' 1 [[1 / 4]] [-1] = Ok after /\ after < - (1 / 16).
Proof.
  destruct (hat_setup true) as (t & SU).
  assert (WR : wraps (TfTri hat_values t) t hat_values).
  { split; [reflexivity|]. exists (t_params t). destruct t; reflexivity. }
  destruct (linear_gradients _ _ 0 (1 / 4) _ SU WR ltac:(lra)) as (M & EM & G & EG & rG & cG & HG).
  apply (hat_slope _ _ _ _ SU) in EM; [|lra]. subst M.
  assert (GN : FunModel.entry G 0%nat 0%nat = - (1 / 8)) by (rewrite HG; lra).
  exists t, (TfTri hat_values t), G. split; auto. split; auto. split; auto. split; [exact GN|].
  destruct (C113_network_step dl2 inv1 grid3 hat_values true t (toy (TfTri hat_values t)) toy_rates linear [fun _ => 1] [gain 0] 1 [[1 / 4]] [-1] _ [G] G 0 0
    SU WR (linear_eval 0 (1 / 4)) eq_refl) as (eta & He & H); auto.
  - cbn [nn_layers linear layers nonlinearities use_bias combine but_last removelast zip map app last smooth_at]. intros W B ps' E. cbn in E. injection E as <- <- <-.
    split; [intros; exact I|]. intros; exact I.
  - intros i Hi. cbn [length] in Hi. assert (i = 0)%nat by lia. subst i. cbn [nth cols]. unfold row. cbn [cols seq map FunModel.entry nth].
    apply (toy_smooth _ true); auto. unfold coordinate. cbn. lra.
  - left; reflexivity.
  - rewrite rG; lia.
  - rewrite cG; lia.
  - rewrite GN. lra.
  - exists eta. split; [exact He|]. intros lr Hlr. destruct (H lr Hlr) as (ps' & before & after & E1 & E2 & E3 & L). exists ps', after.
    split; [exact E1|]. split; [exact E3|]. rewrite (linear_loss _ 0 (1 / 4) _ (hat_value _ _ _ _ SU WR)) in E2. injection E2 as <-.
    destruct (three_value _ _ 0 1 0 (1 / 2) 0 true t (1 / 4 + 0 * (1 / 4)) SU ltac:(intros; lra)) as (V1 & _). rewrite V1 in L by lra. lra.
Qed.

(** If the next state is on a face of a simplex, every small step can increase the loss:
    in state 1/2 the gain 0 is optimal but not kept. *)
Theorem C113_faces_refuted : exists t T, TriSpec.setup dl2 inv1 grid3 hat_values 1 false t /\ wraps T t hat_values /\
  forall learning_rate, 0 < learning_rate < 2 ->
  exists ps' before after, network_step (toy T) toy_rates linear [fun _ => 1] 1 learning_rate [[1 / 2]] [-1] [gain 0] = Ok ps' /\
    network_loss (toy T) linear [gain 0] 1 [[1 / 2]] [-1] = Ok before /\ network_loss (toy T) linear ps' 1 [[1 / 2]] [-1] = Ok after /\ before < after.
Proof.
  destruct (hat_setup false) as (t & SU). pose proof (su_made _ _ _ _ _ _ _ SU) as E.
  assert (WR : wraps (TfTri hat_values t) t hat_values).
  { split; [reflexivity|]. exists (t_params t). destruct t; reflexivity. }
  exists t, (TfTri hat_values t). split; auto. split; auto. intros lr Hlr.
  destruct (linear_gradients _ _ 0 (1 / 2) _ SU WR ltac:(lra)) as (M & EM & G & EG & rG & cG & HG).
  assert (HM : M = -1).
  { destruct test_1d as (t' & E' & _ & _ & G0). change (make_tri dl2 inv1 grid3 hat_values false = Ok t') in E'.
    rewrite E in E'. injection E' as <-.
    inversion G0 as [|? ? ? ? _ G1]; subst. inversion G1 as [|? ? ? ? _ G2]; subst. inversion G2 as [|? ? ? ? G3 _]; subst.
    replace (1 / 2 + 0 * (1 / 2)) with (1 / 2) in EM by lra. rewrite EM in G3. now injection G3. }
  subst M. pose (k := - (lr * (1 / 4))).
  exists [descend lr (gain 0) G]. eexists. eexists. split; [|split; [|split]].
  - unfold network_step. rewrite EG. reflexivity.
  - apply linear_loss. apply (hat_value _ _ _ _ SU WR).
  - transitivity (network_loss (toy (TfTri hat_values t)) linear [gain k] 1 [[1 / 2]] [-1]).
    { unfold network_loss. rewrite linear_eval. unfold nn_eval, linear, dense, matmul. cbn. rewrite HG.
      replace (0 - lr * (1 / 2 * (2 * (0 * (1 / 2)) - 1 / 2 * -1))) with k by (unfold k; lra). reflexivity. }
    apply linear_loss. apply (hat_value _ _ _ _ SU WR).
  - destruct (three_value _ _ 0 1 0 (1 / 2) 0 false t (1 / 2 + 0 * (1 / 2)) SU ltac:(discriminate)) as (V1 & _).
    destruct (three_value _ _ 0 1 0 (1 / 2) 0 false t (1 / 2 + k * (1 / 2)) SU ltac:(discriminate)) as (V2 & _).
    assert (Hk : k = - (lr / 4)) by (unfold k; lra). rewrite V1, V2 by lra. assert (0 < k * k) by (apply Rlt_0_sqr; lra). lra.
Qed.
Print Assumptions C113_faces_refuted.

(** The same with a policy that is a triangulation with the values 0 at the vertices. *)
Example C113_triangulation_ex : exists t T t' T' s, TriSpec.setup dl2 inv1 grid3 hat_values 1 true t /\ wraps T t hat_values /\
  TriSpec.setup dl2 inv1 grid3 [[0]; [0]; [0]] 1 true t' /\ wraps T' t' [[0]; [0]; [0]] /\
  triangulation_gradients (toy T) toy_rates T' [[1 / 4]] [-1] = Ok s /\ sumn 3 (fun i => vertex_derivative s i 0) = - (1 / 2) /\
  exists eta, 0 < eta /\ forall learning_rate, 0 < learning_rate < eta ->
    exists T'' after, triangulation_step (toy T) toy_rates learning_rate [[1 / 4]] [-1] T' = Ok T'' /\
      triangulation_loss (toy T) T'' [[1 / 4]] [-1] = Ok after /\ after < - (1 / 16).
Proof.
  destruct (hat_setup true) as (t & SU).
  assert (WR : wraps (TfTri hat_values t) t hat_values).
  { split; [reflexivity|]. exists (t_params t). destruct t; reflexivity. }
  assert (exists t', TriSpec.setup dl2 inv1 grid3 [[0]; [0]; [0]] 1 true t') as (t' & SU').
  { pose proof EPS_small. apply three_setup; lra. }
  assert (WR' : wraps (TfTri [[0]; [0]; [0]] t') t' [[0]; [0]; [0]]).
  { split; [reflexivity|]. exists (t_params t'). destruct t'; reflexivity. }
  set (T := TfTri hat_values t) in *. set (T' := TfTri [[0]; [0]; [0]] t') in *.
  assert (FS : List.Forall (fun s : list R => length s = dims grid3) [[1 / 4]]) by (repeat constructor).
  assert (EA : tf_eval T' [[1 / 4]] = Ok [[0]]).
  { unfold tf_eval. cbn [mapM]. unfold T'. rewrite tf_is_tri.
    destruct (eval_value _ _ _ _ _ _ _ [1 / 4] SU' eq_refl) as (o & EO & _ & _).
    destruct (three_value _ _ 0 1 0 0 0 true t' (1 / 4) SU' ltac:(intros; lra)) as (V1 & _).
    unfold triangulated in V1. rewrite EO in V1.
    destruct (outputs_rows _ _ _ _ _ _ _ _ _ SU' FS EO) as [_ FO]. apply List.Forall_inv in FO. destruct o as [|v [|? ?]]; try discriminate. cbn in V1.
    replace (with_params t' [[0]; [0]; [0]]) with t'; [|destruct (setup_wf _ _ _ _ _ _ _ SU') as (_ & PE & _); destruct t'; cbn in PE; now rewrite PE].
    unfold tri_eval in EO. cbn [mapM] in EO. destruct (tri_eval1 t' [1 / 4]) as [o|]; [|discriminate]. cbn [bind] in *. injection EO as ->.
    rewrite V1 by lra. repeat f_equal. lra. }
  assert (SS : forall i, (i < length [[1 / 4]])%nat -> smooth_state (toy T) toy_rates grid3 t 1 (nth i [[1 / 4]] []) (nth i [[0]] [])).
  { intros i Hi. cbn [length] in Hi. assert (i = 0)%nat by lia. subst i. cbn [nth]. apply (toy_smooth _ true); auto. unfold coordinate. cbn. lra. }
  destruct (hat_one _ _ _ (1 / 4) (1 / 2 * -1) SU WR) as (d & s0 & M & EG & EM & Hd & _ & _).
  apply (hat_slope _ _ _ _ SU) in EM; [|lra]. subst M.
  assert (EB : tf_backprop1 T [1 / 4] [1 / 2 * -1] = Ok ([d], s0)).
  { destruct (backprop_one _ _ _ _ _ _ _ SU WR [1 / 4] (1 / 2 * -1) eq_refl) as (dx & s' & EB & _ & EG'). rewrite EG in EG'. injection EG' as <- <-. exact EB. }
  assert (EL : exists y, loss_backprop (toy T) toy_rates [[1 / 4]] [[0]] [-1] = Ok [[y]] /\ y = - (1 / 2)).
  { unfold loss_backprop. cbn [combine mapM fst snd]. unfold future_backprop1. cbn [toy toy_rates rl_dynamics rl_value rl_gamma]. unfold coordinate. cbn [nth].
    replace (1 / 4 + 0) with (1 / 4) by ring. rewrite EB. cbn [bind fst]. eexists. split; [reflexivity|]. rewrite Hd by (intros; lra). cbn. lra. }
  destruct EL as (y & EL & Hy).
  assert (exists t1, TriSpec.setup dl2 inv1 grid3 [[1]; [1]; [1]] 1 true t1) as (t1 & SU1).
  { pose proof EPS_small. apply three_setup; lra. }
  destruct (C109_parameters _ _ _ _ _ _ _ _ [[1 / 4]] [[y]] SU' WR' FS eq_refl ltac:(repeat constructor)) as (dxs & s & ES & I & K).
  assert (EGT : triangulation_gradients (toy T) toy_rates T' [[1 / 4]] [-1] = Ok s).
  { unfold triangulation_gradients. rewrite EA. cbn [bind]. rewrite EL. cbn [bind]. rewrite ES. reflexivity. }
  assert (SV : sumn 3 (fun i => vertex_derivative s i 0) = - (1 / 2)).
  { destruct (K _ _ SU1) as (out & EO & HO). specialize (HO 0%nat ltac:(lia)).
    destruct (three_value _ _ 0 1 1 1 1 true t1 (1 / 4) SU1 ltac:(intros; lra)) as (V1 & _). specialize (V1 ltac:(lra)).
    destruct (eval_value _ _ _ _ _ _ _ [1 / 4] SU1 eq_refl) as (o & EO' & _ & _). unfold triangulated in V1. rewrite EO' in V1. rewrite EO in EO'. injection EO' as ->.
    transitivity (slices_dot s (value_at [[1]; [1]; [1]] 0) 0).
    - rewrite (slices_ext s _ (fun _ => 1)).
      + rewrite (slices_vertices s 3 0 (fun _ => 1)); [apply sumn_ext; intros; ring|]. intros i v Hi. destruct (I i v Hi) as [Hr _]. exact Hr.
      + intros i v Hi. destruct (I i v Hi) as [Hr _]. change (0 <= i < 3)%Z in Hr. unfold value_at.
        assert (i = 0 \/ i = 1 \/ i = 2)%Z as [->|[->| ->]] by lia; reflexivity.
    - rewrite HO. cbn [length sumn]. unfold TriSpec.entry. cbn [nth]. rewrite V1, Hy. lra. }
  exists t, T, t', T', s. do 6 (split; [auto|]).
  assert (N : exists i, (i < 3)%nat /\ vertex_derivative s i 0 <> 0).
  { cbn [sumn] in SV. destruct (Req_dec (vertex_derivative s 0 0) 0); [|exists 0%nat; split; [lia|auto]].
    destruct (Req_dec (vertex_derivative s 1 0) 0); [|exists 1%nat; split; [lia|auto]]. exists 2%nat. split; [lia|]. intros Q. lra. }
  destruct N as (i & Hi & Hn).
  destruct (C113_triangulation_step dl2 inv1 grid3 hat_values true t (toy T) toy_rates dl2 inv1 grid3 [[0]; [0]; [0]] 1 true t' T' [[1 / 4]] [-1] [[0]] s i 0
    SU WR SU' WR' FS eq_refl EA SS EGT Hi ltac:(lia) Hn) as (eta & He & H).
  exists eta. split; [exact He|]. intros lr Hlr. destruct (H lr Hlr) as (T'' & before & after & E1 & E2 & E3 & L). exists T'', after.
  split; [exact E1|]. split; [exact E3|]. unfold triangulation_loss in E2. rewrite EA in E2. cbn [bind] in E2. unfold loss_of in E2. cbn [combine mapM fst snd] in E2.
  unfold future_value in E2. cbn [toy rl_dynamics rl_reward rl_value rl_gamma] in E2. unfold coordinate in E2. cbn [nth] in E2.
  replace (1 / 4 + 0) with (1 / 4) in E2 by ring. rewrite (hat_value _ _ _ _ SU WR) in E2. cbn in E2. injection E2 as <-.
  destruct (three_value _ _ 0 1 0 (1 / 2) 0 true t (1 / 4) SU ltac:(intros; lra)) as (V1 & _). rewrite V1 in L by lra. lra.
Qed.
