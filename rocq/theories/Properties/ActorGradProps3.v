(** Property C115: a case. *)
From Coq Require Import Reals List Bool Arith ZArith Lia Lra FunctionalExtensionality.
From Coquelicot Require Import Coquelicot.
From Verif Require Import NumModel ListFacts GridModel TriModel AutoTriModel SafeModel CertModel RLModel LyapNetModel AutoNetModel LoopModel ExUtilModel RoaTrainModel.
From Verif Require Import Prelude FunModel QuadModel QuadProofs NNModel NNProofs AutoNetSpec AutoNetProofs2 AutoNNModel AutoNNSpec AutoNNProofs PolGradModel TrainGradModel ActorModel ActorSpec ActorProofs ActorGradModel ActorGradSpec.
From Verif.Properties Require Import AutoNetProps AutoNNProps AutoNNProps2 PolGradProps TrainGradProps ActorGradProps ActorGradProps2.
From Verif Require Import QuadSpec ActorModel ActorSpec.
Import ListNotations.
Local Open Scope R_scope.

(** The policy u = k x, the value function w x, the dynamics x/2 + u, and the batch of the
    states 1 and 3. *)
Definition linear_net : network := {| layers := [1]%nat; nonlinearities := [None]; output_scale := 1; use_bias := false |}.
Definition one_number (a : R) : tensor := {| rows := 1; cols := 1; entry := fun _ _ => a |}.
Definition pair_batch (x y : R) : tensor := {| rows := 2; cols := 1; entry := fun i _ => if Nat.eqb i 0 then x else y |}.
Definition half_plus (X U : tensor) : res tensor :=
  Ok {| rows := rows X; cols := 1; entry := fun i _ => entry X i 0%nat / 2 + entry U i 0%nat |}.
Definition half_plus_d (X U dY : tensor) : tensor := {| rows := rows U; cols := 1; entry := fun i _ => entry dY i 0%nat |}.

Lemma half_plus_gradient X U : rows U = rows X -> cols U = 1%nat -> dynamics_gradient 1 half_plus half_plus_d X U.
Proof.
  intros r c. split.
  - intros U' _. eexists. split; [reflexivity|]. split; reflexivity.
  - intros dY rd cd. split; [split; cbn; auto|]. intros Ut Yt v U0 SU EY DU. unfold tdot. rewrite rd, cd, r, c.
    apply (dsum (rows X) (fun i z => rsum 1 (fun j => entry dY i j * entry (Yt z) i j))). intros i Hi.
    apply (dsum 1 (fun j z => entry dY i j * entry (Yt z) i j) (fun j => entry (half_plus_d X U dY) i j * v i j)). intros [|j] Hj; [|lia].
    cbn [half_plus_d entry]. apply dscal.
    apply (is_derive_ext (fun z => entry X i 0%nat / 2 + entry (Ut z) i 0%nat)).
    { intros z. specialize (EY z). unfold half_plus in EY. injection EY as <-. reflexivity. }
    eapply dconv; [apply (dplus (fun _ => entry X i 0%nat / 2) (fun z => entry (Ut z) i 0%nat)); [apply dconst|apply DU; lia]|ring].
Qed.
Lemma linear_smooth ps X : smooth_at (nn_layers linear_net [fun _ => 1]) ps X.
Proof. cbn. intros W B ps' _. split; [|auto]. intros. exact I. Qed.

Example C115_ex :
  let X := pair_batch 1 3 in let policy := nn_eval linear_net [one_number 1] in
  (** the actor *)
  (exists g, actor_gradients (one_number 1) (one_number 1) 1 1 half_plus half_plus_d (1 / 2) linear_net [fun _ => 1] [one_number (-1)]
               linear_net [fun _ => 1] X [one_number 1] = Ok [g] /\ entry g 0%nat 0%nat = 11 / 4) /\
  (exists eta, 0 < eta /\ forall learning_rate, 0 < learning_rate < eta ->
    exists ps' before after,
      actor_update (one_number 1) (one_number 1) 1 1 half_plus half_plus_d (1 / 2) linear_net [fun _ => 1] [one_number (-1)]
        linear_net [fun _ => 1] learning_rate X [one_number 1] = Ok ps' /\
      policy_objective (one_number 1) (one_number 1) 1 1 half_plus (1 / 2) policy (nn_eval linear_net [one_number (-1)]) X = Ok before /\
      policy_objective (one_number 1) (one_number 1) 1 1 half_plus (1 / 2) (nn_eval linear_net ps') (nn_eval linear_net [one_number (-1)]) X = Ok after /\
      after < before) /\
  (** the critic *)
  (exists g, critic_gradients (one_number 1) (one_number 1) 1 1 half_plus (1 / 2) plain_scaling policy linear_net [fun _ => 1] X [one_number (-1)] = Ok [g] /\
     entry g 0%nat 0%nat = 1) /\
  (exists eta, 0 < eta /\ forall learning_rate, 0 < learning_rate < eta ->
    exists ps' before after,
      critic_update (one_number 1) (one_number 1) 1 1 half_plus (1 / 2) plain_scaling policy linear_net [fun _ => 1] learning_rate X [one_number (-1)] = Ok ps' /\
      value_objective (one_number 1) (one_number 1) 1 1 half_plus (1 / 2) plain_scaling policy (nn_eval linear_net [one_number (-1)]) (nn_eval linear_net [one_number (-1)]) X = Ok before /\
      value_objective (one_number 1) (one_number 1) 1 1 half_plus (1 / 2) plain_scaling policy (nn_eval linear_net [one_number (-1)]) (nn_eval linear_net ps') X = Ok after /\
      after < before) /\
  (** given values 2 and -5 *)
  exists eta, 0 < eta /\ forall learning_rate, 0 < learning_rate < eta ->
    exists ps' before after, supervised_update linear_net [fun _ => 1] learning_rate X (pair_batch 2 (-5)) [one_number (-1)] = Ok ps' /\
      supervised_objective (nn_eval linear_net [one_number (-1)]) X (pair_batch 2 (-5)) = Ok before /\
      supervised_objective (nn_eval linear_net ps') X (pair_batch 2 (-5)) = Ok after /\ after < before.
Proof.
  cbv zeta.
  assert (S1 : forall a, square 1 (one_number a)) by (split; reflexivity).
  assert (GA : exists g, actor_gradients (one_number 1) (one_number 1) 1 1 half_plus half_plus_d (1 / 2) linear_net [fun _ => 1] [one_number (-1)]
               linear_net [fun _ => 1] (pair_batch 1 3) [one_number 1] = Ok [g] /\ rows g = 1%nat /\ cols g = 1%nat /\ entry g 0%nat 0%nat = 11 / 4).
  { unfold actor_gradients. cbn. eexists. split; [reflexivity|]. cbn. split; [reflexivity|]. split; [reflexivity|].
    unfold dmean, discount_scaling. cbn. field. }
  assert (ET : exists t, lookahead (one_number 1) (one_number 1) half_plus (1 / 2) (nn_eval linear_net [one_number 1]) (nn_eval linear_net [one_number (-1)]) (pair_batch 1 3) = Ok (Tensor t) /\
    rows t = 2%nat /\ cols t = 1%nat /\ entry t 0%nat 0%nat = - (11 / 4) /\ entry t 1%nat 0%nat = - (81 / 4)).
  { unfold lookahead. cbn. eexists. split; [reflexivity|]. cbn. split; [reflexivity|]. split; [reflexivity|]. split; field. }
  destruct ET as (t & ET & rt & ct & t0 & t1).
  assert (EV : exists V, nn_eval linear_net [one_number (-1)] (pair_batch 1 3) = Ok V /\ rows V = 2%nat /\ cols V = 1%nat /\ entry V 0%nat 0%nat = -1 /\ entry V 1%nat 0%nat = -3).
  { cbn. eexists. split; [reflexivity|]. cbn. split; [reflexivity|]. split; [reflexivity|]. split; ring. }
  destruct EV as (V & EV & rV & cV & v0 & v1).
  assert (BC : forall P : nat -> Prop, P 0%nat -> P 1%nat -> forall i, (i < 2)%nat -> P i) by (intros P A B [|[|i]] H; [exact A|exact B|lia]).
  assert (GC : exists g, critic_gradients (one_number 1) (one_number 1) 1 1 half_plus (1 / 2) plain_scaling (nn_eval linear_net [one_number 1]) linear_net [fun _ => 1] (pair_batch 1 3) [one_number (-1)] = Ok [g] /\
    rows g = 1%nat /\ cols g = 1%nat /\ entry g 0%nat 0%nat = 1).
  { unfold critic_gradients. rewrite ET, EV. cbn [bind]. destruct (op2_same Rminus V t) as (d & Ed & rd & cd & ed); [congruence|congruence|].
    rewrite Ed. cbn [bind]. rewrite (r_max_ok _ _ 1 1 (S1 1) (S1 1)). cbn [bind as_tensor].
    assert (d0 : tf_sign (entry d 0%nat 0%nat) = 1). { rewrite ed, v0, t0 by lia. unfold tf_sign. destruct (Rlt_dec 0 (-1 - - (11 / 4))); lra. }
    assert (d1 : tf_sign (entry d 1%nat 0%nat) = 1). { rewrite ed, v1, t1 by lia. unfold tf_sign. destruct (Rlt_dec 0 (-3 - - (81 / 4))); lra. }
    destruct d as [r c f]. cbn [rows cols entry] in *. subst r c. rewrite rV, cV. cbn. eexists. split; [reflexivity|]. cbn. split; [reflexivity|]. split; [reflexivity|].
    rewrite d0, d1. unfold dmean, plain_scaling, total. cbn. field. }
  split; [|split; [|split; [|split]]].
  - destruct GA as (g & E & _ & _ & N). exists g. auto.
  - destruct GA as (g & E & rg & cg & N).
    assert (Hr : (0 < rows g)%nat) by (rewrite rg; lia). assert (Hc : (0 < cols g)%nat) by (rewrite cg; lia). assert (Hn : entry g 0%nat 0%nat <> 0) by (rewrite N; lra).
    refine (C115_actor_step (one_number 1) (one_number 1) 1 1 half_plus half_plus_d (1 / 2) linear_net [fun _ => 1] [one_number (-1)] linear_net [fun _ => 1]
      [one_number 1] (pair_batch 1 3) _ _ _ [g] g 0%nat 0%nat (S1 1) (S1 1) eq_refl _ _ eq_refl (linear_smooth _ _) _ _ _ _ eq_refl (linear_smooth _ _) E (or_introl eq_refl) Hr Hc Hn);
      [cbn; reflexivity|reflexivity|reflexivity|apply half_plus_gradient; reflexivity|cbn; reflexivity|reflexivity].
  - destruct GC as (g & E & _ & _ & N). exists g. auto.
  - destruct GC as (g & E & rg & cg & N).
    destruct (C115_critic (one_number 1) (one_number 1) 1 1 half_plus (1 / 2) plain_scaling (nn_eval linear_net [one_number 1]) linear_net [fun _ => 1] [one_number (-1)]
      (pair_batch 1 3) V t (S1 1) (S1 1) EV cV eq_refl (linear_smooth _ _) ET rt ct) as (gs & EG & _ & _ & S).
    { refine (BC _ _ _); rewrite ?v0, ?v1, ?t0, ?t1; lra. }
    apply S. rewrite E in EG. injection EG as <-. exists g, 0%nat, 0%nat. rewrite rg, cg, N. split; [now left|]. split; [lia|]. split; [lia|]. lra.
  - destruct (C115_supervised linear_net [fun _ => 1] [one_number (-1)] (pair_batch 1 3) (pair_batch 2 (-5)) V EV eq_refl (linear_smooth _ _)) as (gs & EG & _ & _ & S).
    { now rewrite rV. } { now rewrite cV. }
    { rewrite rV, cV. intros [|[|i]] [|j] Hi Hj; try lia; rewrite ?v0, ?v1; cbn; lra. }
    apply S. unfold supervised_gradients in EG. rewrite EV in EG. cbn [bind] in EG.
    destruct (op2_same Rminus V (pair_batch 2 (-5))) as (d & Ed & rd & cd & ed); [rewrite rV; reflexivity|rewrite cV; reflexivity|]. rewrite Ed in EG. cbn [bind as_tensor] in EG.
    assert (d0 : tf_sign (entry d 0%nat 0%nat) = -1). { rewrite ed, v0 by lia. cbn. unfold tf_sign. destruct (Rlt_dec 0 (-1 - 2)); [lra|]. destruct (Rlt_dec (-1 - 2) 0); lra. }
    assert (d1 : tf_sign (entry d 1%nat 0%nat) = 1). { rewrite ed, v1 by lia. cbn. unfold tf_sign. destruct (Rlt_dec 0 (-3 - -5)); lra. }
    destruct d as [r c f]. cbn [rows cols entry] in *. subst r c. rewrite rV, cV in EG. cbn in EG. injection EG as <-.
    eexists. exists 0%nat, 0%nat. split; [now left|]. cbn. split; [lia|]. split; [lia|]. rewrite d0, d1. unfold dmean. cbn. lra.
Qed.
