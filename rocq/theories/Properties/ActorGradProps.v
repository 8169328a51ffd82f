(** Property C115: gradient steps of the actor-critic examples. *)
From Coq Require Import Reals List Bool Arith ZArith Lia Lra FunctionalExtensionality.
From Coquelicot Require Import Coquelicot.
From Verif Require Import NumModel ListFacts GridModel TriModel AutoTriModel SafeModel CertModel RLModel LyapNetModel AutoNetModel LoopModel ExUtilModel RoaTrainModel.
From Verif Require Import Prelude FunModel QuadModel QuadProofs NNModel NNProofs AutoNetSpec AutoNetProofs2 AutoNNModel AutoNNSpec AutoNNProofs PolGradModel TrainGradModel ActorModel ActorSpec ActorProofs ActorGradModel ActorGradSpec.
From Verif.Properties Require Import AutoNetProps AutoNNProps AutoNNProps2 PolGradProps TrainGradProps.
From Verif Require Import QuadSpec ActorModel ActorSpec.
Import ListNotations.
Local Open Scope R_scope.

(** Steps against exact derivatives *)
Lemma exact_step (O : list tensor -> res R) ps gs G i j : List.Forall2 same_shape gs ps ->
  (forall dps, List.Forall2 same_shape ps dps ->
     exists L, (forall z, O (moved_all z ps dps) = Ok (L z)) /\ is_derive L 0 (tdots gs dps)) ->
  In G gs -> (i < rows G)%nat -> (j < cols G)%nat -> entry G i j <> 0 ->
  exists eta, 0 < eta /\ forall lr, 0 < lr < eta ->
    exists before after, O ps = Ok before /\ O (map2 (descend lr) ps gs) = Ok after /\ after < before.
Proof.
  intros SG K I Hi Hj Hn.
  assert (FN : List.Forall2 same_shape ps (map negated gs)).
  { clear - SG. induction SG as [|a b gs ps [r c] SG IH]; constructor; auto. split; cbn; auto. }
  destruct (K _ FN) as (L & EL & DL). rewrite tdots_negated in DL.
  destruct (decrease L _ DL) as (eta & He & H). { pose proof (tdots_pos gs G i j I Hi Hj Hn). lra. }
  exists eta. split; [exact He|]. intros lr Hlr. exists (L 0), (L lr). split; [|split].
  - specialize (EL 0). rewrite moved_all_0 in EL by auto. exact EL.
  - rewrite descend_moved by auto. apply EL.
  - now apply H.
Qed.

(** The mean distance of the outputs from given values *)
Definition abs_mean (c : R) (nn : network) (T X : tensor) (ps : list tensor) : res R :=
  do now <- nn_eval nn ps X;
  do diff <- op2 Rminus (Tensor now) (Tensor T);
  Ok (c * reduce_mean (tf_abs diff)).
Lemma abs_mean_gradients c nn dacts ps X A T : nn_eval nn ps X = Ok A -> length dacts = length (nonlinearities nn) ->
  smooth_at (nn_layers nn dacts) ps X -> rows T = rows A -> cols T = cols A ->
  (forall i j, (i < rows A)%nat -> (j < cols A)%nat -> entry A i j <> entry T i j) ->
  exists t gX gps, op2 Rminus (Tensor A) (Tensor T) = Ok (Tensor t) /\ rows t = rows A /\ cols t = cols A /\
    nn_gradients nn dacts ps X {| rows := rows t; cols := cols t; entry := fun i j => tf_sign (entry t i j) * dmean t c |} = Ok (gX, gps) /\
    List.Forall2 same_shape gps ps /\
    forall dps, List.Forall2 same_shape ps dps ->
    exists L, (forall z, abs_mean c nn T X (moved_all z ps dps) = Ok (L z)) /\ is_derive L 0 (tdots gps dps).
Proof.
  intros EA LD SM rT cT NT. destruct (op2_same Rminus A T rT cT) as (t & Et & rt & ct & et). exists t.
  set (dys := {| rows := rows t; cols := cols t; entry := fun i j => tf_sign (entry t i j) * dmean t c |}).
  assert (K : forall dps, List.Forall2 same_shape ps dps -> exists gX gps L, nn_gradients nn dacts ps X dys = Ok (gX, gps) /\ List.Forall2 same_shape gps ps /\
    (forall z, abs_mean c nn T X (moved_all z ps dps) = Ok (L z)) /\ is_derive L 0 (tdots gps dps)).
  { intros dps F. destruct (network_line nn dacts ps dps X A EA LD SM F) as (Vt & v & EV & V0 & DV & GG).
    destruct (GG dys) as (gX & gps & EG & SG & TD). exists gX, gps.
    exists (fun z => c * (rsum (rows A) (fun i => rsum (cols A) (fun j => Rabs (entry (Vt z) i j - entry T i j))) / (INR (rows A) * INR (cols A)))).
    split; [exact EG|]. split; [exact SG|]. split.
    - intros z. destruct (EV z) as (E1 & r1 & c1). unfold abs_mean. rewrite E1. cbn [bind].
      destruct (op2_same Rminus (Vt z) T) as (w & Ew & rw & cw & ew); [congruence|congruence|]. rewrite Ew. cbn [bind]. do 2 f_equal.
      unfold reduce_mean, tf_abs. cbn [as_tensor rows cols entry]. rewrite rw, cw, r1, c1. f_equal. apply rsum_ext. intros i Hi. apply rsum_ext. intros j Hj.
      rewrite ew by lia. reflexivity.
    - rewrite TD. set (k := INR (rows A) * INR (cols A)).
      apply (is_derive_ext (fun z => c / k * rsum (rows A) (fun i => rsum (cols A) (fun j => Rabs (entry (Vt z) i j - entry T i j))))).
      { intros z. match goal with |- c / ?k * ?A = _ => change (c / k * A = c * (A / k)) end. unfold Rdiv. ring. }
      eapply dconv; [apply dscal; apply (dsum (rows A) (fun i z => rsum (cols A) (fun j => Rabs (entry (Vt z) i j - entry T i j)))
         (fun i => rsum (cols A) (fun j => tf_sign (entry A i j - entry T i j) * v i j)))|].
      + intros i Hi. apply (dsum (cols A) (fun j z => Rabs (entry (Vt z) i j - entry T i j))). intros j Hj.
        assert (DM : is_derive (fun z => entry (Vt z) i j - entry T i j) 0 (v i j)).
        { eapply dconv; [apply (dplus (fun z => entry (Vt z) i j) (fun _ => - entry T i j)); [apply DV; auto|apply dconst]|ring]. }
        assert (N0 : entry (Vt 0) i j - entry T i j <> 0) by (rewrite V0; specialize (NT i j Hi Hj); lra).
        eapply dconv; [exact (dcomp _ Rabs 0 _ _ DM (is_derive_Rabs_at _ N0))|]. rewrite V0. reflexivity.
      + rewrite <- rsum_scal. apply rsum_ext. intros i Hi. rewrite <- rsum_scal. apply rsum_ext. intros j Hj.
        unfold dys. cbn [entry]. rewrite et by auto. unfold dmean. rewrite rt, ct. fold k. ring. }
  destruct (K (map zero_like ps) (same_zero ps)) as (gX & gps & _ & EG & SG & _). exists gX, gps.
  repeat (split; [assumption|]). intros dps F. destruct (K dps F) as (gX' & gps' & L & EG' & _ & EL & DL).
  rewrite EG in EG'. injection EG' as <- <-. exists L. auto.
Qed.

(** Training with given values *)
Theorem C115_supervised : forall nn dacts ps X T A,
  nn_eval nn ps X = Ok A -> length dacts = length (nonlinearities nn) -> smooth_at (nn_layers nn dacts) ps X ->
  rows T = rows A -> cols T = cols A ->
  (forall i j, (i < rows A)%nat -> (j < cols A)%nat -> entry A i j <> entry T i j) ->
  exists gs, supervised_gradients nn dacts X T ps = Ok gs /\ List.Forall2 same_shape gs ps /\
    (forall dps, List.Forall2 same_shape ps dps ->
     exists L, (forall z, supervised_objective (nn_eval nn (moved_all z ps dps)) X T = Ok (L z)) /\ is_derive L 0 (tdots gs dps)) /\
    ((exists G i j, In G gs /\ (i < rows G)%nat /\ (j < cols G)%nat /\ entry G i j <> 0) ->
     exists eta, 0 < eta /\ forall learning_rate, 0 < learning_rate < eta ->
       exists ps' before after, supervised_update nn dacts learning_rate X T ps = Ok ps' /\
         supervised_objective (nn_eval nn ps) X T = Ok before /\ supervised_objective (nn_eval nn ps') X T = Ok after /\ after < before).
Proof.
  intros nn dacts ps X T A EA LD SM rT cT NT.
  destruct (abs_mean_gradients 1 nn dacts ps X A T EA LD SM rT cT NT) as (t & gX & gs & Et & rt & ct & EG & SG & K).
  assert (EG1 : supervised_gradients nn dacts X T ps = Ok gs).
  { unfold supervised_gradients. rewrite EA. cbn [bind]. rewrite Et. cbn [bind as_tensor]. rewrite EG. reflexivity. }
  assert (K1 : forall dps, List.Forall2 same_shape ps dps ->
     exists L, (forall z, supervised_objective (nn_eval nn (moved_all z ps dps)) X T = Ok (L z)) /\ is_derive L 0 (tdots gs dps)).
  { intros dps F. destruct (K dps F) as (L & EL & DL). exists L. split; [|exact DL]. intros z. rewrite <- EL.
    unfold supervised_objective, abs_mean. destruct (nn_eval nn (moved_all z ps dps) X) as [w|]; [|reflexivity]. cbn [bind].
    destruct (op2 Rminus (Tensor w) (Tensor T)) as [d|]; [|reflexivity]. cbn [bind]. now rewrite Rmult_1_l. }
  exists gs. split; [exact EG1|]. split; [exact SG|]. split; [exact K1|]. intros (G & i & j & I & Hi & Hj & Hn).
  destruct (exact_step (fun qs => supervised_objective (nn_eval nn qs) X T) ps gs G i j SG K1 I Hi Hj Hn) as (eta & He & S).
  exists eta. split; [exact He|]. intros lr Hlr. destruct (S lr Hlr) as (b & a & Eb & Ea & L). exists (map2 (descend lr) ps gs), b, a.
  split; [|auto]. unfold supervised_update. rewrite EG1. reflexivity.
Qed.

(** The critic: the target is kept. *)
Theorem C115_critic : forall Q Rc n m dynamics gamma scaling policy nn dacts ps X A target,
  square n Q -> square m Rc ->
  nn_eval nn ps X = Ok A -> cols A = 1%nat -> length dacts = length (nonlinearities nn) -> smooth_at (nn_layers nn dacts) ps X ->
  lookahead Q Rc dynamics gamma policy (nn_eval nn ps) X = Ok (Tensor target) -> rows target = rows X -> cols target = 1%nat ->
  (forall i, (i < rows X)%nat -> entry A i 0%nat <> entry target i 0%nat) ->
  exists gs, critic_gradients Q Rc n m dynamics gamma scaling policy nn dacts X ps = Ok gs /\ List.Forall2 same_shape gs ps /\
    (forall dps, List.Forall2 same_shape ps dps ->
     exists L, (forall z, value_objective Q Rc n m dynamics gamma scaling policy (nn_eval nn ps) (nn_eval nn (moved_all z ps dps)) X = Ok (L z)) /\
       is_derive L 0 (tdots gs dps)) /\
    ((exists G i j, In G gs /\ (i < rows G)%nat /\ (j < cols G)%nat /\ entry G i j <> 0) ->
     exists eta, 0 < eta /\ forall learning_rate, 0 < learning_rate < eta ->
       exists ps' before after, critic_update Q Rc n m dynamics gamma scaling policy nn dacts learning_rate X ps = Ok ps' /\
         value_objective Q Rc n m dynamics gamma scaling policy (nn_eval nn ps) (nn_eval nn ps) X = Ok before /\
         value_objective Q Rc n m dynamics gamma scaling policy (nn_eval nn ps) (nn_eval nn ps') X = Ok after /\ after < before).
Proof.
  intros Q Rc n m dynamics gamma scaling policy nn dacts ps X A target HQ HR EA cA LD SM ET rT cT NT.
  destruct (eval_fwd nn dacts ps X A LD EA) as (rA & _ & _). pose proof (r_max_ok Q Rc n m HQ HR) as ER. set (r := total Q + total Rc) in *.
  assert (NT' : forall i j, (i < rows A)%nat -> (j < cols A)%nat -> entry A i j <> entry target i j).
  { intros i j Hi Hj. assert (j = 0)%nat by lia. subst j. apply NT. lia. }
  assert (rT' : rows target = rows A) by congruence. assert (cT' : cols target = cols A) by congruence.
  destruct (abs_mean_gradients (scaling gamma r) nn dacts ps X A target EA LD SM rT' cT' NT') as (t & gX & gs & Et & rt & ct & EG & SG & K).
  assert (EG1 : critic_gradients Q Rc n m dynamics gamma scaling policy nn dacts X ps = Ok gs).
  { unfold critic_gradients. rewrite ET, EA. cbn [bind]. rewrite Et, ER. cbn [bind as_tensor]. rewrite EG. reflexivity. }
  assert (K1 : forall dps, List.Forall2 same_shape ps dps ->
     exists L, (forall z, value_objective Q Rc n m dynamics gamma scaling policy (nn_eval nn ps) (nn_eval nn (moved_all z ps dps)) X = Ok (L z)) /\
       is_derive L 0 (tdots gs dps)).
  { intros dps F. destruct (K dps F) as (L & EL & DL). exists L. split; [|exact DL]. intros z. rewrite <- EL.
    unfold value_objective, abs_mean. rewrite ET. cbn [bind]. destruct (nn_eval nn (moved_all z ps dps) X) as [w|]; [|reflexivity]. cbn [bind].
    destruct (op2 Rminus (Tensor w) (Tensor target)) as [d|]; [|reflexivity]. cbn [bind]. now rewrite ER. }
  exists gs. split; [exact EG1|]. split; [exact SG|]. split; [exact K1|]. intros (G & i & j & I & Hi & Hj & Hn).
  destruct (exact_step (fun qs => value_objective Q Rc n m dynamics gamma scaling policy (nn_eval nn ps) (nn_eval nn qs) X) ps gs G i j SG K1 I Hi Hj Hn) as (eta & He & S).
  exists eta. split; [exact He|]. intros lr Hlr. destruct (S lr Hlr) as (b & a & Eb & Ea & L). exists (map2 (descend lr) ps gs), b, a.
  split; [|auto]. unfold critic_update. rewrite EG1. reflexivity.
Qed.
