(** Property C113: policy optimization by gradient descent. *)
From Coq Require Import Reals List Bool Arith ZArith Lia Lra FunctionalExtensionality.
From Coquelicot Require Import Coquelicot.
From Verif Require Import Prelude FunModel QuadModel QuadProofs NNModel NNProofs AutoNetSpec AutoNetProofs2 AutoNNModel AutoNNSpec AutoNNProofs.
From Verif.Properties Require Import AutoNetProps AutoNNProps.
From Verif Require Import NumModel ListFacts GridModel GridSpec TriModel TriSpec SafeModel CertModel RLModel
  AutoTriModel AutoTriSpec PolGradModel PolGradSpec PolGradProofs.
Import ListNotations.
Local Open Scope R_scope.

Lemma row_coord (A : tensor) i k : (k < cols A)%nat -> coordinate (row A i) k = FunModel.entry A i k.
Proof. intros H. unfold row, coordinate. rewrite (nth_map_lt _ _ _ 0%nat) by now rewrite seq_length. now rewrite seq_nth. Qed.
Lemma row_length (A : tensor) i : length (row A i) = cols A.
Proof. unfold row. now rewrite map_length, seq_length. Qed.
Lemma moved_zero1 z X : moved z X (zero_like X) = X.
Proof. destruct X as [r c en]. unfold moved. cbn. f_equal. extensionality i. extensionality j. ring. Qed.
Lemma tdot_zero1 G X : tdot G (zero_like X) = 0.
Proof.
  unfold tdot. cbn [zero_like FunModel.entry]. rewrite (rsum_ext _ _ (fun _ => 0)); [apply rsum_zero|].
  intros i _. rewrite (rsum_ext _ _ (fun _ => 0)); [apply rsum_zero|intros; ring].
Qed.

(** ** Neural networks *)
(** The outputs of a network along a line of weights *)
Lemma network_line nn dacts ps dps X A : nn_eval nn ps X = Ok A -> length dacts = length (nonlinearities nn) ->
  smooth_at (nn_layers nn dacts) ps X -> List.Forall2 same_shape ps dps ->
  exists Vt (v : nat -> nat -> R), (forall z, nn_eval nn (moved_all z ps dps) X = Ok (Vt z) /\ rows (Vt z) = rows A /\ cols (Vt z) = cols A) /\
    Vt 0 = A /\
    (forall i k, (i < rows A)%nat -> (k < cols A)%nat -> is_derive (fun z => FunModel.entry (Vt z) i k) 0 (v i k)) /\
    forall dys, exists gX gps, nn_gradients nn dacts ps X dys = Ok (gX, gps) /\ List.Forall2 same_shape gps ps /\
      tdots gps dps = rsum (rows A) (fun i => rsum (cols A) (fun k => FunModel.entry dys i k * v i k)).
Proof.
  intros E L SM F. set (Vt := fun z => match nn_eval nn (moved_all z ps dps) X with Ok V => V | Err _ => A end).
  assert (G : forall dys, exists gX gps, nn_gradients nn dacts ps X dys = Ok (gX, gps) /\ List.Forall2 same_shape gps ps /\
     (forall z, nn_eval nn (moved_all z ps dps) X = Ok (Vt z) /\ rows (Vt z) = rows A /\ cols (Vt z) = cols A) /\
     is_derive (fun z => rsum (rows A) (fun i => rsum (cols A) (fun k => FunModel.entry dys i k * FunModel.entry (Vt z) i k))) 0 (tdots gps dps)).
  { intros dys. destruct (C112_gradients nn dacts ps dps X (zero_like X) dys A E L SM F (conj eq_refl eq_refl))
      as (gX & gps & Wt & EG & _ & SG & EW & D). exists gX, gps. split; [exact EG|]. split; [exact SG|].
    assert (EQ : forall z, nn_eval nn (moved_all z ps dps) X = Ok (Wt z) /\ same_shape A (Wt z)).
    { intros z. specialize (EW z). rewrite moved_zero1 in EW. exact EW. }
    assert (VW : forall z, Vt z = Wt z) by (intros z; unfold Vt; now rewrite (proj1 (EQ z))).
    split.
    - intros z. rewrite VW. destruct (EQ z) as [E1 [r c]]. auto.
    - eapply is_derive_ext; [|eapply dconv; [exact D|rewrite tdot_zero1; ring]]. intros z. cbn beta. rewrite VW. reflexivity. }
  assert (DE : forall i k, (i < rows A)%nat -> (k < cols A)%nat -> ex_derive (fun z => FunModel.entry (Vt z) i k) 0).
  { intros i k Hi Hk. destruct (G {| rows := rows A; cols := cols A; FunModel.entry := fun i' k' => if Nat.eqb i i' then (if Nat.eqb k k' then 1 else 0) else 0 |})
      as (gX & gps & _ & _ & _ & D). exists (tdots gps dps). eapply is_derive_ext; [|exact D]. intros z. cbn [FunModel.entry].
    transitivity (rsum (rows A) (fun i0 => FunModel.entry (Vt z) i0 k * (if Nat.eqb i i0 then 1 else 0))).
    - apply rsum_ext. intros i0 _. destruct (Nat.eqb i i0).
      + rewrite Rmult_1_r. etransitivity; [|exact (rsum_delta (cols A) (fun k0 => FunModel.entry (Vt z) i0 k0) k Hk)].
        apply rsum_ext. intros k0 _. ring.
      + rewrite (rsum_ext _ _ (fun _ => 0)); [rewrite rsum_zero; ring|intros; ring].
    - exact (rsum_delta (rows A) (fun i0 => FunModel.entry (Vt z) i0 k) i Hi). }
  exists Vt, (fun i k => Derive (fun z => FunModel.entry (Vt z) i k) 0). split; [|split; [|split]].
  - destruct (G A) as (_ & _ & _ & _ & H & _). exact H.
  - unfold Vt. replace (moved_all 0 ps dps) with ps; [now rewrite E|]. clear - F. induction F as [|a b ps dps S F IH]; [reflexivity|].
    now rewrite moved_all_cons, moved_0, <- IH.
  - intros i k Hi Hk. apply Derive_correct. now apply DE.
  - intros dys. destruct (G dys) as (gX & gps & EG & SG & _ & D). exists gX, gps. split; [exact EG|]. split; [exact SG|].
    rewrite <- (is_derive_unique _ _ _ D). apply is_derive_unique.
    apply (dsum (rows A) (fun i z => rsum (cols A) (fun k => FunModel.entry dys i k * FunModel.entry (Vt z) i k))). intros i Hi.
    apply (dsum (cols A) (fun k z => FunModel.entry dys i k * FunModel.entry (Vt z) i k)). intros k Hk. apply dscal.
    apply Derive_correct. now apply DE.
Qed.

(** The gradients that the optimizer uses are those of the loss: moving the weights along
    dps changes the loss at the rate that they predict. *)
Theorem C113_network_gradients : forall dl inv g values project t P D nn dacts ps n states weights A,
  TriSpec.setup dl inv g values 1 project t -> wraps (rl_value P) t values ->
  nn_eval nn ps (array n states) = Ok A -> length dacts = length (nonlinearities nn) ->
  smooth_at (nn_layers nn dacts) ps (array n states) -> length weights = length states ->
  (forall i, (i < length states)%nat -> smooth_state P D g t (cols A) (nth i states []) (row A i)) ->
  exists gs, network_gradients P D nn dacts ps n states weights = Ok gs /\ List.Forall2 same_shape gs ps /\
    forall dps, List.Forall2 same_shape ps dps ->
    exists L, (forall z, network_loss P nn (moved_all z ps dps) n states weights = Ok (L z)) /\ is_derive L 0 (tdots gs dps).
Proof.
  intros dl inv g values project t P D nn dacts ps n states weights A SU WR EA LD SM LW SS.
  destruct (eval_fwd nn dacts ps _ A LD EA) as (rA & _ & _). cbn [array rows] in rA.
  assert (K : forall dps, List.Forall2 same_shape ps dps -> exists da L gX gps, loss_backprop P D states (all_rows A) weights = Ok da /\
     (forall z, network_loss P nn (moved_all z ps dps) n states weights = Ok (L z)) /\
     nn_gradients nn dacts ps (array n states) (array (cols A) da) = Ok (gX, gps) /\ List.Forall2 same_shape gps ps /\
     is_derive L 0 (tdots gps dps)).
  { intros dps F. destruct (network_line nn dacts ps dps _ A EA LD SM F) as (Vt & v & EV & V0 & DV & GG).
    set (a := map (fun i z => row (Vt z) i) (seq 0 (length states))).
    assert (La : length a = length states) by (unfold a; now rewrite map_length, seq_length).
    assert (Na : forall i z, (i < length states)%nat -> nth i a (fun _ => []) z = row (Vt z) i).
    { intros i z Hi. unfold a. rewrite (nth_map_lt _ _ _ 0%nat) by now rewrite seq_length. now rewrite seq_nth. }
    assert (Ma : forall z, map (fun c => c z) a = all_rows (Vt z)).
    { intros z. unfold a, all_rows. rewrite map_map. destruct (EV z) as (_ & -> & _). now rewrite rA. }
    destruct (loss_derive dl inv g values project t P D (cols A) SU WR states a weights v La LW) as (da & L & EB & Lda & Fda & EL & DL).
    { intros i Hi. rewrite Na by auto. rewrite V0. split; [now apply SS|]. split.
      - intros z. rewrite Na by auto. rewrite row_length. apply EV.
      - intros k Hk. eapply is_derive_ext; [|apply (DV i k); lia]. intros z. cbn beta. rewrite Na by auto. symmetry. apply row_coord.
        destruct (EV z) as (_ & _ & ->). exact Hk. }
    rewrite Ma, V0 in EB. destruct (GG (array (cols A) da)) as (gX & gps & EG & SG & TD).
    exists da, L, gX, gps. split; [exact EB|]. split.
    { intros z. unfold network_loss. rewrite (proj1 (EV z)). cbn [bind]. rewrite <- Ma. apply EL. }
    split; [exact EG|]. split; [exact SG|]. eapply dconv; [exact DL|]. rewrite TD, rA, <- rsum_sumn. apply rsum_ext. intros i _.
    rewrite <- rsum_sumn. apply rsum_ext. intros k _. reflexivity. }
  destruct (K (map zero_like ps) (same_zero ps)) as (da & _ & gX & gps & EB & _ & EG & SG & _).
  exists gps. split; [|split; [exact SG|]].
  - unfold network_gradients. rewrite EA. cbn [bind]. rewrite EB. cbn [bind]. rewrite EG. reflexivity.
  - intros dps F. destruct (K dps F) as (da' & L & gX' & gps' & EB' & EL & EG' & _ & DL).
    rewrite EB in EB'. injection EB' as <-. rewrite EG in EG'. injection EG' as <- <-. exists L. auto.
Qed.
Print Assumptions C113_network_gradients.

(** ** Small steps *)
Lemma decrease (f : R -> R) l : is_derive f 0 l -> l < 0 -> exists eta, 0 < eta /\ forall z, 0 < z < eta -> f z < f 0.
Proof.
  intros D Hl. apply is_derive_Reals in D. destruct (D (- l / 2) ltac:(lra)) as (d & H). exists d. split; [apply cond_pos|].
  intros z Hz. specialize (H z ltac:(lra) ltac:(rewrite Rabs_pos_eq; lra)). rewrite Rplus_0_l in H.
  apply Rabs_def2 in H. destruct H as [H _]. assert (Q : (f z - f 0) / z < 0) by lra.
  assert (f z - f 0 < 0); [|lra]. replace (f z - f 0) with ((f z - f 0) / z * z) by (field; lra).
  apply Ropp_lt_cancel. rewrite Ropp_0, Ropp_mult_distr_l. apply Rmult_lt_0_compat; lra.
Qed.
Definition negated (g : tensor) : tensor := {| rows := rows g; cols := cols g; FunModel.entry := fun i j => - FunModel.entry g i j |}.
Lemma descend_moved lr : forall ps gs, List.Forall2 same_shape gs ps -> map2 (descend lr) ps gs = moved_all lr ps (map negated gs).
Proof.
  intros ps gs F. induction F as [|g p gs ps S F IH]; [reflexivity|]. cbn [map map2]. rewrite moved_all_cons, IH. f_equal.
  unfold descend, moved. f_equal. extensionality i. extensionality j. cbn. ring.
Qed.
Lemma tdots_negated : forall gs, tdots gs (map negated gs) = - tdots gs gs.
Proof.
  induction gs as [|g gs IH]; [unfold tdots; cbn; ring|]. cbn [map]. rewrite !tdots_cons, IH. unfold tdot. cbn [negated FunModel.entry].
  rewrite (rsum_ext (rows g) _ (fun i => -1 * rsum (cols g) (fun j => FunModel.entry g i j * FunModel.entry g i j))); [rewrite rsum_scal; ring|].
  intros i _. rewrite <- rsum_scal. apply rsum_ext. intros; ring.
Qed.
Lemma rsum_pos n f k : (forall i, (i < n)%nat -> 0 <= f i) -> (k < n)%nat -> 0 < f k -> 0 < rsum n f.
Proof.
  intros H Hk Hf. apply (Rlt_le_trans _ (f k) _ Hf). rewrite <- (rsum_delta n f k Hk). apply rsum_le. intros i Hi.
  specialize (H i Hi). destruct (Nat.eqb k i); lra.
Qed.
Lemma tdot_nonneg g : 0 <= tdot g g.
Proof. apply rsum_nonneg. intros i _. apply rsum_nonneg. intros j _. apply Rle_0_sqr. Qed.
Lemma tdots_pos : forall gs g i j, In g gs -> (i < rows g)%nat -> (j < cols g)%nat -> FunModel.entry g i j <> 0 -> 0 < tdots gs gs.
Proof.
  assert (N : forall gs, 0 <= tdots gs gs).
  { induction gs as [|g gs IH]; [unfold tdots; cbn; lra|]. rewrite tdots_cons. pose proof (tdot_nonneg g). lra. }
  induction gs as [|h gs IH]; intros g i j I Hi Hj Hn; [destruct I|]. rewrite tdots_cons. pose proof (N gs). pose proof (tdot_nonneg h).
  destruct I as [->|I]; [|pose proof (IH g i j I Hi Hj Hn); lra].
  assert (0 < tdot g g); [|lra]. apply (rsum_pos _ _ i); auto.
  - intros k _. apply rsum_nonneg. intros l _. apply Rle_0_sqr.
  - apply (rsum_pos _ _ j); auto; [intros l _; apply Rle_0_sqr|]. now apply Rlt_0_sqr.
Qed.

(** Unless all derivatives vanish, every sufficiently small learning rate decreases the loss. *)
Theorem C113_network_step : forall dl inv g values project t P D nn dacts ps n states weights A gs G i j,
  TriSpec.setup dl inv g values 1 project t -> wraps (rl_value P) t values ->
  nn_eval nn ps (array n states) = Ok A -> length dacts = length (nonlinearities nn) ->
  smooth_at (nn_layers nn dacts) ps (array n states) -> length weights = length states ->
  (forall i, (i < length states)%nat -> smooth_state P D g t (cols A) (nth i states []) (row A i)) ->
  network_gradients P D nn dacts ps n states weights = Ok gs ->
  In G gs -> (i < rows G)%nat -> (j < cols G)%nat -> FunModel.entry G i j <> 0 ->
  exists eta, 0 < eta /\ forall learning_rate, 0 < learning_rate < eta ->
    exists ps' before after, network_step P D nn dacts n learning_rate states weights ps = Ok ps' /\
      network_loss P nn ps n states weights = Ok before /\ network_loss P nn ps' n states weights = Ok after /\ after < before.
Proof.
  intros dl inv g values project t P D nn dacts ps n states weights A gs G i j SU WR EA LD SM LW SS EG I Hi Hj Hn.
  destruct (C113_network_gradients dl inv g values project t P D nn dacts ps n states weights A SU WR EA LD SM LW SS) as (gs' & EG' & SG & K).
  rewrite EG in EG'. injection EG' as <-.
  assert (F : List.Forall2 same_shape ps (map negated gs)).
  { clear - SG. induction SG as [|a b gs ps [r c] SG IH]; constructor; auto. split; cbn; auto. }
  destruct (K _ F) as (L & EL & DL). rewrite tdots_negated in DL.
  destruct (decrease L _ DL) as (eta & He & H). { pose proof (tdots_pos gs G i j I Hi Hj Hn). lra. }
  exists eta. split; [exact He|]. intros lr Hlr. exists (map2 (descend lr) ps gs), (L 0), (L lr). split; [|split; [|split]].
  - unfold network_step. rewrite EG. reflexivity.
  - rewrite <- EL. f_equal. clear - F. induction F as [|a b qs rs S F IH]; [reflexivity|]. now rewrite moved_all_cons, moved_0, <- IH.
  - rewrite descend_moved by auto. apply EL.
  - now apply H.
Qed.
Print Assumptions C113_network_step.
