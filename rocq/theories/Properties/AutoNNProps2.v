(** Property C112: derivatives of neural networks, the policy of inverted_pendulum.ipynb
    and what happens at kinks of [tf.nn.relu]. *)
From Coq Require Import Reals List Bool Arith Lia Lra.
From Coquelicot Require Import Coquelicot.
From Verif Require Import Prelude FunModel QuadModel QuadProofs NNModel NNProofs AutoNetSpec AutoNetProofs2 AutoNNModel AutoNNSpec AutoNNProofs.
From Verif.Properties Require Import AutoNetProps AutoNNProps.
Import ListNotations.
Local Open Scope R_scope.

Lemma relu_derive x : x <> 0 -> is_derive relu x (relu_grad x).
Proof.
  intros H. unfold relu_grad. destruct (Rlt_dec 0 x) as [P|P].
  - apply (is_derive_ext_loc (fun y => y)); [|apply is_derive_Reals, derivable_pt_lim_id].
    exists (mkposreal x P). intros y Hy. cbn in Hy. unfold ball in Hy. cbn in Hy. unfold AbsRing_ball, abs, minus, plus, opp in Hy. cbn in Hy.
    apply Rabs_def2 in Hy. unfold relu. rewrite Rmax_left; lra.
  - assert (Q : 0 < - x) by lra. apply (is_derive_ext_loc (fun y => 0)); [|apply dconst].
    exists (mkposreal (- x) Q). intros y Hy. cbn in Hy. unfold ball in Hy. cbn in Hy. unfold AbsRing_ball, abs, minus, plus, opp in Hy. cbn in Hy.
    apply Rabs_def2 in Hy. unfold relu. rewrite Rmax_right; lra.
Qed.

(** The policy of inverted_pendulum.ipynb with all weights 1 and no biases *)
Definition pendulum_policy (scale : R) : network :=
  {| layers := [32; 32; 1]%nat; nonlinearities := [Some relu; Some relu; Some tanh]; output_scale := scale; use_bias := true |}.
Definition full (r c : nat) (x : R) : tensor := {| rows := r; cols := c; entry := fun _ _ => x |}.
Definition pendulum_weights : list tensor := [full 2 32 1; full 1 32 0; full 32 32 1; full 1 32 0; full 32 1 1].
Definition positive (t : tensor) : Prop := (0 < cols t)%nat /\ forall i j, (i < rows t)%nat -> (j < cols t)%nat -> 0 < entry t i j.
Lemma dense_positive net u n inputs : dense net u (full n u 1) (Some (full 1 u 0)) None = Ok inputs -> positive net -> (0 < u)%nat -> positive inputs.
Proof.
  intros E [C P] U. destruct (dense_pre _ _ _ _ _ E) as (r & c & _ & rW & _ & en). cbn [full rows] in rW. split; [lia|].
  intros i j Hi Hj. rewrite en by lia. unfold pre, bias_at. cbn [full rows entry]. rewrite Rplus_0_r.
  apply (Rlt_le_trans _ (entry net i 0%nat)); [apply P; lia|]. rewrite <- (rsum_delta n (fun k => entry net i k) 0) by lia.
  apply rsum_le. intros k Hk. assert (0 < entry net i k) by (apply P; lia). destruct (Nat.eqb 0 k); lra.
Qed.
Lemma pendulum_smooth scale X : cols X = 2%nat -> positive X -> smooth_at (nn_layers (pendulum_policy scale) [relu_grad; relu_grad; dtanh]) pendulum_weights X.
Proof.
  intros _ P. unfold nn_layers. cbn [pendulum_policy layers nonlinearities use_bias combine but_last removelast zip map app last pendulum_weights].
  assert (HR : forall net u n net', dense net u (full n u 1) (Some (full 1 u 0)) (Some relu) = Ok net' -> positive net -> (0 < u)%nat -> positive net').
  { intros net u n net' E Pn U. destruct (dense_none _ _ _ _ _ _ E) as [inputs EN]. pose proof (dense_positive _ _ _ _ EN Pn U) as [C Q].
    pose proof (dense_activate _ _ _ _ (Some relu) _ EN) as EA. rewrite E in EA. injection EA as ->. split; [exact C|]. cbn [rows cols entry].
    intros i j Hi Hj. cbn [activate]. unfold relu. rewrite Rmax_left; [now apply Q|]. pose proof (Q i j Hi Hj). lra. }
  cbn [smooth_at]. intros W B ps' E. cbn [dense_vars] in E. injection E as <- <- <-. split.
  { intros inputs E i j Hi Hj. cbn [smooth_act]. apply relu_derive. pose proof (dense_positive _ _ _ _ E P ltac:(lia)) as [_ Q]. pose proof (Q i j Hi Hj). lra. }
  intros net1 E1. cbn [fst] in E1. apply HR in E1; [|exact P|lia].
  intros W B ps' E. cbn [dense_vars] in E. injection E as <- <- <-. split.
  { intros inputs E i j Hi Hj. cbn [smooth_act]. apply relu_derive. pose proof (dense_positive _ _ _ _ E E1 ltac:(lia)) as [_ Q]. pose proof (Q i j Hi Hj). lra. }
  intros net2 E2. cbn [fst] in E2. apply HR in E2; [|exact E1|lia].
  intros W B ps' E. cbn [dense_vars] in E. injection E as <- <- <-. split.
  { intros inputs E i j Hi Hj. cbn [smooth_act]. apply tanh_derive. }
  intros net3 _. exact I.
Qed.
Example C112_ex : forall X dX dps dys scale, cols X = 2%nat -> positive X -> same_shape X dX -> List.Forall2 same_shape pendulum_weights dps ->
  exists V gX gps Vt, nn_eval (pendulum_policy scale) pendulum_weights X = Ok V /\
    nn_gradients (pendulum_policy scale) [relu_grad; relu_grad; dtanh] pendulum_weights X dys = Ok (gX, gps) /\
    (forall t, nn_eval (pendulum_policy scale) (moved_all t pendulum_weights dps) (moved t X dX) = Ok (Vt t) /\ same_shape V (Vt t)) /\
    is_derive (fun t => tdot {| rows := rows V; cols := cols V; entry := entry dys |} (Vt t)) 0 (tdot gX dX + tdots gps dps).
Proof.
  intros X dX dps dys scale C P SX F.
  assert (exists V, nn_eval (pendulum_policy scale) pendulum_weights X = Ok V) as [V E].
  { destruct X as [r c en]. cbn in C. subst c. destruct r as [|[|r]]; eexists; reflexivity. }
  destruct (C112_gradients (pendulum_policy scale) [relu_grad; relu_grad; dtanh] pendulum_weights dps X dX dys V E eq_refl (pendulum_smooth scale X C P) F SX)
    as (gX & gps & Vt & EG & _ & _ & EV & D). exists V, gX, gps, Vt. auto.
Qed.

(** Where the input of [tf.nn.relu] is 0 the number returned is a derivative from the left
    only: the network max(x, 0) at 0. *)
Theorem C112_relu_refuted : exists nn ps gX gps, let X := fun x => one_point 1 (fun _ => x) in
  nn_gradients nn [relu_grad] ps (X 0) (one_point 1 (fun _ => 1)) = Ok (gX, gps) /\ entry gX 0%nat 0%nat = 0 /\
  exists V, (forall x, nn_eval nn ps (X x) = Ok (V x)) /\ entry (V 0) 0%nat 0%nat = 0 /\
    (forall x, 0 < x -> entry (V x) 0%nat 0%nat = x) /\ ~ ex_derive (fun x => entry (V x) 0%nat 0%nat) 0.
Proof.
  exists {| layers := [1%nat]; nonlinearities := [Some relu]; output_scale := 1; use_bias := true |}, [full 1 1 1].
  eexists. eexists. cbv zeta. split; [reflexivity|]. split.
  { cbn. unfold relu_grad. destruct (Rlt_dec 0 (0 * 1 + 0)); lra. }
  eexists (fun x => _). split; [intros x; reflexivity|]. cbn.
  assert (Q : forall x, relu (x * 1 + 0) * 1 = Rmax x 0) by (intros x; unfold relu; replace (x * 1 + 0) with x by ring; ring).
  split; [rewrite Q; apply Rmax_left; lra|]. split; [intros x Hx; rewrite Q; apply Rmax_left; lra|].
  intros [l D]. apply (is_derive_ext _ (fun x => Rmax x 0)) in D; [|exact Q].
  apply is_derive_Reals in D. destruct (D (1 / 4) ltac:(lra)) as [d H]. pose proof (cond_pos d).
  pose proof (H (d / 2) ltac:(lra) ltac:(rewrite Rabs_pos_eq; lra)) as A.
  pose proof (H (- (d / 2)) ltac:(lra) ltac:(rewrite Rabs_left; lra)) as B.
  rewrite !Rplus_0_l in *. rewrite (Rmax_left 0 0) in * by lra. rewrite (Rmax_left (d / 2)) in A by lra. rewrite (Rmax_right (- (d / 2))) in B by lra.
  replace ((d / 2 - 0) / (d / 2) - l) with (1 - l) in A by (field; lra). replace ((0 - 0) / - (d / 2) - l) with (- l) in B by (field; lra).
  apply Rabs_def2 in A. apply Rabs_def2 in B. lra.
Qed.
Print Assumptions C112_relu_refuted.
