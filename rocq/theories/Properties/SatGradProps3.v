(** Property C117: examples, and what happens at the bounds. *)
From Coq Require Import Reals List Bool Arith ZArith Lia Lra FunctionalExtensionality.
From Coquelicot Require Import Coquelicot.
From Verif Require Import Prelude FunModel QuadModel QuadProofs NNModel AutoNetProofs2.
From Verif Require Import NumModel NumProofs ListFacts GridModel GridSpec GridProofs TriModel TriSpec TriProofs TriProofs2 TriInstances SafeModel CertModel RLModel RLProofs
  TriLyapModel TriLyapSpec TriSlopeProofs AutoTriModel AutoTriSpec AutoTriProofs Properties.TriProps Properties.TriContProps Properties.TriLyapProps Properties.GridTests
  Properties.AutoTriProps Properties.AutoTriProps2 PolGradModel PolGradSpec PolGradProofs Properties.PolGradProps Properties.PolGradProps2 Properties.PolGradProps3
  CarModel SatGradModel SatGradSpec Properties.SatGradProps Properties.SatGradProps2.
Import ListNotations.
Local Open Scope R_scope.

(** ** One dimension *)
Lemma line_eval3 a b c t' T' project : TriSpec.setup dl2 inv1 grid3 [[a]; [b]; [c]] 1 project t' -> wraps T' t' [[a]; [b]; [c]] ->
  tf_eval T' [[1 / 4]] = Ok [[a + (b - a) / 2]].
Proof.
  intros SU' WR'. assert (FS : List.Forall (fun s : list R => length s = dims grid3) [[1 / 4]]) by (repeat constructor).
  destruct WR' as [EV [old EI]]. destruct T' as [v u]. cbn in EV, EI. subst v u. unfold tf_eval. cbn [mapM]. rewrite tf_is_tri.
  destruct (eval_value _ _ _ _ _ _ _ [1 / 4] SU' eq_refl) as (o & EO & _ & _).
  destruct (three_value _ _ 0 1 a b c project t' (1 / 4) SU' ltac:(intros; lra)) as (V1 & _).
  unfold triangulated in V1. rewrite EO in V1.
  destruct (outputs_rows _ _ _ _ _ _ _ _ _ SU' FS EO) as [_ FO]. apply List.Forall_inv in FO. destruct o as [|w [|? ?]]; try discriminate. cbn in V1.
  replace (with_params (with_params t' old) [[a]; [b]; [c]]) with t'; [|destruct (setup_wf _ _ _ _ _ _ _ SU') as (_ & PE & _); destruct t'; cbn in PE; now rewrite PE].
  unfold tri_eval in EO. cbn [mapM] in EO. destruct (tri_eval1 t' [1 / 4]) as [o|]; [|discriminate]. cbn [bind] in *. injection EO as ->.
  rewrite V1 by lra. do 3 f_equal. field.
Qed.
Lemma toy_back T t project : TriSpec.setup dl2 inv1 grid3 hat_values 1 project t -> wraps T t hat_values ->
  loss_backprop (toy T) toy_rates [[1 / 4]] [[0]] [-1] = Ok [[- (1 / 2)]].
Proof.
  intros SU WR. destruct (hat_one _ _ _ (1 / 4) (1 / 2 * -1) SU WR) as (d & s0 & M & EG & EM & Hd & _ & _).
  apply (hat_slope _ _ _ _ SU) in EM; [|lra]. subst M.
  assert (EB : tf_backprop1 T [1 / 4] [1 / 2 * -1] = Ok ([d], s0)).
  { destruct (backprop_one _ _ _ _ _ _ _ SU WR [1 / 4] (1 / 2 * -1) eq_refl) as (dx & s' & EB & _ & EG'). rewrite EG in EG'. injection EG' as <- <-. exact EB. }
  unfold loss_backprop. cbn [combine mapM fst snd]. unfold future_backprop1. cbn [toy toy_rates rl_dynamics rl_value rl_gamma]. unfold coordinate. cbn [nth].
  replace (1 / 4 + 0) with (1 / 4) by ring. rewrite EB. cbn [bind fst]. rewrite Hd by (intros; lra). cbn. repeat f_equal. lra.
Qed.
(** The slices of a policy on the same grid *)
Lemma line_slices a b c t' T' project y : TriSpec.setup dl2 inv1 grid3 [[a]; [b]; [c]] 1 project t' -> wraps T' t' [[a]; [b]; [c]] ->
  exists dxs s, tf_gradients T' [[1 / 4]] [[y]] = Ok (dxs, s) /\ (forall i r, In (i, r) s -> (0 <= i < 3)%Z /\ length r = 1%nat) /\
    vertex_derivative s 0 0 = y / 2 /\ vertex_derivative s 1 0 = y / 2 /\ vertex_derivative s 2 0 = 0.
Proof.
  intros SU' WR'. assert (FS : List.Forall (fun s : list R => length s = dims grid3) [[1 / 4]]) by (repeat constructor).
  destruct (C109_parameters _ _ _ _ _ _ _ _ [[1 / 4]] [[y]] SU' WR' FS eq_refl ltac:(repeat constructor)) as (dxs & s & ES & I & K).
  exists dxs, s. split; [exact ES|]. split; [exact I|].
  assert (H : forall a b c, slices_dot s (value_at [[a]; [b]; [c]] 0) 0 = y * (a + (b - a) / 2)).
  { intros a' b' c'. pose proof EPS_small. destruct (three_setup 0 1 a' b' c' project ltac:(lra)) as (t1 & SU1).
    destruct (K _ _ SU1) as (out & EO & HO). rewrite (HO 0%nat) by lia.
    destruct (three_value _ _ 0 1 a' b' c' project t1 (1 / 4) SU1 ltac:(intros; lra)) as (V1 & _). specialize (V1 ltac:(lra)).
    destruct (eval_value _ _ _ _ _ _ _ [1 / 4] SU1 eq_refl) as (o & EO' & _ & _). unfold triangulated in V1. rewrite EO' in V1. rewrite EO in EO'. injection EO' as ->.
    cbn [length sumn]. unfold TriSpec.entry. cbn [nth]. rewrite V1. field. }
  assert (Q : forall k, (k < 3)%nat -> vertex_derivative s k 0 = slices_dot s (value_at [[if Nat.eqb 0 k then 1 else 0]; [if Nat.eqb 1 k then 1 else 0]; [if Nat.eqb 2 k then 1 else 0]] 0) 0).
  { intros k Hk. apply slices_ext. intros i v Hi. destruct (I i v Hi) as [Hr _]. change (0 <= i < 3)%Z in Hr. unfold value_at.
    assert (i = 0 \/ i = 1 \/ i = 2)%Z as [->|[->| ->]] by lia; reflexivity. }
  rewrite !Q, !H by lia. cbn. lra.
Qed.
Lemma toy_future T t project : TriSpec.setup dl2 inv1 grid3 hat_values 1 project t -> wraps T t hat_values ->
  loss_of (toy T) [[1 / 4]] [[0]] [-1] = Ok (- (1 / 16)).
Proof.
  intros SU WR. unfold loss_of. cbn [combine mapM fst snd]. unfold future_value. cbn [toy rl_dynamics rl_reward rl_value rl_gamma]. unfold coordinate. cbn [nth].
  replace (1 / 4 + 0) with (1 / 4) by ring. rewrite (hat_value _ _ _ _ SU WR).
  destruct project; destruct (three_value _ _ 0 1 0 (1 / 2) 0 _ t (1 / 4) SU ltac:(intros; lra)) as (V1 & _); rewrite V1 by lra; cbn; f_equal; field.
Qed.
Lemma sat_0 lo hi : lo <= 0 <= hi -> saturate lo hi 0 = 0.
Proof. intros H. unfold saturate. rewrite Rmax_left by lra. now rewrite Rmin_left by lra. Qed.
Lemma sat_grad_0 lo hi y : lo <= 0 <= hi -> saturate_grad lo hi 0 y = y.
Proof. intros H. unfold saturate_grad, maximum_grad, minimum_grad. rewrite Rmax_left by lra. destruct Rle_dec; [|lra]. destruct Rle_dec; lra. Qed.
(** The gradients of the policy with the values 0 *)
Lemma toy_gradients lo hi t T t' T' project : lo <= 0 <= hi -> TriSpec.setup dl2 inv1 grid3 hat_values 1 project t -> wraps T t hat_values ->
  TriSpec.setup dl2 inv1 grid3 [[0]; [0]; [0]] 1 project t' -> wraps T' t' [[0]; [0]; [0]] ->
  exists s, saturated_gradients (toy T) toy_rates lo hi T' [[1 / 4]] [-1] = Ok s /\ (forall i r, In (i, r) s -> (0 <= i < 3)%Z /\ length r = 1%nat) /\
    vertex_derivative s 0 0 = - (1 / 4) /\ vertex_derivative s 1 0 = - (1 / 4) /\ vertex_derivative s 2 0 = 0.
Proof.
  intros B SU WR SU' WR'. destruct (line_slices _ _ _ _ _ _ (- (1 / 2)) SU' WR') as (dxs & s & ES & I & V0 & V1 & V2).
  exists s. split; [|split; [exact I|]]; [|split; [|split]; lra]. unfold saturated_gradients. rewrite (line_eval3 _ _ _ _ _ _ SU' WR'). cbn [bind].
  replace (0 + (0 - 0) / 2) with 0 by field. cbn [map]. rewrite sat_0 by auto. rewrite (toy_back _ _ _ SU WR). cbn [bind map2]. rewrite sat_grad_0 by auto.
  rewrite ES. reflexivity.
Qed.

(** The policy of value 0 with the bounds -1 and 1: a small step helps. *)
Example C117_ex : exists t T t' T' s, TriSpec.setup dl2 inv1 grid3 hat_values 1 true t /\ wraps T t hat_values /\
  TriSpec.setup dl2 inv1 grid3 [[0]; [0]; [0]] 1 true t' /\ wraps T' t' [[0]; [0]; [0]] /\
  saturated_gradients (toy T) toy_rates (-1) 1 T' [[1 / 4]] [-1] = Ok s /\ vertex_derivative s 0 0 = - (1 / 4) /\
  exists eta, 0 < eta /\ forall learning_rate, 0 < learning_rate < eta ->
    exists T'' after, saturated_step (toy T) toy_rates (-1) 1 learning_rate [[1 / 4]] [-1] T' = Ok T'' /\
      saturated_loss (toy T) (-1) 1 T'' [[1 / 4]] [-1] = Ok after /\ after < - (1 / 16).
Proof.
  destruct (hat_setup true) as (t & SU).
  assert (WR : wraps (TfTri hat_values t) t hat_values).
  { split; [reflexivity|]. exists (t_params t). destruct t; reflexivity. }
  assert (exists t', TriSpec.setup dl2 inv1 grid3 [[0]; [0]; [0]] 1 true t') as (t' & SU').
  { pose proof EPS_small. apply three_setup; lra. }
  assert (WR' : wraps (TfTri [[0]; [0]; [0]] t') t' [[0]; [0]; [0]]).
  { split; [reflexivity|]. exists (t_params t'). destruct t'; reflexivity. }
  set (T := TfTri hat_values t) in *. set (T' := TfTri [[0]; [0]; [0]] t') in *.
  assert (FS : List.Forall (fun s : list R => length s = dims grid3) [[1 / 4]]) by (repeat constructor).
  assert (EA : tf_eval T' [[1 / 4]] = Ok [[0]]).
  { rewrite (line_eval3 _ _ _ _ _ _ SU' WR'). repeat f_equal. field. }
  destruct (toy_gradients (-1) 1 t T t' T' true ltac:(lra) SU WR SU' WR') as (s & ES & I & V0 & _ & _).
  exists t, T, t', T', s. do 6 (split; [auto|]).
  destruct (C117_step dl2 inv1 grid3 hat_values true t (toy T) toy_rates dl2 inv1 grid3 [[0]; [0]; [0]] 1 true t' T' (-1) 1 [[1 / 4]] [-1] [[0]] s 0 0
    SU WR SU' WR' FS eq_refl EA) as (eta & He & H); auto.
  - intros k o Hk Ho. cbn [length] in Hk. assert (k = 0)%nat by lia. assert (o = 0)%nat by lia. subst k o. unfold TriSpec.entry. cbn. lra.
  - intros i Hi. cbn [length] in Hi. assert (i = 0)%nat by lia. subst i. cbn [nth map]. rewrite sat_0 by lra.
    apply (toy_smooth _ true); auto. unfold coordinate. cbn. lra.
  - cbn. lia.
  - lra.
  - exists eta. split; [exact He|]. intros lr Hlr. destruct (H lr Hlr) as (T'' & before & after & E1 & E2 & E3 & L). exists T'', after.
    split; [exact E1|]. split; [exact E3|]. unfold saturated_loss in E2. rewrite EA in E2. cbn [bind map] in E2. rewrite sat_0 in E2 by lra.
    rewrite (toy_future _ _ _ SU WR) in E2. injection E2 as <-. exact L.
Qed.

(** If the policy computes a bound exactly, its gradients are those of the function
    inside: every step moves the policy beyond the bound without changing the
    loss, and from then on the optimizer never changes it again. *)
Theorem C117_bounds_refuted : exists t T t' T' s, TriSpec.setup dl2 inv1 grid3 hat_values 1 true t /\ wraps T t hat_values /\
  TriSpec.setup dl2 inv1 grid3 [[0]; [0]; [0]] 1 true t' /\ wraps T' t' [[0]; [0]; [0]] /\
  saturated_gradients (toy T) toy_rates (-1) 0 T' [[1 / 4]] [-1] = Ok s /\ vertex_derivative s 0 0 = - (1 / 4) /\
  forall learning_rate, 0 < learning_rate ->
    exists T'' same, saturated_step (toy T) toy_rates (-1) 0 learning_rate [[1 / 4]] [-1] T' = Ok T'' /\ tf_var T'' <> tf_var T' /\
      saturated_loss (toy T) (-1) 0 T' [[1 / 4]] [-1] = Ok same /\ saturated_loss (toy T) (-1) 0 T'' [[1 / 4]] [-1] = Ok same /\
      forall rate, saturated_step (toy T) toy_rates (-1) 0 rate [[1 / 4]] [-1] T'' = Ok T''.
Proof.
  destruct (hat_setup true) as (t & SU).
  assert (WR : wraps (TfTri hat_values t) t hat_values).
  { split; [reflexivity|]. exists (t_params t). destruct t; reflexivity. }
  assert (exists t', TriSpec.setup dl2 inv1 grid3 [[0]; [0]; [0]] 1 true t') as (t' & SU').
  { pose proof EPS_small. apply three_setup; lra. }
  assert (WR' : wraps (TfTri [[0]; [0]; [0]] t') t' [[0]; [0]; [0]]).
  { split; [reflexivity|]. exists (t_params t'). destruct t'; reflexivity. }
  set (T := TfTri hat_values t) in *.
  assert (FS : List.Forall (fun s : list R => length s = dims grid3) [[1 / 4]]) by (repeat constructor).
  destruct (toy_gradients (-1) 0 t T t' _ true ltac:(lra) SU WR SU' WR') as (s & ES & I & V0 & V1 & V2).
  exists t, T, t', (TfTri [[0]; [0]; [0]] t'), s. do 6 (split; [auto|]). intros lr Hlr.
  pose (W := [[lr / 4]; [lr / 4]; [0]]).
  assert (EW : scatter_sub lr [[0]; [0]; [0]] s = W).
  { destruct (scatter_columns lr 1 s [[0]; [0]; [0]]) as (L & C & K); [repeat constructor|intros i r Hi; destruct (I i r Hi); split; [auto|cbn; lia]|].
    pose proof (K 0%nat 0%nat ltac:(lia) ltac:(cbn; lia)) as K0. pose proof (K 0%nat 1%nat ltac:(lia) ltac:(cbn; lia)) as K1. pose proof (K 0%nat 2%nat ltac:(lia) ltac:(cbn; lia)) as K2.
    rewrite V0 in K0. rewrite V1 in K1. rewrite V2 in K2. destruct (scatter_sub lr [[0]; [0]; [0]] s) as [|r0 [|r1 [|r2 [|? ?]]]]; try discriminate.
    pose proof (List.Forall_inv C) as C0. apply List.Forall_inv_tail in C. pose proof (List.Forall_inv C) as C1. apply List.Forall_inv_tail in C. pose proof (List.Forall_inv C) as C2.
    destruct r0 as [|x0 [|? ?]]; try discriminate. destruct r1 as [|x1 [|? ?]]; try discriminate. destruct r2 as [|x2 [|? ?]]; try discriminate.
    cbn in K0, K1, K2. unfold W. repeat f_equal; lra. }
  assert (SUW : TriSpec.setup dl2 inv1 grid3 W 1 true (with_params t' W)).
  { apply (setup_rows _ _ _ _ _ _ _ _ _ SU'); [reflexivity|repeat constructor]. }
  assert (WRW : wraps (TfTri W t') (with_params t' W) W).
  { split; [reflexivity|]. exists (t_params t'). destruct t'; reflexivity. }
  exists (TfTri W t'), (- (1 / 16)). split; [|split; [|split; [|split]]].
  - unfold saturated_step. rewrite ES. cbn [bind tf_assign tf_var tf_inner]. rewrite EW. reflexivity.
  - cbn [tf_var]. unfold W. intros Q. injection Q as Q _. lra.
  - unfold saturated_loss. rewrite (line_eval3 _ _ _ _ _ _ SU' WR'). cbn [bind map]. replace (0 + (0 - 0) / 2) with 0 by field. rewrite sat_0 by lra.
    apply (toy_future _ _ _ SU WR).
  - unfold saturated_loss. rewrite (line_eval3 _ _ _ _ _ _ SUW WRW). cbn [bind map].
    replace (saturate (-1) 0 (lr / 4 + (lr / 4 - lr / 4) / 2)) with 0; [apply (toy_future _ _ _ SU WR)|].
    unfold saturate. rewrite Rmax_left by lra. now rewrite Rmin_right by lra.
  - intros rate. apply (C117_stuck dl2 inv1 grid3 hat_values true t (toy T) toy_rates dl2 inv1 grid3 W 1 true (with_params t' W) _ (-1) 0 [[1 / 4]] [-1] [[lr / 4 + (lr / 4 - lr / 4) / 2]]); auto.
    + apply (line_eval3 _ _ _ _ _ _ SUW WRW).
    + intros k o Hk Ho. cbn [length] in Hk. assert (k = 0)%nat by lia. assert (o = 0)%nat by lia. subst k o. right. unfold TriSpec.entry. cbn. lra.
Qed.
Print Assumptions C117_bounds_refuted.
