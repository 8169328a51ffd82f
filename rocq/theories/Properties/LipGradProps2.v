(** Property C119: the safe policy update with the gradient of the Lipschitz constant,
    and examples. *)
From Coq Require Import Reals List Bool Arith ZArith Lia Lra FunctionalExtensionality.
From Coquelicot Require Import Coquelicot.
From Verif Require Import Prelude FunModel QuadModel QuadProofs NNModel NNSpec NNProofs AutoNetSpec AutoNetProofs2 AutoNNModel AutoNNSpec AutoNNProofs.
From Verif.Properties Require Import AutoNetProps AutoNNProps.
From Verif Require Import NumModel NumProofs ListFacts GridModel GridSpec GridProofs TriModel TriSpec TriProofs TriProofs2 TriInstances SafeModel CertModel RLModel RLProofs
  TriLyapModel TriLyapSpec TriSlopeProofs AutoTriModel AutoTriSpec AutoTriProofs Properties.TriProps Properties.TriContProps Properties.TriLyapProps Properties.GridTests
  Properties.AutoTriProps Properties.AutoTriProps2 PolGradModel PolGradSpec PolGradProofs Properties.PolGradProps Properties.PolGradProps2 Properties.PolGradProps3
  ConsGradModel ConsGradSpec ConsGradProofs Properties.ConsGradProps Properties.ConsGradProps2 LipGradModel LipGradSpec LipGradProofs Properties.LipGradProps.
Import ListNotations.
Local Open Scope R_scope.

(** What the optimizer uses for the Lipschitz constant *)
Definition lipschitz_rates (tf_svd : tensor -> (nat -> R) * tensor * tensor) (ps : list tensor) : list tensor :=
  match lipschitz_gradients tf_svd ps with Ok gs => gs | Err _ => [] end.
Lemma rates_right tf ps Ws : parameter_iter ps = Ok Ws -> (forall W, In W Ws -> decomposes tf W /\ simple_top W (tf W)) -> right_lipschitz tf ps (lipschitz_rates tf ps).
Proof.
  intros EW H. destruct (C119_gradients tf ps Ws EW H) as (gs & EG & SG & K). unfold lipschitz_rates. rewrite EG. split; auto.
Qed.

(** The steps of the safe policy update decrease its loss, without assumptions about the
    derivative of the Lipschitz constant of the policy. *)
Theorem C119_update : forall dl inv g values project t P D E U tf_svd nn dacts ps Ws n states weights A gs G i j,
  TriSpec.setup dl inv g values 1 project t -> wraps (rl_value P) t values ->
  nn_eval nn ps (array n states) = Ok A -> length dacts = length (nonlinearities nn) ->
  smooth_at (nn_layers nn dacts) ps (array n states) -> length weights = length states ->
  uncertain P (dims g) (cols A) ->
  parameter_iter ps = Ok Ws -> (forall W, In W Ws -> decomposes tf_svd W /\ simple_top W (tf_svd W)) ->
  (forall i, (i < length states)%nat -> smooth_state P D g t (cols A) (nth i states []) (row A i) /\
     right_errors P E (dims g) (cols A) (nth i states []) (row A i)) ->
  constrained_gradients P D E U nn dacts ps (lipschitz_rates tf_svd ps) n states weights = Ok gs ->
  In G gs -> (i < rows G)%nat -> (j < cols G)%nat -> FunModel.entry G i j <> 0 ->
  exists eta, 0 < eta /\ forall learning_rate, 0 < learning_rate < eta ->
    exists ps' before after, constrained_step P D E U nn dacts (lipschitz_rates tf_svd) n learning_rate states weights ps = Ok ps' /\
      constrained_loss tf_svd P U nn ps n states weights = Ok before /\ constrained_loss tf_svd P U nn ps' n states weights = Ok after /\ after < before.
Proof.
  intros dl inv g values project t P D E U tf_svd nn dacts ps Ws n states weights A gs G i j SU WR EA LD SM LW UN EW HW SS EG I Hi Hj Hn.
  apply (C118_step dl inv g values project t P D E U tf_svd nn dacts ps (lipschitz_rates tf_svd) n states weights A gs G i j); auto.
  now apply (rates_right tf_svd ps Ws).
Qed.
Print Assumptions C119_update.

(** ** Examples *)
Lemma svd1_decomposes k : decomposes svd1 (gain k).
Proof.
  intros B [r c]. cbn in r, c. unfold is_svd, svd1. rewrite <- r, <- c. cbn [Nat.min]. split; [|split; [|split]].
  - intros [|a] [|b] Ha Hb; try lia. unfold rsum. cbn. unfold sign. destruct Rlt_dec; lra.
  - intros [|a] [|b] Ha Hb; try lia. unfold rsum. cbn. lra.
  - intros. apply Rabs_pos.
  - intros [|a] [|b] Ha Hb; try lia. unfold rsum. cbn. rewrite <- sign_abs. unfold sign. destruct Rlt_dec; lra.
Qed.
Lemma svd1_rates k : 0 < k -> exists G, lipschitz_rates svd1 [gain k] = [G] /\ rows G = 1%nat /\ cols G = 1%nat /\ FunModel.entry G 0%nat 0%nat = 1.
Proof.
  intros Hk. unfold lipschitz_rates, lipschitz_gradients. cbn [parameter_iter in_pairs last app bind product_backprop snd spread]. eexists. split; [reflexivity|].
  split; [reflexivity|]. split; [reflexivity|]. unfold factor_backprop, svd_backprop, svd. cbn [svd1 rows cols gain FunModel.entry Nat.min seq map]. unfold reduce_max_grad. cbn.
  destruct Req_EM_T; [|congruence]. unfold rsum. cbn. unfold sign. destruct Rlt_dec; [lra|]. field.
Qed.
(** The update of C118's example with the gradient that the network provides *)
Example C119_update_ex : exists t T G, TriSpec.setup dl2 inv1 grid3 hat_values 1 true t /\ wraps T t hat_values /\
  constrained_gradients (rough T) rough_rates rough_errors careful linear [fun _ => 1] [gain (1 / 4)] (lipschitz_rates svd1 [gain (1 / 4)]) 1 [[1 / 4]] [-1] = Ok [G] /\
  FunModel.entry G 0%nat 0%nat = - (711 / 6400) /\
  exists eta, 0 < eta /\ forall learning_rate, 0 < learning_rate < eta ->
    exists ps' before after, constrained_step (rough T) rough_rates rough_errors careful linear [fun _ => 1] (lipschitz_rates svd1) 1 learning_rate [[1 / 4]] [-1] [gain (1 / 4)] = Ok ps' /\
      constrained_loss svd1 (rough T) careful linear [gain (1 / 4)] 1 [[1 / 4]] [-1] = Ok before /\
      constrained_loss svd1 (rough T) careful linear ps' 1 [[1 / 4]] [-1] = Ok after /\ after < before.
Proof.
  destruct (hat_setup true) as (t & SU).
  assert (WR : wraps (TfTri hat_values t) t hat_values).
  { split; [reflexivity|]. exists (t_params t). destruct t; reflexivity. }
  destruct (rough_gradients _ _ _ (1 / 4) SU WR ltac:(lra)) as (G & EG & rG & cG & HG).
  destruct (svd1_rates (1 / 4) ltac:(lra)) as (H & EH & rH & cH & HH).
  assert (exists G', constrained_gradients (rough (TfTri hat_values t)) rough_rates rough_errors careful linear [fun _ => 1] [gain (1 / 4)] (lipschitz_rates svd1 [gain (1 / 4)]) 1 [[1 / 4]] [-1] = Ok [G'] /\
    rows G' = 1%nat /\ cols G' = 1%nat /\ FunModel.entry G' 0%nat 0%nat = - (711 / 6400)) as (G' & EG' & rG' & cG' & HG').
  { unfold constrained_gradients in *. destruct (nn_eval _ _ _) as [B|]; [|discriminate]. cbn [bind] in *. destruct (mapM _ _) as [da|]; [|discriminate]. cbn [bind] in *.
    destruct (nn_gradients _ _ _ _ _) as [r|]; [|discriminate]. cbn [bind] in *. rewrite EH. destruct (snd r) as [|g [|? ?]]; cbn [map2 sign_rates map] in *; try discriminate.
    all: injection EG as <-; eexists; split; [reflexivity|]; cbn [rows cols FunModel.entry gain] in *; split; [exact rG|]; split; [exact cG|]; rewrite HH; unfold sign in HG; destruct (Rlt_dec (1 / 4) 0); [lra|]; unfold CertModel.sum; cbn [fold_right]; lra. }
  exists t, (TfTri hat_values t), G'. do 4 (split; [auto|]).
  apply (C119_update dl2 inv1 grid3 hat_values true t (rough (TfTri hat_values t)) rough_rates rough_errors careful svd1 linear [fun _ => 1] [gain (1 / 4)] [gain (1 / 4)] 1 [[1 / 4]] [-1] _ [G'] G' 0 0
    SU WR (linear_eval (1 / 4) (1 / 4)) eq_refl); auto.
  - cbn [nn_layers linear layers nonlinearities use_bias combine but_last removelast zip map app last smooth_at]. intros W B ps' E. cbn in E. injection E as <- <- <-.
    split; [intros; exact I|]. intros; exact I.
  - apply rough_uncertain.
  - intros W [<-|[]]. split; [apply svd1_decomposes|]. cbn. exists 0%nat. split; [lia|]. split; [rewrite Rabs_right; lra|]. intros; lia.
  - intros i Hi. cbn [length] in Hi. assert (i = 0)%nat by lia. subst i. cbn [nth cols]. unfold row. cbn [cols seq map FunModel.entry nth].
    split; [apply (rough_smooth _ true); auto; unfold coordinate; cbn; lra|apply rough_right].
  - left; reflexivity.
  - rewrite rG'; lia.
  - rewrite cG'; lia.
  - rewrite HG'. lra.
Qed.

(** Decompositions of matrices with one column *)
Definition length_of (A : tensor) : R := sqrt (rsum (rows A) (fun i => FunModel.entry A i 0%nat * FunModel.entry A i 0%nat)).
Definition column_svd (A : tensor) : (nat -> R) * tensor * tensor :=
  (fun _ => length_of A,
   {| rows := rows A; cols := 1; FunModel.entry := fun i _ => if Req_EM_T (length_of A) 0 then (if Nat.eqb 0 i then 1 else 0) else FunModel.entry A i 0%nat / length_of A |}, gain 1).
Lemma column_decomposes A : (0 < rows A)%nat -> cols A = 1%nat -> decomposes column_svd A.
Proof.
  intros Hr Hc B [r c]. unfold is_svd, column_svd. rewrite r in Hr. rewrite Hc in c. rewrite <- c. replace (Nat.min (rows B) 1) with 1%nat by lia.
  assert (S2 : length_of B * length_of B = rsum (rows B) (fun i => FunModel.entry B i 0%nat * FunModel.entry B i 0%nat)).
  { apply sqrt_sqrt. apply rsum_nonneg. intros; apply Rle_0_sqr. }
  split; [|split; [|split]].
  - intros [|a] [|b] Ha Hb; try lia. cbn [FunModel.entry Nat.eqb]. destruct Req_EM_T as [z|nz].
    + rewrite (rsum_ext _ _ (fun i => 1 * (if Nat.eqb 0 i then 1 else 0))) by (intros [|i] _; cbn; ring). now rewrite (rsum_delta _ (fun _ => 1)) by auto.
    + rewrite (rsum_ext _ _ (fun i => / (length_of B * length_of B) * (FunModel.entry B i 0%nat * FunModel.entry B i 0%nat))) by (intros; now field).
      rewrite rsum_scal, <- S2. now field.
  - intros [|a] [|b] Ha Hb; try lia. unfold rsum. cbn. lra.
  - intros. apply sqrt_pos.
  - intros i [|j] Hi Hj; try lia. rewrite (rsum_S 0). unfold rsum. cbn [seq map fold_right FunModel.entry gain]. destruct Req_EM_T as [z|nz]; [|now field].
    rewrite z in *. rewrite Rmult_0_l in S2.
    assert (Q : FunModel.entry B i 0%nat * FunModel.entry B i 0%nat <= 0).
    { rewrite S2 at 1. rewrite <- (rsum_delta (rows B) (fun i => FunModel.entry B i 0%nat * FunModel.entry B i 0%nat) i Hi). apply rsum_le. intros l _.
      pose proof (Rle_0_sqr (FunModel.entry B l 0%nat)). unfold Rsqr in *. destruct (Nat.eqb i l); lra. }
    pose proof (Rle_0_sqr (FunModel.entry B i 0%nat)). unfold Rsqr in *. destruct (Req_dec (FunModel.entry B i 0%nat) 0) as [->|n]; [ring|].
    apply Rsqr_pos_lt in n. unfold Rsqr in n. lra.
Qed.
Definition weights34 : tensor := {| rows := 2; cols := 1; FunModel.entry := fun i _ => match i with O => 3 | _ => 4 end |}.
Lemma length34 : length_of weights34 = 5.
Proof. unfold length_of, rsum. cbn. replace (3 * 3 + (4 * 4 + 0)) with (5 * 5) by ring. apply sqrt_square. lra. Qed.
Example C119_ex : exists G, lipschitz column_svd [weights34] = Ok 5 /\ lipschitz_gradients column_svd [weights34] = Ok [G] /\
  FunModel.entry G 0%nat 0%nat = 3 / 5 /\ FunModel.entry G 1%nat 0%nat = 4 / 5 /\
  forall dps, List.Forall2 same_shape [weights34] dps ->
    exists l, (forall z, lipschitz column_svd (moved_all z [weights34] dps) = Ok (l z)) /\ is_derive l 0 (tdots [G] dps).
Proof.
  pose proof length34 as L.
  destruct (C119_gradients column_svd [weights34] [weights34] eq_refl) as (gs & EG & SG & K).
  { intros W [<-|[]]. split; [apply column_decomposes; cbn; lia|]. unfold simple_top, column_svd. exists 0%nat. rewrite L. cbn. split; [lia|]. split; [lra|]. intros; lia. }
  assert (SVD : svd column_svd weights34 = [5]).
  { rewrite (svd_values column_svd weights34 _ _ _ eq_refl). { cbn. now rewrite L. } apply (column_decomposes weights34); [cbn; lia|reflexivity|split; reflexivity]. }
  inversion SG as [|G ? gs' ? S SG']; subst. inversion SG'; subst. exists G. split; [|split; [exact EG|]].
  - unfold lipschitz. cbn [parameter_iter in_pairs last app bind fold_left]. rewrite SVD. cbn. f_equal. ring.
  - unfold lipschitz_gradients in EG. cbn [parameter_iter in_pairs last app bind product_backprop snd spread] in EG. injection EG as <-.
    split; [|split; [|exact K]]; unfold factor_backprop, svd_backprop; rewrite SVD; cbn [column_svd FunModel.entry]; unfold reduce_max_grad, rsum; rewrite L; cbn.
    all: destruct (Req_EM_T 5 5); [|congruence]; destruct (Req_EM_T 5 0); [lra|]; cbn; field.
Qed.

(** Decompositions of diagonal matrices, for [C119_ties_refuted] *)
Definition diagonal_svd (A : tensor) : (nat -> R) * tensor * tensor :=
  (fun k => Rabs (FunModel.entry A k k), {| rows := 2; cols := 2; FunModel.entry := fun i j => if Nat.eqb i j then sign (FunModel.entry A i i) else 0 |}, diagonal 1 1).
Example C119_ties_ex : forall z, is_svd (moved z (diagonal 1 1) (diagonal 1 (-1))) (diagonal_svd (moved z (diagonal 1 1) (diagonal 1 (-1)))).
Proof.
  intros z. unfold is_svd, diagonal_svd. cbn [moved rows cols diagonal Nat.min FunModel.entry]. split; [|split; [|split]].
  - intros [|[|a]] [|[|b]] Ha Hb; try lia; unfold rsum; cbn; unfold sign; repeat destruct Rlt_dec; lra.
  - intros [|[|a]] [|[|b]] Ha Hb; try lia; unfold rsum; cbn; lra.
  - intros. apply Rabs_pos.
  - intros [|[|a]] [|[|b]] Ha Hb; try lia; unfold rsum; cbn; rewrite <- ?sign_abs; unfold sign; repeat destruct Rlt_dec; lra.
Qed.
