(** Property C118: the safe policy update. *)
From Coq Require Import Reals List Bool Arith ZArith Lia Lra FunctionalExtensionality.
From Coquelicot Require Import Coquelicot.
From Verif Require Import Prelude FunModel QuadModel QuadProofs NNModel NNProofs AutoNetSpec AutoNetProofs2 AutoNNModel AutoNNSpec AutoNNProofs.
From Verif.Properties Require Import AutoNetProps AutoNNProps.
From Verif Require Import NumModel NumProofs ListFacts GridModel GridSpec GridProofs TriModel TriSpec TriProofs TriProofs2 SafeModel CertModel RLModel RLProofs
  TriLyapModel AutoTriModel AutoTriSpec AutoTriProofs PolGradModel PolGradSpec PolGradProofs Properties.PolGradProps ConsGradModel ConsGradSpec ConsGradProofs.
Import ListNotations.
Local Open Scope R_scope.

Lemma constrained_sum dl inv g values project t P U n lip : TriSpec.setup dl inv g values 1 project t -> wraps (rl_value P) t values -> uncertain P (dims g) n ->
  forall states actions ws, length actions = length states -> length ws = length states -> List.Forall (fun a => length a = n) actions ->
  exists L, loss_of (penalised t P U) states actions ws = Ok L /\
    (do values <- mapM (fun sa => future_value P None (Some (snd sa)) (Some (safe_lyapunov (rl_value P) (ca U + cb U * lip) (u_tau U), multiplier U)) (fst sa)) (combine states actions);
     Ok (CertModel.sum (map2 Rmult ws values))) =
    Ok (L + sumn (length states) (fun i => nth i ws 0 * (- multiplier U * (steepness t (nth i states []) * cb U * u_tau U))) * lip).
Proof.
  intros SU WR UN. unfold loss_of. induction states as [|s states IH]; intros [|a actions] [|w ws] La Lw F; try discriminate.
  - exists 0. split; [reflexivity|]. cbn. f_equal. ring.
  - destruct (IH actions ws) as (L & E1 & E2); [now injection La|now injection Lw|now inversion F|].
    destruct (constrained_value dl inv g values project t P U n SU WR UN lip s a (List.Forall_inv F)) as (v & F1 & F2).
    cbn [combine mapM fst snd]. rewrite F1, F2.
    destruct (mapM (fun sa => future_value (penalised t P U) None (Some (snd sa)) None (fst sa)) (combine states actions)) as [vs|]; [|discriminate].
    destruct (mapM _ (combine states actions)) as [us|] in E2 |- *; [|discriminate]. cbn [bind] in *. injection E1 as E1. injection E2 as E2.
    eexists. split; [reflexivity|]. cbn [map2]. unfold CertModel.sum in *. cbn [fold_right]. f_equal. rewrite E1, E2. cbn [length]. rewrite sumn_S_l. cbn [nth]. ring.
Qed.
Lemma all_rows_shape A : length (all_rows A) = rows A /\ List.Forall (fun a => length a = cols A) (all_rows A).
Proof.
  unfold all_rows. split; [now rewrite map_length, seq_length|]. apply Forall_forall. intros a Ha. apply in_map_iff in Ha as (i & <- & _). apply row_length.
Qed.
Lemma constrained_is dl inv g values project t P U nn ps n m states ws A lip tf_svd : TriSpec.setup dl inv g values 1 project t -> wraps (rl_value P) t values -> uncertain P (dims g) m ->
  nn_eval nn ps (array n states) = Ok A -> rows A = length states -> cols A = m -> length ws = length states -> lipschitz tf_svd ps = Ok lip ->
  exists L, network_loss (penalised t P U) nn ps n states ws = Ok L /\
    constrained_loss tf_svd P U nn ps n states ws =
      Ok (L + sumn (length states) (fun i => nth i ws 0 * (- multiplier U * (steepness t (nth i states []) * cb U * u_tau U))) * lip).
Proof.
  intros SU WR UN EA RA CA LW EL. unfold network_loss, constrained_loss. rewrite EA, EL. cbn [bind]. destruct (all_rows_shape A) as [LA FA]. rewrite CA in FA.
  apply (constrained_sum dl inv g values project t P U m); auto. now rewrite LA.
Qed.

(** What is optimized: the discount factor and the multiplier together weigh the next value, and the
    error bounds and the Lipschitz constant of the policy are penalised, in all states. *)
Theorem C118_objective : forall dl inv g values project t P U tf_svd nn ps n states weights A lip,
  TriSpec.setup dl inv g values 1 project t -> wraps (rl_value P) t values ->
  nn_eval nn ps (array n states) = Ok A -> lipschitz tf_svd ps = Ok lip -> length weights = length states ->
  uncertain P (dims g) (cols A) ->
  constrained_loss tf_svd P U nn ps n states weights = Ok (sumn (length states) (fun i =>
    let s := nth i states [] in let a := row A i in
    nth i weights 0 * (rl_reward P s a + (rl_gamma P + multiplier U) * triangulated t (next_of P s a) - multiplier U * triangulated t s
      - multiplier U * (steepness t (next_of P s a) * CertModel.sum (error_of P s a))
      - multiplier U * (steepness t s * (1 + (ca U + cb U * lip)) * u_tau U)))).
Proof.
  intros dl inv g values project t P U tf_svd nn ps n states weights A lip SU WR EA EL LW UN.
  destruct (eval_fwd nn (map (fun _ _ => 1) (nonlinearities nn)) ps _ A (map_length _ _) EA) as (rA & _ & _). cbn [array rows] in rA.
  destruct (constrained_is dl inv g values project t P U nn ps n (cols A) states weights A lip tf_svd SU WR UN EA rA eq_refl LW EL) as (L & E1 & E2).
  rewrite E2. f_equal. unfold network_loss in E1. rewrite EA in E1. cbn [bind] in E1. destruct (all_rows_shape A) as [LA FA]. rewrite rA in LA.
  assert (Q : L = sumn (length states) (fun i => nth i weights 0 * fval t (penalised t P U) (nth i states []) (nth i (all_rows A) []))).
  { clear - SU WR UN E1 LA FA LW. revert weights LW L E1. unfold loss_of. generalize dependent (all_rows A). induction states as [|s states IH]; intros [|a actions] La F [|w ws] Lw L E1; try discriminate.
    - cbn in *. now injection E1.
    - cbn [combine mapM fst snd] in E1.
      rewrite (fval_ok dl inv g values project t (penalised t P U) SU WR s a) in E1.
      2:{ change (length (next_of P s a) = dims g). destruct (UN s a (List.Forall_inv F)) as (mean & err & ED & Lm & _). unfold next_of. now rewrite ED. }
      cbn [bind] in E1. destruct (mapM _ (combine states actions)) as [vs|] eqn:EM in E1; [|discriminate]. cbn [bind map2] in E1. injection E1 as <-.
      unfold CertModel.sum. cbn [fold_right length]. rewrite sumn_S_l. cbn [nth]. f_equal.
      apply (IH actions); [now injection La|now inversion F|now injection Lw|]. rewrite EM. reflexivity. }
  rewrite Q, (Rmult_comm (sumn _ _) lip), <- sumn_scal, <- sumn_plus. apply sumn_ext. intros i Hi. cbv zeta.
  assert (NR : nth i (all_rows A) [] = row A i).
  { unfold all_rows. rewrite (nth_map_lt _ _ _ 0%nat) by (rewrite seq_length; lia). now rewrite seq_nth by lia. }
  rewrite NR. unfold fval. cbn [penalised rl_reward rl_gamma]. change (next_of (penalised t P U) (nth i states []) (row A i)) with (next_of P (nth i states []) (row A i)).
  rewrite (val_triangulated dl inv g values project t SU).
  2:{ destruct (UN (nth i states []) (row A i) (row_length _ _)) as (mean & err & ED & Lm & _). unfold next_of. now rewrite ED. }
  unfold fixed_cost. ring.
Qed.
Print Assumptions C118_objective.

(** ** Gradients *)
Lemma mapM_ext_in {A B} (f h : A -> res B) l : (forall x, In x l -> f x = h x) -> mapM f l = mapM h l.
Proof. induction l as [|x l IH]; intros H; [reflexivity|]. cbn [mapM]. rewrite (H x) by (now left). rewrite IH; auto. intros y Hy. apply H. now right. Qed.
Definition plus_scaled (k : R) (g h : tensor) : tensor :=
  {| rows := rows g; cols := cols g; FunModel.entry := fun i j => FunModel.entry g i j + k * FunModel.entry h i j |}.
Lemma tdot_plus k g h d : same_shape g h -> tdot (plus_scaled k g h) d = tdot g d + k * tdot h d.
Proof.
  intros [R C]. unfold tdot. cbn [plus_scaled rows cols FunModel.entry]. rewrite <- R, <- C, <- rsum_scal, <- rsum_plus. apply rsum_ext. intros i _.
  rewrite <- rsum_scal, <- rsum_plus. apply rsum_ext. intros j _. ring.
Qed.
Lemma tdots_plus k : forall gs hs ds, List.Forall2 same_shape gs hs -> List.Forall2 same_shape gs ds ->
  tdots (map2 (plus_scaled k) gs hs) ds = tdots gs ds + k * tdots hs ds.
Proof.
  intros gs hs ds F. revert ds. induction F as [|g h gs hs S F IH]; intros ds F'; inversion F'; subst; [unfold tdots; cbn; ring|].
  cbn [map2]. rewrite !tdots_cons, tdot_plus, IH by auto. ring.
Qed.
Lemma shapes_plus k : forall gs hs ps, List.Forall2 same_shape gs ps -> List.Forall2 same_shape hs ps -> List.Forall2 same_shape (map2 (plus_scaled k) gs hs) ps.
Proof.
  intros gs hs ps F. revert hs. induction F as [|g p gs ps S F IH]; intros hs F'; inversion F'; subst; [constructor|]. cbn [map2]. constructor; [exact S|now apply IH].
Qed.
Lemma shapes_via : forall gs hs ps : list tensor, List.Forall2 same_shape gs ps -> List.Forall2 same_shape hs ps -> List.Forall2 same_shape gs hs.
Proof.
  intros gs hs ps F. revert hs. induction F as [|g p gs ps [S1 S2] F IH]; intros hs F'; inversion F' as [|h q hs' qs [R1 R2] F2]; subst; constructor; [split; congruence|now apply IH].
Qed.
Lemma shapes_trans : forall gs ps ds : list tensor, List.Forall2 same_shape gs ps -> List.Forall2 same_shape ps ds -> List.Forall2 same_shape gs ds.
Proof.
  intros gs ps ds F. revert ds. induction F as [|g p gs ps [S1 S2] F IH]; intros ds F'; inversion F' as [|h q hs' qs [R1 R2] F2]; subst; constructor; [split; congruence|now apply IH].
Qed.

(** The gradients that the optimizer uses are those of the objective. *)
Theorem C118_gradients : forall dl inv g values project t P D E U tf_svd nn dacts ps dlip n states weights A,
  TriSpec.setup dl inv g values 1 project t -> wraps (rl_value P) t values ->
  nn_eval nn ps (array n states) = Ok A -> length dacts = length (nonlinearities nn) ->
  smooth_at (nn_layers nn dacts) ps (array n states) -> length weights = length states ->
  uncertain P (dims g) (cols A) -> right_lipschitz tf_svd ps dlip ->
  (forall i, (i < length states)%nat -> smooth_state P D g t (cols A) (nth i states []) (row A i) /\
     right_errors P E (dims g) (cols A) (nth i states []) (row A i)) ->
  exists gs, constrained_gradients P D E U nn dacts ps dlip n states weights = Ok gs /\ List.Forall2 same_shape gs ps /\
    forall dps, List.Forall2 same_shape ps dps ->
    exists L, (forall z, constrained_loss tf_svd P U nn (moved_all z ps dps) n states weights = Ok (L z)) /\ is_derive L 0 (tdots gs dps).
Proof.
  intros dl inv g values project t P D E U tf_svd nn dacts ps dlip n states weights A SU WR EA LD SM LW UN [SL RL] SS.
  destruct (eval_fwd nn dacts ps _ A LD EA) as (rA & _ & _). cbn [array rows] in rA.
  destruct (C113_network_gradients dl inv g values project t (penalised t P U) (penalised_rates t P D E U) nn dacts ps n states weights A SU WR EA LD SM LW) as (gs & EG & SG & K).
  { intros i Hi. destruct (SS i Hi) as [S1 S2]. apply (penalised_smooth dl inv g values project t P D E U (cols A) SU UN); auto. apply row_length. }
  set (k := sumn (length states) (fun i => nth i weights 0 * (- multiplier U * (steepness t (nth i states []) * cb U * u_tau U)))).
  assert (EB : mapM (fun saw => constrained_backprop1 P D E U (fst (fst saw)) (snd (fst saw)) (snd saw)) (combine (combine states (all_rows A)) weights) =
     loss_backprop (penalised t P U) (penalised_rates t P D E U) states (all_rows A) weights).
  { unfold loss_backprop. apply mapM_ext_in. intros [[s a] w] Hin. cbn [fst snd].
    apply in_combine_l in Hin. destruct (all_rows_shape A) as [LA _].
    apply (In_nth _ _ ([], [])) in Hin as (i & Hi & EI). rewrite combine_length, LA, rA in Hi.
    rewrite combine_nth in EI by lia. injection EI as <- <-.
    assert (NR : nth i (all_rows A) [] = row A i).
    { unfold all_rows. rewrite (nth_map_lt _ _ _ 0%nat) by (rewrite seq_length; lia). now rewrite seq_nth by lia. }
    rewrite NR. destruct (SS i ltac:(lia)) as [S1 S2]. apply (constrained_back dl inv g values project t P D E U (cols A) SU WR UN); auto; [apply row_length|].
    apply (ss_reward _ _ _ _ _ _ _ S1). }
  assert (EK : CertModel.sum (map2 (lipschitz_backprop1 P U) states weights) = k).
  { unfold k. clear - SU WR LW. revert weights LW. induction states as [|s states IH]; intros [|w ws] Lw; try discriminate; [reflexivity|].
    unfold CertModel.sum in *. cbn [map2 fold_right length]. rewrite IH by (now injection Lw). rewrite sumn_S_l. cbn [nth]. f_equal.
    unfold lipschitz_backprop1. rewrite lv_steep, (current_is dl inv g values project t _ SU WR). ring. }
  exists (map2 (plus_scaled k) gs dlip). split; [|split].
  - unfold constrained_gradients. rewrite EA. cbn [bind]. rewrite EB. unfold network_gradients in EG. rewrite EA in EG. cbn [bind] in EG.
    destruct (loss_backprop _ _ states (all_rows A) weights) as [da|]; [|discriminate]. cbn [bind] in *. destruct (nn_gradients _ _ _ _ _) as [r|]; [|discriminate].
    cbn [bind] in *. injection EG as ->. rewrite EK. reflexivity.
  - now apply shapes_plus.
  - intros dps F. destruct (K dps F) as (L & EL & DL). destruct (RL dps F) as (l & El & Dl).
    exists (fun z => L z + k * l z). split.
    + intros z. destruct (network_line nn dacts ps dps _ A EA LD SM F) as (Vt & v & EV & V0 & _).
      destruct (EV z) as (EVz & rV & cV). cbn [array rows] in rV.
      destruct (constrained_is dl inv g values project t P U nn (moved_all z ps dps) n (cols A) states weights (Vt z) (l z) tf_svd SU WR UN EVz) as (L' & E1 & E2); auto; [congruence|].
      rewrite EL in E1. injection E1 as <-. exact E2.
    + eapply dconv; [apply (dplus L (fun z => k * l z)); [exact DL|apply dscal; exact Dl]|]. symmetry. apply tdots_plus; [eapply shapes_via; eauto|eapply shapes_trans; eauto].
Qed.
Print Assumptions C118_gradients.

(** Unless all derivatives vanish, every sufficiently small learning rate decreases the loss. *)
Theorem C118_step : forall dl inv g values project t P D E U tf_svd nn dacts ps dlip n states weights A gs G i j,
  TriSpec.setup dl inv g values 1 project t -> wraps (rl_value P) t values ->
  nn_eval nn ps (array n states) = Ok A -> length dacts = length (nonlinearities nn) ->
  smooth_at (nn_layers nn dacts) ps (array n states) -> length weights = length states ->
  uncertain P (dims g) (cols A) -> right_lipschitz tf_svd ps (dlip ps) ->
  (forall i, (i < length states)%nat -> smooth_state P D g t (cols A) (nth i states []) (row A i) /\
     right_errors P E (dims g) (cols A) (nth i states []) (row A i)) ->
  constrained_gradients P D E U nn dacts ps (dlip ps) n states weights = Ok gs ->
  In G gs -> (i < rows G)%nat -> (j < cols G)%nat -> FunModel.entry G i j <> 0 ->
  exists eta, 0 < eta /\ forall learning_rate, 0 < learning_rate < eta ->
    exists ps' before after, constrained_step P D E U nn dacts dlip n learning_rate states weights ps = Ok ps' /\
      constrained_loss tf_svd P U nn ps n states weights = Ok before /\ constrained_loss tf_svd P U nn ps' n states weights = Ok after /\ after < before.
Proof.
  intros dl inv g values project t P D E U tf_svd nn dacts ps dlip n states weights A gs G i j SU WR EA LD SM LW UN RL SS EG I Hi Hj Hn.
  destruct (C118_gradients dl inv g values project t P D E U tf_svd nn dacts ps (dlip ps) n states weights A SU WR EA LD SM LW UN RL SS) as (gs' & EG' & SG & K).
  rewrite EG in EG'. injection EG' as <-.
  assert (F : List.Forall2 same_shape ps (map negated gs)).
  { clear - SG. induction SG as [|a b gs ps [r c] SG IH]; constructor; auto. split; cbn; auto. }
  destruct (K _ F) as (L & EL & DL). rewrite tdots_negated in DL.
  destruct (decrease L _ DL) as (eta & He & H). { pose proof (tdots_pos gs G i j I Hi Hj Hn). lra. }
  exists eta. split; [exact He|]. intros lr Hlr. exists (map2 (descend lr) ps gs), (L 0), (L lr). split; [|split; [|split]].
  - unfold constrained_step. rewrite EG. reflexivity.
  - rewrite <- EL. f_equal. clear - F. induction F as [|a b qs rs S F IH]; [reflexivity|]. now rewrite moved_all_cons, moved_0, <- IH.
  - rewrite descend_moved by auto. apply EL.
  - now apply H.
Qed.
Print Assumptions C118_step.
