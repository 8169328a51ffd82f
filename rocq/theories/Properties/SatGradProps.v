(** Property C117: policy optimization by gradient descent through saturation. *)
From Coq Require Import Reals List Bool Arith ZArith Lia Lra FunctionalExtensionality.
From Coquelicot Require Import Coquelicot.
From Verif Require Import Prelude FunModel QuadModel QuadProofs NNModel AutoNetProofs2.
From Verif Require Import NumModel NumProofs ListFacts GridModel GridSpec GridProofs TriModel TriSpec TriProofs TriProofs2 SafeModel CertModel RLModel RLProofs
  AutoTriModel AutoTriSpec AutoTriProofs Properties.AutoTriProps PolGradModel PolGradSpec PolGradProofs Properties.PolGradProps Properties.PolGradProps2
  CarModel SatGradModel SatGradSpec.
Import ListNotations.
Local Open Scope R_scope.

(** ** Saturation of one number *)
Lemma saturate_scale lo hi x d : saturate_grad lo hi x d = d * saturate_grad lo hi x 1.
Proof. unfold saturate_grad, maximum_grad, minimum_grad. repeat destruct Rle_dec; ring. Qed.
Lemma saturate_beyond lo hi x d : beyond lo hi x -> saturate_grad lo hi x d = 0.
Proof.
  intros [H|H]; unfold saturate_grad, maximum_grad, minimum_grad; destruct Rle_dec as [L|L]; auto; [lra|].
  destruct Rle_dec as [L'|L']; auto. pose proof (Rmax_l x lo). lra.
Qed.
Lemma near_of (x : R -> R) (v a b : R) : is_derive x 0 v -> a < x 0 < b -> locally 0 (fun z => a < x z < b).
Proof.
  intros D H. assert (C : continuous x 0) by (apply (ex_derive_continuous x 0); now exists v).
  apply (C (fun y => a < y < b)). apply (locally_interval (fun y => a < y < b) (x 0) (Finite a) (Finite b)); cbn; try lra. intros y H1 H2. lra.
Qed.
Lemma saturate_derive lo hi (x : R -> R) v : is_derive x 0 v -> x 0 <> lo -> x 0 <> hi ->
  is_derive (fun z => saturate lo hi (x z)) 0 (saturate_grad lo hi (x 0) v).
Proof.
  intros D NL NH. unfold saturate_grad, maximum_grad, minimum_grad.
  destruct (Rlt_dec (x 0) lo) as [L|L].
  - destruct Rle_dec as [B|B]; [lra|]. apply (is_derive_ext_loc (fun _ => Rmin lo hi)); [|apply dconst].
    pose proof (near_of x v (x 0 - 1) lo D ltac:(lra)) as N. revert N. apply filter_imp. intros z [_ Hz]. unfold saturate. now rewrite Rmax_right by lra.
  - destruct Rle_dec as [B|B]; [|lra]. rewrite Rmax_left by lra. destruct (Rlt_dec hi (x 0)) as [U|U].
    + destruct Rle_dec as [B'|B']; [lra|]. apply (is_derive_ext_loc (fun _ => hi)); [|apply dconst].
      pose proof (near_of x v hi (x 0 + 1) D ltac:(lra)) as N. revert N. apply filter_imp. intros z [Hz _]. unfold saturate.
      pose proof (Rmax_l (x z) lo). now rewrite Rmin_right by lra.
    + destruct Rle_dec as [B'|B']; [|lra]. apply (is_derive_ext_loc x); [|exact D].
      pose proof (near_of x v lo hi D ltac:(lra)) as N. revert N. apply filter_imp. intros z Hz. unfold saturate.
      rewrite Rmax_left by lra. now rewrite Rmin_left by lra.
Qed.

Lemma masked_entry lo hi raw da n k o : length da = length raw -> List.Forall (fun r => length r = n) raw -> List.Forall (fun r => length r = n) da ->
  (k < length raw)%nat -> (o < n)%nat ->
  TriSpec.entry (map2 (map2 (saturate_grad lo hi)) raw da) k o = saturate_grad lo hi (TriSpec.entry raw k o) (TriSpec.entry da k o).
Proof.
  intros L F F' Hk Ho. unfold TriSpec.entry. rewrite (nth_map2 _ _ _ _ [] []) by lia. rewrite Forall_forall in F, F'.
  rewrite (nth_map2 _ _ _ _ 0 0); [reflexivity|rewrite F; auto; apply nth_In; lia|rewrite F'; auto; apply nth_In; lia].
Qed.
Lemma masked_shape lo hi raw da n : length da = length raw -> List.Forall (fun r => length r = n) raw -> List.Forall (fun r => length r = n) da ->
  length (map2 (map2 (saturate_grad lo hi)) raw da) = length raw /\ List.Forall (fun r => length r = n) (map2 (map2 (saturate_grad lo hi)) raw da).
Proof.
  revert da. induction raw as [|r raw IH]; intros [|r' da] L F F'; try discriminate; [split; [reflexivity|constructor]|].
  destruct (IH da) as [L1 F1]; [now injection L|now inversion F|now inversion F'|]. cbn [map2 length]. split; [now rewrite L1|]. constructor; [|exact F1].
  rewrite map2_length, (List.Forall_inv F), (List.Forall_inv F'). apply Nat.min_id.
Qed.

(** The gradients that the optimizer uses are those of the loss. *)
Theorem C117_gradients : forall dl inv g values project t P D dl' inv' g' pvalues n project' t' T lower upper states weights raw,
  TriSpec.setup dl inv g values 1 project t -> wraps (rl_value P) t values ->
  TriSpec.setup dl' inv' g' pvalues n project' t' -> wraps T t' pvalues ->
  List.Forall (fun s => length s = dims g') states -> length weights = length states -> tf_eval T states = Ok raw ->
  off_bounds n lower upper raw ->
  (forall i, (i < length states)%nat -> smooth_state P D g t n (nth i states []) (map (saturate lower upper) (nth i raw []))) ->
  exists s, saturated_gradients P D lower upper T states weights = Ok s /\
    (forall i r, In (i, r) s -> (0 <= i < nindex g')%Z /\ length r = n) /\
    forall dvalues, length dvalues = length pvalues -> columns n dvalues ->
    exists L, (forall z, saturated_loss P lower upper (tf_assign T (moved_values z pvalues dvalues)) states weights = Ok (L z)) /\
      is_derive L 0 (sumn n (fun o => slices_dot s (value_at dvalues o) o)).
Proof.
  intros dl inv g values project t P D dl' inv' g' pvalues n project' t' T lo hi states weights raw SU WR SU' WR' FS LW EA OB SS.
  assert (K : forall dvalues, length dvalues = length pvalues -> columns n dvalues ->
    exists da L dxs s, loss_backprop P D states (map (map (saturate lo hi)) raw) weights = Ok da /\
      tf_gradients T states (map2 (map2 (saturate_grad lo hi)) raw da) = Ok (dxs, s) /\
      (forall i r, In (i, r) s -> (0 <= i < nindex g')%Z /\ length r = n) /\
      (forall z, saturated_loss P lo hi (tf_assign T (moved_values z pvalues dvalues)) states weights = Ok (L z)) /\
      is_derive L 0 (sumn n (fun o => slices_dot s (value_at dvalues o) o))).
  { intros dvalues Ld Cd. destruct (triangulation_line _ _ _ _ _ _ _ _ states SU' WR' FS dvalues Ld Cd) as (Vt & v & EV & DV & GG).
    assert (V0 : Vt 0 = raw).
    { destruct (EV 0) as [E0 _]. rewrite (moved_values_0 _ _ n) in E0; auto; [|apply (su_values _ _ _ _ _ _ _ SU')].
      assert (ET : tf_assign T pvalues = T) by (destruct WR' as [<- _]; destruct T; reflexivity). rewrite ET, EA in E0. now injection E0. }
    destruct (EV 0) as (_ & LR & FR). rewrite V0 in LR, FR.
    set (a := map (fun i z => map (saturate lo hi) (nth i (Vt z) [])) (seq 0 (length states))).
    assert (La : length a = length states) by (unfold a; now rewrite map_length, seq_length).
    assert (Na : forall i z, (i < length states)%nat -> nth i a (fun _ => []) z = map (saturate lo hi) (nth i (Vt z) [])).
    { intros i z Hi. unfold a. rewrite (nth_map_lt _ _ _ 0%nat) by now rewrite seq_length. now rewrite seq_nth. }
    assert (Ma : forall z, map (fun c => c z) a = map (map (saturate lo hi)) (Vt z)).
    { intros z. unfold a. rewrite map_map. destruct (EV z) as (_ & <- & _). apply nth_ext with (d := []) (d' := []).
      - now rewrite !map_length, seq_length.
      - intros k Hk. rewrite map_length, seq_length in Hk. rewrite (nth_map_lt _ _ _ 0%nat) by now rewrite seq_length. rewrite seq_nth by auto.
        now rewrite (nth_map_lt _ _ _ []) by auto. }
    assert (Lr : forall i z, (i < length states)%nat -> length (nth i (Vt z) []) = n).
    { intros i z Hi. destruct (EV z) as (_ & LV & FV). rewrite Forall_forall in FV. apply FV, nth_In. lia. }
    destruct (loss_derive dl inv g values project t P D n SU WR states a weights (fun i o => saturate_grad lo hi (TriSpec.entry raw i o) (v i o)) La LW)
      as (da & L & EB & Lda & Fda & EL & DL).
    { intros i Hi. rewrite Na by auto. rewrite V0. split; [now apply SS|]. split.
      - intros z. rewrite Na by auto. now rewrite map_length, Lr.
      - intros k Hk. apply (is_derive_ext (fun z => saturate lo hi (TriSpec.entry (Vt z) i k))).
        + intros z. rewrite Na by auto. unfold coordinate. rewrite (nth_map_lt _ _ _ 0); [reflexivity|]. now rewrite Lr.
        + rewrite <- V0. destruct (OB i k ltac:(lia) Hk) as [N1 N2]. rewrite <- V0 in N1, N2.
          apply (saturate_derive lo hi (fun z => TriSpec.entry (Vt z) i k)); auto. }
    rewrite Ma, V0 in EB. destruct (masked_shape lo hi raw da n ltac:(lia) FR Fda) as [LM FM]. rewrite LR in LM.
    destruct (GG _ LM FM) as (dxs & s & EG & I & TD). exists da, L, dxs, s. split; [exact EB|]. split; [exact EG|]. split; [exact I|]. split.
    - intros z. unfold saturated_loss. rewrite (proj1 (EV z)). cbn [bind]. rewrite <- Ma. apply EL.
    - eapply dconv; [exact DL|]. rewrite sumn_swap. apply sumn_ext. intros o Ho. rewrite (TD o Ho). apply sumn_ext. intros k Hk.
      rewrite (masked_entry lo hi raw da n) by (auto; lia). rewrite (saturate_scale lo hi _ (v k o)), (saturate_scale lo hi _ (TriSpec.entry da k o)).
      unfold TriSpec.entry, coordinate. ring. }
  assert (LP : columns n (map (fun _ => map (fun _ => 0) (seq 0 n)) pvalues)).
  { apply Forall_forall. intros r Hr. apply in_map_iff in Hr as (k & <- & _). now rewrite map_length, seq_length. }
  destruct (K _ (map_length _ _) LP) as (da & _ & dxs & s & EB & EG & I & _). exists s. split; [|split; [exact I|]].
  - unfold saturated_gradients. rewrite EA. cbn [bind]. rewrite EB. cbn [bind]. rewrite EG. reflexivity.
  - intros dvalues Ld Cd. destruct (K dvalues Ld Cd) as (da' & L & dxs' & s' & EB' & EG' & _ & EL & DL).
    rewrite EB in EB'. injection EB' as <-. rewrite EG in EG'. injection EG' as <- <-. exists L. auto.
Qed.
Print Assumptions C117_gradients.

(** Unless the derivatives with respect to all vertex values vanish, every sufficiently
    small learning rate decreases the loss. *)
Theorem C117_step : forall dl inv g values project t P D dl' inv' g' pvalues n project' t' T lower upper states weights raw s i o,
  TriSpec.setup dl inv g values 1 project t -> wraps (rl_value P) t values ->
  TriSpec.setup dl' inv' g' pvalues n project' t' -> wraps T t' pvalues ->
  List.Forall (fun s => length s = dims g') states -> length weights = length states -> tf_eval T states = Ok raw ->
  off_bounds n lower upper raw ->
  (forall i, (i < length states)%nat -> smooth_state P D g t n (nth i states []) (map (saturate lower upper) (nth i raw []))) ->
  saturated_gradients P D lower upper T states weights = Ok s ->
  (i < length pvalues)%nat -> (o < n)%nat -> vertex_derivative s i o <> 0 ->
  exists eta, 0 < eta /\ forall learning_rate, 0 < learning_rate < eta ->
    exists T' before after, saturated_step P D lower upper learning_rate states weights T = Ok T' /\
      saturated_loss P lower upper T states weights = Ok before /\ saturated_loss P lower upper T' states weights = Ok after /\ after < before.
Proof.
  intros dl inv g values project t P D dl' inv' g' pvalues n project' t' T lo hi states weights raw s i o SU WR SU' WR' FS LW EA OB SS ES Hi Ho Hn.
  destruct (C117_gradients dl inv g values project t P D dl' inv' g' pvalues n project' t' T lo hi states weights raw SU WR SU' WR' FS LW EA OB SS)
    as (s' & ES' & I & K). rewrite ES in ES'. injection ES' as <-.
  pose proof (setup_len _ _ _ _ _ _ _ SU') as LN.
  set (dV := descent_of s (length pvalues) n).
  assert (LD : length dV = length pvalues) by (unfold dV, descent_of; now rewrite map_length, seq_length).
  assert (CD : columns n dV).
  { apply Forall_forall. intros r Hr. apply in_map_iff in Hr as (k & <- & _). now rewrite map_length, seq_length. }
  destruct (K dV LD CD) as (L & EL & DL).
  assert (Q : sumn n (fun o => slices_dot s (value_at dV o) o) =
     - sumn n (fun o => sumn (length pvalues) (fun i => vertex_derivative s i o * vertex_derivative s i o))).
  { rewrite <- (Rmult_1_l (sumn n (fun o => sumn _ _))), Ropp_mult_distr_l, <- sumn_scal. apply sumn_ext. intros p Hp.
    transitivity (sumn (length pvalues) (fun k => vertex_derivative s k p * - vertex_derivative s k p)).
    - rewrite <- (slices_vertices s (length pvalues) p (fun k => - vertex_derivative s k p)) by (intros k r Hk; destruct (I k r Hk); lia).
      apply slices_ext. intros k r Hk. unfold value_at, dV. apply descent_value; auto. destruct (I k r Hk); lia.
    - rewrite <- sumn_scal. apply sumn_ext. intros; ring. }
  rewrite Q in DL. destruct (decrease L _ DL) as (eta & He & H).
  { rewrite <- rsum_sumn. match goal with |- - ?A < 0 => assert (0 < A); [|lra] end. apply (rsum_pos _ _ o); auto.
    - intros p _. rewrite <- rsum_sumn. apply NNProofs.rsum_nonneg. intros k _. apply Rle_0_sqr.
    - rewrite <- rsum_sumn. apply (rsum_pos _ _ i); auto; [intros k _; apply Rle_0_sqr|]. now apply Rlt_0_sqr. }
  exists eta. split; [exact He|]. intros lr Hlr. exists (tf_assign T (moved_values lr pvalues dV)), (L 0), (L lr).
  assert (EV : tf_var T = pvalues) by apply WR'. pose proof (su_values _ _ _ _ _ _ _ SU') as CP. split; [|split; [|split]].
  - unfold saturated_step. rewrite ES. cbn [bind]. rewrite EV. rewrite (scatter_moved lr n); auto.
    intros k r Hk. destruct (I k r Hk) as [? ?]. split; [auto|lia].
  - rewrite <- EL, (moved_values_0 _ _ n) by auto. rewrite <- EV. destruct T; reflexivity.
  - apply EL.
  - now apply H.
Qed.
Print Assumptions C117_step.
