(** Property C117: what saturation does to the policies that the optimizer reaches, and
    the mountain car. *)
From Coq Require Import Reals List Bool Arith ZArith Lia Lra FunctionalExtensionality.
From Coquelicot Require Import Coquelicot.
From Verif Require Import Prelude FunModel QuadModel QuadProofs NNModel AutoNetProofs2.
From Verif Require Import NumModel NumProofs ListFacts GridModel GridSpec GridProofs TriModel TriSpec TriProofs TriProofs2 TriInstances SafeModel CertModel RLModel RLProofs
  TriLyapModel TriLyapSpec TriSlopeProofs AutoTriModel AutoTriSpec AutoTriProofs Properties.TriProps Properties.TriContProps Properties.TriLyapProps Properties.GridTests
  Properties.AutoTriProps Properties.AutoTriProps2 PolGradModel PolGradSpec PolGradProofs Properties.PolGradProps Properties.PolGradProps2 Properties.PolGradProps3
  CarModel SatGradModel SatGradSpec Properties.SatGradProps.
Import ListNotations.
Local Open Scope R_scope.

Definition single (N n i o : nat) : mat :=
  map (fun k => map (fun p => if (Nat.eqb k i && Nat.eqb p o)%bool then 1 else 0) (seq 0 n)) (seq 0 N).
Lemma single_shape N n i o : length (single N n i o) = N /\ columns n (single N n i o).
Proof.
  unfold single. split; [now rewrite map_length, seq_length|]. apply Forall_forall. intros r Hr. apply in_map_iff in Hr as (k & <- & _).
  now rewrite map_length, seq_length.
Qed.
Lemma single_at N n i o k p : (k < N)%nat -> (p < n)%nat -> nth p (nth k (single N n i o) []) 0 = if (Nat.eqb k i && Nat.eqb p o)%bool then 1 else 0.
Proof.
  intros Hk Hp. unfold single. rewrite (nth_map_lt _ _ _ 0%nat) by now rewrite seq_length. rewrite (nth_map_lt _ _ _ 0%nat) by now rewrite seq_length.
  now rewrite !seq_nth.
Qed.
Lemma changed_moved V n i o z : columns n V -> (i < length V)%nat -> (o < n)%nat -> changed V i o z = moved_values z V (single (length V) n i o).
Proof.
  intros C Hi Ho. destruct (single_shape (length V) n i o) as [LS CS].
  destruct (moved_columns z n V _ LS C CS) as [LM CM]. unfold changed. apply nth_ext with (d := []) (d' := []); [now rewrite set_nth_length, LM|].
  intros k Hk. rewrite set_nth_length in Hk. rewrite nth_set_nth.
  assert (LV : forall q, (q < length V)%nat -> length (nth q V []) = n) by (intros q Hq; unfold columns in C; rewrite Forall_forall in C; apply C, nth_In; auto).
  assert (LK : length (nth k (moved_values z V (single (length V) n i o)) []) = n)
    by (unfold columns in CM; rewrite Forall_forall in CM; apply CM, nth_In; lia).
  assert (M : forall p, (p < n)%nat -> nth p (nth k (moved_values z V (single (length V) n i o)) []) 0 =
      nth p (nth k V []) 0 + z * (if (Nat.eqb k i && Nat.eqb p o)%bool then 1 else 0)).
  { intros p Hp. pose proof (moved_value z n V _ p (Z.of_nat k) LS C CS Hp) as M. unfold value_at in M. rewrite Nat2Z.id in M. rewrite M by lia.
    now rewrite single_at by lia. }
  rewrite (proj2 (Nat.ltb_lt k (length V)) Hk), andb_true_r. destruct (Nat.eqb i k) eqn:Q.
  - apply Nat.eqb_eq in Q. subst k. apply nth_ext with (d := 0) (d' := 0); [now rewrite set_nth_length, LK, LV|].
    intros p Hp. rewrite set_nth_length, LV in Hp by auto. rewrite M by auto. rewrite nth_set_nth, Nat.eqb_refl. cbn [andb].
    rewrite LV, (proj2 (Nat.ltb_lt p n) Hp), andb_true_r by auto. rewrite (Nat.eqb_sym p o). destruct (Nat.eqb o p) eqn:Q'; [apply Nat.eqb_eq in Q'; subst p|]; ring.
  - apply nth_ext with (d := 0) (d' := 0); [now rewrite LK, LV|]. intros p Hp. rewrite LV in Hp by auto. rewrite M by auto.
    rewrite (Nat.eqb_sym k i), Q. cbn [andb]. ring.
Qed.

(** The optimizer keeps the value of a vertex if, in every state, saturation changes the
    action or the action does not depend on that value.  No derivative has to exist. *)
Theorem C117_kept : forall dl inv g values project t P D dl' inv' g' pvalues n project' t' T lower upper states weights raw i o learning_rate,
  TriSpec.setup dl inv g values 1 project t -> wraps (rl_value P) t values ->
  TriSpec.setup dl' inv' g' pvalues n project' t' -> wraps T t' pvalues ->
  List.Forall (fun s => length s = dims g') states -> length weights = length states -> tf_eval T states = Ok raw ->
  (forall s a, length a = n -> length (next_of P s a) = dims g) ->
  (forall s a, length (d_reward D s a) = n) -> (forall s a d, length (d_dynamics D s a d) = n) ->
  (i < length pvalues)%nat -> (o < n)%nat ->
  (forall k, (k < length states)%nat -> beyond lower upper (TriSpec.entry raw k o) \/
     forall z, exists out, tf_eval (tf_assign T (changed pvalues i o z)) states = Ok out /\ TriSpec.entry out k o = TriSpec.entry raw k o) ->
  exists T', saturated_step P D lower upper learning_rate states weights T = Ok T' /\ length (tf_var T') = length pvalues /\ columns n (tf_var T') /\
    nth o (nth i (tf_var T') []) 0 = nth o (nth i pvalues []) 0.
Proof.
  intros dl inv g values project t P D dl' inv' g' pvalues n project' t' T lo hi states weights raw i o lr SU WR SU' WR' FS LW EA NX LR LDy Hi Ho HK.
  pose proof (setup_len _ _ _ _ _ _ _ SU') as LN. pose proof (su_values _ _ _ _ _ _ _ SU') as CP.
  destruct (single_shape (length pvalues) n i o) as [LS CS].
  destruct (triangulation_line _ _ _ _ _ _ _ _ states SU' WR' FS (single (length pvalues) n i o) LS CS) as (Vt & v & EV & DV & GG).
  assert (V0 : Vt 0 = raw).
  { destruct (EV 0) as [E0 _]. rewrite (moved_values_0 _ _ n) in E0; auto.
    assert (ET : tf_assign T pvalues = T) by (destruct WR' as [<- _]; destruct T; reflexivity). rewrite ET, EA in E0. now injection E0. }
  destruct (EV 0) as (_ & Lraw & Fraw). rewrite V0 in Lraw, Fraw.
  assert (exists da, loss_backprop P D states (map (map (saturate lo hi)) raw) weights = Ok da /\ length da = length states /\ List.Forall (fun r => length r = n) da)
    as (da & EB & Lda & Fda).
  { unfold loss_backprop. clear - SU WR Lraw Fraw LW NX LR LDy. revert raw weights Lraw Fraw LW. induction states as [|s states IH]; intros [|r raw] [|w ws] L F LW; try discriminate.
    - exists []. split; [reflexivity|]. split; [reflexivity|constructor].
    - destruct (IH raw ws) as (da & E & L' & F'); [now injection L|now inversion F|now injection LW|]. cbn [map combine mapM fst snd]. unfold future_backprop1 at 1.
      fold (next_of P s (map (saturate lo hi) r)).
      destruct (backprop_one _ _ _ _ _ _ _ SU WR (next_of P s (map (saturate lo hi) r)) (rl_gamma P * w)) as (dx & sl & EB & _).
      { apply NX. rewrite map_length. now inversion F. }
      rewrite EB. cbn [bind fst]. rewrite E. cbn [bind]. eexists. split; [reflexivity|]. split; [cbn; now rewrite L'|]. constructor; [|exact F'].
      unfold vadd, vscale. rewrite map2_length, map_length, LR, LDy. apply Nat.min_id. }
  destruct (masked_shape lo hi raw da n ltac:(lia) Fraw Fda) as [LM FM]. rewrite Lraw in LM.
  destruct (GG _ LM FM) as (dxs & s & EG & I & TD). specialize (TD o Ho).
  assert (ES : saturated_gradients P D lo hi T states weights = Ok s).
  { unfold saturated_gradients. rewrite EA. cbn [bind]. rewrite EB. cbn [bind]. rewrite EG. reflexivity. }
  assert (VD : vertex_derivative s i o = 0).
  { transitivity (slices_dot s (value_at (single (length pvalues) n i o) o) o).
    - apply slices_ext. intros j r Hj. destruct (I j r Hj) as [Hr _]. unfold value_at. rewrite single_at by (auto; lia). rewrite Nat.eqb_refl, andb_true_r. reflexivity.
    - rewrite TD, (sumn_ext _ _ (fun _ => 0)); [apply sumn_zero|]. intros k Hk. rewrite (masked_entry lo hi raw da n) by (auto; lia).
      destruct (HK k Hk) as [B|B]; [rewrite saturate_beyond by auto; ring|].
      assert (Z : v k o = 0).
      { rewrite <- (is_derive_unique _ _ _ (DV k o Hk Ho)). apply is_derive_unique. apply (is_derive_ext (fun _ => TriSpec.entry raw k o)); [|apply dconst].
        intros z. destruct (B z) as (out & EO & HO). rewrite (changed_moved _ n) in EO by auto. rewrite (proj1 (EV z)) in EO. injection EO as <-. now symmetry. }
      rewrite Z. ring. }
  exists (tf_assign T (scatter_sub lr (tf_var T) s)). assert (EVar : tf_var T = pvalues) by apply WR'.
  split; [unfold saturated_step; rewrite ES; reflexivity|].
  destruct (scatter_columns lr n s pvalues CP) as (L1 & C1 & K1). { intros j r Hj. destruct (I j r Hj) as [? ?]. split; [auto|lia]. }
  rewrite EVar. destruct T as [tv tt]. cbn [tf_assign tf_var]. split; [exact L1|]. split; [exact C1|]. rewrite K1 by auto. rewrite VD. ring.
Qed.
Print Assumptions C117_kept.

(** So the optimizer never changes a policy whose actions are beyond the bounds in all states. *)
Theorem C117_stuck : forall dl inv g values project t P D dl' inv' g' pvalues n project' t' T lower upper states weights raw learning_rate,
  TriSpec.setup dl inv g values 1 project t -> wraps (rl_value P) t values ->
  TriSpec.setup dl' inv' g' pvalues n project' t' -> wraps T t' pvalues ->
  List.Forall (fun s => length s = dims g') states -> length weights = length states -> tf_eval T states = Ok raw ->
  (forall s a, length a = n -> length (next_of P s a) = dims g) ->
  (forall s a, length (d_reward D s a) = n) -> (forall s a d, length (d_dynamics D s a d) = n) -> (0 < n)%nat ->
  (forall k o, (k < length states)%nat -> (o < n)%nat -> beyond lower upper (TriSpec.entry raw k o)) ->
  saturated_step P D lower upper learning_rate states weights T = Ok T.
Proof.
  intros dl inv g values project t P D dl' inv' g' pvalues n project' t' T lo hi states weights raw lr SU WR SU' WR' FS LW EA NX LR LDy Hn HB.
  pose proof (su_values _ _ _ _ _ _ _ SU') as CP. assert (EVar : tf_var T = pvalues) by apply WR'.
  assert (LP : (0 < length pvalues)%nat).
  { pose proof (setup_len _ _ _ _ _ _ _ SU'). pose proof (nindex_pos g' (su_grid _ _ _ _ _ _ _ SU')). lia. }
  assert (H : forall i o, (i < length pvalues)%nat -> (o < n)%nat -> exists T', saturated_step P D lo hi lr states weights T = Ok T' /\ length (tf_var T') = length pvalues /\ columns n (tf_var T') /\
    nth o (nth i (tf_var T') []) 0 = nth o (nth i pvalues []) 0).
  { intros i o Hi Ho. apply (C117_kept dl inv g values project t P D dl' inv' g' pvalues n project' t' T lo hi states weights raw); auto. }
  destruct (H 0%nat 0%nat LP Hn) as (T' & E & L & C & _). rewrite E. f_equal.
  assert (Q : tf_var T' = pvalues).
  { unfold columns in C, CP. rewrite Forall_forall in C, CP. apply nth_ext with (d := []) (d' := []); [exact L|]. intros i Hi.
    assert (R1 : length (nth i (tf_var T') []) = n) by (apply C, nth_In; lia). assert (R2 : length (nth i pvalues []) = n) by (apply CP, nth_In; lia).
    apply nth_ext with (d := 0) (d' := 0); [lia|]. intros o Ho. destruct (H i o ltac:(lia) ltac:(lia)) as (T2 & E2 & _ & _ & E3).
    rewrite E in E2. injection E2 as <-. exact E3. }
  unfold saturated_step in E. destruct (saturated_gradients P D lo hi T states weights) as [s|] eqn:ES; [|discriminate]. cbn [bind] in E. injection E as <-.
  destruct T as [tv tt]. cbn [tf_assign tf_var] in *. now rewrite Q, EVar.
Qed.
Print Assumptions C117_stuck.

(** ** The mountain car *)
(** With the values of both triangulations as variables, only the next states have to be
    inside simplices and off the limits. *)
Theorem C117_mountain_car : forall dl inv g values project t gamma V dl' inv' g' pvalues project' t' T lower upper states weights raw s i,
  TriSpec.setup dl inv g values 1 project t -> wraps V t values -> dims g = 2%nat ->
  TriSpec.setup dl' inv' g' pvalues 1 project' t' -> wraps T t' pvalues -> dims g' = 2%nat ->
  List.Forall (fun s => length s = 2%nat) states -> length weights = length states -> tf_eval T states = Ok raw ->
  off_bounds 1 lower upper raw ->
  (forall k, (k < length states)%nat ->
     let x := nth k states [] in let a := saturate lower upper (TriSpec.entry raw k 0) in
     let x0 := coordinate x 0 + coordinate x 1 in let x1 := coordinate x 1 + 0.001 * a - 0.0025 * cos (3 * coordinate x 0) in
     (exists id r, 0 < r /\ forall y0 y1, Rabs (y0 - x0) < r -> Rabs (y1 - x1) < r -> find_simplex t [y0; y1] = Ok id) /\
     (project = true -> x0 <> GridSpec.lower g 0 /\ x0 <> GridSpec.upper g 0 /\ x1 <> GridSpec.lower g 1 /\ x1 <> GridSpec.upper g 1)) ->
  saturated_gradients (car_learner gamma V) car_rates lower upper T states weights = Ok s ->
  (i < length pvalues)%nat ->
  (exists L, (forall z, saturated_loss (car_learner gamma V) lower upper (tf_assign T (changed pvalues i 0 z)) states weights = Ok (L z)) /\
     is_derive L 0 (vertex_derivative s i 0)) /\
  (vertex_derivative s i 0 <> 0 -> exists eta, 0 < eta /\ forall learning_rate, 0 < learning_rate < eta ->
    exists T' before after, saturated_step (car_learner gamma V) car_rates lower upper learning_rate states weights T = Ok T' /\
      saturated_loss (car_learner gamma V) lower upper T states weights = Ok before /\
      saturated_loss (car_learner gamma V) lower upper T' states weights = Ok after /\ after < before).
Proof.
  intros dl inv g values project t gamma V dl' inv' g' pvalues project' t' T lo hi states weights raw s i SU WR DG SU' WR' DG' FS LW EA OB HN ES Hi.
  assert (SS : forall k, (k < length states)%nat -> smooth_state (car_learner gamma V) car_rates g t 1 (nth k states []) (map (saturate lo hi) (nth k raw []))).
  { intros k Hk. destruct (HN k Hk) as [(id & r & Hr & Near) Off].
    assert (EK : map (saturate lo hi) (nth k raw []) = [saturate lo hi (TriSpec.entry raw k 0)]).
    { assert (FR : List.Forall (fun x => length x = dims g') states) by (now rewrite DG').
      assert (CS0 : length pvalues = length pvalues) by reflexivity.
      destruct (triangulation_line _ _ _ _ _ _ _ _ states SU' WR' FR pvalues eq_refl (su_values _ _ _ _ _ _ _ SU')) as (Vt & v & EV & _).
      destruct (EV 0) as (E0 & L0 & F0). rewrite (moved_values_0 _ _ 1) in E0; auto; try apply (su_values _ _ _ _ _ _ _ SU').
      assert (ET : tf_assign T pvalues = T) by (destruct WR' as [<- _]; destruct T; reflexivity). rewrite ET, EA in E0. injection E0 as E0. rewrite <- E0 in L0, F0.
      rewrite Forall_forall in F0. pose proof (F0 (nth k raw []) ltac:(apply nth_In; lia)) as L1. unfold TriSpec.entry. destruct (nth k raw []) as [|q [|? ?]]; try discriminate. reflexivity. }
    rewrite EK. constructor.
    - split; [reflexivity|]. intros c v c0 L D. eapply dconv; [apply (is_derive_ext (fun _ => rl_reward (car_learner gamma V) (nth k states []) [])); [|apply dconst]; reflexivity|].
      cbn. unfold coordinate. cbn. ring.
    - rewrite DG. reflexivity.
    - intros d Ld. split; [reflexivity|]. intros c v c0 L D. specialize (D 0%nat ltac:(lia)). rewrite DG.
      set (x := nth k states []) in *. apply (is_derive_ext (fun z => (coordinate d 0 * (nth 0 x 0 + nth 1 x 0) + coordinate d 1 * (nth 1 x 0 - 0.0025 * cos (3 * nth 0 x 0))) +
        (0.001 * coordinate d 1) * coordinate (c z) 0)).
      { intros z. unfold next_of, car_learner, car_next, coordinate. cbn. ring. }
      eapply dconv; [apply (dplus (fun _ => coordinate d 0 * (nth 0 x 0 + nth 1 x 0) + coordinate d 1 * (nth 1 x 0 - 0.0025 * cos (3 * nth 0 x 0)))
         (fun z => (0.001 * coordinate d 1) * coordinate (c z) 0)); [apply dconst|apply dscal; exact D]|].
      unfold coordinate. cbn. ring.
    - exists id, r. split; [exact Hr|]. intros y Ly Hy. rewrite DG in Ly, Hy. destruct y as [|y0 [|y1 [|? ?]]]; try discriminate.
      apply Near; [apply (Hy 0%nat ltac:(lia))|apply (Hy 1%nat ltac:(lia))].
    - intros PR j Hj. rewrite DG in Hj. destruct (setup_wf _ _ _ _ _ _ _ SU) as (_ & _ & PJ). rewrite PJ in PR.
      destruct (Off PR) as (O1 & O2 & O3 & O4). destruct j as [|[|j]]; [split; assumption|split; assumption|lia]. }
  assert (FR : List.Forall (fun x => length x = dims g') states) by (now rewrite DG').
  split.
  - destruct (C117_gradients dl inv g values project t (car_learner gamma V) car_rates dl' inv' g' pvalues 1 project' t' T lo hi states weights raw SU WR SU' WR' FR LW EA OB SS)
      as (s' & ES' & I & K). rewrite ES in ES'. injection ES' as <-.
    destruct (single_shape (length pvalues) 1 i 0) as [LS CS]. destruct (K _ LS CS) as (L & EL & DL). exists L. split.
    + intros z. rewrite (changed_moved _ 1) by first [exact (su_values _ _ _ _ _ _ _ SU')|auto]. apply EL.
    + eapply dconv; [exact DL|]. cbn [sumn]. rewrite Rplus_0_l. apply slices_ext. intros j r Hj. destruct (I j r Hj) as [Hr _].
      pose proof (setup_len _ _ _ _ _ _ _ SU'). unfold value_at. rewrite single_at by lia. rewrite andb_true_r. reflexivity.
  - intros Hn. apply (C117_step dl inv g values project t _ _ dl' inv' g' pvalues 1 project' t' T lo hi states weights raw s i 0); auto.
Qed.
Print Assumptions C117_mountain_car.
