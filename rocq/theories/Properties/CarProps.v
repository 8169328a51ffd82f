(** C101: the mountain car of the dynamic programming example. *)
From Coq Require Import Reals List Bool Arith ZArith Lia Lra.
From Verif Require Import Prelude NumModel NumProofs GridModel GridSpec SparseSpec GridProofs TriModel TriSpec
  TriProofs TriProofs2 TriInstances SafeModel CertModel ListFacts Bellman RLModel RLSpec RLProofs CarModel CarSpec CarProofs
  Properties.TriProps Properties.RLProps.
Import ListNotations.
Local Open Scope nat_scope.
Local Open Scope R_scope.

(** The learned values lie between the least and the largest reward for ever, up
    to a slack that comes from negative interpolation weights: it is zero if the
    interpolation weights of the successors are not negative (c = 1). *)
Theorem C101_value_bounds : forall dl inv g project t P c lo hi v,
  learns dl inv g project t P -> 0 <= rl_gamma P -> rl_gamma P * c < 1 ->
  (forall s, is_vertex g s -> weights_bounded t c (successor P (rl_policy P s) s)) ->
  (forall s, is_vertex g s -> lo <= rl_reward P s (rl_policy P s) <= hi) ->
  bellman P g v ->
  let slack := rl_gamma P * ((c - 1) / 2) * ((hi - lo) / (1 - rl_gamma P * c)) in
  forall k, (k < length v)%nat ->
    (lo - slack) / (1 - rl_gamma P) <= nth k v 0 <= (hi + slack) / (1 - rl_gamma P).
Proof. exact value_range. Qed.
Print Assumptions C101_value_bounds.

(** With the dynamics and the reward of the notebook and nonnegative weights the
    values are between 0 and 1, and at least 1 - gamma in the rewarded states. *)
Theorem C101_car_values : forall dl inv g project t P v,
  learns dl inv g project t P -> car_learner P -> 0 <= rl_gamma P < 1 ->
  (forall s, is_vertex g s -> weights_nonnegative t (successor P (rl_policy P s) s)) ->
  bellman P g v ->
  forall k s, index_to_state g (Z.of_nat k) = Ok s ->
    0 <= nth k v 0 <= 1 /\ (0.6 < nth 0 s 0 -> 1 - rl_gamma P <= nth k v 0).
Proof.
  intros dl inv g project t P v LN (CD & CR) G W BE k s Es.
  assert (RR : forall s, is_vertex g s -> 0 <= rl_reward P s (rl_policy P s) <= 1 - rl_gamma P).
  { intros s' _. rewrite CR. apply car_reward_range. lra. }
  pose proof (nonneg_bounded _ _ _ _ _ _ LN W) as W1.
  assert (Lv : length v = N g) by (apply (bellman_fixed _ _ _ _ _ _ LN) in BE; apply BE).
  destruct (index_st _ _ _ _ _ _ LN k s Es) as (Hk & Es').
  assert (RG : forall j, (j < N g)%nat -> 0 <= nth j v 0 <= 1).
  { intros j Hj. pose proof (C101_value_bounds _ _ _ _ _ _ 1 0 (1 - rl_gamma P) v LN (proj1 G) ltac:(lra) W1 RR BE j ltac:(lia)) as Q.
    cbn zeta in Q. replace (rl_gamma P * ((1 - 1) / 2) * ((1 - rl_gamma P - 0) / (1 - rl_gamma P * 1))) with 0 in Q.
    2:{ replace ((1 - 1) / 2) with 0 by field. ring. }
    replace ((0 - 0) / (1 - rl_gamma P)) with 0 in Q by (field; lra).
    replace ((1 - rl_gamma P + 0) / (1 - rl_gamma P)) with 1 in Q by (field; lra). exact Q. }
  split; [apply RG; auto|]. intros H6.
  apply (bellman_fixed _ _ _ _ _ _ LN) in BE as (_ & F). change (nth k v 0) with (look v k).
  rewrite <- (F k Hk). unfold Top. rewrite <- Es', CR. unfold car_reward. cbn [fst as_pair].
  destruct Rlt_dec; [|cbn in *; lra].
  destruct (ln_tri _ _ _ _ _ _ LN) as (w0 & SU).
  assert (I : 0 <= interp t (look v) (successor P (rl_policy P s) s)).
  { rewrite Es'.
    rewrite <- (interp_const _ _ _ _ _ _ _ SU 0 _ (nx_len _ _ _ _ _ _ LN k Hk)) at 1.
    eapply interp_mono; eauto using nx_len, st_vertex. intros j Hj. apply RG. unfold N; lia. }
  pose proof (Rmult_le_pos _ _ (proj1 G) I). lra.
Qed.
Print Assumptions C101_car_values.

(** The discounted rewards of n steps are at most 1 - gamma^n, with equality
    exactly if all n positions are beyond 0.6, and zero exactly if none is. *)
Theorem C101_returns : forall gamma pi n s, 0 < gamma < 1 ->
  0 <= car_return gamma pi n s <= 1 - gamma ^ n /\
  (car_return gamma pi n s = 1 - gamma ^ n <-> forall k, (k < n)%nat -> 0.6 < fst (drive pi k s)) /\
  (car_return gamma pi n s = 0 <-> forall k, (k < n)%nat -> fst (drive pi k s) <= 0.6).
Proof.
  intros gamma pi n s G. split; [apply return_range; lra|]. split; [now apply return_full|now apply return_zero].
Qed.
Print Assumptions C101_returns.

(** The motion: along every trajectory the second difference of the positions is the push,
    scaled by 0.001, less a multiple of the slope of the track with height sin(3 x). *)
Theorem C101_motion : forall pi s k slope,
  let x := fun n => fst (drive pi n s) in
  derivable_pt_lim (fun z => sin (3 * z)) (x k) slope ->
  x (S (S k)) - 2 * x (S k) + x k = 0.001 * pi (drive pi k s) - 0.0025 / 3 * slope /\
  snd (drive pi k s) = x (S k) - x k.
Proof.
  intros pi s k slope x D.
  assert (ST : forall n, drive pi (S n) s = car_next (drive pi n s) (pi (drive pi n s))).
  { intros n. clear. revert s. induction n as [|n IH]; intros s; [reflexivity|]. exact (IH (car_next s (pi s))). }
  assert (E : slope = 3 * cos (3 * x k)).
  { eapply uniqueness_limite; [exact D|].
    replace (3 * cos (3 * x k)) with (cos (3 * x k) * (0 * x k + 3 * 1)) by ring.
    apply (derivable_pt_lim_comp (mult_fct (fct_cte 3) id) sin).
    - apply derivable_pt_lim_mult; [apply derivable_pt_lim_const|apply derivable_pt_lim_id].
    - apply derivable_pt_lim_sin. }
  unfold x in *. rewrite !ST. unfold car_next. cbn [fst snd]. rewrite E. lra.
Qed.
Print Assumptions C101_motion.

(** The plotted trajectory: every row is the state of the car until the first
    arrival (after the start) at a position of at least 0.6, and that state from then on. *)
Theorem C101_trajectory : forall pi n start,
  let rows := car_trajectory pi n start in
  length rows = S n /\
  (forall k, (k <= n)%nat -> (forall i, (1 <= i < k)%nat -> fst (drive pi i start) < 0.6) ->
     nth k rows (0, 0) = drive pi k start) /\
  (forall k i, (1 <= i <= k)%nat -> (k <= n)%nat ->
     (forall j, (1 <= j < i)%nat -> fst (drive pi j start) < 0.6) -> 0.6 <= fst (drive pi i start) ->
     nth k rows (0, 0) = drive pi i start).
Proof.
  intros pi n start rows. unfold rows, car_trajectory. cbn [length]. rewrite fill_length.
  split; [reflexivity|]. split.
  - intros [|k] Hk H; [reflexivity|]. cbn [nth]. apply fill_before; [lia|]. intros i Hi. apply H. lia.
  - intros [|k] [|i] Hi Hk H G; try lia. cbn [nth]. apply fill_after; [lia| |exact G].
    intros j Hj. apply H. lia.
Qed.
Print Assumptions C101_trajectory.

(** At rest on a slope with cos(3x) > 0.4 no allowed action moves the car uphill. *)
Theorem C101_underpowered : forall x u, -1 <= u <= 1 -> 0.4 < cos (3 * x) -> snd (car_next (x, 0) u) < 0.
Proof. intros x u Hu H. unfold car_next. cbn [fst snd]. lra. Qed.
Print Assumptions C101_underpowered.

(** The untrained (zero) policy leaves a car at rest in the valley where it is,
    and it never sees a reward. *)
Theorem C101_valley : forall pi gamma n, pi (- PI / 6, 0) = 0 ->
  drive pi n (- PI / 6, 0) = (- PI / 6, 0) /\ car_return gamma pi n (- PI / 6, 0) = 0.
Proof.
  intros pi gamma n E.
  assert (ST : car_next (- PI / 6, 0) (pi (- PI / 6, 0)) = (- PI / 6, 0)).
  { rewrite E. unfold car_next. cbn [fst snd]. replace (3 * (- PI / 6)) with (- (PI / 2)) by field.
    rewrite cos_neg, cos_PI2. f_equal; ring. }
  induction n as [|n [I1 I2]]; [split; reflexivity|]. cbn [drive car_return]. rewrite ST, I1, I2. split; auto.
  unfold car_reward. cbn [fst]. destruct Rlt_dec as [Q|Q]; [|ring].
  pose proof PI_RGT_0. lra.
Qed.
Print Assumptions C101_valley.

(** The message "converged after n iterations": n is the number of the first
    iteration in which no value and no action changed by more than 0.1. *)
Theorem C101_converged : forall nv na old results,
  Forall (fun r => length (fst r) = nv /\ length (snd r) = na) (old :: results) ->
  let params k := nth k (old :: results) old in
  let close k := all_close 0.1 (fst (params k)) (fst (params (S k))) /\
                 all_close 0.1 (snd (params k)) (snd (params (S k))) in
  (forall n, learn_until 0 old results = Some n <->
     (1 <= n <= length results)%nat /\ close (n - 1)%nat /\ forall k, (k < n - 1)%nat -> ~ close k) /\
  (learn_until 0 old results = None <-> forall k, (k < length results)%nat -> ~ close k).
Proof.
  intros nv na old results F params close. destruct (learn_spec nv na results 0 old F) as [A B].
  split; [|exact B]. intros n. rewrite A. rewrite !Nat.sub_0_r. unfold close, params. cbn [nth].
  split; [intros (X & Y & Z & T)|intros ((X & Y) & Z & T)]; repeat split; auto; try lia; try apply Z.
Qed.
Print Assumptions C101_converged.

(** "Terminal" states are not terminal for the learner: from this rewarded state
    every action leaves the goal, and the next reward is zero. *)
Theorem C101_terminal_refuted : ~ (forall gamma s u, 0 <= gamma < 1 ->
  -1.2 <= fst s <= 0.7 -> -0.07 <= snd s <= 0.07 ->
  car_reward gamma s u = 1 - gamma -> forall u', car_reward gamma (car_next s u) u' = 1 - gamma).
Proof.
  intros H. specialize (H 0.99 (0.65, -0.07) 0 ltac:(lra) ltac:(cbn; lra) ltac:(cbn; lra)).
  unfold car_reward, car_next in H. cbn [fst snd] in H.
  destruct (Rlt_dec 0.6 0.65); [|lra]. specialize (H eq_refl 0). destruct Rlt_dec; lra.
Qed.
Print Assumptions C101_terminal_refuted.

(** The plot stops at 0.6, but the reward starts only beyond: a trajectory may be
    drawn as arrived although the car has not earned anything. *)
Theorem C101_arrival_refuted : ~ (forall pi start n gamma, 0 < gamma < 1 ->
  0.6 <= fst (nth n (car_trajectory pi n start) (0, 0)) ->
  0 < car_return gamma pi (S n) start).
Proof.
  intros H. specialize (H (fun _ => 0) (0.55, 0.05) 1%nat 0.99 ltac:(lra)).
  cbn [car_trajectory fill_rows repeat nth car_return drive] in H. unfold car_trajectory in H.
  cbn [nth fill_rows] in H. unfold car_next, car_reward in H. cbn [fst snd repeat] in H.
  replace (0.55 + 0.05) with 0.6 in H by lra.
  destruct (Rle_dec 0.6 0.6); [|lra]. cbn [nth repeat fst] in H.
  destruct (Rlt_dec 0.6 0.55); [lra|]. destruct (Rlt_dec 0.6 0.6); [lra|]. specialize (H ltac:(lra)). lra.
Qed.
Print Assumptions C101_arrival_refuted.

(** The domain of the notebook with the corners only, and full throttle. *)
Definition car_grid : grid := Grid [(-1.2, 0.7); (-0.07, 0.07)] [2%Z; 2%Z].
Lemma car_grid_valid : valid_grid car_grid.
Proof. unfold valid_grid, car_grid; simpl. repeat constructor; simpl; try lra; lia. Qed.
Definition throttle (t : tri) (gamma : R) : learner :=
  {| rl_policy := fun _ => [1];
     rl_dynamics := fun s a => let y := car_next (as_pair s) (nth 0 a 0) in Exact [fst y; snd y];
     rl_reward := fun s a => car_reward gamma (as_pair s) (nth 0 a 0);
     rl_value := TfTri (map (fun x => [x]) [0; 0; 0; 0]) t; rl_gamma := gamma |}.
Example C101_ex : exists t c, let P := throttle t (1 / (2 * c)) in
  learns dl2 inv2 car_grid true t P /\ car_learner P /\ 0 < rl_gamma P /\ rl_gamma P * c < 1 /\
  (forall s, is_vertex car_grid s -> weights_bounded t c (successor P (rl_policy P s) s)) /\
  exists v, bellman P car_grid v /\ exists k s, index_to_state car_grid (Z.of_nat k) = Ok s /\ 0.6 < nth 0 s 0.
Proof.
  assert (SU : exists t, TriSpec.setup dl2 inv2 car_grid [[0]; [0]; [0]; [0]] 1 true t).
  { apply C08_construction; auto using car_grid_valid, good_inv2.
    - intros j Hj. unfold spacing, upper, lower, npts. destruct j as [|[|j]]; [| |cbv in Hj; lia]; simpl;
        pose proof EPS_small; lra.
    - apply good_dl2; [apply car_grid_valid|reflexivity].
    - repeat constructor. }
  destruct SU as (t & SU). exists t.
  assert (BD : forall l, (forall x, In x l -> length x = dims car_grid) -> exists c, 1 <= c /\ forall x, In x l -> weights_bounded t c x).
  { induction l as [|x l IH]; intros HL. { exists 1. split; [lra|]. intros x []. }
    destruct IH as (c & C1 & Hc). { intros; apply HL; now right. }
    destruct (weights_at _ _ _ _ _ _ _ SU x (HL x (or_introl eq_refl))) as (w & verts & E & _).
    exists (Rmax c (sumn (length w) (fun k => Rabs (coordinate w k)))). split.
    - eapply Rle_trans; [exact C1|apply Rmax_l].
    - intros y [<-|Hy].
      + exists w, verts. split; auto. apply Rmax_r.
      + destruct (Hc y Hy) as (w' & verts' & E' & B'). exists w', verts'. split; auto.
        eapply Rle_trans; [exact B'|apply Rmax_l]. }
  set (nx := fun s => let y := car_next (as_pair s) 1 in [fst y; snd y]).
  destruct (BD (map nx (all_points car_grid))) as (c & C1 & Hc).
  { intros x Hx. apply in_map_iff in Hx as (s & <- & _). reflexivity. }
  exists c. set (P := throttle t (1 / (2 * c))).
  assert (LN : learns dl2 inv2 car_grid true t P).
  { constructor; eauto. 
    - exists [0; 0; 0; 0]. split; reflexivity. }
  assert (G : 0 < rl_gamma P) by (cbn; apply Rdiv_lt_0_compat; lra).
  assert (GC : rl_gamma P * c < 1) by (cbn; replace (1 / (2 * c) * c) with (1 / 2) by (field; lra); lra).
  assert (WB : forall s, is_vertex car_grid s -> weights_bounded t c (successor P (rl_policy P s) s)).
  { intros s Hs. apply Hc. apply in_map_iff. exists s. split; [reflexivity|].
    apply all_points_In; auto using car_grid_valid. }
  repeat (split; [assumption || (split; reflexivity)|]).
  destruct (C30_value_iteration_converges _ _ _ _ _ _ c LN (Rlt_le _ _ G) GC WB) as (v & Bv & _).
  exists v. split; auto. exists 2%nat, (nth 2 (all_points car_grid) []).
  split; [apply (st_index _ _ _ _ _ _ LN); cbv; lia|]. cbn. change (Pos.to_nat 2) with 2%nat. cbn. lra.
Qed.
