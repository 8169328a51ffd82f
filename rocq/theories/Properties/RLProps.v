(** C30-C35: policy iteration. *)
From Coq Require Import Reals List Bool Arith ZArith Lia Lra ClassicalChoice.
From Verif Require Import Prelude NumModel NumProofs GridModel GridSpec SparseSpec GridProofs TriModel TriSpec
  TriProofs TriProofs2 TriInstances SafeModel CertModel CertSpec CertProofs ListFacts Bellman RLModel RLSpec RLProofs
  Properties.GridProps Properties.TriProps.
Import ListNotations.
Local Open Scope nat_scope.
Local Open Scope R_scope.

(** Concrete learner for the examples: states 0 and 1 on the line, the next state
    is the action, the reward is the state, the policy goes to 1/2. *)
Definition g01 : grid := Grid [(0, 1)] [2%Z].
Definition dl0 (pts : list (list R)) : delaunay := Delaunay pts [] (fun _ => 0%Z).
Definition learner01 (t : tri) (gamma : R) (v : list R) : learner :=
  {| rl_policy := fun _ => [1 / 2]; rl_dynamics := fun _ a => Exact a;
     rl_reward := fun s _ => nth 0 s 0; rl_value := TfTri (map (fun x => [x]) v) t;
     rl_gamma := gamma |}.

Lemma g01_valid : valid_grid g01.
Proof. unfold valid_grid, g01; simpl. repeat constructor; simpl; try lra; lia. Qed.
Lemma g01_spacing j : (j < 1)%nat -> spacing g01 j = 1.
Proof. intros H. destruct j; [|lia]. unfold spacing, upper, lower, npts; simpl. lra. Qed.
Lemma t01 project : exists t, TriSpec.setup dl0 inv1 g01 [[0]; [1]] 1 project t.
Proof.
  apply C08_construction; auto using g01_valid, good_inv1.
  - intros j Hj. rewrite g01_spacing by exact Hj. pose proof EPS_small. lra.
  - intros H. exfalso. apply H. reflexivity.
  - repeat constructor.
Qed.
Lemma states01 : all_points g01 = [[0]; [1]].
Proof.
  unfold all_points, discrete_points, g01; simpl. unfold linspace; simpl. 
  repeat f_equal; field_simplify; lra.
Qed.
Lemma points01 k s : index_to_state g01 (Z.of_nat k) = Ok s -> (k = 0%nat /\ s = [0]) \/ (k = 1%nat /\ s = [1]).
Proof.
  intros E. pose proof (index_range g01 _ _ E) as H. pose proof (all_points_nth g01 g01_valid _ H) as A.
  rewrite E in A. rewrite states01 in A. apply (f_equal (fun r => match r with Ok x => x | _ => [] end)) in A. subst s. rewrite Nat2Z.id in *. change (nindex g01) with 2%Z in H.
  destruct k as [|[|k]]; [left|right|lia]; split; auto.
Qed.
Lemma learns01 t project gamma v : TriSpec.setup dl0 inv1 g01 [[0]; [1]] 1 project t -> length v = 2%nat ->
  learns dl0 inv1 g01 project t (learner01 t gamma v).
Proof.
  intros SU L. constructor; eauto.
  - exists v. split; [reflexivity|]. unfold table. rewrite L. reflexivity.
Qed.
Lemma inside01 x : 2 * EPS <= x <= 1 - 2 * EPS -> well_inside g01 [x].
Proof.
  intros H j Hj. destruct j; [|exfalso; unfold dims, g01 in Hj; simpl in Hj; lia].
  unfold lower, upper, coordinate; simpl. lra.
Qed.
(** Values on the line through the two states. *)
Lemma value01 t project a b x : TriSpec.setup dl0 inv1 g01 [[0]; [1]] 1 project t ->
  (project = true -> 0 <= x <= 1) -> interp t (look [a; b]) [x] = a + (b - a) * x.
Proof.
  intros SU Hx. assert (TV : table g01 [a; b]) by reflexivity.
  pose proof (setup_params _ _ _ _ _ _ _ [a; b] SU TV) as SV.
  destruct (C09_affine_reproduction _ _ _ _ _ _ _ [x] 0 [b - a] a SV eq_refl ltac:(lia)) as (y & out & Q & E & A).
  { intros i s Ei. destruct (points01 (Z.to_nat i) s) as [(K & ->)|(K & ->)].
    - rewrite Z2Nat.id; auto. apply (index_range g01 i s Ei).
    - unfold value_at, affine, coordinate. rewrite K. simpl. lra.
    - unfold value_at, affine, coordinate. rewrite K. simpl. lra. }
  assert (Y : y = [x]).
  { destruct project; [|exact Q]. destruct Q as (Ly & Q). destruct y as [|y0 [|]]; try discriminate.
    specialize (Q 0%nat ltac:(unfold dims, g01; simpl; lia)). unfold coordinate, lower, upper in Q; simpl in Q.
    subst y0. f_equal. specialize (Hx eq_refl). unfold Rmin, Rmax; repeat destruct Rle_dec; lra. }
  subst y. unfold tri_eval in E. cbn [mapM] in E.
  pose proof (value_ok _ _ _ _ _ _ _ SU [a; b] [x] TV eq_refl) as E2. rewrite tf_is_tri in E2.
  rewrite E2 in E. cbn [bind] in E. injection E as <-.
  unfold affine, coordinate in A; simpl in A. rewrite A. lra.
Qed.
Lemma bellman01 t project gamma v0 a b : TriSpec.setup dl0 inv1 g01 [[0]; [1]] 1 project t -> length v0 = 2%nat ->
  a = gamma * ((a + b) / 2) -> b = 1 + gamma * ((a + b) / 2) ->
  bellman (learner01 t gamma v0) g01 [a; b].
Proof.
  intros SU L Ha Hb. split; [reflexivity|]. intros k s E.
  exists ((a + b) / 2). split.
  - unfold tf_eval, tf_assign. cbn [mapM rl_value learner01 tf_inner successor rl_dynamics rl_policy].
    change (map (fun x => [x]) [a; b]) with (rows_of [a; b]).
    rewrite (value_ok _ _ _ _ _ _ _ SU [a; b] [1 / 2] eq_refl eq_refl). cbn [bind].
    rewrite (value01 _ _ _ _ _ SU) by (intros; lra). do 3 f_equal. lra.
  - destruct (points01 k s E) as [(-> & ->)|(-> & ->)]; cbn; lra.
Qed.
Lemma nonneg01 t project : TriSpec.setup dl0 inv1 g01 [[0]; [1]] 1 project t ->
  forall x, 1 / 4 <= x <= 3 / 4 -> weights_nonnegative t [x].
Proof.
  intros SU x Hx. apply (inside_nonnegative _ _ _ _ _ _ _ SU); [reflexivity|]. apply inside01. pose proof EPS_small. lra.
Qed.

(** ** C30 *)
(** The Bellman equation of the policy has exactly one solution, and the values
    after n steps of value iteration are (gamma c)^n-close to it. *)
Theorem C30_value_iteration_converges : forall dl inv g project t P c,
  learns dl inv g project t P -> 0 <= rl_gamma P -> rl_gamma P * c < 1 ->
  (forall s, is_vertex g s -> weights_bounded t c (successor P (rl_policy P s) s)) ->
  exists v, bellman P g v /\ (forall u, bellman P g u -> u = v) /\
    forall v0 D n, rl_value P = TfTri (map (fun x => [x]) v0) t -> distance_at_most D v0 v ->
      exists vn, value_iterations n P = Ok (with_values P vn) /\
        distance_at_most ((rl_gamma P * c) ^ n * D) vn v.
Proof.
  intros dl inv g project t P c LN G0 G1 B.
  assert (C0 : 0 <= c).
  { destruct (all_points g) as [|s l] eqn:E.
    - pose proof (points_N _ _ _ _ _ _ LN) as HN. rewrite E in HN. unfold N in HN.
      pose proof (nindex_pos g (ln_grid _ _ _ _ _ _ LN)). simpl in HN. lia.
    - assert (HN : (0 < N g)%nat) by (rewrite <- (points_N _ _ _ _ _ _ LN), E; simpl; lia).
      destruct (B _ (st_vertex _ _ _ _ _ _ LN 0 HN)) as (w & verts & _ & Hw).
      eapply Rle_trans; [|exact Hw]. apply sumn_nonneg. intros; apply Rabs_pos. }
  assert (Q : 0 <= rl_gamma P * c < 1) by (split; [apply Rmult_le_pos|]; auto).
  pose proof (contraction _ _ _ _ _ _ LN c G0 B) as HT.
  destruct (fixed_exists (N g) (Top g t P) _ Q HT) as (w & Fw).
  set (v := map w (seq 0 (N g))).
  assert (Lv : length v = N g) by (unfold v; now rewrite map_length, seq_length).
  assert (Ev : forall k, (k < N g)%nat -> look v k = w k) by (intros; apply look_seq; auto).
  assert (Fv : fixed (N g) (Top g t P) (look v)).
  { intros k Hk. rewrite (T_ext _ _ _ HT _ w) by auto. rewrite Ev by auto. now apply Fw. }
  exists v. split; [apply (bellman_fixed _ _ _ _ _ _ LN); auto|]. split.
  - intros u Hu. apply (bellman_fixed _ _ _ _ _ _ LN) in Hu as (Lu & Fu).
    apply (table_ext (N g)); auto. apply (fixed_unique _ _ _ Q HT); auto.
  - intros v0 D n EV (LD & HD).
    assert (TV : table g v0) by (apply (table_N _ _ _ _ _ _ LN); congruence).
    destruct (iterations_ok _ _ _ _ _ _ v0 n LN EV TV) as (vn & En & Tn & Kn).
    exists vn. split; auto. apply (table_N _ _ _ _ _ _ LN) in Tn. split; [congruence|].
    intros k Hk. rewrite Lv in *. change (nth k vn 0) with (look vn k). rewrite Kn by auto.
    apply (iter_error _ _ _ HT (look v0) (look v) D Fv); auto.
Qed.
Print Assumptions C30_value_iteration_converges.

(** If every successor is well inside of the limits or a grid state, c = 1. *)
Theorem C30_successors_inside : forall dl inv g project t P,
  learns dl inv g project t P -> 0 <= rl_gamma P < 1 ->
  sumn (dims g) (fun j => 2 * EPS / spacing g j) < 1 ->
  (forall s, is_vertex g s -> let y := successor P (rl_policy P s) s in
     well_inside g y \/ exists i, index_to_state g i = Ok y) ->
  exists v, bellman P g v /\ (forall u, bellman P g u -> u = v) /\
    forall v0 D n, rl_value P = TfTri (map (fun x => [x]) v0) t -> distance_at_most D v0 v ->
      exists vn, value_iterations n P = Ok (with_values P vn) /\
        distance_at_most (rl_gamma P ^ n * D) vn v.
Proof.
  intros dl inv g project t P LN G FM IN. destruct (ln_tri _ _ _ _ _ _ LN) as (v0 & SU).
  assert (W : forall s, is_vertex g s -> weights_nonnegative t (successor P (rl_policy P s) s)).
  { intros s Hs. destruct (IN s Hs) as [WI|(i & Ei)].
    - eapply inside_nonnegative; eauto. now apply (ln_next _ _ _ _ _ _ LN).
    - eapply vertex_nonnegative; eauto. }
  destruct (C30_value_iteration_converges dl inv g project t P 1 LN) as (v & A); try lra.
  { apply (nonneg_bounded _ _ _ _ _ _ LN W). }
  exists v. rewrite Rmult_1_r in A. exact A.
Qed.
Print Assumptions C30_successors_inside.

(** Starting with (0, 0) the distance to the solution (1/2, 3/2) is at most
    3/2 (1/2)^n. *)
Example C30_ex : exists t, TriSpec.setup dl0 inv1 g01 [[0]; [1]] 1 true t /\
  forall n, exists vn, value_iterations n (learner01 t (1 / 2) [0; 0]) = Ok (with_values (learner01 t (1 / 2) [0; 0]) vn) /\
    distance_at_most ((1 / 2) ^ n * (3 / 2)) vn [1 / 2; 3 / 2].
Proof.
  destruct (t01 true) as (t & SU). exists t. split; auto. intros n.
  destruct (C30_successors_inside dl0 inv1 g01 true t (learner01 t (1 / 2) [0; 0]) (learns01 t true (1 / 2) [0; 0] SU eq_refl))
    as (v & Bv & U & K).
  - cbn; lra.
  - unfold dims, g01; simpl. fold g01. rewrite g01_spacing by lia. pose proof EPS_small. lra.
  - intros s Hs. left. apply inside01. pose proof EPS_small. lra.
  - assert (v = [1 / 2; 3 / 2]). { symmetry. apply U. eapply bellman01; [exact SU|reflexivity|lra|lra]. }
    subst v. apply (K [0; 0] (3 / 2) n); auto. split; auto. intros k Hk.
    destruct k as [|[|k]]; [| |simpl in Hk; lia]; cbn; rewrite Rabs_left by lra; lra.
Qed.

(** gamma < 1 is not enough: with successors outside of the limits and no
    projection the values are extrapolated.  The state 1 has the successor 5, no
    rewards, gamma = 1/2: the only solution is 0, but the values explode. *)
Theorem C30_extrapolation_refuted :
  exists dl inv g t P v, learns dl inv g false t P /\ rl_gamma P = 1 / 2 /\
    bellman P g v /\ nth 1 v 0 = 0 /\
    forall n, exists vn, value_iterations n P = Ok (with_values P vn) /\ nth 1 vn 0 = (5 / 2) ^ n.
Proof.
  destruct (t01 false) as (t & SU).
  set (P := {| rl_policy := fun s => [5 * nth 0 s 0]; rl_dynamics := fun _ a => Exact a;
     rl_reward := fun _ _ => 0; rl_value := TfTri (map (fun x => [x]) [0; 1]) t; rl_gamma := 1 / 2 |}).
  assert (LN : learns dl0 inv1 g01 false t P).
  { constructor; [exists [[0]; [1]]; exact SU|exists [0; 1]; split; reflexivity|intros; reflexivity]. }
  assert (NN : N g01 = 2%nat) by reflexivity.
  assert (TOP : forall u, Top g01 t P u 0 = u 0%nat / 2 /\ Top g01 t P u 1 = (u 0%nat + (u 1%nat - u 0%nat) * 5) / 2).
  { intros u. unfold Top. rewrite !states01. cbn [rl_reward rl_policy rl_gamma successor rl_dynamics P nth].
    rewrite !(interp_ext _ _ _ _ _ _ _ SU u (look [u 0%nat; u 1%nat])); try reflexivity.
    - rewrite !(value01 _ _ _ _ _ SU) by discriminate. split; lra.
    - intros k Hk. change (nindex g01) with 2%Z in Hk. destruct k as [|[|k]]; [reflexivity|reflexivity|lia].
    - intros k Hk. change (nindex g01) with 2%Z in Hk. destruct k as [|[|k]]; [reflexivity|reflexivity|lia]. }
  exists dl0, inv1, g01, t, P, [0; 0]. split; auto. split; auto. split; [|split; auto].
  - apply (bellman_fixed _ _ _ _ _ _ LN). split; auto. intros k Hk. rewrite NN in Hk.
    destruct (TOP (look [0; 0])) as (T0 & T1). destruct k as [|[|k]]; [| |lia]; rewrite ?T0, ?T1; cbn; lra.
  - intros n. destruct (iterations_ok _ _ _ _ _ _ [0; 1] n LN eq_refl eq_refl) as (vn & En & Tn & Kn).
    exists vn. split; auto. change (nth 1 vn 0) with (look vn 1). rewrite Kn by (rewrite NN; lia).
    assert (I : iter (Top g01 t P) n (look [0; 1]) 0 = 0 /\ iter (Top g01 t P) n (look [0; 1]) 1 = (5 / 2) ^ n).
    { clear - TOP. induction n as [|n (I0 & I1)]; cbn [iter]; [split; reflexivity|].
      destruct (TOP (iter (Top g01 t P) n (look [0; 1]))) as (T0 & T1). rewrite T0, T1, I0, I1. cbn [pow]. split; lra. }
    apply I.
Qed.
Print Assumptions C30_extrapolation_refuted.

(** ** C31 *)
(** What optimize_value_function assigns is the value function of the policy. *)
Theorem C31_solves_bellman : forall dl inv g project t P solver P',
  learns dl inv g project t P -> 0 <= rl_gamma P < 1 ->
  (forall s, is_vertex g s -> weights_nonnegative t (successor P (rl_policy P s) s)) ->
  sound_solver solver ->
  optimize_value_function solver P = Ok P' ->
  exists v, P' = with_values P v /\ bellman P g v /\ (forall u, bellman P g u -> u = v) /\
    (* and the limit of value iteration *)
    forall v0 D n, rl_value P = TfTri (map (fun x => [x]) v0) t -> distance_at_most D v0 v ->
      exists vn, value_iterations n P = Ok (with_values P vn) /\
        distance_at_most (rl_gamma P ^ n * D) vn v.
Proof.
  intros dl inv g project t P solver P' LN G W SND E. unfold optimize_value_function in E.
  destruct (matrix_ok _ _ _ _ _ _ LN) as (M & EM & _). rewrite EM in E. cbn [bind] in E.
  destruct (solver _ _ M) as [v|] eqn:ES; [|discriminate]. injection E as <-.
  pose proof (SND _ _ _ _ ES) as OPT.
  apply (lp_iff _ _ _ _ _ _ LN G W M v EM) in OPT.
  exists v. split; auto. split; auto.
  destruct (C30_value_iteration_converges dl inv g project t P 1 LN) as (w & Bw & U & K); try lra.
  { apply (nonneg_bounded _ _ _ _ _ _ LN W). }
  assert (v = w) by auto. subst w. rewrite Rmult_1_r in K. auto.
Qed.
Print Assumptions C31_solves_bellman.

(** The linear program always has an optimum, so a solver that finds optima does
    not fail; any other answer of the solver is an OptimizationError. *)
Theorem C31_optimum_exists : forall dl inv g project t P solver,
  learns dl inv g project t P -> 0 <= rl_gamma P < 1 ->
  (forall s, is_vertex g s -> weights_nonnegative t (successor P (rl_policy P s) s)) ->
  complete_solver solver ->
  exists P', optimize_value_function solver P = Ok P'.
Proof.
  intros dl inv g project t P solver LN G W CMP. unfold optimize_value_function.
  destruct (matrix_ok _ _ _ _ _ _ LN) as (M & EM & _). rewrite EM. cbn [bind].
  destruct (C30_value_iteration_converges dl inv g project t P 1 LN) as (w & Bw & _); try lra.
  { apply (nonneg_bounded _ _ _ _ _ _ LN W). }
  destruct (CMP (lp_rewards P) (rl_gamma P) M) as (v & ES).
  { exists w. now apply (lp_iff _ _ _ _ _ _ LN G W M w EM). }
  unfold lp_rewards in ES. rewrite ES. eauto.
Qed.
Print Assumptions C31_optimum_exists.

Theorem C31_failure_is_reported : forall dl inv g project t P solver,
  learns dl inv g project t P ->
  (exists P', optimize_value_function solver P = Ok P') \/
  optimize_value_function solver P = Err OptimizationError.
Proof.
  intros dl inv g project t P solver LN. unfold optimize_value_function.
  destruct (matrix_ok _ _ _ _ _ _ LN) as (M & EM & _). rewrite EM. cbn [bind].
  destruct (solver _ _ M); eauto.
Qed.
Print Assumptions C31_failure_is_reported.

(** There is such a solver. *)
Lemma ideal_solver : exists solver, sound_solver solver /\ complete_solver solver.
Proof.
  destruct (choice (fun (x : list R * R * coo) (res : lp_result) =>
    match res with
    | Optimal v => lp_optimal (fst (fst x)) (snd (fst x)) (snd x) v
    | NotOptimal => ~ exists v, lp_optimal (fst (fst x)) (snd (fst x)) (snd x) v
    end)) as (f & Hf).
  { intros x. destruct (Classical_Prop.classic (exists v, lp_optimal (fst (fst x)) (snd (fst x)) (snd x) v)) as [(v & H)|H].
    - now exists (Optimal v).
    - now exists NotOptimal. }
  exists (fun r gamma M => f (r, gamma, M)). split.
  - intros r gamma M v E. specialize (Hf (r, gamma, M)). rewrite E in Hf. exact Hf.
  - intros r gamma M H. specialize (Hf (r, gamma, M)). cbn [fst snd] in Hf.
    destruct (f (r, gamma, M)); eauto. contradiction.
Qed.

Example C31_ex : exists t solver, TriSpec.setup dl0 inv1 g01 [[0]; [1]] 1 true t /\
  optimize_value_function solver (learner01 t (1 / 2) [0; 0])
    = Ok (with_values (learner01 t (1 / 2) [0; 0]) [1 / 2; 3 / 2]).
Proof.
  destruct (t01 true) as (t & SU). destruct ideal_solver as (solver & SND & CMP). exists t, solver. split; auto.
  pose proof (learns01 t true (1 / 2) [0; 0] SU eq_refl) as LN.
  assert (G : 0 <= rl_gamma (learner01 t (1 / 2) [0; 0]) < 1) by (cbn; lra).
  assert (W : forall s, is_vertex g01 s -> weights_nonnegative t (successor (learner01 t (1 / 2) [0; 0])
     (rl_policy (learner01 t (1 / 2) [0; 0]) s) s)).
  { intros s Hs. apply (nonneg01 _ _ SU). lra. }
  destruct (C31_optimum_exists _ _ _ _ _ _ solver LN G W CMP) as (P' & E). rewrite E. f_equal.
  destruct (C31_solves_bellman _ _ _ _ _ _ _ _ LN G W SND E) as (v & -> & _ & U & _). f_equal.
  symmetry. apply U. eapply bellman01; [exact SU|reflexivity|lra|lra].
Qed.

(** With gamma = 1 the linear program of the example is unbounded and the call
    fails whatever (sound) solver is used. *)
Theorem C31_gamma_one_refuted : exists dl inv g project t P,
  learns dl inv g project t P /\ rl_gamma P = 1 /\
  (forall s, is_vertex g s -> weights_nonnegative t (successor P (rl_policy P s) s)) /\
  forall solver, sound_solver solver -> optimize_value_function solver P = Err OptimizationError.
Proof.
  destruct (t01 true) as (t & SU). exists dl0, inv1, g01, true, t, (learner01 t 1 [0; 0]).
  pose proof (learns01 t true 1 [0; 0] SU eq_refl) as LN. split; auto. split; auto. split.
  { intros s Hs. apply (nonneg01 _ _ SU). lra. }
  intros solver SND. destruct (matrix_ok _ _ _ _ _ _ LN) as (M & EM & _).
  unfold optimize_value_function. rewrite EM. cbn [bind].
  destruct (solver _ _ M) as [v|] eqn:ES; auto. exfalso.
  destruct (SND _ _ _ _ ES) as (_ & OPT).
  set (c := sum v + 1).
  assert (F : lp_feasible (lp_rewards (learner01 t 1 [0; 0])) (rl_gamma (learner01 t 1 [0; 0])) M [c; c + 1]).
  { apply (feasible_iff _ _ _ _ _ _ LN M _ EM). split; [reflexivity|]. intros k Hk. change (N g01) with 2%nat in Hk.
    unfold Top. rewrite states01. cbn [rl_reward rl_policy rl_gamma learner01 successor rl_dynamics].
    rewrite (value01 _ _ _ _ _ SU) by (intros; lra).
    destruct k as [|[|k]]; [| |lia]; cbn; lra. }
  pose proof (OPT _ F) as L1.
  assert (F2 : lp_feasible (lp_rewards (learner01 t 1 [0; 0])) (rl_gamma (learner01 t 1 [0; 0])) M [0; 1]).
  { apply (feasible_iff _ _ _ _ _ _ LN M _ EM). split; [reflexivity|]. intros k Hk. change (N g01) with 2%nat in Hk.
    unfold Top. rewrite states01. cbn [rl_reward rl_policy rl_gamma learner01 successor rl_dynamics].
    rewrite (value01 _ _ _ _ _ SU) by (intros; lra).
    destruct k as [|[|k]]; [| |lia]; cbn; lra. }
  pose proof (OPT _ F2) as L2. unfold c in L1. unfold sum in L1 at 1. unfold sum in L2 at 1. simpl in L1, L2. lra.
Qed.
Print Assumptions C31_gamma_one_refuted.

(** ** C32 *)
(** The chosen action is a best one among the allowed ones, the first of them; if
    no option is allowed it is the first option.  The value [q j] of an option is
    what future_values gives for it. *)
Theorem C32_best_allowed_action : forall P gp options constraint actions k,
  discrete_policy_optimization P gp options constraint = Ok actions ->
  let n := length (all_points gp) in
  length actions = n /\
  ((k < n)%nat -> exists i (q : nat -> R), (i < length options)%nat /\
     nth k actions [] = nth i options [] /\
     (forall j, (j < length options)%nat ->
        future_value P None (Some (nth j options [])) None (nth k (all_points gp) []) = Ok (q j)) /\
     ((exists j, (j < length options)%nat /\ allowed constraint n (nth j options []) k) ->
        allowed constraint n (nth i options []) k /\
        forall j, (j < length options)%nat -> allowed constraint n (nth j options []) k ->
          q j <= q i /\ ((j < i)%nat -> q j < q i)) /\
     ((forall j, (j < length options)%nat -> ~ allowed constraint n (nth j options []) k) -> i = 0%nat)).
Proof.
  intros P gp options constraint actions k E n. destruct (greedy_spec _ _ _ _ _ E) as (L & K). split; auto.
Qed.
Print Assumptions C32_best_allowed_action.

(** The call succeeds if there are options, the successors have the right
    dimension, and the constraint returns one slack per state. *)
Theorem C32_succeeds : forall dl inv g project t P gp options constraint,
  learns dl inv g project t P -> valid_grid gp -> options <> [] ->
  (forall s a, is_vertex gp s -> In a options -> length (successor P a s) = dims g) ->
  match constraint with
  | None => True
  | Some f => forall a, In a options ->
      length (f (repeat a (length (all_points gp)))) = length (all_points gp)
  end ->
  exists actions, discrete_policy_optimization P gp options constraint = Ok actions.
Proof.
  intros dl inv g project t P gp options constraint LN V NE HD HC. apply greedy_runs; auto.
  - intros k a Hk Ha. destruct (ln_value _ _ _ _ _ _ LN) as (v & EV & TV).
    assert (L : length (successor P a (nth k (all_points gp) [])) = dims g).
    { apply HD; auto. apply (all_points_In gp V). apply nth_In; auto. }
    unfold future_value. rewrite EV. unfold successor in L.
    destruct (rl_dynamics P _ a); change (map (fun x => [x]) v) with (rows_of v);
      rewrite (value_state _ _ _ _ _ _ LN) by auto; cbn [bind]; eauto.
  - intros a Ha. unfold slack_ok. destruct constraint; auto.
Qed.
Print Assumptions C32_succeeds.

Theorem C32_no_options : forall P gp constraint, valid_grid gp ->
  discrete_policy_optimization P gp [] constraint = Err ValueError.
Proof.
  intros P gp constraint V. unfold discrete_policy_optimization. cbn [mapM bind map].
  pose proof (all_points_length gp V) as L. pose proof (nindex_pos gp V).
  destruct (length (all_points gp)) as [|n]; [simpl in L; lia|]. reflexivity.
Qed.
Print Assumptions C32_no_options.

(** A policy that is a triangulation takes the assigned actions at the states of
    its grid. *)
Theorem C32_policy_takes_the_actions : forall dl inv g values m project t P options constraint actions k s,
  TriSpec.setup dl inv g values m project t ->
  sumn (dims g) (fun j => 2 * EPS / spacing g j) < 1 ->
  Forall (fun a => length a = m) options ->
  discrete_policy_optimization P g options constraint = Ok actions ->
  index_to_state g (Z.of_nat k) = Ok s ->
  tf_eval (tf_assign (TfTri values t) actions) [s] = Ok [nth k actions []].
Proof.
  intros dl inv g values m project t P options constraint actions k s SU FM FO E ES.
  pose proof (su_grid _ _ _ _ _ _ _ SU) as V. pose proof (all_points_length g V) as LP.
  destruct (greedy_spec _ _ _ _ _ E) as (L & K).
  assert (SR : TriSpec.setup dl inv g actions m project (with_params t actions)).
  { apply (setup_rows _ _ _ _ _ _ _ _ _ SU); [lia|]. apply Forall_forall. intros a Ha.
    destruct (In_nth _ _ [] Ha) as (i & Hi & <-). destruct (K i ltac:(lia)) as (j & q & Hj & -> & _).
    rewrite Forall_forall in FO. apply FO, nth_In; auto. }
  pose proof (C10_vertex_values _ _ _ _ _ _ _ _ _ SR FM ES) as C. rewrite Nat2Z.id in C.
  unfold tf_eval, tri_eval, tf_assign in *. cbn [mapM] in *. cbn [tf_inner]. now rewrite tf_is_tri.
Qed.
Print Assumptions C32_policy_takes_the_actions.

Lemma future01 t gamma a b s x : TriSpec.setup dl0 inv1 g01 [[0]; [1]] 1 true t -> 0 <= x <= 1 ->
  future_value (learner01 t gamma [a; b]) None (Some [x]) None s = Ok (nth 0 s 0 + gamma * (a + (b - a) * x)).
Proof.
  intros SU Hx. unfold future_value. cbn [learner01 rl_dynamics rl_value rl_reward rl_gamma].
  pose proof (learns01 t true gamma [a; b] SU eq_refl) as LN.
  change (map (fun x => [x]) [a; b]) with (rows_of [a; b]).
  rewrite (value_state _ _ _ _ _ _ LN) by reflexivity. cbn [bind].
  now rewrite (value01 _ _ _ _ _ SU) by auto.
Qed.
(** The options 1/4, 3/4, 1/2; values increase, so 3/4 is the best; if the
    constraint forbids actions above 5/8 it is 1/2. *)
Example C32_ex : exists t, TriSpec.setup dl0 inv1 g01 [[0]; [1]] 1 true t /\
  discrete_policy_optimization (learner01 t (1 / 2) [0; 1]) g01 [[1/4]; [3/4]; [1/2]] None = Ok [[3/4]; [3/4]] /\
  discrete_policy_optimization (learner01 t (1 / 2) [0; 1]) g01 [[1/4]; [3/4]; [1/2]]
    (Some (map (fun a => 5/8 - nth 0 a 0))) = Ok [[1/2]; [1/2]].
Proof.
  destruct (t01 true) as (t & SU). exists t. split; auto.
  unfold discrete_policy_optimization, option_values. rewrite states01.
  cbn [mapM]. rewrite !future01 by (auto; lra).
  split; cbn; repeat (progress unfold Rltb; repeat (destruct Rlt_dec; try (exfalso; lra)); cbn); reflexivity.
Qed.

(** If no option is allowed an unsafe one is assigned. *)
Theorem C32_unsafe_never_selected_refuted : exists t actions,
  TriSpec.setup dl0 inv1 g01 [[0]; [1]] 1 true t /\
  let constraint := Some (map (fun _ : list R => -1)) in
  discrete_policy_optimization (learner01 t (1 / 2) [0; 1]) g01 [[1/4]; [3/4]] constraint = Ok actions /\
  ~ allowed constraint 2 (nth 0 actions []) 0.
Proof.
  destruct (t01 true) as (t & SU). exists t, [[1/4]; [1/4]]. split; auto. cbv zeta. split.
  - unfold discrete_policy_optimization, option_values. rewrite states01.
    cbn [mapM]. rewrite !future01 by (auto; lra).
    cbn; repeat (progress unfold Rltb; repeat (destruct Rlt_dec; try (exfalso; lra)); cbn); reflexivity.
  - cbn. lra.
Qed.
Print Assumptions C32_unsafe_never_selected_refuted.

(** ** C33 *)
(** Policy improvement: [v] is the value function of the policy, the options
    contain the (allowed) actions of the policy, the new policy [p'] takes the
    returned actions at the grid states, and [v'] is its value function. *)
Theorem C33_greedy_improves : forall dl inv g project t P p' v v' options constraint actions,
  learns dl inv g project t P -> 0 <= rl_gamma P < 1 ->
  rl_value P = TfTri (map (fun x => [x]) v) t -> bellman P g v ->
  discrete_policy_optimization P g options constraint = Ok actions ->
  (forall k s, index_to_state g (Z.of_nat k) = Ok s ->
     In (rl_policy P s) options /\ allowed constraint (length (all_points g)) (rl_policy P s) k) ->
  (forall k s, index_to_state g (Z.of_nat k) = Ok s -> p' s = nth k actions []) ->
  (forall s, is_vertex g s -> length (successor P (p' s) s) = dims g /\
     weights_nonnegative t (successor P (p' s) s)) ->
  bellman (with_policy P p') g v' ->
  forall k, nth k v 0 <= nth k v' 0.
Proof.
  intros dl inv g project t P p' v v' options constraint actions LN G EV BV D OLD HP HN BV' k.
  assert (LN' : learns dl inv g project t (with_policy P p')).
  { constructor; try apply LN. intros s Hs. apply (HN s Hs). }
  rewrite (points_N _ _ _ _ _ _ LN) in OLD.
  destruct (Nat.lt_ge_cases k (N g)) as [Hk|Hk].
  - apply (improve dl inv g project t P p' LN LN' G (fun s Hs => proj2 (HN s Hs)) v v' options constraint actions); auto.
  - apply (bellman_fixed _ _ _ _ _ _ LN) in BV as (L & _). apply (bellman_fixed _ _ _ _ _ _ LN') in BV' as (L' & _).
    rewrite !nth_overflow by lia. lra.
Qed.
Print Assumptions C33_greedy_improves.

(** From the policy going to 1/2 (values 1/2 and 3/2) to the one going to 3/4
    (values 3/4 and 7/4). *)
Example C33_ex : exists t, TriSpec.setup dl0 inv1 g01 [[0]; [1]] 1 true t /\
  let P := learner01 t (1 / 2) [1/2; 3/2] in
  bellman P g01 [1/2; 3/2] /\
  discrete_policy_optimization P g01 [[1/2]; [3/4]] None = Ok [[3/4]; [3/4]] /\
  bellman (with_policy P (fun _ => [3/4])) g01 [3/4; 7/4].
Proof.
  destruct (t01 true) as (t & SU). exists t. split; auto. cbv zeta. split; [|split].
  - eapply bellman01; [exact SU|reflexivity|lra|lra].
  - unfold discrete_policy_optimization, option_values. rewrite states01.
    cbn [mapM]. rewrite !future01 by (auto; lra).
    cbn; repeat (progress unfold Rltb; repeat (destruct Rlt_dec; try (exfalso; lra)); cbn); reflexivity.
  - split; [reflexivity|]. intros k s E. exists (3/2). split.
    + unfold tf_eval, tf_assign. cbn [mapM rl_value learner01 tf_inner successor rl_dynamics rl_policy with_policy].
      change (map (fun x => [x]) [3/4; 7/4]) with (rows_of [3/4; 7/4]).
      rewrite (value_ok _ _ _ _ _ _ _ SU [3/4; 7/4] [3/4] eq_refl eq_refl). cbn [bind].
      rewrite (value01 _ _ _ _ _ SU) by (intros; lra). do 3 f_equal. lra.
    + destruct (points01 k s E) as [(-> & ->)|(-> & ->)]; cbn; lra.
Qed.

(** ** C34 *)
Theorem C34_bellmann_error : forall P states e,
  bellmann_error P states = Ok e ->
  0 <= e /\
  (e = 0 <-> forall s, In s states -> exists v, value_at_state (rl_value P) s = Ok v /\
     exists e', value_at_state (rl_value P) (successor P (rl_policy P s) s) = Ok e' /\
       v = rl_reward P s (rl_policy P s) + rl_gamma P * e').
Proof.
  intros P states e E. destruct (bellmann_ok P states e E) as (A & B). split; auto. rewrite B.
  assert (OK : forall s, In s states -> exists x y, future_value P None None None s = Ok x /\ value_at_state (rl_value P) s = Ok y).
  { unfold bellmann_error in E. destruct (mapM (future_value _ _ _ _) states) as [tg|] eqn:ET; [|discriminate].
    cbn [bind] in E. destruct (mapM (value_at_state _) states) as [vl|] eqn:EV; [|discriminate].
    destruct (mapM_nth_ok _ _ _ [] 0 ET) as [_ NT]. destruct (mapM_nth_ok _ _ _ [] 0 EV) as [_ NV].
    intros s Hs. destruct (In_nth _ _ [] Hs) as (k & Hk & <-). rewrite NT, NV by auto. eauto. }
  assert (FV : forall s, future_value P None None None s =
    do v <- value_at_state (rl_value P) (successor P (rl_policy P s) s);
    Ok (rl_reward P s (rl_policy P s) + rl_gamma P * v)).
  { intros s. unfold future_value, successor. now destruct (rl_dynamics P s (rl_policy P s)). }
  split; intros H s Hs; specialize (H s Hs); destruct (OK s Hs) as (x & y & Ex & Ey); rewrite FV in *.
  - destruct (value_at_state (rl_value P) (successor P (rl_policy P s) s)) as [e'|]; [|discriminate].
    cbn [bind] in *. exists y. split; auto. exists e'. split; auto. congruence.
  - destruct H as (v & Ev & e' & Ee & Hv). rewrite Ev, Ee. cbn [bind]. congruence.
Qed.
Print Assumptions C34_bellmann_error.

(** On the grid states: zero iff the values solve the Bellman equation. *)
Theorem C34_zero_iff_bellman : forall dl inv g project t P v,
  learns dl inv g project t P -> sumn (dims g) (fun j => 2 * EPS / spacing g j) < 1 ->
  rl_value P = TfTri (map (fun x => [x]) v) t -> table g v ->
  exists e, bellmann_error P (all_points g) = Ok e /\ 0 <= e /\ (e = 0 <-> bellman P g v).
Proof.
  intros dl inv g project t P v LN FM EV TV. destruct (ln_tri _ _ _ _ _ _ LN) as (v0 & SU).
  pose proof (setup_params _ _ _ _ _ _ _ v SU TV) as SV.
  assert (VAL : forall k, (k < N g)%nat -> value_at_state (rl_value P) (nth k (all_points g) []) = Ok (look v k)).
  { intros k Hk. rewrite EV. unfold value_at_state. change (map (fun x => [x]) v) with (rows_of v). rewrite tf_is_tri.
    pose proof (C10_vertex_values _ _ _ _ _ _ _ _ _ SV FM (st_index _ _ _ _ _ _ LN k Hk)) as C. rewrite Nat2Z.id in C.
    unfold tri_eval in C. cbn [mapM] in C. destruct (tri_eval1 _ _); [|discriminate]. cbn [bind] in *.
    injection C as ->. unfold rows_of, look. rewrite (nth_map_lt _ _ _ 0); [reflexivity|].
    apply (table_N _ _ _ _ _ _ LN) in TV. lia. }
  assert (FUT : forall k, (k < N g)%nat -> future_value P None None None (nth k (all_points g) []) = Ok (Top g t P (look v) k)).
  { intros k Hk. now apply (future_ok _ _ _ _ _ _ LN). }
  destruct (bellmann_error P (all_points g)) as [e|] eqn:E.
  - exists e. split; auto. destruct (bellmann_ok _ _ _ E) as (A & B). split; auto. rewrite B, (bellman_fixed _ _ _ _ _ _ LN).
    pose proof (points_N _ _ _ _ _ _ LN) as PN. split.
    + intros H. split; [now apply (table_N _ _ _ _ _ _ LN)|]. intros k Hk.
      specialize (H (nth k (all_points g) []) ltac:(apply nth_In; lia)). rewrite FUT, VAL in H by auto. congruence.
    + intros (L & F) s Hs. destruct (In_nth _ _ [] Hs) as (k & Hk & <-). rewrite FUT, VAL by lia. rewrite F by lia. reflexivity.
  - exfalso. unfold bellmann_error in E.
    rewrite (mapM_points _ _ _ _ _ _ LN _ (Top g t P (look v)) FUT) in E. cbn [bind] in E.
    rewrite (mapM_points _ _ _ _ _ _ LN _ (look v) VAL) in E. discriminate.
Qed.
Print Assumptions C34_zero_iff_bellman.

(** The error 1 for the values (1/2, 1/2) and 0 for the solution. *)
Example C34_ex : exists t, TriSpec.setup dl0 inv1 g01 [[0]; [1]] 1 true t /\
  bellman (learner01 t (1 / 2) [1/2; 3/2]) g01 [1/2; 3/2] /\
  bellmann_error (learner01 t (1 / 2) [1/2; 3/2]) (all_points g01) = Ok 0 /\
  ~ bellman (learner01 t (1 / 2) [1/2; 1/2]) g01 [1/2; 1/2].
Proof.
  destruct (t01 true) as (t & SU). exists t. split; auto.
  assert (B : bellman (learner01 t (1 / 2) [1/2; 3/2]) g01 [1/2; 3/2]) by (eapply bellman01; [exact SU|reflexivity|lra|lra]).
  assert (FM : sumn (dims g01) (fun j => 2 * EPS / spacing g01 j) < 1).
  { unfold dims, g01; simpl. fold g01. rewrite g01_spacing by lia. pose proof EPS_small. lra. }
  split; auto. split.
  - destruct (C34_zero_iff_bellman _ _ _ _ _ _ _ (learns01 t true (1/2) [1/2; 3/2] SU eq_refl) FM eq_refl eq_refl)
      as (e & E & _ & Z). rewrite E. f_equal. now apply Z.
  - intros B2. assert (index_to_state g01 (Z.of_nat 0) = Ok [0]) as E0.
    { pose proof (all_points_nth g01 g01_valid 0 ltac:(change (nindex g01) with 2%Z; lia)) as A. now rewrite states01 in A. }
    apply (bellman_fixed _ _ _ _ _ _ (learns01 t true (1/2) [1/2; 1/2] SU eq_refl)) in B2 as (_ & F).
    specialize (F 0%nat ltac:(change (N g01) with 2%nat; lia)). unfold Top in F.
    cbn [rl_reward rl_policy rl_gamma learner01 successor rl_dynamics] in F. rewrite states01 in F.
    rewrite (value01 _ _ _ _ _ SU) in F by (intros; lra). cbn in F. lra.
Qed.

(** The target is held fixed in the gradient: moving the values by h in the
    prediction only changes the error by the square formula, whatever the target
    would do. *)
Theorem C34_semi_gradient : forall dl inv g project t P v h states,
  learns dl inv g project t P -> rl_value P = TfTri (map (fun x => [x]) v) t ->
  table g v -> table g h ->
  Forall (fun s => length s = dims g) states ->
  (forall s, In s states -> length (successor P (rl_policy P s) s) = dims g) ->
  exists (delta direction : list R -> R),
    (forall s, In s states -> exists target value,
       future_value P None None None s = Ok target /\ value_at_state (rl_value P) s = Ok value /\
       delta s = target - value /\
       value_at_state (rl_value (with_values P h)) s = Ok (direction s)) /\
    forall r, bellmann_frozen P states (map2 (fun x y => x + r * y) v h) =
      Ok (sum (map (fun s => delta s * delta s) states)
          - r * (2 * sum (map (fun s => delta s * direction s) states))
          + r * r * sum (map (fun s => direction s * direction s) states)).
Proof.
  intros dl inv g project t P v h states LN EV TV TH FS FN. destruct (ln_tri _ _ _ _ _ _ LN) as (v0 & SU).
  set (target := fun s => rl_reward P s (rl_policy P s) + rl_gamma P * interp t (look v) (successor P (rl_policy P s) s)).
  assert (FT : forall s, In s states -> future_value P None None None s = Ok (target s)).
  { intros s Hs. specialize (FN s Hs). unfold future_value, target. rewrite EV. unfold successor in *.
    destruct (rl_dynamics P s _); change (map (fun x => [x]) v) with (rows_of v);
      rewrite (value_state _ _ _ _ _ _ LN) by auto; reflexivity. }
  rewrite Forall_forall in FS.
  exists (fun s => target s - interp t (look v) s), (fun s => interp t (look h) s). split.
  - intros s Hs. exists (target s), (interp t (look v) s). split; auto. split.
    { rewrite EV. apply (value_state _ _ _ _ _ _ LN); auto. }
    split; auto. rewrite (rl_value_with _ _ _ _ _ _ h LN). apply (value_state _ _ _ _ _ _ LN); auto.
  - intros r. unfold bellmann_frozen.
    assert (ET : mapM (future_value P None None None) states = Ok (map target states)).
    { apply mapM_ok. auto. }
    rewrite ET. cbn [bind].
    apply (table_N _ _ _ _ _ _ LN) in TV. apply (table_N _ _ _ _ _ _ LN) in TH.
    set (u := map2 (fun x y => x + r * y) v h).
    assert (LU : length u = N g) by (unfold u; rewrite map2_length; lia).
    assert (EVL : mapM (value_at_state (rl_value (with_values P u))) states =
      Ok (map (fun s => interp t (look v) s + r * interp t (look h) s) states)).
    { apply mapM_ok. intros s Hs. rewrite (rl_value_with _ _ _ _ _ _ u LN).
      rewrite (value_state _ _ _ _ _ _ LN) by (auto; now apply (table_N _ _ _ _ _ _ LN)). f_equal.
      rewrite (interp_ext _ _ _ _ _ _ _ SU (look u) (fun k => 1 * look v k + r * look h k)); auto.
      - rewrite interp_linear. lra.
      - intros k Hk. unfold look, u. assert (k < N g)%nat by (unfold N; lia).
        rewrite (nth_map2 _ _ _ _ 0 0) by lia. lra. }
    rewrite EVL. cbn [bind]. f_equal. clear. induction states as [|s l IH]; cbn [map map2 sum fold_right]; [lra|].
    repeat match goal with |- context [fold_right Rplus 0 ?l] => change (fold_right Rplus 0 l) with (sum l) end.
    rewrite IH. lra.
Qed.
Print Assumptions C34_semi_gradient.

(** ** C35 *)
Theorem C35_mean_dynamics : forall P policy action s v,
  let a := match action, policy with
           | Some a, _ => a | None, Some p => p s | None, None => rl_policy P s end in
  value_at_state (rl_value P) (successor P a s) = Ok v ->
  future_value P policy action None s = Ok (rl_reward P s a + rl_gamma P * v).
Proof.
  intros P policy action s v a E. unfold future_value, successor in *.
  destruct action as [a'|]; [|destruct policy as [p|]]; cbv zeta in a; subst a; cbv zeta;
    (destruct (rl_dynamics P s _); rewrite E; reflexivity).
Qed.
Print Assumptions C35_mean_dynamics.

(** The penalised value is a lower bound: if the true successor [y] is within
    the predicted bounds and the Lyapunov function has the constants the object
    was given, the value is at most reward + gamma v minus the multiplier times
    the amount by which the true decrease misses the threshold. *)
Theorem C35_lyapunov_penalty : forall P policy action L mult s v mean err y,
  let a := match action, policy with
           | Some a, _ => a | None, Some p => p s | None, None => rl_policy P s end in
  rl_dynamics P s a = Uncertain mean err ->
  value_at_state (rl_value P) mean = Ok v -> 0 <= mult ->
  within y mean err ->
  length (coordinate_constants L mean) = length mean ->
  Forall (Rle 0) (coordinate_constants L mean) ->
  Rabs (lyapunov_function L y - lyapunov_function L mean) <= wdist (coordinate_constants L mean) y mean ->
  exists r, future_value P policy action (Some (L, mult)) s = Ok r /\
    r <= rl_reward P s a + rl_gamma P * v
         - mult * (lyapunov_function L y - lyapunov_function L s - threshold L s (tau L)).
Proof.
  intros P policy action L mult s v mean err y a ED EV HM HW HL HP HV.
  set (L' := {| lyapunov_function := lyapunov_function L; CertModel.policy := CertModel.policy L;
     dynamics := fun _ _ => Uncertain mean err; lip_v := lip_v L; lip_f := lip_f L; tau := tau L |}).
  pose proof (model_right_decrease L' (fun _ => y) s) as C.
  assert (D : lyapunov_function L y - lyapunov_function L s <= v_decrease_bound L s (Uncertain mean err)).
  { apply C. unfold model_right. cbn [dynamics L']. auto. }
  exists (rl_reward P s a + rl_gamma P * v - mult * (v_decrease_bound L s (Uncertain mean err) - threshold L s (tau L))).
  split.
  - unfold future_value. destruct action as [a'|]; [|destruct policy as [p|]]; cbv zeta in a; subst a; cbv zeta;
      rewrite ED, EV; reflexivity.
  - apply Rplus_le_compat_l. apply Ropp_le_contravar. apply Rmult_le_compat_l; lra.
Qed.
Print Assumptions C35_lyapunov_penalty.

(** Without error bounds (err = 0) the value is exact. *)
Theorem C35_zero_error_exact : forall P L mult s v mean,
  rl_dynamics P s (rl_policy P s) = Uncertain mean (repeat 0 (length mean)) ->
  value_at_state (rl_value P) mean = Ok v ->
  future_value P None None (Some (L, mult)) s =
    Ok (rl_reward P s (rl_policy P s) + rl_gamma P * v
        - mult * (lyapunov_function L mean - lyapunov_function L s - threshold L s (tau L))).
Proof.
  intros P L mult s v mean ED EV. unfold future_value. rewrite ED, EV. cbn [bind].
  assert (Z : weighted_error L mean (repeat 0 (length mean)) = 0).
  { unfold weighted_error.
    assert (Z1 : forall c n, sum (map (fun e => c * e) (repeat 0 n)) = 0).
    { intros c n. induction n; simpl; [reflexivity|]. rewrite IHn. lra. }
    assert (Z2 : forall n r, sum (map2 Rmult r (repeat 0 n)) = 0).
    { induction n as [|n IH]; intros [|x r]; simpl; try reflexivity. rewrite IH. lra. }
    destruct (lip_v L) as [c|f]; [apply Z1|]. destruct (f mean) as [|c [|]]; [apply Z2|apply Z1|apply Z2]. }
  unfold v_decrease_bound, v_decrease_confidence. rewrite Z. do 3 f_equal. lra.
Qed.
Print Assumptions C35_zero_error_exact.

Definition uncertain01 (t : tri) : learner :=
  {| rl_policy := fun _ => [1 / 2]; rl_dynamics := fun _ a => Uncertain a [1 / 8];
     rl_reward := fun s _ => nth 0 s 0; rl_value := TfTri [[0]; [1]] t; rl_gamma := 1 / 2 |}.
Definition lyap01 : CertModel.setup :=
  {| lyapunov_function := fun x => Rabs (nth 0 x 0); CertModel.policy := fun _ => [];
     dynamics := fun x _ => Exact x; lip_v := LvConst 1; lip_f := LfConst 0; tau := 1 / 4 |}.
(** reward 1, value 1/2 at the mean 1/2; decrease bound 1/2 - 1 + 1/8, threshold
    -1/4. *)
Example C35_ex : exists t, TriSpec.setup dl0 inv1 g01 [[0]; [1]] 1 true t /\
  future_value (uncertain01 t) None None None [1] = Ok (5 / 4) /\
  future_value (uncertain01 t) None None (Some (lyap01, 2)) [1] = Ok (3 / 2) /\
  within [5 / 8] [1 / 2] [1 / 8] /\
  coordinate_constants lyap01 [1 / 2] = [1].
Proof.
  destruct (t01 true) as (t & SU). exists t. split; auto.
  assert (E : value_at_state (TfTri [[0]; [1]] t) [1 / 2] = Ok (1 / 2)).
  { pose proof (learns01 t true (1 / 2) [0; 1] SU eq_refl) as LN.
    change [[0]; [1]] with (rows_of [0; 1]). rewrite (value_state _ _ _ _ _ _ LN) by reflexivity.
    rewrite (value01 _ _ _ _ _ SU) by (intros; lra). f_equal. lra. }
  unfold future_value, uncertain01. cbn [rl_policy rl_dynamics rl_value rl_reward rl_gamma]. rewrite E. cbn [bind].
  split; [f_equal; cbn; lra|]. split.
  - f_equal. unfold v_decrease_bound, threshold, lv_scalar, lf_scalar. cbn. rewrite !Rabs_pos_eq by lra. lra.
  - split; [|reflexivity]. split; [reflexivity|]. split; [reflexivity|].
    intros [|j] Hj; [|simpl in Hj; lia]. cbn. rewrite Rabs_pos_eq; lra.
Qed.

(** With deterministic dynamics a Lyapunov argument makes the call fail. *)
Theorem C35_deterministic_lyapunov_refuted :
  (forall P policy action L mult s y v,
     let a := match action, policy with
              | Some a, _ => a | None, Some p => p s | None, None => rl_policy P s end in
     rl_dynamics P s a = Exact y -> value_at_state (rl_value P) y = Ok v ->
     future_value P policy action (Some (L, mult)) s = Err NameError) /\
  exists t, TriSpec.setup dl0 inv1 g01 [[0]; [1]] 1 true t /\
    future_value (learner01 t (1 / 2) [0; 1]) None None None [1] = Ok (5 / 4) /\
    future_value (learner01 t (1 / 2) [0; 1]) None None (Some (lyap01, 1)) [1] = Err NameError.
Proof.
  assert (H : forall P policy action L mult s y v,
     let a := match action, policy with
              | Some a, _ => a | None, Some p => p s | None, None => rl_policy P s end in
     rl_dynamics P s a = Exact y -> value_at_state (rl_value P) y = Ok v ->
     future_value P policy action (Some (L, mult)) s = Err NameError).
  { intros P policy action L mult s y v a ED EV. unfold future_value.
    destruct action as [a'|]; [|destruct policy as [p|]]; cbv zeta in a; subst a; cbv zeta;
      rewrite ED, EV; reflexivity. }
  split; auto. destruct (t01 true) as (t & SU). exists t. split; auto.
  change (future_value (learner01 t (1 / 2) [0; 1]) None None None [1])
    with (future_value (learner01 t (1 / 2) [0; 1]) None (Some [1 / 2]) None [1]).
  rewrite (future01 _ _ _ _ _ _ SU) by lra. split; [f_equal; cbn; lra|].
  pose proof (learns01 t true (1 / 2) [0; 1] SU eq_refl) as LN.
  apply (H _ None None lyap01 1 [1] [1 / 2] (interp t (look [0; 1]) [1 / 2])); [reflexivity|].
  cbn [learner01 rl_value]. change (map (fun x => [x]) [0; 1]) with (rows_of [0; 1]).
  apply (value_state _ _ _ _ _ _ LN); reflexivity.
Qed.
Print Assumptions C35_deterministic_lyapunov_refuted.
