(** C74-C76: programs around [PolicyIteration]. *)
From Coq Require Import Reals List Bool Arith ZArith Lia Lra.
From Verif Require Import Prelude NumModel NumProofs GridModel GridSpec SparseSpec GridProofs TriModel TriSpec
  TriProofs TriProofs2 TriInstances SafeModel CertModel ListFacts Bellman BellmanOpt RLModel RLSpec RLProofs
  Properties.GridProps Properties.TriProps Properties.RLProps PIModel PISpec PIProofs.
Import ListNotations.
Local Open Scope nat_scope.
Local Open Scope R_scope.

Lemma plans_looks dl dl' inv g project project' t t' m options constraint A :
  plans dl dl' inv g project project' t t' m options constraint A ->
  exists v actions, looks g t t' m (ag_now A) A v actions /\ has_values A t v.
Proof.
  intros PL. destruct (pl_value _ _ _ _ _ _ _ _ _ _ _ _ PL) as (v & EV & TV).
  destruct (pl_policy _ _ _ _ _ _ _ _ _ _ _ _ PL) as (acts & EP & LP & FP).
  exists v, acts. split; auto. constructor; auto.
  - now apply (table_iff _ _ _ _ _ _ _ _ _ _ _ _ PL).
  - unfold RLProofs.N. lia.
  - apply PL.
Qed.
Lemma learner_is_LR g t t' m A v actions : looks g t t' m (ag_now A) A v actions ->
  learner_of A = LR t (ag_now A) (policy_of (TfTri actions t')) v.
Proof. apply learner_LR. Qed.

(** ** C74 *)
(** There is exactly one solution of the optimality equation; no permitted policy
    is worth more in any state, and one is worth as much in all states. *)
Theorem C74_optimal_exists : forall dl dl' inv g project project' t t' m options constraint A,
  plans dl dl' inv g project project' t t' m options constraint A ->
  exists v, optimal (learner_of A) g options constraint v /\
    (forall u, optimal (learner_of A) g options constraint u -> u = v) /\
    (forall p u, permitted_policy g options constraint p ->
       bellman (with_policy (learner_of A) p) g u -> forall k, nth k u 0 <= nth k v 0) /\
    exists p, permitted_policy g options constraint p /\ bellman (with_policy (learner_of A) p) g v.
Proof.
  intros dl dl' inv g project project' t t' m options constraint A PL.
  destruct (plans_looks _ _ _ _ _ _ _ _ _ _ _ _ PL) as (v0 & acts & K & HV).
  rewrite (learner_is_LR _ _ _ _ _ _ _ K). set (a0 := ag_now A) in *. set (n := RLProofs.N g).
  pose proof (lk_table _ _ _ _ _ _ _ _ K) as L0.
  pose proof (choices_ne _ _ _ _ _ _ _ _ _ _ _ _ PL) as NE.
  pose proof (Q_close _ _ _ _ _ _ _ _ _ _ _ _ _ PL eq_refl) as QC.
  pose proof (Q_mono _ _ _ _ _ _ _ _ _ _ _ _ _ PL eq_refl) as QM.
  pose proof (gam1 _ _ _ _ _ _ _ _ _ _ _ _ _ PL eq_refl) as Hq. fold a0 in QC, QM, Hq.
  destruct (optimum n _ _ NE _ _ Hq QC) as (w & W & U).
  set (v := map w (seq 0 n)).
  assert (Lv : length v = n) by (unfold v; now rewrite map_length, seq_length).
  assert (Ev : forall k, (k < n)%nat -> look v k = w k) by (intros; now apply look_seq).
  pose proof (best_close n _ _ NE _ _ QC) as BC.
  assert (Fv : fixed n (best _ (choices g options constraint) (Q g t a0)) (look v)).
  { intros k Hk. rewrite (T_ext n _ _ BC _ w) by auto. rewrite W by auto. now rewrite Ev. }
  exists v. split; [|split; [|split]].
  - apply (optimal_iff _ _ _ _ _ _ _ _ _ _ _ _ _ PL eq_refl); auto.
  - intros u Hu. apply (optimal_iff _ _ _ _ _ _ _ _ _ _ _ _ _ PL eq_refl) in Hu as (Lu & Fu); auto.
    apply (table_ext n); auto. intros k Hk. rewrite (U _ Fu k Hk). now rewrite Ev.
  - intros p u PP BU k.
    assert (GC : good_choice n _ (choices g options constraint) (fun k => p (nth k (all_points g) []))).
    { intros j Hj. apply choices_In. apply PP. now apply (pt_index _ _ _ _ _ _ _ _ _ _ _ _ PL). }
    apply (bellman_follow _ _ _ _ _ _ _ _ _ _ _ _ _ PL eq_refl) in BU as (Lu & Fu); auto.
    2:{ intros j Hj. apply GC, choices_In in Hj. apply Hj. }
    destruct (Nat.lt_ge_cases k n) as [Hk|Hk].
    + apply (policy_below n _ _ NE _ _ Hq QC QM (look v) Fv _ (look u) GC Fu k Hk).
    + rewrite !nth_overflow; [lra| |]; unfold n in *; lia.
  - destruct (improve_ok _ _ _ _ _ _ _ _ _ _ _ _ _ PL eq_refl _ _ _ (set_value_looks _ _ _ _ _ _ _ _ _ K Lv))
      as (A' & acts' & E & K' & _ & GR). fold a0 in GR, K'.
    exists (policy_of (TfTri acts' t')). 
    assert (PT : forall k, (k < n)%nat -> policy_of (TfTri acts' t') (nth k (all_points g) []) = nth k acts' []).
    { intros k Hk. apply (policy_takes _ _ _ _ _ _ _ _ _ _ _ _ PL); auto; apply K'. }
    split.
    + intros k s ES. destruct (index_pt _ _ _ _ _ _ _ _ _ _ _ _ PL k s ES) as (Hk & ->). rewrite PT by auto.
      apply choices_In. now apply (proj1 GR).
    + apply (bellman_follow _ _ _ _ _ _ _ _ _ _ _ _ _ PL eq_refl); auto.
      { intros k Hk. rewrite PT by auto. apply (proj1 GR), choices_In in Hk. apply Hk. }
      split; auto. intros k Hk. rewrite <- Fv by auto. rewrite <- (proj2 GR k Hk). unfold follow. now rewrite PT.
Qed.
Print Assumptions C74_optimal_exists.

(** The loop: solve for the values of the policy, then take the best option.  The
    values never get worse, their distance to the optimum shrinks by gamma in each
    round, and after (number of options)^(number of states) rounds they are
    optimal, as is the policy. *)
Theorem C74_policy_iteration : forall dl dl' inv g project project' t t' m options constraint A solver v u0 D,
  plans dl dl' inv g project project' t t' m options constraint A ->
  sound_solver solver -> complete_solver solver ->
  permitted_policy g options constraint (rl_policy (learner_of A)) ->
  optimal (learner_of A) g options constraint v ->
  bellman (learner_of A) g u0 -> below_by D u0 v ->
  exists vs : nat -> list R,
    (forall n, exists B,
       run solver (MakeSolve :: rounds (S n) [Eval (length (ag_ops A)); Improve options constraint]) A = Ok B /\
       has_values B t (vs n) /\
       permitted_policy g options constraint (rl_policy (learner_of B)) /\
       bellman (learner_of B) g (vs (S n))) /\
    vs 0%nat = u0 /\
    (forall n k, nth k (vs n) 0 <= nth k (vs (S n)) 0) /\
    (forall n, below_by (at_gamma (ag_now A) ^ n * D) (vs n) v) /\
    (forall n, (length options ^ Z.to_nat (nindex g) <= n)%nat -> vs n = v).
Proof.
  intros dl dl' inv g project project' t t' m options constraint A solver v u0 D PL SND CMP PP OPT BU BD.
  destruct (plans_looks _ _ _ _ _ _ _ _ _ _ _ _ PL) as (v0 & acts & K & HV).
  rewrite (learner_is_LR _ _ _ _ _ _ _ K) in *. set (a0 := ag_now A) in *. set (n := RLProofs.N g).
  pose proof (lk_table _ _ _ _ _ _ _ _ K) as L0.
  pose proof (choices_ne _ _ _ _ _ _ _ _ _ _ _ _ PL) as NE.
  pose proof (Q_close _ _ _ _ _ _ _ _ _ _ _ _ _ PL eq_refl) as QC.
  pose proof (Q_mono _ _ _ _ _ _ _ _ _ _ _ _ _ PL eq_refl) as QM.
  pose proof (gam1 _ _ _ _ _ _ _ _ _ _ _ _ _ PL eq_refl) as Hq. fold a0 in QC, QM, Hq.
  assert (PT : forall k, (k < n)%nat -> policy_of (TfTri acts t') (nth k (all_points g) []) = nth k acts []).
  { intros k Hk. apply (policy_takes _ _ _ _ _ _ _ _ _ _ _ _ PL); auto; apply K. }
  assert (G0 : forall k, (k < n)%nat -> In (nth k acts []) (choices g options constraint k)).
  { intros k Hk. apply choices_In. rewrite <- PT by auto. apply PP. now apply (pt_index _ _ _ _ _ _ _ _ _ _ _ _ PL). }
  apply (optimal_iff _ _ _ _ _ _ _ _ _ _ _ _ _ PL eq_refl) in OPT as (Lv & Fv); auto.
  apply (bellman_follow _ _ _ _ _ _ _ _ _ _ _ _ _ PL eq_refl) in BU as (Lu & Fu); auto.
  2:{ intros k Hk. cbn [LR rl_policy]. rewrite PT by auto. apply G0, choices_In in Hk. apply Hk. }
  pose proof (pi_run _ _ _ _ _ _ _ _ _ _ _ _ _ PL eq_refl A v0 acts K solver SND CMP G0) as RUN.
  pose proof (pi_next _ _ _ _ _ _ _ _ _ _ _ _ _ PL eq_refl A v0 acts K solver SND CMP G0) as NEXT.
  fold a0 in RUN, NEXT. fold n in RUN, NEXT.
  set (cs := fun i k => nth k (ac options constraint A solver i) []).
  set (vs := fun i => va options constraint A solver (S i)).
  assert (C0 : good_choice n _ (choices g options constraint) (cs 0%nat)) by (intros k Hk; now apply (RUN 0%nat)).
  assert (VS : forall i, fixed n (follow _ (Q g t a0) (cs i)) (look (vs i))) by (intros i; apply NEXT).
  assert (CS : forall i, greedy n _ (choices g options constraint) (Q g t a0) (look (vs i)) (cs (S i))) by (intros i; apply NEXT).
  assert (LV : forall i, length (vs i) = n) by (intros i; apply (NEXT i)).
  assert (E0 : vs 0%nat = u0).
  { apply (table_ext n); auto. apply (fixed_unique n _ _ Hq (follow_close n _ _ _ _ QC _ C0)); auto.
    intros k Hk. rewrite <- Fu by auto. unfold follow, cs. cbn [LR rl_policy]. rewrite PT by auto.
    unfold ac, B. cbn. now rewrite (lk_policy _ _ _ _ _ _ _ _ K). }
  exists vs. split; [|split; [|split; [|split]]]; auto.
  - intros i. exists (B options constraint A solver (S i)).
    destruct (NEXT i) as (KB & _ & _). destruct (RUN (S i)) as (RB & _ & _ & GB). split; [exact RB|].
    split; [exact (lk_value _ _ _ _ _ _ _ _ KB)|].
    assert (NB : ag_now (B options constraint A solver (S i)) = a0) by apply KB.
    assert (LB : learner_of (B options constraint A solver (S i)) =
      LR t a0 (policy_of (TfTri (ac options constraint A solver (S i)) t')) (vs i)).
    { unfold learner_of. rewrite NB. apply (learner_LR _ _ _ _ _ _ _ _ KB). }
    rewrite LB.
    assert (PT' : forall k, (k < n)%nat -> policy_of (TfTri (ac options constraint A solver (S i)) t') (nth k (all_points g) [])
      = nth k (ac options constraint A solver (S i)) []).
    { intros k Hk. apply (policy_takes _ _ _ _ _ _ _ _ _ _ _ _ PL); auto; apply KB. }
    split.
    + intros k s ES. destruct (index_pt _ _ _ _ _ _ _ _ _ _ _ _ PL k s ES) as (Hk & ->). cbn [LR rl_policy].
      rewrite PT' by auto. apply choices_In. now apply GB.
    + apply (bellman_follow _ _ _ _ _ _ _ _ _ _ _ _ _ PL eq_refl); [apply LV| |].
      * intros k Hk. rewrite PT' by auto. apply GB, choices_In in Hk. apply Hk.
      * split; [apply LV|]. intros k Hk. rewrite <- (VS (S i) k Hk). unfold follow, cs. now rewrite PT'.
  - intros i k. destruct (Nat.lt_ge_cases k n) as [Hk|Hk].
    + apply (vs_mono n _ _ NE _ _ Hq QC QM (look v) Fv cs (fun i => look (vs i)) C0 VS CS i (S i) k); auto.
    + rewrite !nth_overflow by (rewrite LV; lia). lra.
  - intros i. split; [rewrite LV; lia|]. rewrite Lv. intros k Hk.
    assert (X : 0 <= look v k - look (vs i) k <= (at_gamma a0 * 1) ^ i * D).
    { apply (vs_error n _ _ NE _ _ Hq QC QM (look v) Fv cs (fun i => look (vs i)) C0 VS CS); auto.
      intros j Hj. rewrite E0. apply BD. fold n in Lv. lia. }
    rewrite Rmult_1_r in X. exact X.
  - intros i Hi. apply (table_ext n); auto. intros k Hk.
    apply (vs_final n _ _ NE _ _ Hq QC QM (look v) Fv cs (fun i => look (vs i)) C0 VS CS options); auto.
    intros j a Hj Ha. apply choices_In in Ha. apply Ha.
Qed.
Print Assumptions C74_policy_iteration.

(** The loop with one step of value iteration instead: the values converge to the
    optimum from anywhere. *)
Theorem C74_value_iteration : forall dl dl' inv g project project' t t' m options constraint A solver v v0 D n,
  plans dl dl' inv g project project' t t' m options constraint A ->
  optimal (learner_of A) g options constraint v ->
  has_values A t v0 -> distance_at_most D v0 v ->
  exists B vn,
    run solver (MakeSweep :: rounds n [Improve options constraint; Eval (length (ag_ops A))]) A = Ok B /\
    has_values B t vn /\ distance_at_most (at_gamma (ag_now A) ^ n * D) vn v.
Proof.
  intros dl dl' inv g project project' t t' m options constraint A solver v w0 D n PL OPT HW BD.
  destruct (plans_looks _ _ _ _ _ _ _ _ _ _ _ _ PL) as (v0 & acts & K & HV).
  assert (w0 = v0) as ->.
  { unfold has_values in *. rewrite HW in HV. injection HV as HV.
    rewrite <- (rows_back w0), <- (rows_back v0). unfold rows_of. now rewrite HV. }
  rewrite (learner_is_LR _ _ _ _ _ _ _ K) in *. set (a0 := ag_now A) in *.
  pose proof (lk_table _ _ _ _ _ _ _ _ K) as L0.
  pose proof (choices_ne _ _ _ _ _ _ _ _ _ _ _ _ PL) as NE.
  pose proof (Q_close _ _ _ _ _ _ _ _ _ _ _ _ _ PL eq_refl) as QC. fold a0 in QC.
  apply (optimal_iff _ _ _ _ _ _ _ _ _ _ _ _ _ PL eq_refl) in OPT as (Lv & Fv); auto.
  destruct (vi_run _ _ _ _ _ _ _ _ _ _ _ _ _ PL eq_refl A v0 acts K solver n) as (C & vn & acts' & E & K' & _ & F).
  fold a0 in F. exists C, vn. split; auto. split; [apply (lk_value _ _ _ _ _ _ _ _ K')|].
  pose proof (lk_table _ _ _ _ _ _ _ _ K') as Ln.
  split; [lia|]. rewrite Lv. intros k Hk. fold (look vn k) (look v k). rewrite F by auto.
  pose proof (iter_error _ _ _ (best_close _ _ _ NE _ _ QC) (look v0) (look v) D Fv) as X.
  rewrite Rmult_1_r in X. apply X; auto. intros j Hj. apply BD. lia.
Qed.
Print Assumptions C74_value_iteration.

(** How good the policy is that is greedy for values at distance D from the
    optimum. *)
Theorem C74_greedy_policy : forall dl dl' inv g project project' t t' m options constraint A solver v v0 D,
  plans dl dl' inv g project project' t t' m options constraint A ->
  optimal (learner_of A) g options constraint v ->
  has_values A t v0 -> distance_at_most D v0 v ->
  exists B u, run solver [Improve options constraint] A = Ok B /\
    permitted_policy g options constraint (rl_policy (learner_of B)) /\
    bellman (learner_of B) g u /\
    below_by (2 * at_gamma (ag_now A) * D / (1 - at_gamma (ag_now A))) u v.
Proof.
  intros dl dl' inv g project project' t t' m options constraint A solver v w0 D PL OPT HW BD.
  destruct (plans_looks _ _ _ _ _ _ _ _ _ _ _ _ PL) as (v0 & acts & K & HV).
  assert (w0 = v0) as ->.
  { unfold has_values in *. rewrite HW in HV. injection HV as HV.
    rewrite <- (rows_back w0), <- (rows_back v0). unfold rows_of. now rewrite HV. }
  rewrite (learner_is_LR _ _ _ _ _ _ _ K) in *. set (a0 := ag_now A) in *. set (n := RLProofs.N g).
  pose proof (lk_table _ _ _ _ _ _ _ _ K) as L0.
  pose proof (choices_ne _ _ _ _ _ _ _ _ _ _ _ _ PL) as NE.
  pose proof (Q_close _ _ _ _ _ _ _ _ _ _ _ _ _ PL eq_refl) as QC.
  pose proof (Q_mono _ _ _ _ _ _ _ _ _ _ _ _ _ PL eq_refl) as QM.
  pose proof (gam1 _ _ _ _ _ _ _ _ _ _ _ _ _ PL eq_refl) as Hq. fold a0 in QC, QM, Hq.
  apply (optimal_iff _ _ _ _ _ _ _ _ _ _ _ _ _ PL eq_refl) in OPT as (Lv & Fv); auto.
  destruct (improve_ok _ _ _ _ _ _ _ _ _ _ _ _ _ PL eq_refl _ _ _ K) as (B & acts' & E & K' & _ & GR).
  fold a0 in GR, K'.
  assert (LB : learner_of B = LR t a0 (policy_of (TfTri acts' t')) v0).
  { unfold learner_of. rewrite (lk_now _ _ _ _ _ _ _ _ K'). apply (learner_LR _ _ _ _ _ _ _ _ K'). }
  assert (PT' : forall k, (k < n)%nat -> policy_of (TfTri acts' t') (nth k (all_points g) []) = nth k acts' []).
  { intros k Hk. apply (policy_takes _ _ _ _ _ _ _ _ _ _ _ _ PL); auto; apply K'. }
  assert (PO : forall k, (k < n)%nat -> In (policy_of (TfTri acts' t') (nth k (all_points g) [])) options).
  { intros k Hk. rewrite PT' by auto. apply (proj1 GR), choices_In in Hk. apply Hk. }
  destruct (fixed_exists n _ _ Hq (follow_close n _ _ _ _ QC _ (proj1 GR))) as (f & Ff).
  set (u := map f (seq 0 n)).
  assert (Lu : length u = n) by (unfold u; now rewrite map_length, seq_length).
  assert (Eu : forall k, (k < n)%nat -> look u k = f k) by (intros; now apply look_seq).
  assert (Fu : fixed n (follow _ (Q g t a0) (fun k => nth k acts' [])) (look u)).
  { intros k Hk. rewrite (T_ext n _ _ (follow_close n _ _ _ _ QC _ (proj1 GR)) _ f) by auto. rewrite Ff by auto. now rewrite Eu. }
  exists B, u. split; [cbn [run step]; rewrite E; reflexivity|]. rewrite LB. split; [|split].
  - intros k s ES. destruct (index_pt _ _ _ _ _ _ _ _ _ _ _ _ PL k s ES) as (Hk & ->). cbn [LR rl_policy].
    rewrite PT' by auto. apply choices_In. now apply (proj1 GR).
  - apply (bellman_follow _ _ _ _ _ _ _ _ _ _ _ _ _ PL eq_refl); auto. split; auto.
    intros k Hk. rewrite <- (Fu k Hk). unfold follow. now rewrite PT'.
  - split; [unfold n in *; lia|]. rewrite Lv. intros k Hk.
    assert (X : look v k - 2 * (at_gamma a0 * 1) * D / (1 - at_gamma a0 * 1) <= look u k <= look v k).
    { apply (greedy_error n _ _ NE _ _ Hq QC QM (look v) Fv (look v0) (fun k => nth k acts' []) (look u) D); auto.
      intros j Hj. apply BD. unfold n in *. lia. }
    rewrite !Rmult_1_r in X. unfold look in X. lra.
Qed.
Print Assumptions C74_greedy_policy.

(** Example: two states, the next state is the action, the reward is the state;
    the initial policy goes to 1/4 although 3/4 is better. *)
Definition agent01 (t : tri) (gamma : R) (v : list R) (acts : list (list R)) : agent :=
  {| ag_now := {| at_dynamics := fun _ a => Exact a; at_reward := fun s _ => nth 0 s 0; at_gamma := gamma |};
     ag_value := TfTri (map (fun x => [x]) v) t; ag_policy := TfTri acts t; ag_ops := []; ag_stored := None |}.
Lemma resolution01 : sumn (dims g01) (fun j => 2 * EPS / spacing g01 j) < 1.
Proof. unfold dims, g01; simpl. fold g01. rewrite g01_spacing by lia. pose proof EPS_small. lra. Qed.
Lemma reads01 t T a b x : TriSpec.setup dl0 inv1 g01 [[0]; [1]] 1 true t -> tf_inner T = t -> 0 <= x <= 1 ->
  reads T [a; b] [x] (a + (b - a) * x).
Proof.
  intros SU ET Hx. unfold reads, tf_assign, tf_eval. rewrite ET. cbn [mapM].
  change (map (fun x => [x]) [a; b]) with (rows_of [a; b]).
  rewrite (value_ok _ _ _ _ _ _ _ SU [a; b] [x] eq_refl eq_refl). cbn [bind]. now rewrite (value01 _ _ _ _ _ SU) by auto.
Qed.
Lemma index01 k : (k < 2)%nat -> index_to_state g01 (Z.of_nat k) = Ok (nth k [[0]; [1]] []).
Proof.
  intros H. pose proof (all_points_nth g01 g01_valid (Z.of_nat k)) as A. rewrite states01, Nat2Z.id in A. apply A.
  change (nindex g01) with 2%Z. lia.
Qed.
Lemma policy01 t a b k : TriSpec.setup dl0 inv1 g01 [[0]; [1]] 1 true t -> (k < 2)%nat ->
  policy_of (TfTri [[a]; [b]] t) (nth k [[0]; [1]] []) = nth k [[a]; [b]] [].
Proof.
  intros SU Hk.
  assert (SR : TriSpec.setup dl0 inv1 g01 [[a]; [b]] 1 true (with_params t [[a]; [b]])).
  { apply (setup_rows _ _ _ _ _ _ _ _ _ SU); [reflexivity|]. repeat constructor. }
  pose proof (C10_vertex_values _ _ _ _ _ _ _ _ _ SR resolution01 (index01 k Hk)) as C.
  rewrite Nat2Z.id in C. unfold policy_of. rewrite tf_is_tri. unfold tri_eval in C. cbn [mapM] in C.
  destruct (tri_eval1 _ _) as [r|]; cbn [bind] in C; [|discriminate]. now injection C as ->.
Qed.
Lemma plans01 t gamma v a b : TriSpec.setup dl0 inv1 g01 [[0]; [1]] 1 true t -> length v = 2%nat -> 0 <= gamma < 1 ->
  plans dl0 dl0 inv1 g01 true true t t 1 [[1/4]; [3/4]] None (agent01 t gamma v [[a]; [b]]).
Proof.
  intros SU L Hg. constructor; eauto.
  - exists v. split; auto. unfold table. now rewrite L.
  - exists [[a]; [b]]. auto 10.
  - apply resolution01.
  - intros o [<-|[<-|[]]]; reflexivity.
  - intros s o _ [<-|[<-|[]]]; (split; [reflexivity|]); apply (nonneg01 _ _ SU); lra.
  - intros k Hk. exists [1/4]. split; [now left|exact I].
Qed.
Example C74_ex : exists t, TriSpec.setup dl0 inv1 g01 [[0]; [1]] 1 true t /\
  let A := agent01 t (1 / 2) [0; 0] [[1/4]; [1/4]] in
  let options := [[1/4]; [3/4]] in
  optimal (learner_of A) g01 options None [3/4; 7/4] /\
  bellman (learner_of A) g01 [1/4; 5/4] /\
  forall solver, sound_solver solver -> complete_solver solver ->
    forall n, (4 <= n)%nat -> exists B,
      run solver (MakeSolve :: rounds (S n) [Eval 0; Improve options None]) A = Ok B /\
      has_values B t [3/4; 7/4] /\ bellman (learner_of B) g01 [3/4; 7/4].
Proof.
  destruct (t01 true) as (t & SU). exists t. split; auto. cbv zeta.
  set (A := agent01 t (1 / 2) [0; 0] [[1/4]; [1/4]]).
  assert (OPT : optimal (learner_of A) g01 [[1/4]; [3/4]] None [3/4; 7/4]).
  { split; [reflexivity|]. intros k s E. split.
    - intros a [Ha _]. destruct Ha as [<-|[<-|[]]]; eexists; (split; [apply (reads01 t); auto; lra|]);
        destruct (points01 k s E) as [(-> & ->)|(-> & ->)]; cbn; lra.
    - exists [3/4]. eexists. split; [split; [right; now left|exact I]|]. split; [apply (reads01 t); auto; lra|].
      destruct (points01 k s E) as [(-> & ->)|(-> & ->)]; cbn; lra. }
  assert (POL : forall k s, index_to_state g01 (Z.of_nat k) = Ok s -> rl_policy (learner_of A) s = [1/4]).
  { intros k s E. change (rl_policy (learner_of A) s) with (policy_of (TfTri [[1/4]; [1/4]] t) s).
    destruct (points01 k s E) as [(-> & ->)|(-> & ->)].
    - apply (policy01 t _ _ 0); auto.
    - apply (policy01 t _ _ 1); auto. }
  assert (BEL : bellman (learner_of A) g01 [1/4; 5/4]).
  { split; [reflexivity|]. intros k s E. rewrite (POL k s E). eexists. split; [apply (reads01 t); auto; lra|].
    destruct (points01 k s E) as [(-> & ->)|(-> & ->)]; cbn; lra. }
  split; auto. split; auto. intros solver SND CMP n Hn.
  destruct (C74_policy_iteration dl0 dl0 inv1 g01 true true t t 1 [[1/4]; [3/4]] None A solver [3/4; 7/4] [1/4; 5/4] (1/2)
    (plans01 t (1/2) [0; 0] (1/4) (1/4) SU eq_refl ltac:(lra)) SND CMP) as (vs & RUN & _ & _ & _ & FIN); auto.
  { intros k s E. rewrite (POL k s E). split; [now left|exact I]. }
  { split; [reflexivity|]. intros k Hk. destruct k as [|[|k]]; cbn; [lra|lra|cbn in Hk; lia]. }
  destruct (RUN n) as (B & E & HV & _ & BB). exists B. rewrite (FIN n) in HV by exact Hn. rewrite (FIN (S n)) in BB; auto.
Qed.

(** A policy on a coarser grid than the value function: the values of a policy
    that takes options in all states get worse by the improvement.  States 0, 1,
    2 and policy parameters at 0 and 2; in 1 the new policy takes the average of
    two options. *)
Definition gv : grid := Grid [(0, 2)] [3%Z].
Definition gc : grid := Grid [(0, 2)] [2%Z].
Definition stay : attributes :=
  {| at_dynamics := fun s _ => Exact s;
     at_reward := fun s a => let x := nth 0 s 0 in let u := nth 0 a 0 in
       (1 - x) * u - x * (2 - x) * (u * (2 - u));
     at_gamma := 1 / 2 |}.
Lemma gv_valid : valid_grid gv.
Proof. unfold valid_grid, gv; simpl. repeat constructor; simpl; try lra; lia. Qed.
Lemma gc_valid : valid_grid gc.
Proof. unfold valid_grid, gc; simpl. repeat constructor; simpl; try lra; lia. Qed.
Lemma gv_spacing j : (j < 1)%nat -> spacing gv j = 1.
Proof. intros H. destruct j; [|lia]. unfold spacing, upper, lower, npts; simpl. lra. Qed.
Lemma gc_spacing j : (j < 1)%nat -> spacing gc j = 2.
Proof. intros H. destruct j; [|lia]. unfold spacing, upper, lower, npts; simpl. lra. Qed.
Lemma statesv : all_points gv = [[0]; [1]; [2]].
Proof.
  unfold all_points, discrete_points, gv; simpl. unfold linspace; simpl.
  repeat f_equal; field_simplify; lra.
Qed.
Lemma statesc : all_points gc = [[0]; [2]].
Proof.
  unfold all_points, discrete_points, gc; simpl. unfold linspace; simpl.
  repeat f_equal; field_simplify; lra.
Qed.
Lemma resolutionv : sumn (dims gv) (fun j => 2 * EPS / spacing gv j) < 1.
Proof. unfold dims, gv; simpl. fold gv. rewrite gv_spacing by lia. pose proof EPS_small. lra. Qed.
Lemma resolutionc : sumn (dims gc) (fun j => 2 * EPS / spacing gc j) < 1.
Proof. unfold dims, gc; simpl. fold gc. rewrite gc_spacing by lia. pose proof EPS_small. lra. Qed.
Lemma tv : exists t, TriSpec.setup dl0 inv1 gv [[0]; [0]; [0]] 1 true t.
Proof.
  apply C08_construction; auto using gv_valid, good_inv1.
  - intros j Hj. rewrite gv_spacing by exact Hj. pose proof EPS_small. lra.
  - intros H. exfalso. apply H. reflexivity.
  - repeat constructor.
Qed.
Lemma tc : exists t, TriSpec.setup dl0 inv1 gc [[0]; [0]] 1 true t.
Proof.
  apply C08_construction; auto using gc_valid, good_inv1.
  - intros j Hj. rewrite gc_spacing by exact Hj. pose proof EPS_small. lra.
  - intros H. exfalso. apply H. reflexivity.
  - repeat constructor.
Qed.
Lemma pointsv k s : index_to_state gv (Z.of_nat k) = Ok s ->
  (k = 0%nat /\ s = [0]) \/ (k = 1%nat /\ s = [1]) \/ (k = 2%nat /\ s = [2]).
Proof.
  intros E. pose proof (index_range gv _ _ E) as H. pose proof (all_points_nth gv gv_valid _ H) as A.
  rewrite E in A. rewrite statesv in A. apply (f_equal (fun r => match r with Ok x => x | _ => [] end)) in A.
  subst s. rewrite Nat2Z.id in *. change (nindex gv) with 3%Z in H.
  destruct k as [|[|[|k]]]; [left|right; left|right; right|lia]; split; auto.
Qed.
Lemma pointsc k s : index_to_state gc (Z.of_nat k) = Ok s -> (k = 0%nat /\ s = [0]) \/ (k = 1%nat /\ s = [2]).
Proof.
  intros E. pose proof (index_range gc _ _ E) as H. pose proof (all_points_nth gc gc_valid _ H) as A.
  rewrite E in A. rewrite statesc in A. apply (f_equal (fun r => match r with Ok x => x | _ => [] end)) in A.
  subst s. rewrite Nat2Z.id in *. change (nindex gc) with 2%Z in H.
  destruct k as [|[|k]]; [left|right|lia]; split; auto.
Qed.
(** The coarse policy is linear. *)
Lemma policyc t a b x : TriSpec.setup dl0 inv1 gc [[0]; [0]] 1 true t -> 0 <= x <= 2 ->
  policy_of (TfTri [[a]; [b]] t) [x] = [a + (b - a) * x / 2].
Proof.
  intros SU Hx.
  assert (SV : TriSpec.setup dl0 inv1 gc [[a]; [b]] 1 true (with_params t [[a]; [b]])).
  { apply (setup_rows _ _ _ _ _ _ _ _ _ SU); [reflexivity|]. repeat constructor. }
  destruct (C09_affine_reproduction _ _ _ _ _ _ _ [x] 0 [(b - a) / 2] a SV eq_refl ltac:(lia)) as (y & out & Q & E & A).
  { intros i s Ei. destruct (pointsc (Z.to_nat i) s) as [(K & ->)|(K & ->)].
    - rewrite Z2Nat.id; auto. apply (index_range gc i s Ei).
    - unfold value_at, affine, coordinate. rewrite K. simpl. lra.
    - unfold value_at, affine, coordinate. rewrite K. simpl. lra. }
  assert (Y : y = [x]).
  { destruct Q as (Ly & Q). destruct y as [|y0 [|]]; try discriminate.
    specialize (Q 0%nat ltac:(unfold dims, gc; simpl; lia)). unfold coordinate, lower, upper in Q; simpl in Q.
    subst y0. f_equal. unfold Rmin, Rmax; repeat destruct Rle_dec; lra. }
  subst y.
  pose proof (value_ok _ _ _ _ _ _ _ SU [a; b] [x] eq_refl eq_refl) as E2.
  change (rows_of [a; b]) with [[a]; [b]] in E2. rewrite tf_is_tri in E2.
  unfold policy_of. rewrite tf_is_tri. unfold tri_eval in E. cbn [mapM] in E. rewrite E2 in E |- *. cbn [bind] in E.
  injection E as <-. f_equal. unfold coordinate in A at 1. simpl in A. rewrite A.
  unfold affine, coordinate; simpl. lra.
Qed.
Lemma valuev t v k s : TriSpec.setup dl0 inv1 gv [[0]; [0]; [0]] 1 true t -> length v = 3%nat ->
  index_to_state gv (Z.of_nat k) = Ok s -> tf_eval1 (TfTri (map (fun x => [x]) v) t) s = Ok [nth k v 0].
Proof.
  intros SU L E. assert (TV : table gv v) by (unfold table; now rewrite L).
  pose proof (setup_params _ _ _ _ _ _ _ v SU TV) as SV.
  pose proof (C10_vertex_values _ _ _ _ _ _ _ _ _ SV resolutionv E) as C. rewrite Nat2Z.id in C.
  unfold tri_eval in C. cbn [mapM] in C. rewrite tf_is_tri. fold (rows_of v).
  destruct (tri_eval1 _ _) as [r|]; cbn [bind] in C; [|discriminate]. injection C as ->.
  pose proof (index_range gv _ _ E) as H. change (nindex gv) with 3%Z in H.
  unfold rows_of. rewrite (nth_map_lt _ _ _ 0) by lia. reflexivity.
Qed.
Definition coarse (t tc : tri) : agent :=
  {| ag_now := stay; ag_value := TfTri (map (fun x => [x]) [0; 0; 0]) t; ag_policy := TfTri [[0]; [0]] tc;
     ag_ops := []; ag_stored := None |}.
Theorem C74_coarser_policy_refuted : exists t tc,
  TriSpec.setup dl0 inv1 gv [[0]; [0]; [0]] 1 true t /\ TriSpec.setup dl0 inv1 gc [[0]; [0]] 1 true tc /\
  let A := coarse t tc in
  let options := [[0]; [2]] in
  permitted_policy gv options None (rl_policy (learner_of A)) /\
  bellman (learner_of A) gv [0; 0; 0] /\
  forall solver, exists B, run solver [Improve options None] A = Ok B /\
    bellman (learner_of B) gv [4; -2; 0].
Proof.
  destruct tv as (t & SU). destruct tc as (tc & SC). exists t, tc. split; auto. split; auto. cbv zeta.
  assert (POL : forall a b s k, index_to_state gv (Z.of_nat k) = Ok s ->
    policy_of (TfTri [[a]; [b]] tc) s = [a + (b - a) * nth 0 s 0 / 2]).
  { intros a b s k E. destruct (pointsv k s E) as [(-> & ->)|[(-> & ->)|(-> & ->)]]; apply (policyc _ _ _ _ SC); cbn; lra. }
  split; [|split].
  - intros k s E. change (rl_policy (learner_of (coarse t tc)) s) with (policy_of (TfTri [[0]; [0]] tc) s).
    rewrite (POL _ _ s k E). split; [|exact I]. left. f_equal. lra.
  - split; [reflexivity|]. intros k s E.
    change (rl_policy (learner_of (coarse t tc)) s) with (policy_of (TfTri [[0]; [0]] tc) s).
    exists 0. split.
    + unfold tf_eval, tf_assign. cbn [mapM coarse learner_of learner_with rl_value ag_value tf_inner successor rl_dynamics at_dynamics stay ag_now].
      rewrite (valuev t [0; 0; 0] k s SU eq_refl E). cbn [bind]. destruct k as [|[|[|[|k]]]]; reflexivity.
    + rewrite (POL _ _ s k E). cbn [coarse learner_of learner_with rl_reward ag_now stay at_reward at_gamma].
      destruct (pointsv k s E) as [(-> & ->)|[(-> & ->)|(-> & ->)]]; cbn; lra.
  - intros solver.
    set (B := {| ag_now := stay; ag_value := TfTri (map (fun x => [x]) [0; 0; 0]) t; ag_policy := TfTri [[2]; [0]] tc;
                 ag_ops := []; ag_stored := Some stay |}).
    exists B. split.
    + cbn [run step]. unfold improve.
      assert (D : discrete_policy_optimization (learner_with stay (coarse t tc)) (t_grid (tf_inner (ag_policy (coarse t tc)))) [[0]; [2]] None
        = Ok [[2]; [0]]).
      { cbn [coarse ag_policy tf_inner]. rewrite (t_grid_g _ _ _ _ _ _ _ SC).
        assert (I0 : index_to_state gv (Z.of_nat 0) = Ok [0]).
        { pose proof (all_points_nth gv gv_valid 0 ltac:(change (nindex gv) with 3%Z; lia)) as X. now rewrite statesv in X. }
        assert (I2 : index_to_state gv (Z.of_nat 2) = Ok [2]).
        { pose proof (all_points_nth gv gv_valid 2 ltac:(change (nindex gv) with 3%Z; lia)) as X. now rewrite statesv in X. }
        assert (F0 : forall u, future_value (learner_with stay (coarse t tc)) None (Some [u]) None [0] = Ok u).
        { intros u. unfold future_value, value_at_state. cbn [learner_with coarse rl_dynamics stay at_dynamics rl_value ag_value].
          rewrite (valuev t [0; 0; 0] 0 [0] SU eq_refl I0). cbn. f_equal. lra. }
        assert (F2 : forall u, future_value (learner_with stay (coarse t tc)) None (Some [u]) None [2] = Ok (- u)).
        { intros u. unfold future_value, value_at_state. cbn [learner_with coarse rl_dynamics stay at_dynamics rl_value ag_value].
          rewrite (valuev t [0; 0; 0] 2 [2] SU eq_refl I2). cbn. f_equal. lra. }
        unfold discrete_policy_optimization, option_values. rewrite statesc. cbn [mapM]. rewrite !F0, !F2.
        cbn; repeat (progress unfold Rltb; repeat (destruct Rlt_dec; try (exfalso; lra)); cbn); reflexivity. }
      cbn [ag_stored coarse ag_now]. rewrite D. reflexivity.
    + split; [reflexivity|]. intros k s E.
      change (rl_policy (learner_of B) s) with (policy_of (TfTri [[2]; [0]] tc) s).
      exists (nth k [4; -2; 0] 0). split.
      * unfold tf_eval, tf_assign. cbn [mapM B learner_of learner_with rl_value ag_value tf_inner successor rl_dynamics at_dynamics stay ag_now].
        rewrite (valuev t [4; -2; 0] k s SU eq_refl E). reflexivity.
      * rewrite (POL _ _ s k E). cbn [B learner_of learner_with rl_reward rl_gamma ag_now stay at_reward at_gamma].
        destruct (pointsv k s E) as [(-> & ->)|[(-> & ->)|(-> & ->)]]; cbn; lra.
Qed.
Print Assumptions C74_coarser_policy_refuted.

(** ** C75 *)
(** A program that assigns no attribute: every operation and every improvement
    works like a call of RLModel with the attributes of the object and the current
    tables. *)
Definition sweeps (o : operation) : Prop := match o with Sweep _ => True | Solve _ => False end.
Lemma no_assign_inv solver p : forall A B, Forall (fun c => ~ assigns c) p -> run solver p A = Ok B ->
  (forall o, In o (ag_ops A) -> o = Sweep (ag_now A) \/ o = Solve (ag_now A)) ->
  (ag_stored A = None \/ ag_stored A = Some (ag_now A)) ->
  ag_now B = ag_now A /\ (forall o, In o (ag_ops B) -> o = Sweep (ag_now A) \/ o = Solve (ag_now A)) /\
  (ag_stored B = None \/ ag_stored B = Some (ag_now A)).
Proof.
  induction p as [|c p IH]; intros A B F E HO HS; cbn [run] in E.
  - injection E as <-. auto.
  - inversion F as [|? ? Nc Fp]; subst. destruct (step solver c A) as [C|] eqn:ES; cbn [bind] in E; [|discriminate].
    assert (K : ag_now C = ag_now A /\ (forall o, In o (ag_ops C) -> o = Sweep (ag_now A) \/ o = Solve (ag_now A)) /\
      (ag_stored C = None \/ ag_stored C = Some (ag_now A))).
    { destruct c as [a| | |i|opts con]; cbn [step] in ES.
      - exfalso. apply Nc. exact I.
      - injection ES as <-. cbn. split; auto. split; auto. intros o Ho. apply in_app_or in Ho as [Ho|[<-|[]]]; auto.
      - injection ES as <-. cbn. split; auto. split; auto. intros o Ho. apply in_app_or in Ho as [Ho|[<-|[]]]; auto.
      - destruct (nth_error (ag_ops A) i) as [o|]; [|discriminate]. unfold evaluate in ES.
        destruct o; [destruct (value_iteration _)|destruct (optimize_value_function _ _)]; cbn [bind] in ES;
          try discriminate; injection ES as <-; auto.
      - unfold improve in ES. destruct (forallb _ _); [|discriminate].
        destruct (discrete_policy_optimization _ _ _ _); cbn [bind] in ES; [|discriminate]. injection ES as <-. cbn.
        split; auto. split; auto. right. destruct HS as [-> | ->]; auto. }
    destruct K as (KN & KO & KS). rewrite <- KN in KO, KS |- *. apply (IH C B); auto.
Qed.
Theorem C75_reuse_invisible : forall solver p A B, just_created A -> Forall (fun c => ~ assigns c) p ->
  run solver p A = Ok B ->
  ag_now B = ag_now A /\
  (forall i o, nth_error (ag_ops B) i = Some o ->
     step solver (Eval i) B =
       do P <- (if match o with Sweep _ => true | Solve _ => false end
                then value_iteration (learner_of B)
                else optimize_value_function solver (learner_of B));
       Ok (set_value B (rl_value P))) /\
  (forall options constraint C, step solver (Improve options constraint) B = Ok C ->
     ag_value C = ag_value B /\
     exists actions, ag_policy C = tf_assign (ag_policy B) actions /\
       discrete_policy_optimization (learner_of B) (t_grid (tf_inner (ag_policy B))) options constraint = Ok actions).
Proof.
  intros solver p A B (EO & ES) F E.
  destruct (no_assign_inv solver p A B F E) as (KN & KO & KS).
  { rewrite EO. intros o []. }
  { now left. }
  split; auto. split.
  - intros i o Ei. cbn [step]. rewrite Ei. destruct (KO o (nth_error_In _ _ Ei)) as [-> | ->]; cbn [evaluate].
    + unfold learner_of. now rewrite KN.
    + unfold learner_of. rewrite KN. now destruct (ag_now A).
  - intros options constraint C EC. cbn [step] in EC. unfold improve in EC. destruct (forallb _ _); [|discriminate].
    assert (EB : match ag_stored B with Some a => a | None => ag_now B end = ag_now B).
    { destruct KS as [-> | ->]; auto. }
    rewrite EB in EC. fold (learner_of B) in EC.
    destruct (discrete_policy_optimization _ _ _ _) as [acts|]; cbn [bind] in EC; [|discriminate]. injection EC as <-.
    cbn. split; auto. eauto.
Qed.
Print Assumptions C75_reuse_invisible.

(** After the first improvement the attributes of that moment are used by all
    later improvements, whatever is assigned. *)
Lemma stored_kept solver p : forall A B a, run solver p A = Ok B -> ag_stored A = Some a -> ag_stored B = Some a.
Proof.
  induction p as [|c p IH]; intros A B a E HS; cbn [run] in E.
  - now injection E as <-.
  - destruct (step solver c A) as [C|] eqn:ES; cbn [bind] in E; [|discriminate]. apply (IH C B a E).
    destruct c as [a'| | |i|opts con]; cbn [step] in ES.
    + now injection ES as <-.
    + now injection ES as <-.
    + now injection ES as <-.
    + destruct (nth_error (ag_ops A) i) as [o|]; [|discriminate]. unfold evaluate in ES.
      destruct o; [destruct (value_iteration _)|destruct (optimize_value_function _ _)]; cbn [bind] in ES;
        try discriminate; now injection ES as <-.
    + unfold improve in ES. destruct (forallb _ _); [|discriminate].
      destruct (discrete_policy_optimization _ _ _ _); cbn [bind] in ES; [|discriminate]. injection ES as <-. cbn.
      now rewrite HS.
Qed.
Theorem C75_first_improvement_fixes : forall solver options constraint A A1 p B options' constraint' C,
  just_created A -> run solver [Improve options constraint] A = Ok A1 ->
  run solver p A1 = Ok B -> run solver [Improve options' constraint'] B = Ok C ->
  exists actions, ag_policy C = tf_assign (ag_policy B) actions /\
    discrete_policy_optimization (learner_with (ag_now A) B) (t_grid (tf_inner (ag_policy B)))
      options' constraint' = Ok actions.
Proof.
  intros solver options constraint A A1 p B options' constraint' C (_ & S0) E1 E2 E3.
  cbn [run step] in E1, E3.
  assert (S1 : ag_stored A1 = Some (ag_now A)).
  { unfold improve in E1. destruct (forallb _ _); [|discriminate].
    destruct (discrete_policy_optimization _ _ _ _); cbn [bind] in E1; [|discriminate]. injection E1 as <-. cbn.
    now rewrite S0. }
  pose proof (stored_kept _ _ _ _ _ E2 S1) as SB. unfold improve in E3. rewrite SB in E3.
  destruct (forallb _ _); [|discriminate].
  destruct (discrete_policy_optimization _ _ _ _) as [acts|]; cbn [bind] in E3; [|discriminate]. injection E3 as <-.
  cbn. eauto.
Qed.
Print Assumptions C75_first_improvement_fixes.

(** The operations remember the dynamics and the reward of the call that created
    them.  The one of [value_iteration] also remembers gamma; the one of
    [optimize_value_function] uses the gamma of the time of its evaluation. *)
Lemma op_kept solver p : forall A B i o, run solver p A = Ok B ->
  nth_error (ag_ops A) i = Some o -> nth_error (ag_ops B) i = Some o.
Proof.
  induction p as [|c p IH]; intros A B i o E HO; cbn [run] in E.
  - now injection E as <-.
  - destruct (step solver c A) as [C|] eqn:ES; cbn [bind] in E; [|discriminate]. apply (IH C B i o E).
    assert (LT : (i < length (ag_ops A))%nat) by (apply nth_error_Some; congruence).
    destruct c as [a'| | |j|opts con]; cbn [step] in ES.
    + now injection ES as <-.
    + injection ES as <-. cbn. now rewrite nth_error_app1.
    + injection ES as <-. cbn. now rewrite nth_error_app1.
    + destruct (nth_error (ag_ops A) j) as [o'|]; [|discriminate]. unfold evaluate in ES.
      destruct o'; [destruct (value_iteration _)|destruct (optimize_value_function _ _)]; cbn [bind] in ES;
        try discriminate; now injection ES as <-.
    + unfold improve in ES. destruct (forallb _ _); [|discriminate].
      destruct (discrete_policy_optimization _ _ _ _); cbn [bind] in ES; [|discriminate]. now injection ES as <-.
Qed.
Theorem C75_operations : forall solver A A1 p B,
  let i := length (ag_ops A) in
  (run solver [MakeSweep] A = Ok A1 -> run solver p A1 = Ok B ->
     step solver (Eval i) B =
       do P <- value_iteration (learner_with (ag_now A) B); Ok (set_value B (rl_value P))) /\
  (run solver [MakeSolve] A = Ok A1 -> run solver p A1 = Ok B ->
     step solver (Eval i) B =
       do P <- optimize_value_function solver (learner_with
                 {| at_dynamics := at_dynamics (ag_now A); at_reward := at_reward (ag_now A);
                    at_gamma := at_gamma (ag_now B) |} B);
       Ok (set_value B (rl_value P))).
Proof.
  intros solver A A1 p B i. split; intros E1 E2; cbn [run step bind] in E1; injection E1 as <-; cbn [step].
  - rewrite (op_kept _ _ _ _ i (Sweep (ag_now A)) E2); [reflexivity|].
    cbn. unfold i. now rewrite nth_error_app2, Nat.sub_diag.
  - rewrite (op_kept _ _ _ _ i (Solve (ag_now A)) E2); [reflexivity|].
    cbn. unfold i. now rewrite nth_error_app2, Nat.sub_diag.
Qed.
Print Assumptions C75_operations.

(** So the two operations can disagree about the discount factor: both are created
    with gamma = 1/2, then gamma = 0 is assigned.  The table is the fixed point for
    1/2: value iteration keeps it, the linear program moves to the one for 0. *)
Lemma half01 t v k : TriSpec.setup dl0 inv1 g01 [[0]; [1]] 1 true t -> (k < 2)%nat ->
  forall gamma, rl_policy (learner_of (agent01 t gamma v [[1/2]; [1/2]])) (nth k [[0]; [1]] []) = [1/2].
Proof.
  intros SU Hk gamma. cbn [learner_of learner_with rl_policy agent01 ag_policy].
  rewrite (policy01 t _ _ k SU Hk). destruct k as [|[|k]]; [reflexivity|reflexivity|lia].
Qed.
Theorem C75_one_discount_refuted : exists t, TriSpec.setup dl0 inv1 g01 [[0]; [1]] 1 true t /\
  let A := agent01 t (1 / 2) [1/2; 3/2] [[1/2]; [1/2]] in
  let zero := {| at_dynamics := at_dynamics (ag_now A); at_reward := at_reward (ag_now A); at_gamma := 0 |} in
  forall solver, sound_solver solver -> complete_solver solver ->
    (exists B, run solver [MakeSweep; MakeSolve; Assign zero; Eval 0] A = Ok B /\ has_values B t [1/2; 3/2]) /\
    (exists B, run solver [MakeSweep; MakeSolve; Assign zero; Eval 1] A = Ok B /\ has_values B t [0; 1]).
Proof.
  destruct (t01 true) as (t & SU). exists t. split; auto. cbv zeta.
  set (A := agent01 t (1 / 2) [1/2; 3/2] [[1/2]; [1/2]]). intros solver SND CMP.
  set (zero := {| at_dynamics := at_dynamics (ag_now A); at_reward := at_reward (ag_now A); at_gamma := 0 |}).
  set (B0 := {| ag_now := zero; ag_value := ag_value A; ag_policy := ag_policy A;
                ag_ops := [Sweep (ag_now A); Solve (ag_now A)]; ag_stored := None |}).
  assert (LNP : forall gamma, learns dl0 inv1 g01 true t (learner_of (agent01 t gamma [1/2; 3/2] [[1/2]; [1/2]]))).
  { intros gamma. constructor; eauto.
    - exists [1/2; 3/2]. split; [reflexivity|reflexivity].
    - intros s Hs. apply (all_points_In g01 g01_valid) in Hs. rewrite states01 in Hs. destruct Hs as [<-|[<-|[]]].
      + change (successor (learner_of (agent01 t gamma [1/2; 3/2] [[1/2]; [1/2]])) (rl_policy (learner_of (agent01 t gamma [1/2; 3/2] [[1/2]; [1/2]])) (nth 0 [[0]; [1]] [])) [0])
          with (rl_policy (learner_of (agent01 t gamma [1/2; 3/2] [[1/2]; [1/2]])) (nth 0 [[0]; [1]] [])).
        rewrite (half01 t _ 0 SU) by lia. reflexivity.
      + change (successor (learner_of (agent01 t gamma [1/2; 3/2] [[1/2]; [1/2]])) (rl_policy (learner_of (agent01 t gamma [1/2; 3/2] [[1/2]; [1/2]])) (nth 1 [[0]; [1]] [])) [1])
          with (rl_policy (learner_of (agent01 t gamma [1/2; 3/2] [[1/2]; [1/2]])) (nth 1 [[0]; [1]] [])).
        rewrite (half01 t _ 1 SU) by lia. reflexivity. }
  assert (BEL : forall gamma a b, a = gamma * ((a + b) / 2) -> b = 1 + gamma * ((a + b) / 2) ->
    bellman (learner_of (agent01 t gamma [1/2; 3/2] [[1/2]; [1/2]])) g01 [a; b]).
  { intros gamma a b Ha Hb. split; [reflexivity|]. intros k s E.
    assert (POL : rl_policy (learner_of (agent01 t gamma [1/2; 3/2] [[1/2]; [1/2]])) s = [1/2]).
    { destruct (points01 k s E) as [(-> & ->)|(-> & ->)]; [apply (half01 t _ 0)|apply (half01 t _ 1)]; auto. }
    rewrite POL. eexists. split; [apply (reads01 t); auto; lra|].
    destruct (points01 k s E) as [(-> & ->)|(-> & ->)]; cbn; lra. }
  split.
  - change (run solver [MakeSweep; MakeSolve; Assign zero; Eval 0] A) with
      (do B <- evaluate solver (Sweep (ag_now A)) B0; Ok B). cbn [evaluate].
    change (learner_with (ag_now A) B0) with (learner_of A).
    pose proof (step_ok _ _ _ _ _ _ (LNP (1/2)) [1/2; 3/2] eq_refl eq_refl) as EV. fold A in EV. rewrite EV. cbn [bind]. eexists. split; [reflexivity|].
    unfold has_values. cbn [set_value ag_value with_values rl_value]. unfold tf_assign. cbn [tf_inner]. f_equal. f_equal.
    pose proof (proj1 (bellman_fixed _ _ _ _ _ _ (LNP (1/2)) [1/2; 3/2]) (BEL (1/2) (1/2) (3/2) ltac:(lra) ltac:(lra))) as (_ & FX).
    apply (table_ext (N g01)); [now rewrite map_length, seq_length|reflexivity|].
    intros k Hk. rewrite look_seq by auto. now apply FX.
  - change (run solver [MakeSweep; MakeSolve; Assign zero; Eval 1] A) with
      (do B <- evaluate solver (Solve (ag_now A)) B0; Ok B). cbn [evaluate].
    change (learner_with {| at_dynamics := at_dynamics (ag_now A); at_reward := at_reward (ag_now A); at_gamma := at_gamma (ag_now B0) |} B0)
      with (learner_of (agent01 t 0 [1/2; 3/2] [[1/2]; [1/2]])).
    set (P0 := learner_of (agent01 t 0 [1/2; 3/2] [[1/2]; [1/2]])).
    assert (G : 0 <= rl_gamma P0 < 1) by (cbn; lra).
    assert (W : forall s, is_vertex g01 s -> weights_nonnegative t (successor P0 (rl_policy P0 s) s)).
    { intros s Hs. apply (all_points_In g01 g01_valid) in Hs. rewrite states01 in Hs.
      change (successor P0 (rl_policy P0 s) s) with (rl_policy P0 s).
      assert (POL : rl_policy P0 s = [1/2]).
      { destruct Hs as [<-|[<-|[]]]; [apply (half01 t _ 0)|apply (half01 t _ 1)]; auto. }
      rewrite POL. apply (nonneg01 _ _ SU). lra. }
    destruct (C31_optimum_exists _ _ _ _ _ _ _ (LNP 0) G W CMP) as (P' & E). fold P0 in E. rewrite E. cbn [bind].
    destruct (C31_solves_bellman _ _ _ _ _ _ _ _ (LNP 0) G W SND E) as (v & -> & _ & U & _).
    eexists. split; [reflexivity|]. unfold has_values. cbn [set_value ag_value with_values rl_value]. unfold tf_assign. cbn [tf_inner].
    f_equal. f_equal. symmetry. apply U. apply BEL; lra.
Qed.
Print Assumptions C75_one_discount_refuted.
(** The hypotheses of the theorems above are met by the object of the example. *)
Example C75_ex : exists t, TriSpec.setup dl0 inv1 g01 [[0]; [1]] 1 true t /\
  let A := agent01 t (1 / 2) [0; 1] [[1/4]; [1/4]] in
  let sign := {| at_dynamics := at_dynamics (ag_now A); at_reward := fun s a => - nth 0 a 0; at_gamma := 0 |} in
  just_created A /\
  forall solver, exists A1 C, run solver [Improve [[1/4]; [3/4]] None] A = Ok A1 /\
    run solver [Assign sign; Improve [[1/4]; [3/4]] None] A1 = Ok C /\
    ag_policy C = TfTri [[3/4]; [3/4]] t /\
    discrete_policy_optimization (learner_of C) g01 [[1/4]; [3/4]] None = Ok [[1/4]; [1/4]].
Proof.
  destruct (t01 true) as (t & SU). exists t. split; auto. cbv zeta. split; [split; reflexivity|]. intros solver.
  set (A := agent01 t (1 / 2) [0; 1] [[1/4]; [1/4]]).
  assert (FV : forall at0 T s x, 0 <= x <= 1 -> future_value
     (learner_with at0 {| ag_now := at0; ag_value := ag_value A; ag_policy := T; ag_ops := []; ag_stored := None |})
     None (Some [x]) None s = future_value {| rl_policy := policy_of T; rl_dynamics := at_dynamics at0; rl_reward := at_reward at0;
        rl_value := TfTri (map (fun x => [x]) [0; 1]) t; rl_gamma := at_gamma at0 |} None (Some [x]) None s) by reflexivity.
  assert (F1 : forall T s x, 0 <= x <= 1 -> future_value {| rl_policy := policy_of T; rl_dynamics := fun _ a => Exact a;
        rl_reward := fun s _ => nth 0 s 0;
        rl_value := TfTri (map (fun x => [x]) [0; 1]) t; rl_gamma := 1/2 |} None (Some [x]) None s = Ok (nth 0 s 0 + 1/2 * (0 + (1 - 0) * x))).
  { intros T s x Hx. exact (future01 t (1/2) 0 1 s x SU Hx). }
  assert (F2 : forall T s x, 0 <= x <= 1 -> future_value {| rl_policy := policy_of T; rl_dynamics := fun _ a => Exact a;
        rl_reward := fun s a => - nth 0 a 0;
        rl_value := TfTri (map (fun x => [x]) [0; 1]) t; rl_gamma := 0 |} None (Some [x]) None s = Ok (- x + 0 * (0 + (1 - 0) * x))).
  { intros T s x Hx. unfold future_value. cbn [rl_dynamics rl_value rl_reward rl_gamma].
    pose proof (learns01 t true 0 [0; 1] SU eq_refl) as LN.
    change (map (fun x => [x]) [0; 1]) with (rows_of [0; 1]).
    rewrite (value_state _ _ _ _ _ _ LN) by reflexivity. cbn [bind].
    now rewrite (value01 _ _ _ _ _ SU) by auto. }
  assert (D1 : forall T, discrete_policy_optimization {| rl_policy := policy_of T; rl_dynamics := fun _ a => Exact a;
        rl_reward := fun s _ => nth 0 s 0;
        rl_value := TfTri (map (fun x => [x]) [0; 1]) t; rl_gamma := 1/2 |} g01 [[1/4]; [3/4]] None = Ok [[3/4]; [3/4]]).
  { intros T. unfold discrete_policy_optimization, option_values. rewrite states01. cbn [mapM]. rewrite !F1 by lra.
    cbn; repeat (progress unfold Rltb; repeat (destruct Rlt_dec; try (exfalso; lra)); cbn); reflexivity. }
  assert (D2 : forall T, discrete_policy_optimization {| rl_policy := policy_of T; rl_dynamics := fun _ a => Exact a;
        rl_reward := fun s a => - nth 0 a 0;
        rl_value := TfTri (map (fun x => [x]) [0; 1]) t; rl_gamma := 0 |} g01 [[1/4]; [3/4]] None = Ok [[1/4]; [1/4]]).
  { intros T. unfold discrete_policy_optimization, option_values. rewrite states01. cbn [mapM]. rewrite !F2 by lra.
    cbn; repeat (progress unfold Rltb; repeat (destruct Rlt_dec; try (exfalso; lra)); cbn); reflexivity. }
  pose proof (t_grid_g _ _ _ _ _ _ _ SU) as TG.
  eexists. eexists. split; [|split; [|split]].
  - cbn [run step]. unfold improve, learner_with. cbn [A agent01 ag_policy tf_inner ag_stored ag_now ag_value at_dynamics at_reward at_gamma].
    rewrite TG, D1. cbn. reflexivity.
  - cbn [run step bind]. unfold improve, learner_with. cbn [A agent01 ag_policy tf_inner tf_var ag_stored ag_now ag_value at_dynamics at_reward at_gamma tf_assign].
    rewrite TG, D1. cbn. reflexivity.
  - reflexivity.
  - unfold learner_of, learner_with. cbn [ag_now ag_value ag_policy at_dynamics at_reward at_gamma]. apply D2.
Qed.

(** ** C76 *)
(** The negated value function of the policy as a Lyapunov function
    (examples/inverted_pendulum.ipynb:284-293).  [S] is the Lyapunov setup that uses
    it with the policy and the deterministic dynamics of the learner. *)
Definition negated_values (P : learner) (S : CertModel.setup) : Prop :=
  (forall x w, value_at_state (rl_value P) x = Ok w -> lyapunov_function S x = - w) /\
  CertModel.policy S = rl_policy P /\ dynamics S = rl_dynamics P.
(** At a grid state the decrease that [Lyapunov] computes is the reward minus
    (1 - gamma) times the value of the next state. *)
Theorem C76_decrease : forall dl inv g project t P v S k s y e,
  learns dl inv g project t P -> sumn (dims g) (fun j => 2 * EPS / spacing g j) < 1 ->
  rl_value P = TfTri (map (fun x => [x]) v) t -> bellman P g v -> negated_values P S ->
  index_to_state g (Z.of_nat k) = Ok s ->
  rl_dynamics P s (rl_policy P s) = Exact y -> value_at_state (rl_value P) y = Ok e ->
  decrease S s = rl_reward P s (rl_policy P s) - (1 - rl_gamma P) * e.
Proof.
  intros dl inv g project t P v S k s y e LN FM EV BV (LV & EP & ED) ES EY EE.
  unfold decrease, v_decrease_bound. rewrite EP, ED, EY. cbn [v_decrease_confidence].
  destruct (ln_tri _ _ _ _ _ _ LN) as (v0 & SU).
  pose proof (setup_params _ _ _ _ _ _ _ v SU (proj1 BV)) as SV.
  pose proof (C10_vertex_values _ _ _ _ _ _ _ _ _ SV FM ES) as C. rewrite Nat2Z.id in C.
  assert (ER : value_at_state (rl_value P) s = Ok (nth k v 0)).
  { unfold value_at_state. rewrite EV. fold (rows_of v). rewrite tf_is_tri. unfold tri_eval in C. cbn [mapM] in C.
    destruct (tri_eval1 _ _) as [r|]; cbn [bind] in C; [|discriminate]. injection C as ->. cbn [bind].
    pose proof (index_range g _ _ ES) as Rg. pose proof (proj1 BV) as TV. unfold table in TV.
    unfold rows_of. rewrite (nth_map_lt _ _ _ 0) by lia. reflexivity. }
  rewrite (LV s _ ER), (LV y e EE).
  destruct (proj2 BV k s ES) as (e' & E' & B).
  assert (e' = e) as ->.
  { unfold successor in E'. rewrite EY in E'. unfold tf_eval, tf_assign in E'. rewrite EV in E', EE. cbn [tf_inner mapM] in E'.
    unfold value_at_state in EE. destruct (tf_eval1 _ y) as [r|]; cbn [bind] in E', EE; [|discriminate].
    injection E' as ->. now injection EE as ->. }
  rewrite B. lra.
Qed.
Print Assumptions C76_decrease.

(** If the negated value is at most kappa times the cost of the step, it shrinks by
    the factor (1 - 1/kappa)/gamma, which is below one if kappa (1 - gamma) < 1. *)
Theorem C76_geometric : forall dl inv g project t P v S k s y e kappa,
  learns dl inv g project t P -> sumn (dims g) (fun j => 2 * EPS / spacing g j) < 1 ->
  rl_value P = TfTri (map (fun x => [x]) v) t -> bellman P g v -> negated_values P S ->
  index_to_state g (Z.of_nat k) = Ok s ->
  rl_dynamics P s (rl_policy P s) = Exact y -> value_at_state (rl_value P) y = Ok e ->
  0 < rl_gamma P -> 0 < kappa -> kappa * (1 - rl_gamma P) < 1 ->
  0 < - rl_reward P s (rl_policy P s) ->
  0 < lyapunov_function S s <= kappa * - rl_reward P s (rl_policy P s) ->
  lyapunov_function S y <= (1 - 1 / kappa) / rl_gamma P * lyapunov_function S s /\
  (1 - 1 / kappa) / rl_gamma P < 1 /\ decrease S s < 0.
Proof.
  intros dl inv g project t P v S k s y e kappa LN FM EV BV NV ES EY EE G0 K0 KG C0 (L0 & LK).
  pose proof (C76_decrease _ _ _ _ _ _ _ _ _ _ _ _ LN FM EV BV NV ES EY EE) as D.
  destruct NV as (LV & EP & ED).
  assert (DL : decrease S s = lyapunov_function S y - lyapunov_function S s).
  { unfold decrease, v_decrease_bound. rewrite EP, ED, EY. cbn [v_decrease_confidence]. lra. }
  pose proof (LV y e EE) as LY. set (c := - rl_reward P s (rl_policy P s)) in *.
  set (Ls := lyapunov_function S s) in *. set (Ly := lyapunov_function S y) in *. set (ga := rl_gamma P) in *.
  assert (E1 : ga * Ly = Ls - c) by (unfold c; nra).
  assert (F1 : (1 - 1 / kappa) / ga < 1).
  { apply (Rmult_lt_reg_r ga); auto. unfold Rdiv at 1. rewrite Rmult_assoc, Rinv_l, Rmult_1_r, Rmult_1_l by lra.
    apply (Rmult_lt_reg_r kappa); auto. replace ((1 - 1 / kappa) * kappa) with (kappa - 1) by (field; lra). lra. }
  assert (M : Ly <= (1 - 1 / kappa) / ga * Ls).
  { apply (Rmult_le_reg_r ga); auto. replace ((1 - 1 / kappa) / ga * Ls * ga) with (Ls - Ls / kappa) by (field; lra).
    assert (Ls / kappa <= c).
    { apply (Rmult_le_reg_r kappa); auto. unfold Rdiv. rewrite Rmult_assoc, Rinv_l by lra. lra. }
    lra. }
  split; auto. split; auto. rewrite DL.
  assert ((1 - 1 / kappa) / ga * Ls < 1 * Ls) by now apply Rmult_lt_compat_r. lra.
Qed.
Print Assumptions C76_geometric.

(** Without such a bound the claim is wrong, even if the costs vanish in the origin
    only and the origin is reached: 2 -> 1 -> 0 -> 0 with costs 1, 4, 0, the only
    (hence the optimal) policy, gamma = 1/2.  The value function is 0, -4, -3 and
    the step from 2 to 1 makes the negated value function larger. *)
Definition chain (s : list R) : list R := [Rmax 0 (nth 0 s 0 - 1)].
Definition chain_cost (s : list R) : R := let x := nth 0 s 0 in x * (15 / 2 - 7 / 2 * x).
Definition chain_agent (t tp : tri) : agent :=
  {| ag_now := {| at_dynamics := fun s _ => Exact (chain s); at_reward := fun s _ => - chain_cost s; at_gamma := 1 / 2 |};
     ag_value := TfTri (map (fun x => [x]) [0; -4; -3]) t; ag_policy := TfTri [[0]; [0]; [0]] tp;
     ag_ops := []; ag_stored := None |}.
Definition chain_lyapunov (t tp : tri) : CertModel.setup :=
  {| lyapunov_function := fun x => match value_at_state (TfTri (map (fun x => [x]) [0; -4; -3]) t) x with
                                   | Ok w => - w | Err _ => 0 end;
     CertModel.policy := policy_of (TfTri [[0]; [0]; [0]] tp); dynamics := fun s _ => Exact (chain s);
     lip_v := LvConst 0; lip_f := LfConst 0; tau := 0 |}.
Theorem C76_optimal_value_is_lyapunov_refuted : exists t,
  TriSpec.setup dl0 inv1 gv [[0]; [0]; [0]] 1 true t /\
  let A := chain_agent t t in let P := learner_of A in let S := chain_lyapunov t t in
  plans dl0 dl0 inv1 gv true true t t 1 [[0]] None A /\
  optimal P gv [[0]] None [0; -4; -3] /\ bellman P gv [0; -4; -3] /\ negated_values P S /\
  (chain_cost [0] = 0 /\ chain_cost [1] = 4 /\ chain_cost [2] = 1) /\
  (chain [0] = [0] /\ chain [1] = [0] /\ chain [2] = [1]) /\
  decrease S [2] = 1.
Proof.
  destruct tv as (t & SU). exists t. split; auto. cbv zeta.
  assert (CH : chain [0] = [0] /\ chain [1] = [0] /\ chain [2] = [1]).
  { unfold chain; cbn. split; [|split]; f_equal; unfold Rmax; destruct Rle_dec; lra. }
  destruct CH as (C0 & C1 & C2).
  assert (IX : forall k, (k < 3)%nat -> index_to_state gv (Z.of_nat k) = Ok (nth k [[0]; [1]; [2]] [])).
  { intros k Hk. pose proof (all_points_nth gv gv_valid (Z.of_nat k)) as A. rewrite statesv, Nat2Z.id in A. apply A.
    change (nindex gv) with 3%Z. lia. }
  assert (RD : forall T v k, tf_inner T = t -> length v = 3%nat -> (k < 3)%nat ->
    reads T v (nth k [[0]; [1]; [2]] []) (nth k v 0)).
  { intros T v k ET L Hk. unfold reads, tf_eval, tf_assign. rewrite ET. cbn [mapM].
    rewrite (valuev t v k _ SU L (IX k Hk)). reflexivity. }
  assert (PO : forall s k, index_to_state gv (Z.of_nat k) = Ok s -> policy_of (TfTri [[0]; [0]; [0]] t) s = [0]).
  { intros s k E. unfold policy_of. change [[0]; [0]; [0]] with (map (fun x : R => [x]) [0; 0; 0]).
    rewrite (valuev t [0; 0; 0] k s SU eq_refl E). destruct k as [|[|[|[|k]]]]; reflexivity. }
  assert (PL : plans dl0 dl0 inv1 gv true true t t 1 [[0]] None (chain_agent t t)).
  { constructor; eauto.
    - exists [0; -4; -3]. split; reflexivity.
    - exists [[0]; [0]; [0]]. auto 10.
    - apply resolutionv.
    - cbn. lra.
    - intros o [<-|[]]. reflexivity.
    - intros s o Hs _. cbn [successor learner_of learner_with chain_agent rl_dynamics at_dynamics ag_now].
      split; [reflexivity|]. apply (all_points_In gv gv_valid) in Hs. rewrite statesv in Hs.
      destruct Hs as [<-|[<-|[<-|[]]]]; [rewrite C0|rewrite C1|rewrite C2].
      + apply (vertex_nonnegative _ _ _ _ _ _ _ SU [0] 0 resolutionv (IX 0%nat ltac:(lia))).
      + apply (vertex_nonnegative _ _ _ _ _ _ _ SU [0] 0 resolutionv (IX 0%nat ltac:(lia))).
      + apply (vertex_nonnegative _ _ _ _ _ _ _ SU [1] 1 resolutionv (IX 1%nat ltac:(lia))).
    - intros k Hk. exists [0]. split; [now left|exact I]. }
  assert (NX : forall k s, index_to_state gv (Z.of_nat k) = Ok s -> forall a,
    exists e, reads (rl_value (learner_of (chain_agent t t))) [0; -4; -3] (successor (learner_of (chain_agent t t)) a s) e /\
      nth k [0; -4; -3] 0 = - chain_cost s + 1 / 2 * e).
  { intros k s E a. cbn [successor learner_of learner_with chain_agent rl_dynamics at_dynamics ag_now rl_value ag_value].
    destruct (pointsv k s E) as [(-> & ->)|[(-> & ->)|(-> & ->)]]; [rewrite C0|rewrite C1|rewrite C2].
    - eexists. split; [apply (RD _ _ 0%nat); auto|]. unfold chain_cost. cbn. lra.
    - eexists. split; [apply (RD _ _ 0%nat); auto|]. unfold chain_cost. cbn. lra.
    - eexists. split; [apply (RD _ _ 1%nat); auto|]. unfold chain_cost. cbn. lra. }
  split; auto. split; [|split; [|split; [|split; [|split]]]].
  - split; [reflexivity|]. intros k s E. split.
    + intros a _. destruct (NX k s E a) as (e & Rd & EQ). exists e. split; auto. cbn [learner_of learner_with chain_agent rl_reward at_reward ag_now rl_gamma at_gamma]. lra.
    + destruct (NX k s E [0]) as (e & Rd & EQ). exists [0], e. split; [split; [now left|exact I]|]. split; auto.
  - split; [reflexivity|]. intros k s E. destruct (NX k s E (rl_policy (learner_of (chain_agent t t)) s)) as (e & Rd & EQ).
    exists e. split; auto.
  - split; [|split; reflexivity]. intros x w E. cbn [chain_lyapunov lyapunov_function].
    change (rl_value (learner_of (chain_agent t t))) with (TfTri (map (fun x => [x]) [0; -4; -3]) t) in E. now rewrite E.
  - unfold chain_cost; cbn. lra.
  - auto.
  - unfold decrease, v_decrease_bound, v_decrease_confidence. cbn [chain_lyapunov dynamics lyapunov_function]. rewrite C2.
    unfold value_at_state. rewrite (valuev t [0; -4; -3] 1 [1] SU eq_refl (IX 1%nat ltac:(lia))).
    rewrite (valuev t [0; -4; -3] 2 [2] SU eq_refl (IX 2%nat ltac:(lia))). cbn. lra.
Qed.
Print Assumptions C76_optimal_value_is_lyapunov_refuted.
(** The step from 1 to 0 of the same system meets the hypotheses with kappa = 1. *)
Example C76_ex : exists t, TriSpec.setup dl0 inv1 gv [[0]; [0]; [0]] 1 true t /\
  let P := learner_of (chain_agent t t) in let S := chain_lyapunov t t in
  learns dl0 inv1 gv true t P /\ bellman P gv [0; -4; -3] /\ negated_values P S /\
  lyapunov_function S [1] = 4 /\ - rl_reward P [1] (rl_policy P [1]) = 4 /\ decrease S [1] = -4.
Proof.
  destruct C76_optimal_value_is_lyapunov_refuted as (t & SU & PL & OPT & BEL & NV & CC & (C0 & C1 & C2) & _).
  exists t. split; auto. cbv zeta. split; [|split; [|split; [|split; [|split]]]]; auto.
  - constructor; eauto.
    exists [0; -4; -3]. split; reflexivity.
  - cbn [chain_lyapunov lyapunov_function]. unfold value_at_state.
    pose proof (all_points_nth gv gv_valid 1 ltac:(change (nindex gv) with 3%Z; lia)) as I1. rewrite statesv in I1.
    rewrite (valuev t [0; -4; -3] 1 [1] SU eq_refl I1). cbn. lra.
  - cbn [learner_of learner_with chain_agent rl_reward at_reward ag_now]. destruct CC as (_ & -> & _). lra.
  - unfold decrease, v_decrease_bound, v_decrease_confidence. cbn [chain_lyapunov dynamics lyapunov_function]. rewrite C1.
    unfold value_at_state.
    pose proof (all_points_nth gv gv_valid 0 ltac:(change (nindex gv) with 3%Z; lia)) as I0. rewrite statesv in I0.
    pose proof (all_points_nth gv gv_valid 1 ltac:(change (nindex gv) with 3%Z; lia)) as I1. rewrite statesv in I1.
    rewrite (valuev t [0; -4; -3] 0 [0] SU eq_refl I0), (valuev t [0; -4; -3] 1 [1] SU eq_refl I1). cbn. lra.
Qed.
