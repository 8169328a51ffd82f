(** Proofs about policy iteration programs. *)
From Coq Require Import Reals List Bool Arith ZArith Lia Lra.
From Verif Require Import Prelude NumModel NumProofs GridModel GridSpec SparseSpec GridProofs TriModel TriSpec
  TriProofs TriProofs2 SafeModel CertModel ListFacts Bellman BellmanOpt RLModel RLSpec RLProofs
  Properties.GridProps Properties.TriProps Properties.RLProps PIModel PISpec.
Import ListNotations.
Local Open Scope nat_scope.
Local Open Scope R_scope.

Lemma run_app solver p1 p2 A : run solver (p1 ++ p2) A = do B <- run solver p1 A; run solver p2 B.
Proof.
  revert A. induction p1 as [|c p1 IH]; intros A; simpl; auto.
  destruct (step solver c A); simpl; auto.
Qed.

Definition allowedb (constraint : option (list (list R) -> list R)) (n : nat) (k : nat) (a : list R) : bool :=
  match constraint with
  | None => true
  | Some f => if Rle_dec 0 (nth k (f (repeat a n)) 0) then true else false
  end.
Lemma allowedb_iff constraint n k a : allowedb constraint n k a = true <-> allowed constraint n a k.
Proof.
  unfold allowedb, allowed. destruct constraint; [|tauto]. destruct (Rle_dec _ _); split; auto; discriminate.
Qed.

Section Plan.
Variables (dl dl' : list (list R) -> delaunay) (inv : list (list R) -> res (list (list R)))
  (g : grid) (project project' : bool) (t t' : tri) (m : nat)
  (options : list (list R)) (constraint : option (list (list R) -> list R)).
Local Notation N := (RLProofs.N g).
Local Notation pt k := (nth k (all_points g) []).

Definition choices (k : nat) : list (list R) := filter (allowedb constraint N k) options.
Lemma choices_In k a : In a (choices k) <-> permitted options constraint N k a.
Proof using. unfold choices, permitted. rewrite filter_In, allowedb_iff. reflexivity. Qed.

(** The agents with the same attributes and tables of the right shape. *)
Variable at0 : attributes.
Definition LR (p : list R -> list R) (v : list R) : learner :=
  {| rl_policy := p; rl_dynamics := at_dynamics at0; rl_reward := at_reward at0;
     rl_value := TfTri (rows_of v) t; rl_gamma := at_gamma at0 |}.
Definition Q (u : nat -> R) (k : nat) (a : list R) : R :=
  at_reward at0 (pt k) a + at_gamma at0 * interp t u (successor (LR (fun _ => []) []) a (pt k)).

Record looks (A : agent) (v : list R) (actions : list (list R)) : Prop := {
  lk_now : ag_now A = at0;
  lk_value : ag_value A = TfTri (rows_of v) t;
  lk_table : length v = N;
  lk_policy : ag_policy A = TfTri actions t';
  lk_actions : length actions = N;
  lk_cols : Forall (fun a => length a = m) actions;
  lk_stored : ag_stored A = None \/ ag_stored A = Some at0
}.

Variable A0 : agent.
Hypothesis PL : plans dl dl' inv g project project' t t' m options constraint A0.
Hypothesis AT : ag_now A0 = at0.

Lemma pl_grid : valid_grid g.
Proof using PL. destruct (pl_value_tri _ _ _ _ _ _ _ _ _ _ _ _ PL) as (v & SU). apply SU. Qed.
Lemma pl_points : length (all_points g) = N.
Proof using PL. pose proof (all_points_length g pl_grid). unfold RLProofs.N. lia. Qed.
Lemma pl_N : (0 < N)%nat.
Proof using PL. pose proof (nindex_pos g pl_grid). unfold RLProofs.N. lia. Qed.
Lemma table_iff v : table g v <-> length v = N.
Proof using PL. unfold table, RLProofs.N. pose proof (nindex_pos g pl_grid). split; intros; lia. Qed.
Lemma pt_index k : (k < N)%nat -> index_to_state g (Z.of_nat k) = Ok (pt k).
Proof using PL.
  intros Hk. rewrite (all_points_nth g pl_grid) by (unfold RLProofs.N in Hk; lia). now rewrite Nat2Z.id.
Qed.
Lemma pt_vertex k : (k < N)%nat -> is_vertex g (pt k).
Proof using PL. intros Hk. eapply index_vertex; [apply pl_grid|]. now apply pt_index. Qed.
Lemma index_pt k s : index_to_state g (Z.of_nat k) = Ok s -> (k < N)%nat /\ s = pt k.
Proof using PL.
  intros E. pose proof (index_range g _ _ E) as Rg. assert (Hk : (k < N)%nat) by (unfold RLProofs.N; lia). split; auto.
  rewrite pt_index in E by auto. congruence.
Qed.
Lemma vertex_pt s : is_vertex g s -> exists k, (k < N)%nat /\ s = pt k.
Proof using PL.
  intros H. apply (all_points_In g pl_grid) in H. destruct (In_nth _ _ [] H) as (k & Hk & E).
  rewrite pl_points in Hk. eauto.
Qed.

Lemma gam : 0 <= at_gamma at0 < 1.
Proof using PL AT. rewrite <- AT. apply PL. Qed.
Lemma gam1 : 0 <= at_gamma at0 * 1 < 1.
Proof using PL AT. pose proof gam. lra. Qed.
Lemma next_ok k a : (k < N)%nat -> In a options ->
  length (successor (LR (fun _ => []) []) a (pt k)) = dims g /\
  weights_nonnegative t (successor (LR (fun _ => []) []) a (pt k)).
Proof using PL AT.
  intros Hk Ha. pose proof (pl_next _ _ _ _ _ _ _ _ _ _ _ _ PL (pt k) a (pt_vertex k Hk) Ha) as H.
  unfold learner_of in H. rewrite AT in H. exact H.
Qed.

Lemma LR_learns p v : length v = N -> (forall k, (k < N)%nat -> In (p (pt k)) options) ->
  learns dl inv g project t (LR p v).
Proof using PL AT.
  intros L H. constructor.
  - apply PL.
  - exists v. split; auto. now apply table_iff.
  - intros s Hs. destruct (vertex_pt s Hs) as (k & Hk & ->). exact (proj1 (next_ok k _ Hk (H k Hk))).
Qed.
Lemma LR_weights p v : (forall k, (k < N)%nat -> In (p (pt k)) options) ->
  forall s, is_vertex g s -> weights_nonnegative t (successor (LR p v) (rl_policy (LR p v) s) s).
Proof using PL AT.
  intros H s Hs. destruct (vertex_pt s Hs) as (k & Hk & ->). exact (proj2 (next_ok k _ Hk (H k Hk))).
Qed.
Lemma some_option : exists a, In a options.
Proof using PL. destruct (pl_some _ _ _ _ _ _ _ _ _ _ _ _ PL 0%nat) as (a & Ha & _); [apply pl_N|eauto]. Qed.
Lemma LR_some v : length v = N -> exists a, In a options /\ learns dl inv g project t (LR (fun _ => a) v).
Proof using PL AT. destruct some_option as (a & Ha). intros L. exists a. split; auto. now apply LR_learns. Qed.

Lemma choices_ne k : (k < N)%nat -> choices k <> [].
Proof using PL.
  intros Hk E. destruct (pl_some _ _ _ _ _ _ _ _ _ _ _ _ PL k Hk) as (a & Ha).
  apply choices_In in Ha. rewrite E in Ha. contradiction.
Qed.
Lemma Q_close u v D : (forall k, (k < N)%nat -> Rabs (u k - v k) <= D) ->
  forall k a, (k < N)%nat -> In a (choices k) -> Rabs (Q u k a - Q v k a) <= at_gamma at0 * 1 * D.
Proof using PL AT.
  intros H k a Hk Ha. apply choices_In in Ha as (Ha & _).
  destruct (LR_some (repeat 0 N)) as (b & Hb & LN); [apply repeat_length|].
  assert (LA : learns dl inv g project t (LR (fun _ => a) (repeat 0 N))).
  { apply LR_learns; auto. apply repeat_length. }
  apply (contraction _ _ _ _ _ _ LA 1 (proj1 gam)
     (nonneg_bounded _ _ _ _ _ _ LA (LR_weights _ _ (fun _ _ => Ha))) u v D H k Hk).
Qed.
Lemma Q_mono u v : (forall k, (k < N)%nat -> u k <= v k) ->
  forall k a, (k < N)%nat -> In a (choices k) -> Q u k a <= Q v k a.
Proof using PL AT.
  intros H k a Hk Ha. apply choices_In in Ha as (Ha & _).
  assert (LA : learns dl inv g project t (LR (fun _ => a) (repeat 0 N))).
  { apply LR_learns; auto. apply repeat_length. }
  apply (monotone _ _ _ _ _ _ LA (proj1 gam) (LR_weights _ _ (fun _ _ => Ha)) u v H k Hk).
Qed.

Lemma value_LR v x : length v = N -> length x = dims g -> value_at_state (TfTri (rows_of v) t) x = Ok (interp t (look v) x).
Proof using PL AT.
  intros L Lx. destruct (LR_some v L) as (a & _ & LN). apply (value_state _ _ _ _ _ _ LN); auto. now apply table_iff.
Qed.
Lemma future_option p v k a : length v = N -> (k < N)%nat -> In a options ->
  future_value (LR p v) None (Some a) None (pt k) = Ok (Q (look v) k a).
Proof using PL AT.
  intros L Hk Ha. destruct (next_ok k a Hk Ha) as (Ln & _). unfold future_value, Q, successor in *.
  cbn [LR rl_dynamics rl_value rl_reward rl_gamma] in *.
  destruct (at_dynamics at0 (pt k) a); rewrite value_LR by auto; reflexivity.
Qed.

(** ** The stationary equations *)
Lemma bellman_follow p v0 v : length v0 = N -> (forall k, (k < N)%nat -> In (p (pt k)) options) ->
  (bellman (LR p v0) g v <-> length v = N /\ fixed N (follow _ Q (fun k => p (pt k))) (look v)).
Proof using PL AT.
  intros L H. rewrite (bellman_fixed _ _ _ _ _ _ (LR_learns p v0 L H)). reflexivity.
Qed.
Lemma reads_iff v0 v x e : length v0 = N -> length v = N -> length x = dims g ->
  (reads (TfTri (rows_of v0) t) v x e <-> e = interp t (look v) x).
Proof using PL AT.
  intros L0 L Lx. destruct (LR_some v L) as (a & _ & LN).
  destruct (ln_tri _ _ _ _ _ _ LN) as (w & SU). unfold reads, tf_assign, tf_eval. cbn [tf_inner mapM].
  fold (rows_of v). rewrite (value_ok _ _ _ _ _ _ _ SU) by (auto; now apply table_iff). cbn [bind]. split.
  - intros E. now injection E as <-.
  - now intros ->.
Qed.
Lemma optimal_iff p v0 v : length v0 = N ->
  (optimal (LR p v0) g options constraint v <-> length v = N /\ fixed N (best _ choices Q) (look v)).
Proof using PL AT.
  intros L0. unfold optimal. rewrite table_iff. change (Z.to_nat (nindex g)) with N. split.
  - intros (L & H). split; auto. intros k Hk. destruct (H k _ (pt_index k Hk)) as (U & a & e & Pa & Ra & E).
    assert (QE : forall b, In b options -> forall e, reads (TfTri (rows_of v0) t) v (successor (LR p v0) b (pt k)) e ->
      at_reward at0 (pt k) b + at_gamma at0 * e = Q (look v) k b).
    { intros b Hb e' R. apply reads_iff in R; auto; [|now apply (next_ok k b)]. subst e'. reflexivity. }
    symmetry. pose proof (QE a (proj1 Pa) e Ra) as E1. cbn [LR rl_reward rl_gamma rl_value] in E, U.
    unfold look at 1. rewrite E, E1. apply best_unique with (n := N); auto using choices_ne.
    + now apply choices_In.
    + intros b Hb. apply choices_In in Hb. destruct (U b Hb) as (e' & R & LE).
      rewrite (QE b (proj1 Hb) e' R) in LE. lra.
  - intros (L & F). split; auto. intros k s ES. destruct (index_pt k s ES) as (Hk & ->).
    specialize (F k Hk). unfold look in F at 2. split.
    + intros a Pa. exists (interp t (look v) (successor (LR p v0) a (pt k))). split.
      * apply reads_iff; auto. now apply (next_ok k a Hk (proj1 Pa)).
      * cbn [LR rl_reward rl_gamma]. rewrite <- F.
        change (at_reward at0 (pt k) a + at_gamma at0 * interp t (look v) (successor (LR p v0) a (pt k)))
          with (Q (look v) k a). apply best_upper. now apply choices_In.
    + destruct (best_attained N _ choices choices_ne Q (look v) k Hk) as (a & Ia & Ea).
      apply choices_In in Ia. exists a, (interp t (look v) (successor (LR p v0) a (pt k))). split; auto. split.
      * apply reads_iff; auto. now apply (next_ok k a Hk (proj1 Ia)).
      * cbn [LR rl_reward rl_gamma]. rewrite <- F, <- Ea. reflexivity.
Qed.

(** ** The calls *)
Lemma policy_takes actions k : length actions = N -> Forall (fun a => length a = m) actions -> (k < N)%nat ->
  policy_of (TfTri actions t') (pt k) = nth k actions [].
Proof using PL.
  intros L F Hk. destruct (pl_policy_tri _ _ _ _ _ _ _ _ _ _ _ _ PL) as (v & SU).
  assert (SR : TriSpec.setup dl' inv g actions m project' (with_params t' actions)).
  { apply (setup_rows _ _ _ _ _ _ _ _ _ SU); auto. pose proof (nindex_pos g pl_grid). unfold RLProofs.N in L. lia. }
  pose proof (C10_vertex_values _ _ _ _ _ _ _ _ _ SR (pl_resolution _ _ _ _ _ _ _ _ _ _ _ _ PL) (pt_index k Hk)) as C.
  rewrite Nat2Z.id in C. unfold policy_of. rewrite tf_is_tri. unfold tri_eval in C. cbn [mapM] in C.
  destruct (tri_eval1 _ _) as [r|]; cbn [bind] in C; [|discriminate]. now injection C as ->.
Qed.

Lemma learner_LR A v actions : looks A v actions -> learner_with at0 A = LR (policy_of (TfTri actions t')) v.
Proof using. intros K. unfold learner_with, LR. now rewrite (lk_value _ _ _ K), (lk_policy _ _ _ K). Qed.

Lemma improve_ok A v actions : looks A v actions ->
  exists A' actions', improve options constraint A = Ok A' /\ looks A' v actions' /\
    ag_ops A' = ag_ops A /\ greedy N _ choices Q (look v) (fun k => nth k actions' []).
Proof using PL AT.
  intros K. unfold improve.
  assert (FB : forallb (fun a => length a =? length (nth 0 (tf_var (ag_policy A)) []))%nat options = true).
  { apply forallb_forall. intros a Ha. apply Nat.eqb_eq. rewrite (lk_policy _ _ _ K). cbn [tf_var].
    rewrite (pl_options _ _ _ _ _ _ _ _ _ _ _ _ PL a Ha). pose proof (lk_cols _ _ _ K) as F.
    rewrite Forall_forall in F. symmetry. apply F. apply nth_In. rewrite (lk_actions _ _ _ K). apply pl_N. }
  rewrite FB.
  assert (B : match ag_stored A with Some a => a | None => ag_now A end = at0).
  { destruct (lk_stored _ _ _ K) as [-> | ->]; auto. apply (lk_now _ _ _ K). }
  rewrite B, (learner_LR _ _ _ K), (lk_policy _ _ _ K). cbn [tf_inner].
  assert (TG : t_grid t' = g).
  { destruct (pl_policy_tri _ _ _ _ _ _ _ _ _ _ _ _ PL) as (w & SU). eapply t_grid_g; eauto. }
  rewrite TG. set (p := policy_of (TfTri actions t')).
  pose proof (lk_table _ _ _ K) as Lv.
  destruct (greedy_runs (LR p v) g options constraint) as (acts & E).
  { destruct some_option as (a & Ha). intros E. rewrite E in Ha. contradiction. }
  { intros k a Hk Ha. rewrite pl_points in Hk. exists (Q (look v) k a). now apply future_option. }
  { intros a Ha. unfold slack_ok. pose proof (pl_slack _ _ _ _ _ _ _ _ _ _ _ _ PL) as HS.
    rewrite pl_points. destruct constraint; auto. }
  rewrite E. cbn [bind]. destruct (greedy_spec _ _ _ _ _ E) as (LA & S). rewrite pl_points in LA, S.
  eexists. exists acts. split; [reflexivity|].
  assert (GR : greedy N _ choices Q (look v) (fun k => nth k acts [])).
  { assert (X : forall k, (k < N)%nat -> In (nth k acts []) (choices k) /\ Q (look v) k (nth k acts []) = best _ choices Q (look v) k).
    { intros k Hk. destruct (S k Hk) as (i & q & Hi & EA & EQ & BEST & _).
      assert (QE : forall j, (j < length options)%nat -> q j = Q (look v) k (nth j options [])).
      { intros j Hj. specialize (EQ j Hj). rewrite future_option in EQ by (auto; now apply nth_In). congruence. }
      destruct BEST as (AI & MX).
      { destruct (pl_some _ _ _ _ _ _ _ _ _ _ _ _ PL k Hk) as (a & Ia & Aa).
        destruct (In_nth _ _ [] Ia) as (j & Hj & <-). eauto. }
      assert (I : In (nth k acts []) (choices k)).
      { apply choices_In. rewrite EA. split; auto. now apply nth_In. }
      split; auto. apply best_unique with (n := N); auto using choices_ne.
      intros b Hb. apply choices_In in Hb as (Ib & Ab). destruct (In_nth _ _ [] Ib) as (j & Hj & <-).
      destruct (MX j Hj Ab) as (LE & _). rewrite !QE in LE by auto. now rewrite EA. }
    split; intros k Hk; now apply X. }
  split; [|split; auto].
  constructor; cbn [ag_now ag_value ag_policy ag_stored]; auto; try apply K.
  - apply Forall_forall. intros a Ha. destruct (In_nth _ _ [] Ha) as (i & Hi & <-).
    destruct GR as (GC & _). specialize (GC i ltac:(lia)). apply choices_In in GC as (Io & _).
    now apply (pl_options _ _ _ _ _ _ _ _ _ _ _ _ PL).
Qed.

Lemma set_value_looks A v actions v' : looks A v actions -> length v' = N ->
  looks (set_value A (TfTri (rows_of v') t)) v' actions.
Proof using. intros K L. constructor; cbn [set_value ag_now ag_value ag_policy ag_stored]; auto; apply K. Qed.

Lemma sweep_ok solver A v actions : looks A v actions ->
  (forall k, (k < N)%nat -> In (nth k actions []) options) ->
  exists v', evaluate solver (Sweep at0) A = Ok (set_value A (TfTri (rows_of v') t)) /\ length v' = N /\
    forall k, (k < N)%nat -> look v' k = Q (look v) k (nth k actions []).
Proof using PL AT.
  intros K H. cbn [evaluate]. rewrite (learner_LR _ _ _ K). set (p := policy_of (TfTri actions t')).
  pose proof (lk_table _ _ _ K) as Lv.
  assert (HP : forall k, (k < N)%nat -> p (pt k) = nth k actions []).
  { intros k Hk. apply policy_takes; auto; apply K. }
  assert (LN : learns dl inv g project t (LR p v)).
  { apply LR_learns; auto. intros k Hk. rewrite HP by auto. now apply H. }
  rewrite (step_ok _ _ _ _ _ _ LN v) by (auto; now apply table_iff). cbn [bind].
  exists (map (Top g t (LR p v) (look v)) (seq 0 N)). split; [|split].
  - reflexivity.
  - now rewrite map_length, seq_length.
  - intros k Hk. rewrite look_seq by auto. unfold Top, Q. cbn [LR rl_policy rl_reward rl_gamma]. now rewrite HP.
Qed.

Lemma solve_ok solver A v actions : sound_solver solver -> complete_solver solver -> looks A v actions ->
  (forall k, (k < N)%nat -> In (nth k actions []) options) ->
  exists v', evaluate solver (Solve at0) A = Ok (set_value A (TfTri (rows_of v') t)) /\ length v' = N /\
    fixed N (follow _ Q (fun k => nth k actions [])) (look v').
Proof using PL AT.
  intros SND CMP K H. cbn [evaluate].
  assert (MX : {| at_dynamics := at_dynamics at0; at_reward := at_reward at0; at_gamma := at_gamma (ag_now A) |} = at0).
  { rewrite (lk_now _ _ _ K). now destruct at0. }
  rewrite MX, (learner_LR _ _ _ K). set (p := policy_of (TfTri actions t')).
  pose proof (lk_table _ _ _ K) as Lv.
  assert (HP : forall k, (k < N)%nat -> p (pt k) = nth k actions []).
  { intros k Hk. apply policy_takes; auto; apply K. }
  assert (HO : forall k, (k < N)%nat -> In (p (pt k)) options).
  { intros k Hk. rewrite HP by auto. now apply H. }
  pose proof (LR_learns p v Lv HO) as LN. pose proof (LR_weights p v HO) as W.
  destruct (C31_optimum_exists _ _ _ _ _ _ _ LN gam W CMP) as (P' & E). rewrite E. cbn [bind].
  destruct (C31_solves_bellman _ _ _ _ _ _ _ _ LN gam W SND E) as (v' & -> & B & _).
  apply bellman_follow in B as (L' & F); auto. exists v'. split; [reflexivity|]. split; auto.
  intros k Hk. rewrite <- F by auto. unfold follow. now rewrite HP.
Qed.

(** ** The loops *)
Section Loop.
Variables (A : agent) (v0 : list R) (actions0 : list (list R)).
Hypothesis K0 : looks A v0 actions0.
Variable solver : list R -> R -> coo -> lp_result.
Local Notation i := (length (ag_ops A)).

Lemma ops_looks l B v acts : looks B v acts -> looks (set_ops B l) v acts.
Proof using. intros K. constructor; cbn [set_ops ag_now ag_value ag_policy ag_stored]; apply K. Qed.

(** *** Policy iteration *)
Section Solving.
Hypothesis SND : sound_solver solver.
Hypothesis CMP : complete_solver solver.
Hypothesis G0 : forall k, (k < N)%nat -> In (nth k actions0 []) (choices k).
Definition pi (n : nat) : list call := MakeSolve :: rounds n [Eval i; Improve options constraint].
Definition B (n : nat) : agent := match run solver (pi n) A with Ok B => B | Err _ => A end.
Definition va (n : nat) : list R := map (fun r => nth 0 r 0) (tf_var (ag_value (B n))).
Definition ac (n : nat) : list (list R) := tf_var (ag_policy (B n)).

Lemma rows_back v : map (fun r => nth 0 r 0) (rows_of v) = v.
Proof using. unfold rows_of. rewrite map_map. cbn. apply map_id. Qed.
Lemma looks_tables C v acts : looks C v acts ->
  map (fun r => nth 0 r 0) (tf_var (ag_value C)) = v /\ tf_var (ag_policy C) = acts.
Proof using. intros K. rewrite (lk_value _ _ _ K), (lk_policy _ _ _ K). cbn [tf_var]. split; auto. apply rows_back. Qed.

Lemma pi_step C v acts : looks C v acts -> nth_error (ag_ops C) i = Some (Solve at0) ->
  (forall k, (k < N)%nat -> In (nth k acts []) (choices k)) ->
  exists C' v' acts', run solver [Eval i; Improve options constraint] C = Ok C' /\ looks C' v' acts' /\
    nth_error (ag_ops C') i = Some (Solve at0) /\
    fixed N (follow _ Q (fun k => nth k acts [])) (look v') /\
    greedy N _ choices Q (look v') (fun k => nth k acts' []).
Proof using PL AT SND CMP.
  intros K EO GC. cbn [run step]. rewrite EO.
  destruct (solve_ok solver C v acts SND CMP K) as (v' & E & L & F).
  { intros k Hk. apply GC, choices_In in Hk. apply Hk. }
  rewrite E. cbn [bind]. destruct (improve_ok _ _ _ (set_value_looks _ _ _ _ K L)) as (C' & acts' & E' & K' & EO' & GR).
  rewrite E'. cbn [bind]. exists C', v', acts'. split; auto. split; auto. split; auto. rewrite EO'. exact EO.
Qed.
Lemma pi_run n : run solver (pi n) A = Ok (B n) /\ (exists v, looks (B n) v (ac n)) /\
  nth_error (ag_ops (B n)) i = Some (Solve at0) /\
  (forall k, (k < N)%nat -> In (nth k (ac n) []) (choices k)).
Proof using PL AT SND CMP K0 G0.
  induction n as [|n (E & (v & K) & EO & GC)].
  - unfold B, ac. cbn. split; auto. rewrite (lk_policy _ _ _ K0). cbn [tf_var]. split; [exists v0; now apply ops_looks|].
    split; auto. rewrite nth_error_app2, Nat.sub_diag, (lk_now _ _ _ K0) by lia. reflexivity.
  - destruct (pi_step _ _ _ K EO GC) as (C' & v' & acts' & E' & K' & EO' & F & GR).
    assert (ES : run solver (pi (S n)) A = Ok C').
    { unfold pi in *. cbn [rounds]. rewrite app_comm_cons, run_app, E. exact E'. }
    assert (EB : B (S n) = C') by (unfold B; now rewrite ES).
    unfold ac. rewrite EB, (proj2 (looks_tables _ _ _ K')). split; auto. split; [eauto|]. split; auto.
    intros k Hk. now apply (proj1 GR).
Qed.
Lemma pi_next n : looks (B (S n)) (va (S n)) (ac (S n)) /\
  fixed N (follow _ Q (fun k => nth k (ac n) [])) (look (va (S n))) /\
  greedy N _ choices Q (look (va (S n))) (fun k => nth k (ac (S n)) []).
Proof using PL AT SND CMP K0 G0.
  destruct (pi_run n) as (E & (v & K) & EO & GC).
  destruct (pi_step _ _ _ K EO GC) as (C' & v' & acts' & E' & K' & EO' & F & GR).
  assert (ES : run solver (pi (S n)) A = Ok C').
  { unfold pi in *. cbn [rounds]. rewrite app_comm_cons, run_app, E. exact E'. }
  assert (EB : B (S n) = C') by (unfold B; now rewrite ES).
  unfold ac at 1 3, va. rewrite EB, (proj2 (looks_tables _ _ _ K')), (proj1 (looks_tables _ _ _ K')). auto.
Qed.
End Solving.

(** *** Value iteration *)
Definition vi (n : nat) : list call := MakeSweep :: rounds n [Improve options constraint; Eval i].
Lemma vi_step C v acts : looks C v acts -> nth_error (ag_ops C) i = Some (Sweep at0) ->
  exists C' v' acts', run solver [Improve options constraint; Eval i] C = Ok C' /\ looks C' v' acts' /\
    nth_error (ag_ops C') i = Some (Sweep at0) /\
    (forall k, (k < N)%nat -> look v' k = best _ choices Q (look v) k).
Proof using PL AT.
  intros K EO. cbn [run step].
  destruct (improve_ok _ _ _ K) as (C' & acts' & E' & K' & EO' & GR). rewrite E'. cbn [bind]. rewrite EO', EO.
  destruct (sweep_ok solver C' v acts' K') as (v' & E & L & F).
  { intros k Hk. apply (proj1 GR), choices_In in Hk. apply Hk. }
  rewrite E. cbn [bind]. exists (set_value C' (TfTri (rows_of v') t)), v', acts'. split; auto.
  split; [now apply set_value_looks with v|]. split; [cbn [set_value ag_ops]; congruence|].
  intros k Hk. rewrite F by auto. now apply (proj2 GR).
Qed.
Lemma vi_run n : exists C v acts, run solver (vi n) A = Ok C /\ looks C v acts /\
  nth_error (ag_ops C) i = Some (Sweep at0) /\
  (forall k, (k < N)%nat -> look v k = iter (best _ choices Q) n (look v0) k).
Proof using PL AT K0.
  induction n as [|n (C & v & acts & E & K & EO & F)].
  - eexists. exists v0, actions0. split; [reflexivity|]. split; [now apply ops_looks|]. split; auto. cbn [set_ops ag_ops].
    rewrite nth_error_app2, Nat.sub_diag, (lk_now _ _ _ K0) by lia. reflexivity.
  - destruct (vi_step _ _ _ K EO) as (C' & v' & acts' & E' & K' & EO' & F').
    exists C', v', acts'. split.
    { unfold vi in *. cbn [rounds]. rewrite app_comm_cons, run_app, E. exact E'. }
    split; auto. split; auto. intros k Hk. rewrite F' by auto. cbn [iter].
    apply (T_ext N _ _ (best_close N _ choices choices_ne Q _ Q_close)); auto.
Qed.
End Loop.
End Plan.
