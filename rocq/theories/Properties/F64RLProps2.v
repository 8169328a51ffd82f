(** C120, continued: policy optimization over discrete actions in double precision. *)
From Coq Require Import List ZArith Reals Bool Lra Lia Psatz.
From Flocq Require Import Core.
From Verif Require Import Prelude ListFacts NumModel NumProofs GridModel GridSpec GridProofs
  TriModel TriSpec SafeModel CertModel TriProofs2 RLModel RLSpec RLProofs F64Model F64Spec F64Facts F64Proofs F64Tri F64TriErr
  F64RLModel F64RLSpec F64RLProofs Properties.F64RLProps.
Import ListNotations.
Local Open Scope R_scope.

Lemma f_option_values_spec P constraint states a : slack_ok constraint (length states) a ->
  (forall s, In s states -> exists q, f_future_value P (Some a) s = Ok q) ->
  exists col, f_option_values P constraint states a = Ok col /\
  forall k, (k < length states)%nat -> exists q,
    f_future_value P (Some a) (nth k states []) = Ok q /\
    (allowed constraint (length states) a k -> nth k col None = Some q) /\
    (~ allowed constraint (length states) a k -> nth k col None = None).
Proof.
  intros HS HF. unfold f_option_values.
  destruct (mapM_ok_all (f_future_value P (Some a)) states HF) as (vals & E). rewrite E. cbn [bind].
  destruct (mapM_nth_ok _ _ _ [] 0 E) as [Lv NV].
  destruct constraint as [f|]; cbn [allowed slack_ok] in *.
  - rewrite HS, Nat.eqb_refl. eexists. split; [reflexivity|].
    intros k Hk. exists (nth k vals 0). split; [auto|].
    rewrite (nth_map2 _ _ _ _ 0 0) by lia. unfold Rltb. destruct Rlt_dec; split; auto; intros; exfalso; lra.
  - eexists. split; [reflexivity|].
    intros k Hk. exists (nth k vals 0). split; [auto|]. rewrite (nth_map_lt _ _ _ 0) by lia.
    split; auto. intros F; now destruct F.
Qed.

(** [discrete_policy_optimization] picks an allowed action whose exact value is at
    most [2 * sweep_error * B] below that of every other allowed action. *)
Theorem C120_nearly_best_action : forall dl inv g project t values0 P v B gp options constraint,
  resolved_grid g -> dims g = 1%nat -> f_make_tri dl inv g values0 project = Ok t ->
  (forall a, a <> 0 -> exists b, inv [[a]] = Ok [[b]] /\ Rabs (b * a - 1) <= / 2 ^ 50) ->
  rl_value P = TfTri (map (fun x => [x]) v) t -> Z.of_nat (length v) = npts g 0 ->
  0 <= rl_gamma P < 1 -> / 2 ^ 400 <= B ->
  (forall k, (k < length v)%nat -> Rabs (nth k v 0) <= B) ->
  options <> [] ->
  let states := f_all_points gp in let n := length states in
  (forall f a, constraint = Some f -> In a options -> length (f (repeat a n)) = n) ->
  (forall s a, In s states -> In a options ->
     (exists y, successor P a s = [y] /\ (project = false -> lower g 0 <= y <= upper g 0)) /\
     Rabs (rl_reward P s a) + (rl_gamma P + sweep_error g) * B <= B) ->
  exists actions, f_discrete_policy_optimization P gp options constraint = Ok actions /\ length actions = n /\
  forall k, (k < n)%nat -> exists i (q : nat -> R), (i < length options)%nat /\
    nth k actions [] = nth i options [] /\
    (forall j, (j < length options)%nat ->
       let s := nth k states [] in let a := nth j options [] in
       exists e, on_line g v (clipR (coordinate (successor P a s) 0) (lower g 0) (upper g 0)) e /\
         q j = rl_reward P s a + rl_gamma P * e) /\
    ((exists j, (j < length options)%nat /\ allowed constraint n (nth j options []) k) ->
       allowed constraint n (nth i options []) k /\
       forall j, (j < length options)%nat -> allowed constraint n (nth j options []) k ->
         q j <= q i + 2 * (sweep_error g * B)) /\
    ((forall j, (j < length options)%nat -> ~ allowed constraint n (nth j options []) k) -> i = 0%nat).
Proof.
  intros dl inv [ls ns] project t values0 P v B gp options constraint R D1 EM HI HT Lv0 HG HB B0 NE states n HS HF.
  unfold dims in D1. unfold resolved_grid in R. cbn [limits num_points] in *.
  destruct ls as [|l [|? ?]]; try discriminate.
  inversion R as [|? m ? ns' Hr R']; subst. inversion R'; subst. clear R R'.
  change (npts (Grid [l] [m]) 0) with m in Lv0.
  pose proof (sw_n l m Hr) as n2.
  assert (LN : length v = Z.to_nat m) by lia. rewrite LN in *.
  assert (L0 : length values0 = Z.to_nat m).
  { unfold f_make_tri in EM. destruct (_ =? _)%Z eqn:E in EM; [|discriminate]. apply Z.eqb_eq in E.
    unfold nindex, prodZ in E. cbn [num_points fold_right] in E. lia. }
  set (g := Grid [l] [m]) in *.
  assert (CL : forall s a, In s states -> In a options -> exists r e, f_future_value P (Some a) s = Ok r /\
     on_line g v (clipR (coordinate (successor P a s) 0) (lower g 0) (upper g 0)) e /\
     Rabs (r - (rl_reward P s a + rl_gamma P * e)) <= sweep_error g * B).
  { intros s a Hs Ha. destruct (HF s a Hs Ha) as ((y & Ey & Hy) & HRa).
    destruct (future_close l m Hr dl inv project t values0 EM L0 HI P v B HT HG HB v (Some a) s y LN B0 Ey Hy HRa) as (r & E & H).
    assert (SAME : with_values P v = P).
    { clear - HT. unfold with_values, tf_assign. rewrite HT. cbn. rewrite <- HT. now destruct P. }
    rewrite SAME in E. rewrite Ey. eexists r, _. split; [exact E|]. split; [|exact H].
    apply (line_ok l m Hr values0 L0). apply (clip_in l m Hr values0 L0). }
  set (qf := fun k j => match f_future_value P (Some (nth j options [])) (nth k states []) with Ok r => r | Err _ => 0 end).
  destruct (mapM_ok_all (f_option_values P constraint states) options) as (cols & EC).
  { intros a Ha. destruct (f_option_values_spec P constraint states a) as (col & E & _); eauto.
    - unfold slack_ok. destruct constraint as [f|] eqn:EF; [|trivial]. now apply HS.
    - intros s Hs. destruct (CL s a Hs Ha) as (r & _ & E & _). eauto. }
  destruct (mapM_nth_ok _ _ _ [] [] EC) as [Lc NC].
  assert (AX : forall k, exists i, xargmax (map (fun c => nth k c None) cols) = Ok i).
  { intros k. apply xargmax_ok. destruct cols; [|discriminate]. destruct options; [contradiction|discriminate]. }
  unfold f_discrete_policy_optimization. fold states. rewrite EC. cbn [bind].
  destruct (mapM_ok_all (fun k => do i <- xargmax (map (fun c => nth k c None) cols); Ok (nth i options [])) (seq 0 (length states)))
    as (actions & EA).
  { intros k _. destruct (AX k) as (i & ->). cbn [bind]. eauto. }
  rewrite EA. exists actions. split; [reflexivity|].
  destruct (mapM_nth_ok _ _ _ 0%nat [] EA) as [La NA]. rewrite seq_length in La, NA. split; [exact La|].
  intros k Hk. specialize (NA k Hk). rewrite seq_nth in NA by auto. cbn [Nat.add] in NA.
  destruct (xargmax _) as [i|] eqn:EX; [|discriminate]. cbn [bind] in NA. injection NA as NA.
  destruct (xargmax_spec _ _ EX) as (Li & MX & FI). rewrite map_length, Lc in *.
  set (s := nth k states []) in *. assert (Hs : In s states) by (apply nth_In; exact Hk).
  assert (COL : forall j, (j < length options)%nat ->
    f_future_value P (Some (nth j options [])) s = Ok (qf k j) /\
    (allowed constraint n (nth j options []) k -> nth j (map (fun c => nth k c None) cols) None = Some (qf k j)) /\
    (~ allowed constraint n (nth j options []) k -> nth j (map (fun c => nth k c None) cols) None = None)).
  { intros j Hj. assert (Ha : In (nth j options []) options) by (apply nth_In; exact Hj).
    destruct (f_option_values_spec P constraint states (nth j options [])) as (col & E & KC).
    - unfold slack_ok. destruct constraint as [f|] eqn:EF; [|trivial]. now apply HS.
    - intros s' Hs'. destruct (CL s' _ Hs' Ha) as (r & _ & E & _). eauto.
    - destruct (KC k Hk) as (q & A & C1 & C2). fold s in A. unfold qf. fold s. rewrite A.
      assert (EN : nth j cols [] = col) by (specialize (NC j Hj); congruence).
      rewrite (nth_map_lt _ _ _ []) by lia. rewrite EN. auto. }
  assert (EX2 : forall j, exists q, (j < length options)%nat ->
     (exists e, on_line g v (clipR (coordinate (successor P (nth j options []) s) 0) (lower g 0) (upper g 0)) e /\
       q = rl_reward P s (nth j options []) + rl_gamma P * e) /\ Rabs (qf k j - q) <= sweep_error g * B).
  { intros j. destruct (Nat.lt_ge_cases j (length options)) as [Hj|]; [|exists 0; lia].
    destruct (CL s (nth j options []) Hs ltac:(apply nth_In; exact Hj)) as (r & e & E & A & C1).
    exists (rl_reward P s (nth j options []) + rl_gamma P * e). intros _. split; [eauto|].
    unfold qf. fold s. now rewrite E. }
  set (line_at := fun j => line l m (fun i => nth i v 0) (clipR (coordinate (successor P (nth j options []) s) 0) (fst l) (snd l))).
  set (q := fun j => rl_reward P s (nth j options []) + rl_gamma P * line_at j).
  assert (Q : forall j, (j < length options)%nat ->
     on_line g v (clipR (coordinate (successor P (nth j options []) s) 0) (lower g 0) (upper g 0)) (line_at j) /\
     Rabs (qf k j - q j) <= sweep_error g * B).
  { intros j Hj. assert (O : on_line g v (clipR (coordinate (successor P (nth j options []) s) 0) (lower g 0) (upper g 0)) (line_at j)).
    { apply (line_ok l m Hr values0 L0). apply (clip_in l m Hr values0 L0). }
    split; [exact O|]. destruct (EX2 j) as (q' & H). destruct (H Hj) as ((e & He & ->) & HQ).
    unfold q. rewrite (on_line_unique l m Hr values0 L0 v _ _ _ O He). exact HQ. }
  assert (DEC : forall a, allowed constraint n a k \/ ~ allowed constraint n a k).
  { intros a. unfold allowed. destruct constraint as [f|]; [|auto]. destruct (Rle_dec 0 (nth k (f (repeat a n)) 0)); auto. }
  exists i, q. split; [exact Li|]. split; [auto|]. split.
  { intros j Hj. cbv zeta. exists (line_at j). split; [apply Q; exact Hj|reflexivity]. }
  split.
  - intros (j0 & Hj0 & A0).
    assert (AI : allowed constraint n (nth i options []) k).
    { destruct (DEC (nth i options [])) as [|NA']; auto. specialize (MX j0 ltac:(lia)).
      rewrite (proj2 (proj2 (COL i Li)) NA') in MX. rewrite (proj1 (proj2 (COL j0 Hj0)) A0) in MX. discriminate. }
    split; auto. intros j Hj AJ. specialize (MX j ltac:(lia)).
    rewrite (proj1 (proj2 (COL i Li)) AI), (proj1 (proj2 (COL j Hj)) AJ) in MX.
    cbn [xltb] in MX. unfold Rltb in MX. destruct (Rlt_dec (qf k i) (qf k j)); [discriminate MX|].
    pose proof (proj2 (Q i Li)) as Q1. pose proof (proj2 (Q j Hj)) as Q2.
    apply Rabs_le_inv in Q1. apply Rabs_le_inv in Q2. lra.
  - intros H. destruct (Nat.eq_dec i 0) as [|NE0]; auto. specialize (FI 0%nat ltac:(lia)).
    assert (H0 : (0 < length options)%nat) by lia. exfalso.
    rewrite (proj2 (proj2 (COL i Li)) (H i Li)) in FI. destruct (nth 0 _ None); discriminate.
Qed.

(** Two states, both lead to the first one, and the action is the reward. *)
Definition greedy (t : tri) : learner :=
  {| rl_policy := fun _ => [0]; rl_dynamics := fun _ _ => Exact [0]; rl_reward := fun _ a => coordinate a 0;
     rl_value := TfTri [[8]; [8]] t; rl_gamma := 1 / 2 |}.
Definition slightly_better : R := 1 + / 2 ^ 52.

Lemma lost_digit : rnd (slightly_better + rnd (1 / 2 * 8)) = 5.
Proof.
  replace (1 / 2 * 8) with 4 by field. rewrite (rnd_id 4) by (apply (f64_IZR 4); lia).
  rewrite (rnd_near (5 * 2 ^ 50) (-50)).
  - change (bpow radix2 (-50)) with (/ 1125899906842624). change (5 * 2 ^ 50)%Z with 5629499534213120%Z. lra.
  - split; [discriminate|reflexivity].
  - lia.
  - change (bpow radix2 (-50)) with (/ 1125899906842624). change (2 ^ 52)%Z with 4503599627370496%Z.
    unfold slightly_better. lra.
  - change (bpow radix2 (-50)) with (/ 1125899906842624). change (5 * 2 ^ 50)%Z with 5629499534213120%Z.
    unfold slightly_better. apply Rabs_def1; lra.
Qed.
Lemma other_option : rnd (1 + rnd (1 / 2 * 8)) = 5.
Proof.
  replace (1 / 2 * 8) with 4 by field. rewrite (rnd_id 4) by (apply (f64_IZR 4); lia).
  replace (1 + 4) with 5 by ring. apply rnd_id, (f64_IZR 5). lia.
Qed.

Lemma two_states : f_all_points two_points = [[0]; [1]].
Proof.
  unfold f_all_points, two_points. cbn [limits num_points map2 meshgrid_ij]. unfold f_linspace. change (Z.to_nat 2) with 2%nat.
  cbn [seq map flat_map app Z.of_nat]. change (0 =? 2 - 1)%Z with false. change (Z.pos (Pos.of_succ_nat 0) =? 2 - 1)%Z with true.
  cbn [fst snd]. rewrite Rmult_0_l, rnd_0, Rplus_0_l, rnd_0. reflexivity.
Qed.

(** The action need not be the best one: the second option has the larger reward and
    the same successor, but the first one is chosen. *)
Theorem C120_best_action_refuted : forall dl inv project,
  (forall a, a <> 0 -> exists b, inv [[a]] = Ok [[b]] /\ Rabs (b * a - 1) <= / 2 ^ 50) ->
  exists t, f_make_tri dl inv two_points [[0]; [0]] project = Ok t /\
    is_f64 slightly_better /\ 1 < slightly_better /\
    f_discrete_policy_optimization (greedy t) two_points [[1]; [slightly_better]] None = Ok [[1]; [1]].
Proof.
  intros dl inv project HI. pose proof two_resolved as Hr.
  destruct (acc_make (0, 1) 2 Hr dl inv [[0]; [0]] project eq_refl HI) as (Q & b & _ & E & _).
  set (t := Tri (Grid [(0, 1)] [2%Z]) [[0]; [0]] project Q [[0; 1]]%Z [[[b]]]) in *. exists t. split; [exact E|].
  split; [|split].
  - replace slightly_better with (IZR (2 ^ 52 + 1) * bpow radix2 (-52)).
    + apply f64_F2R; [reflexivity|lia].
    + rewrite bp52. unfold slightly_better. change (2 ^ 52 + 1)%Z with 4503599627370497%Z. lra.
  - unfold slightly_better. lra.
  - assert (EV : f_eval (with_params t [[8]; [8]]) [0] = Ok [8]).
    { assert (PT : ax_pt (0, 1) 2 0 = 0).
      { unfold ax_pt. cbn [fst]. rewrite Rmult_0_l, rnd_0, Rplus_0_l. apply rnd_0. }
      pose proof (od_state (0, 1) 2 Hr 0 ltac:(lia)) as ES. rewrite PT in ES.
      refine (od_eval (0, 1) 2 Hr dl inv [[8]; [8]] project _ 0 [0] _ _ _ ES); [| |lia].
      - exact (make_with dl inv _ [[0]; [0]] [[8]; [8]] project t E eq_refl).
      - assert (F : is_f64 8) by (apply (f64_IZR 8); lia).
        intros row [<-|[<-|[]]]; (split; [reflexivity|constructor; [exact F|constructor]]). }
    assert (FV : forall a s, f_future_value (greedy t) (Some [a]) s = Ok (rnd (a + rnd (1 / 2 * 8)))).
    { intros a s. unfold f_future_value. cbn [greedy rl_policy rl_dynamics rl_reward rl_value rl_gamma].
      rewrite f_tf_is_tri, EV. reflexivity. }
    unfold f_discrete_policy_optimization. rewrite two_states. unfold f_option_values. cbn [mapM].
    rewrite !FV, lost_digit, other_option. cbn [bind map length seq mapM nth].
    unfold xargmax. cbn [xargmax_from xltb]. unfold Rltb. destruct (Rlt_dec 5 5); [lra|]. reflexivity.
Qed.

Example C120_nearly_best_action_ex : forall dl project,
  exists t actions, f_make_tri dl (fun A => Ok [[/ nth 0 (nth 0 A []) 0]]) two_points [[0]; [0]] project = Ok t /\
    f_discrete_policy_optimization (greedy t) two_points [[1]; [2]; [slightly_better]] None = Ok actions /\
    nth 0 actions [] = [2] /\ nth 1 actions [] = [2].
Proof.
  intros dl project.
  assert (HI : forall a, a <> 0 -> exists b, (fun A : list (list R) => Ok [[/ nth 0 (nth 0 A []) 0]]) [[a]] = Ok [[b]] /\
    Rabs (b * a - 1) <= / 2 ^ 50).
  { intros a Ha. exists (/ a). split; [reflexivity|]. rewrite Rinv_l by exact Ha.
    rewrite Rminus_diag_eq by reflexivity. rewrite Rabs_R0. left. apply Rinv_0_lt_compat. lra. }
  pose proof two_resolved as Hr.
  destruct (acc_make (0, 1) 2 Hr dl _ [[0]; [0]] project eq_refl HI) as (Q & b & _ & E & _).
  set (t := Tri _ _ _ _ _ _) in E. exists t.
  assert (SP : spacing two_points 0 = 1) by (unfold spacing; cbn; field).
  assert (SE : sweep_error two_points = / 2 ^ 42).
  { unfold sweep_error. rewrite SP. change (lower two_points 0) with 0. change (upper two_points 0) with 1.
    rewrite Rabs_R0, Rabs_R1. rewrite Rmax_right by lra. field. }
  destruct (C120_nearly_best_action dl (fun A => Ok [[/ nth 0 (nth 0 A []) 0]]) two_points project t [[0]; [0]] (greedy t) [8; 8] 16
              two_points [[1]; [2]; [slightly_better]] None) as (actions & EA & LA & H).
  - constructor; [exact Hr|constructor].
  - reflexivity.
  - exact E.
  - exact HI.
  - reflexivity.
  - reflexivity.
  - cbn. lra.
  - apply Rle_trans with (/ 1); [|lra]. apply Rinv_le_contravar; [lra|]. apply pow_R1_Rle. lra.
  - intros [|[|k]] Hk; cbn [nth]; [rewrite Rabs_pos_eq; lra|rewrite Rabs_pos_eq; lra|cbn in Hk; lia].
  - discriminate.
  - discriminate.
  - intros s a _ Ha. split.
    + exists 0. split; [reflexivity|]. intros _. change (lower two_points 0) with 0. change (upper two_points 0) with 1. lra.
    + rewrite SE. change (rl_gamma (greedy t)) with (1 / 2). change (rl_reward (greedy t) s a) with (coordinate a 0).
      assert (BA : Rabs (coordinate a 0) <= 2); [|lra].
      destruct Ha as [<-|[<-|[<-|[]]]]; unfold coordinate, slightly_better; cbn [nth]; rewrite Rabs_pos_eq; lra.
  - exists actions. split; [exact E|]. split; [exact EA|].
    assert (G : forall k, (k < 2)%nat -> nth k actions [] = [2]).
    { intros k Hk. rewrite two_states in H. destruct (H k Hk) as (i & q & Li & -> & Hq & HA & _).
      destruct HA as (_ & HB). { exists 0%nat. split; [cbn; lia|exact I]. }
      assert (EQ : forall j, (j < 3)%nat -> q j = coordinate (nth j [[1]; [2]; [slightly_better]] []) 0 + 1 / 2 * 8).
      { intros j Hj. destruct (Hq j Hj) as (e & (k0 & Hk0 & Hs & ->) & ->). cbv zeta in Hs |- *. cbn in Hk0.
        assert (k0 = 0%nat) by lia. subst k0. cbn [nth]. set (z := _ / _).
        unfold greedy at 1. cbn [rl_reward rl_gamma greedy]. ring. }
      specialize (HB 1%nat ltac:(cbn; lia) I). rewrite SE, (EQ i Li), (EQ 1%nat) in HB by lia.
      destruct i as [|[|[|i]]]; cbn [nth] in *; unfold coordinate, slightly_better in *; cbn [nth] in *; try reflexivity; try lra; cbn in Li; lia. }
    split; apply G; lia.
Qed.
