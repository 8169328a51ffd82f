(** C120: value iteration in double precision. *)
From Coq Require Import List ZArith Reals Bool Lra Lia Psatz.
From Flocq Require Import Core.
From Verif Require Import Prelude ListFacts NumModel NumProofs GridModel GridSpec GridProofs
  TriModel TriSpec SafeModel CertModel RLModel RLSpec Bellman F64Model F64Spec F64Facts F64Proofs F64Tri F64TriErr
  F64RLModel F64RLSpec F64RLProofs.
Import ListNotations.
Local Open Scope R_scope.

(** On a one-dimensional grid the computed values end up within
    [sweep_error * B / (1 - gamma)] of the solution of the Bellman equation,
    where [B] bounds all values. *)
Theorem C120_rounded_value_iteration : forall dl inv g project t values0 P v0 B,
  resolved_grid g -> dims g = 1%nat -> f_make_tri dl inv g values0 project = Ok t ->
  (forall a, a <> 0 -> exists b, inv [[a]] = Ok [[b]] /\ Rabs (b * a - 1) <= / 2 ^ 50) ->
  rl_value P = TfTri (map (fun x => [x]) v0) t -> Z.of_nat (length v0) = npts g 0 ->
  0 <= rl_gamma P < 1 ->
  (forall k, (k < length v0)%nat -> exists y, next_at P g k = [y] /\
     (project = false -> lower g 0 <= y <= upper g 0)) ->
  / 2 ^ 400 <= B ->
  (forall k, (k < length v0)%nat -> Rabs (nth k v0 0) <= B) ->
  (forall k, (k < length v0)%nat -> Rabs (reward_at P g k) + (rl_gamma P + sweep_error g) * B <= B) ->
  exists v, solves P g v /\ (forall u, solves P g u -> u = v) /\
    forall n, exists vn, f_value_iterations n P = Ok (with_values P vn) /\ length vn = length v0 /\
      (forall k, (k < length v0)%nat -> Rabs (nth k vn 0) <= B) /\
      forall D, distance_at_most D v0 v ->
        distance_at_most (rl_gamma P ^ n * D + sweep_error g * B / (1 - rl_gamma P)) vn v.
Proof.
  intros dl inv [ls ns] project t values0 P v0 B R D1 EM HI HT Lv0 HG HN HB B0 HR.
  unfold dims in D1. unfold resolved_grid in R. cbn [limits num_points] in *.
  destruct ls as [|l [|? ?]]; try discriminate.
  inversion R as [|? n ? ns' Hr R']; subst. inversion R'; subst. clear R R'.
  change (npts (Grid [l] [n]) 0) with n in Lv0.
  pose proof (sw_n l n Hr) as n2.
  assert (LN : length v0 = Z.to_nat n) by lia. rewrite LN in *.
  assert (L0 : length values0 = Z.to_nat n).
  { unfold f_make_tri in EM. destruct (_ =? _)%Z eqn:E in EM; [|discriminate]. apply Z.eqb_eq in E.
    unfold nindex, prodZ in E. cbn [num_points fold_right] in E. lia. }
  pose proof (back_contracts l n Hr values0 L0 P HG) as HC.
  destruct (fixed_exists (Z.to_nat n) (back l n P) (rl_gamma P) HG HC) as (w & Fw).
  set (v := map w (seq 0 (Z.to_nat n))).
  assert (Lv : length v = Z.to_nat n) by (unfold v; now rewrite map_length, seq_length).
  assert (Ev : forall k, (k < Z.to_nat n)%nat -> nth k v 0 = w k).
  { intros k Hk. unfold v. rewrite (nth_map_lt _ _ _ 0%nat) by (now rewrite seq_length). now rewrite seq_nth. }
  assert (Fv : fixed (Z.to_nat n) (back l n P) (fun k => nth k v 0)).
  { intros k Hk. rewrite Ev by auto. rewrite <- (Fw k Hk). apply (T_ext _ _ _ HC); auto. }
  exists v. split; [apply (solves_fixed l n Hr values0 L0 P v0 LN); auto|]. split.
  - intros u Hu. apply (solves_fixed l n Hr values0 L0 P v0 LN) in Hu as (Lu & Fu).
    apply (nth_ext _ _ 0 0); [lia|]. intros k Hk. rewrite Lu in Hk.
    exact (fixed_unique _ _ _ HG HC _ _ Fu Fv k Hk).
  - intros i.
    destruct (sweeps_ok l n Hr dl inv project t values0 EM L0 HI P v0 B HT HG HB LN HN B0 HR i) as (vn & E & Ln & Bn & Hn).
    exists vn. split; [exact E|]. split; [exact Ln|]. split; [exact Bn|].
    intros D (_ & HD). split; [lia|]. rewrite Lv in *. intros k Hk.
    eapply Rle_trans; [apply (Hn v D Lv Fv HD k Hk)|]. apply Rplus_le_compat_l.
    destruct (sweep_pos l n Hr B HB) as (CP & BP).
    assert (CB : 0 <= sweep_error (Grid [l] [n]) * B / (1 - rl_gamma P)).
    { apply Rmult_le_pos; [nra|]. left. apply Rinv_0_lt_compat. lra. }
    assert (0 <= rl_gamma P ^ i) by (apply pow_le; lra). nra.
Qed.

(** Rounding a number in the middle of two neighbours. *)
Lemma rnd_tie m e : (2 ^ 52 < m < 2 ^ 53)%Z -> (-1074 <= e)%Z -> Z.even m = true ->
  rnd ((IZR m - / 2) * bpow radix2 e) = IZR m * bpow radix2 e.
Proof.
  intros Hm He Ev. pose proof (bpow_gt_0 radix2 e) as Bp. set (x := (IZR m - / 2) * bpow radix2 e).
  assert (M1 : IZR (2 ^ 52) + 1 <= IZR m) by (rewrite <- plus_IZR; apply IZR_le; lia).
  assert (M2 : IZR m < IZR (2 ^ 53)) by (apply IZR_lt; lia).
  assert (G : mag radix2 x = (53 + e)%Z :> Z).
  { apply mag_unique_pos. split.
    - replace (53 + e - 1)%Z with (52 + e)%Z by ring. rewrite bpow_plus. unfold x.
      apply Rmult_le_compat_r; [lra|]. change (bpow radix2 52) with (IZR (2 ^ 52)). lra.
    - rewrite bpow_plus. unfold x. apply Rmult_lt_compat_r; [lra|]. change (bpow radix2 53) with (IZR (2 ^ 53)). lra. }
  assert (C : cexp radix2 (FLT_exp (-1074) 53) x = e).
  { unfold cexp, FLT_exp. rewrite G. lia. }
  unfold rnd, round, F2R, scaled_mantissa. rewrite C. cbn [Fnum Fexp]. f_equal. apply f_equal.
  assert (E : x * bpow radix2 (- e) = IZR (m - 1) + / 2).
  { unfold x. rewrite Rmult_assoc, <- bpow_plus, Z.add_opp_diag_r. cbn [bpow]. rewrite minus_IZR. lra. }
  rewrite E.
  assert (FL : Zfloor (IZR (m - 1) + / 2) = (m - 1)%Z).
  { apply Zfloor_imp. rewrite plus_IZR. lra. }
  unfold Znearest. rewrite FL. replace (IZR (m - 1) + / 2 - IZR (m - 1)) with (/ 2) by ring.
  rewrite Rcompare_Eq by reflexivity.
  replace (negb (Z.even (m - 1))) with true.
  2:{ rewrite Z.even_sub, Ev. reflexivity. }
  rewrite Zceil_floor_neq.
  - rewrite FL. lia.
  - rewrite FL. lra.
Qed.

(** Two states, both lead to the first one, gamma = 1/2 and rewards [r]. *)
Definition two_points : grid := Grid [(0, 1)] [2%Z].
Definition stuck_reward : R := 1 + / 2 ^ 52.
Definition stuck_value : R := 2 + / 2 ^ 50.
Definition stuck (t : tri) : learner :=
  {| rl_policy := fun _ => [0]; rl_dynamics := fun _ _ => Exact [0]; rl_reward := fun _ _ => stuck_reward;
     rl_value := TfTri [[stuck_value]; [stuck_value]] t; rl_gamma := 1 / 2 |}.

Lemma two_resolved : resolved (0, 1) 2.
Proof.
  unfold resolved. cbn [fst snd]. change (2 - 1)%Z with 1%Z. replace ((1 - 0) / 1) with 1 by field.
  split; [lia|]. split; [apply (f64_IZR 0); lia|]. split; [apply (f64_IZR 1); lia|].
  assert (P : 2 ^ 0 <= 2 ^ 400) by (apply Rle_pow; [lra|lia]). rewrite Rabs_R0, Rabs_R1. simpl in P. lra.
Qed.
Lemma stuck_step : rnd (stuck_reward + rnd (1 / 2 * stuck_value)) = stuck_value.
Proof.
  replace (1 / 2 * stuck_value) with (IZR (2 ^ 52 + 2) * bpow radix2 (-52)).
  2:{ rewrite bp52. unfold stuck_value. change (2 ^ 52 + 2)%Z with 4503599627370498%Z. lra. }
  rewrite (rnd_id (IZR (2 ^ 52 + 2) * bpow radix2 (-52))) by (apply f64_F2R; [reflexivity|lia]).
  replace (stuck_reward + IZR (2 ^ 52 + 2) * bpow radix2 (-52)) with ((IZR (2 ^ 52 + 2) - / 2) * bpow radix2 (-51)).
  2:{ rewrite bp52. change (bpow radix2 (-51)) with (/ 2251799813685248). unfold stuck_reward.
      change (2 ^ 52 + 2)%Z with 4503599627370498%Z. lra. }
  rewrite rnd_tie; [|split; reflexivity|lia|reflexivity].
  change (bpow radix2 (-51)) with (/ 2251799813685248). unfold stuck_value.
  change (2 ^ 52 + 2)%Z with 4503599627370498%Z. lra.
Qed.

(** The computed values need not converge to the solution: here they never
    change although they are wrong in the last digit and the solution is a pair of
    double precision numbers. *)
Theorem C120_convergence_refuted : forall dl inv project,
  (forall a, a <> 0 -> exists b, inv [[a]] = Ok [[b]] /\ Rabs (b * a - 1) <= / 2 ^ 50) ->
  exists t, f_make_tri dl inv two_points [[0]; [0]] project = Ok t /\
    solves (stuck t) two_points [2 * stuck_reward; 2 * stuck_reward] /\
    is_f64 (2 * stuck_reward) /\ 2 * stuck_reward < stuck_value /\
    forall n, f_value_iterations n (stuck t) = Ok (stuck t).
Proof.
  intros dl inv project HI. pose proof two_resolved as Hr.
  destruct (acc_make (0, 1) 2 Hr dl inv [[0]; [0]] project eq_refl HI) as (Q & b & _ & E & _).
  set (t := Tri (Grid [(0, 1)] [2%Z]) [[0]; [0]] project Q [[0; 1]]%Z [[[b]]]) in *. exists t. split; [exact E|].
  split; [|split; [|split]].
  - split; [reflexivity|]. intros k Hk. exists (2 * stuck_reward). split.
    + exists 0%nat. split; [cbn; lia|].
      assert (S : spacing two_points 0 = 1) by (unfold spacing; cbn; field).
      assert (NX : next_at (stuck t) two_points k = [0]) by reflexivity.
      rewrite NX, S. change (lower two_points 0) with 0. change (upper two_points 0) with 1.
      unfold coordinate. cbn [nth INR]. rewrite clipR_id by lra. cbv zeta. split; [lra|]. field.
    + change (rl_gamma (stuck t)) with (1 / 2). change (reward_at (stuck t) two_points k) with stuck_reward.
      destruct k as [|[|k]]; cbn [nth]; [field|field|cbn in Hk; lia].
  - replace (2 * stuck_reward) with (IZR (2 ^ 52 + 1) * bpow radix2 (-51)).
    + apply f64_F2R; [reflexivity|lia].
    + change (bpow radix2 (-51)) with (/ 2251799813685248). unfold stuck_reward.
      change (2 ^ 52 + 1)%Z with 4503599627370497%Z. lra.
  - unfold stuck_reward, stuck_value. lra.
  - assert (EV : f_eval (with_params t [[stuck_value]; [stuck_value]]) [0] = Ok [stuck_value]).
    { assert (PT : ax_pt (0, 1) 2 0 = 0).
      { unfold ax_pt. cbn [fst]. rewrite Rmult_0_l, rnd_0, Rplus_0_l. apply rnd_0. }
      pose proof (od_state (0, 1) 2 Hr 0 ltac:(lia)) as ES. rewrite PT in ES.
      refine (od_eval (0, 1) 2 Hr dl inv [[stuck_value]; [stuck_value]] project _ 0 [0] _ _ _ ES); [| |lia].
      - exact (make_with dl inv _ [[0]; [0]] [[stuck_value]; [stuck_value]] project t E eq_refl).
      - assert (F : is_f64 stuck_value).
        { rewrite <- stuck_step. apply rnd_format. }
        intros row [<-|[<-|[]]]; (split; [reflexivity|constructor; [exact F|constructor]]). }
    assert (FV : forall s, f_future_value (stuck t) None s = Ok stuck_value).
    { intros s. unfold f_future_value. cbn [stuck rl_policy rl_dynamics rl_reward rl_value rl_gamma].
      rewrite f_tf_is_tri, EV. cbn [bind]. now rewrite stuck_step. }
    induction n as [|n IH]; [reflexivity|]. cbn [f_value_iterations]. rewrite IH. cbn [bind].
    unfold f_value_iteration. cbn [stuck rl_value tf_inner t t_grid].
    change (f_all_points (Grid [(0, 1)] [2%Z])) with (meshgrid_ij [f_linspace (0, 1) 2]).
    unfold f_linspace. change (Z.to_nat 2) with 2%nat. cbn [seq map meshgrid_ij flat_map app mapM].
    fold (stuck t). rewrite !FV. reflexivity.
Qed.

(** Three points on [-1, 1]; the state is halved, rewards between -1 and 0. *)
Example C120_ex : forall dl, let g := Grid [(-1, 1)] [3%Z] in
  exists t P, f_make_tri dl (fun A => Ok [[/ nth 0 (nth 0 A []) 0]]) g [[0]; [0]; [0]] true = Ok t /\
    rl_value P = TfTri [[0]; [0]; [0]] t /\ rl_gamma P = 1 / 2 /\
    (forall s a, rl_dynamics P s a = Exact [rnd (coordinate s 0 / 2)]) /\
    exists v, solves P g v /\
    forall n, exists vn, f_value_iterations n P = Ok (with_values P vn) /\
      forall D, distance_at_most D [0; 0; 0] v -> distance_at_most ((1 / 2) ^ n * D + / 2 ^ 39) vn v.
Proof.
  intros dl g.
  assert (Hr : resolved (-1, 1) 3).
  { unfold resolved. cbn [fst snd]. change (3 - 1)%Z with 2%Z. replace ((1 - -1) / 2) with 1 by field.
    split; [lia|]. split; [apply (f64_IZR (-1)); lia|]. split; [apply (f64_IZR 1); lia|].
    assert (P : 2 ^ 0 <= 2 ^ 400) by (apply Rle_pow; [lra|lia]). rewrite (Rabs_left (-1)), Rabs_R1 by lra. simpl in P. lra. }
  assert (HI : forall a, a <> 0 -> exists b, (fun A : list (list R) => Ok [[/ nth 0 (nth 0 A []) 0]]) [[a]] = Ok [[b]] /\
    Rabs (b * a - 1) <= / 2 ^ 50).
  { intros a Ha. exists (/ a). split; [reflexivity|]. rewrite Rinv_l by exact Ha.
    rewrite Rminus_diag_eq by reflexivity. rewrite Rabs_R0. left. apply Rinv_0_lt_compat. lra. }
  destruct (acc_make (-1, 1) 3 Hr dl _ [[0]; [0]; [0]] true eq_refl HI) as (Q & b & _ & E & _).
  set (t := Tri _ _ _ _ _ _) in E.
  set (P := {| rl_policy := fun _ => [0]; rl_dynamics := fun s _ => Exact [rnd (coordinate s 0 / 2)];
               rl_reward := fun s _ => clipR (rnd (- (coordinate s 0 * coordinate s 0))) (-1) 0;
               rl_value := TfTri [[0]; [0]; [0]] t; rl_gamma := 1 / 2 |}).
  exists t, P. split; [exact E|]. split; [reflexivity|]. split; [reflexivity|]. split; [reflexivity|].
  assert (SP : spacing g 0 = 1) by (unfold spacing; cbn; field).
  assert (SE : sweep_error g = / 2 ^ 42).
  { unfold sweep_error. rewrite SP. change (lower g 0) with (-1). change (upper g 0) with 1.
    rewrite (Rabs_left (-1)), Rabs_R1 by lra. rewrite Rmax_left by lra. field. }
  destruct (C120_rounded_value_iteration dl (fun A => Ok [[/ nth 0 (nth 0 A []) 0]]) g true t [[0]; [0]; [0]] P [0; 0; 0] 3) as (v & Hv & _ & H).
  - constructor; [exact Hr|constructor].
  - reflexivity.
  - exact E.
  - exact HI.
  - reflexivity.
  - reflexivity.
  - cbn. lra.
  - intros k _. eexists. split; [reflexivity|discriminate].
  - apply Rle_trans with (/ 1); [|lra]. apply Rinv_le_contravar; [lra|]. apply pow_R1_Rle. lra.
  - intros k _. replace (nth k [0; 0; 0] 0) with 0 by (destruct k as [|[|[|[|k]]]]; reflexivity). rewrite Rabs_R0. lra.
  - intros k _. rewrite SE. change (rl_gamma P) with (1 / 2).
    assert (RB : Rabs (reward_at P g k) <= 1).
    { unfold reward_at. cbn [P rl_reward]. apply Rabs_le. unfold clipR, Rmin, Rmax. repeat destruct Rle_dec; lra. }
    lra.
  - exists v. split; [exact Hv|]. intros n. destruct (H n) as (vn & En & _ & _ & Dn). exists vn. split; [exact En|].
    intros D HD. destruct (Dn D HD) as (L & K). split; [exact L|]. intros k Hk. specialize (K k Hk).
    rewrite SE in K. change (rl_gamma P) with (1 / 2) in K. lra.
Qed.
