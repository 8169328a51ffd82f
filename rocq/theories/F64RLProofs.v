(** Rounding errors of value iteration on a one-dimensional grid. *)
From Coq Require Import List ZArith Reals Bool Lra Lia Psatz.
From Flocq Require Import Core.
From Verif Require Import Prelude ListFacts NumModel NumProofs GridModel GridSpec GridProofs
  TriModel TriSpec SafeModel CertModel RLModel RLSpec Bellman F64Model F64Spec F64Facts F64Proofs F64Tri F64TriErr
  F64RLModel F64RLSpec.
Import ListNotations.
Local Open Scope R_scope.

Lemma f_tf_is_tri t rows x : f_tf_eval1 (TfTri rows t) x = f_eval (with_params t rows) x.
Proof.
  unfold f_tf_eval1, f_eval, f_get_weights, f_get_hyperplanes, output_dim. cbn [tf_inner tf_var].
  change (f_find_simplex (with_params t rows) x) with (f_find_simplex t x).
  change (simplices (with_params t rows)) with (simplices t).
  cbn [t_grid t_hyper t_dl t_project t_params with_params].
  destruct (f_find_simplex t x) as [id|]; [cbn [bind]|reflexivity].
  destruct (simplices t id) as [simp|]; [cbn [bind]|reflexivity].
  destruct (py_nth simp 0) as [o|]; [cbn [bind]|reflexivity].
  destruct (f_index_to_state (t_grid t) o) as [origin|]; [cbn [bind]|reflexivity].
  destruct (py_nth (t_hyper t) _) as [H|]; [cbn [bind]|reflexivity].
  reflexivity.
Qed.

(** The simplices and hyperplanes do not depend on the values. *)
Lemma make_with dl inv g values values' project t : f_make_tri dl inv g values project = Ok t ->
  length values' = length values -> f_make_tri dl inv g values' project = Ok (with_params t values').
Proof.
  unfold f_make_tri. intros E ->. destruct (_ =? _)%Z; [|discriminate].
  destruct (match limits g with [_] => _ | _ => _ end) as [Q|]; [cbn [bind] in *|discriminate].
  destruct (f_simplex_indices g Q) as [us|]; [cbn [bind] in *|discriminate].
  destruct (mapM _ us) as [hs|]; [cbn [bind] in *|discriminate].
  injection E as <-. reflexivity.
Qed.

Lemma digitize_mono x y bins : x <= y -> (digitize x bins <= digitize y bins)%Z.
Proof.
  intros H. unfold digitize. apply inj_le. induction bins as [|b bins IH]; cbn; [lia|].
  destruct (Rle_dec b x), (Rle_dec b y); cbn; try lia. lra.
Qed.

Lemma cell_clip l n x : resolved l n ->
  clipZ (digitize x (f_linspace l n) - 1) 0 (n - 2) =
  clipZ (digitize (clipR x (fst l) (snd l)) (f_linspace l n) - 1) 0 (n - 2).
Proof.
  intros Hr. pose proof (ax_D l n Hr) as Dp. pose proof (ax_DW l n Hr) as DW.
  pose proof Hr as ((H2 & _) & _).
  destruct (te_sizes l n Hr) as (_ & _ & _ & (E1 & E2) & _).
  assert (W : snd l - fst l = IZR (n - 1) * gap l n).
  { unfold gap. field. apply not_0_IZR. lia. }
  unfold clipR. destruct (Rle_or_lt x (fst l)) as [L|L].
  - rewrite Rmax_right by lra. rewrite Rmin_left by lra.
    destruct (te_cell l n Hr (fst l) ltac:(lra)) as [K1 K2]. set (k := clipZ (digitize (fst l) _ - 1) _ _) in *.
    pose proof (digitize_mono x (fst l) (f_linspace l n) L) as M.
    assert (K0 : (k <= 0)%Z).
    { destruct (Z_le_gt_dec k 0); auto. exfalso.
      assert (1 <= IZR k) by (apply IZR_le; lia).
      replace ((fst l - (fst l + IZR k * gap l n)) / gap l n) with (- IZR k) in K2 by (field; lra). lra. }
    unfold k, clipZ in *. lia.
  - destruct (Rle_or_lt x (snd l)) as [U|U].
    + rewrite Rmax_left, Rmin_left by lra. reflexivity.
    + rewrite Rmax_left, Rmin_right by lra.
      destruct (te_cell l n Hr (snd l) ltac:(lra)) as [K1 K2]. set (k := clipZ (digitize (snd l) _ - 1) _ _) in *.
      pose proof (digitize_mono (snd l) x (f_linspace l n) ltac:(lra)) as M.
      assert (K0 : (n - 2 <= k)%Z).
      { destruct (Z_le_gt_dec (n - 2) k); auto. exfalso.
        assert (Q : IZR k + 2 <= IZR (n - 1)) by (rewrite <- plus_IZR; apply IZR_le; lia).
        replace ((snd l - (fst l + IZR k * gap l n)) / gap l n) with (IZR (n - 1) - IZR k) in K2.
        2:{ replace (snd l) with (fst l + IZR (n - 1) * gap l n) by lra. field. lra. }
        lra. }
      unfold k, clipZ in *. lia.
Qed.

Section Sweep.
Variables (l : R * R) (n : Z).
Hypothesis Hr : resolved l n.
Notation g := (Grid [l] [n]).
Notation N := (Z.to_nat n).
Notation D := (gap l n).
Variables (dl : list vec -> delaunay) (inv : mat -> res mat) (project : bool) (t : tri) (values0 : mat).
Hypothesis EM : f_make_tri dl inv g values0 project = Ok t.
Hypothesis L0 : length values0 = N.
Hypothesis HI : forall a, a <> 0 -> exists b, inv [[a]] = Ok [[b]] /\ Rabs (b * a - 1) <= / 2 ^ 50.
Notation rows_of v := (map (fun x : R => [x]) v).

Lemma sw_n : (2 <= n)%Z.
Proof. pose proof Hr as ((H2 & _) & _). clear - H2. lia. Qed.
Lemma sw_D : 0 < D.
Proof. exact (ax_D l n Hr). Qed.
Lemma sw_width : snd l = fst l + IZR (n - 1) * D.
Proof. unfold gap. field. apply not_0_IZR. pose proof sw_n. lia. Qed.
Lemma sw_grid : t_grid t = g.
Proof.
  unfold f_make_tri in EM. destruct (_ =? _)%Z; [|discriminate].
  destruct (match limits g with [_] => _ | _ => _ end) as [Q|]; [cbn [bind] in *|discriminate].
  destruct (f_simplex_indices g Q) as [us|]; [cbn [bind] in *|discriminate].
  destruct (mapM _ us) as [hs|]; [cbn [bind] in *|discriminate].
  injection EM as <-. reflexivity.
Qed.

(** Clipping the point first makes no difference if the triangulation projects. *)
Lemma eval_clip v x : length v = N ->
  f_eval (with_params t (rows_of v)) [if project then x else clipR x (fst l) (snd l)] =
  f_eval (with_params t (rows_of v)) [clipR x (fst l) (snd l)].
Proof.
  intros Lv. destruct project eqn:EP; [|reflexivity].
  pose proof sw_n as n2.
  destruct (acc_make l n Hr dl inv (rows_of v) true) as (Q & b & _ & E & NS & F); auto.
  { rewrite map_length, Lv. lia. }
  rewrite (make_with dl inv g values0 (rows_of v) true t) in E; [| exact EM | now rewrite map_length, Lv, L0].
  assert (E9 : with_params t (rows_of v) = Tri g (rows_of v) true Q [[0; 1]]%Z [[[b]]]) by congruence.
  clear E. rewrite E9. unfold f_eval.
  assert (GW : f_get_weights (Tri g (rows_of v) true Q [[0; 1]]%Z [[[b]]]) [x] =
               f_get_weights (Tri g (rows_of v) true Q [[0; 1]]%Z [[[b]]]) [clipR x (fst l) (snd l)]); [|now rewrite GW].
  unfold f_get_weights, f_find_simplex. cbn [t_grid t_dl t_hyper t_project].
  assert (RT : forall z, f_state_to_rectangle g [z] = Ok (clipZ (digitize z (f_linspace l n) - 1) 0 (n - 2))).
  { intros z. rewrite (f_state_to_rectangle_ok g (od_resolved l n Hr)) by reflexivity.
    change (f_cell_of g [z]) with [clipZ (digitize z (f_linspace l n) - 1) 0 (n - 2)].
    cbn [ravel num_points map]. change (prodZ []) with 1%Z. f_equal. lia. }
  rewrite !RT, (cell_clip l n x Hr). cbn [bind].
  assert (MR : forall q, 0 <= modR q (f_unit l n) < f_unit l n).
  { intros q. apply modR_range. pose proof (ax_Upos l n Hr). pose proof sw_D. lra. }
  assert (UC : forall z, map2 modR (f_center g [z]) (f_unit_maxes g) = [modR (hd 0 (f_center g [z])) (f_unit l n)]) by reflexivity.
  rewrite !UC, !F by apply MR.
  assert (PP : project_point g [clipR x (fst l) (snd l)] = project_point g [x]).
  { unfold project_point. cbn [map2 limits].
    assert (CL : clipR (clipR x (fst l) (snd l)) (fst l) (snd l) = clipR x (fst l) (snd l)); [|now rewrite CL].
    unfold clipR.
    pose proof (sw_width). assert (0 <= IZR (n - 1)) by (apply IZR_le; lia). pose proof sw_D.
    assert (fst l <= snd l) by nra.
    unfold Rmin, Rmax. repeat destruct Rle_dec; lra. }
  rewrite PP. reflexivity.
Qed.

(** The exact interpolant, as a function. *)
Definition cell_no (x : R) : nat := Z.to_nat (Z.min (Zfloor ((x - fst l) / D)) (n - 2)).
Definition line (v : nat -> R) (x : R) : R :=
  let k := cell_no x in let s := (x - (fst l + INR k * D)) / D in (1 - s) * v k + s * v (S k).
Lemma cell_no_ok x : fst l <= x <= snd l ->
  (Z.of_nat (cell_no x) <= n - 2)%Z /\ 0 <= (x - (fst l + INR (cell_no x) * D)) / D <= 1.
Proof.
  intros Hx. pose proof sw_n as n2. pose proof sw_D as Dp. pose proof sw_width as W.
  set (q := (x - fst l) / D).
  assert (EQ : q * D = x - fst l) by (unfold q; field; lra).
  assert (Q0 : 0 <= q) by (apply Rmult_le_reg_r with D; lra).
  assert (Q1 : q <= IZR (n - 1)) by (apply Rmult_le_reg_r with D; lra).
  pose proof (Zfloor_lb q) as F1. pose proof (Zfloor_ub q) as F2.
  assert (F0 : (0 <= Zfloor q)%Z) by (apply Zfloor_lub; auto).
  unfold cell_no. fold q. set (k := Z.min (Zfloor q) (n - 2)).
  assert (K : (0 <= k <= n - 2)%Z) by (unfold k; lia).
  rewrite INR_IZR_INZ, Z2Nat.id by lia. split; [lia|].
  replace ((x - (fst l + IZR k * D)) / D) with (q - IZR k) by (unfold q; field; lra).
  unfold k. destruct (Z.min_spec (Zfloor q) (n - 2)) as [[H ->]|[H ->]]; [lra|].
  apply IZR_le in H. rewrite minus_IZR in *. lra.
Qed.
Lemma on_line_unique v x e e' : on_line g v x e -> on_line g v x e' -> e = e'.
Proof.
  pose proof sw_D as Dp.
  intros (k & Hk & Hs & ->) (j & Hj & Hs' & ->). cbv zeta in *.
  change (lower g 0) with (fst l) in *. change (spacing g 0) with D in *.
  set (s := (x - (fst l + INR k * D)) / D) in *. set (r := (x - (fst l + INR j * D)) / D) in *.
  assert (E : r = s + INR k - INR j) by (unfold r, s; field; lra).
  assert (C : j = k \/ j = S k \/ k = S j).
  { assert (INR k - INR j <= 1) by lra. assert (INR j - INR k <= 1) by lra.
    assert (k <= S j)%nat by (apply INR_le; rewrite S_INR; lra).
    assert (j <= S k)%nat by (apply INR_le; rewrite S_INR; lra). lia. }
  destruct C as [-> | [-> | ->]].
  - replace r with s by lra. reflexivity.
  - rewrite S_INR in E. assert (s = 1) by lra. assert (r = 0) by lra. rewrite H, H0. ring.
  - rewrite S_INR in E. assert (s = 0) by lra. assert (r = 1) by lra. rewrite H, H0. ring.
Qed.
Lemma line_ok v x : fst l <= x <= snd l -> on_line g v x (line (fun k => nth k v 0) x).
Proof.
  intros Hx. destruct (cell_no_ok x Hx) as (A & B). exists (cell_no x). split; [exact A|].
  cbv zeta. change (lower g 0) with (fst l). change (spacing g 0) with D. split; [exact B|reflexivity].
Qed.
Lemma line_diff u v x d : fst l <= x <= snd l -> (forall k, (k < N)%nat -> Rabs (u k - v k) <= d) ->
  Rabs (line u x - line v x) <= d.
Proof.
  intros Hx H. destruct (cell_no_ok x Hx) as (A & B). pose proof sw_n as n2. unfold line. cbv zeta.
  set (k := cell_no x) in *. set (s := _ / D) in *.
  pose proof (H k ltac:(lia)) as H1. pose proof (H (S k) ltac:(lia)) as H2.
  replace ((1 - s) * u k + s * u (S k) - ((1 - s) * v k + s * v (S k)))
    with ((1 - s) * (u k - v k) + s * (u (S k) - v (S k))) by ring.
  apply Rabs_le_inv in H1. apply Rabs_le_inv in H2. apply Rabs_le. split; nra.
Qed.
Lemma line_bound u x d : fst l <= x <= snd l -> (forall k, (k < N)%nat -> Rabs (u k) <= d) -> Rabs (line u x) <= d.
Proof.
  intros Hx H. assert (Z : line (fun _ => 0) x = 0) by (unfold line; cbv zeta; ring).
  replace (line u x) with (line u x - line (fun _ => 0) x) by (rewrite Z; ring).
  apply line_diff; auto. intros k Hk. rewrite Rminus_0_r. auto.
Qed.

Lemma clip_in x : fst l <= clipR x (fst l) (snd l) <= snd l.
Proof.
  pose proof sw_width. pose proof sw_n. assert (0 <= IZR (n - 1)) by (apply IZR_le; lia). pose proof sw_D.
  assert (fst l <= snd l) by nra. unfold clipR, Rmin, Rmax. repeat destruct Rle_dec; lra.
Qed.

Variables (P : learner).
Variables (v0 : list R) (B : R).
Hypothesis HT : rl_value P = TfTri (rows_of v0) t.
Hypothesis HG : 0 <= rl_gamma P < 1.
Hypothesis HB : / 2 ^ 400 <= B.
Notation c := (sweep_error g).
Notation gam := (rl_gamma P).

Lemma sweep_pos : / 17592186044416 <= c / 2 /\ 0 < B.
Proof.
  assert (BP : 0 < B) by (eapply Rlt_le_trans; [|exact HB]; apply Rinv_0_lt_compat, pow_lt; lra).
  split; [|exact BP]. destruct (te_sizes l n Hr) as (_ & _ & E0 & _). unfold sweep_error.
  change (lower g 0) with (fst l). change (upper g 0) with (snd l). change (spacing g 0) with D. lra.
Qed.

Lemma future_close v act s y : length v = N -> (forall j, (j < N)%nat -> Rabs (nth j v 0) <= B) ->
  let a := match act with Some a => a | None => rl_policy P s end in
  successor P a s = [y] -> (project = false -> fst l <= y <= snd l) ->
  Rabs (rl_reward P s a) + (gam + c) * B <= B ->
  exists r, f_future_value (with_values P v) act s = Ok r /\
    Rabs (r - (rl_reward P s a + gam * line (fun j => nth j v 0) (clipR y (fst l) (snd l)))) <= c * B.
Proof.
  intros Lv Bv a Ey Hy HRk. pose proof sw_n as n2. destruct sweep_pos as (CP & BP).
  unfold f_future_value. cbn [rl_policy rl_dynamics rl_reward rl_value rl_gamma with_values].
  fold a. change (match rl_dynamics P s a with Exact y0 => y0 | Uncertain mean _ => mean end) with (successor P a s).
  rewrite HT. unfold tf_assign. cbn [tf_inner]. rewrite f_tf_is_tri, Ey.
  set (x := clipR y (fst l) (snd l)).
  assert (Hx : fst l <= x <= snd l) by apply clip_in.
  assert (EV : f_eval (with_params t (rows_of v)) [y] = f_eval (with_params t (rows_of v)) [x]).
  { unfold x. rewrite <- (eval_clip v y Lv).
    destruct project; [reflexivity|]. f_equal. f_equal. symmetry. apply clipR_id. now apply Hy. }
  rewrite EV.
  destruct (acc_eval l n Hr dl inv (rows_of v) 1 project B) as (t' & E' & H); auto.
  { rewrite map_length, Lv. lia. }
  { intros row Hrow. apply in_map_iff in Hrow as (z & <- & Hz). split; [reflexivity|].
    constructor; [|constructor]. apply (In_nth _ _ 0) in Hz as (j & Hj & <-). apply Bv. lia. }
  rewrite (make_with dl inv g values0 (rows_of v) project t) in E'; [| exact EM | now rewrite map_length, Lv, L0].
  injection E' as <-.
  destruct (H x Hx) as (out & Eo & Lo & Ho). rewrite Eo. cbn [bind].
  destruct out as [|e [|? ?]]; try discriminate Lo. eexists. split; [reflexivity|].
  destruct (cell_no_ok x Hx) as (KA & KB).
  specialize (Ho 0%nat (Z.of_nat (cell_no x)) ltac:(lia) ltac:(lia)).
  assert (IN : IZR (Z.of_nat (cell_no x)) = INR (cell_no x)) by (now rewrite INR_IZR_INZ).
  rewrite plus_IZR, IN in Ho. pose proof sw_D as Dp.
  assert (ES : (x - (fst l + INR (cell_no x) * D)) / D * D = x - (fst l + INR (cell_no x) * D)) by (field; lra).
  specialize (Ho ltac:(nra)). cbv zeta in Ho. cbn [nth] in Ho.
  assert (VA : forall j, (j < N)%nat -> value_at (rows_of v) 0 (Z.of_nat j) = nth j v 0).
  { intros j Hj. unfold value_at. rewrite Nat2Z.id.
    rewrite (nth_map_lt _ _ _ 0) by lia. reflexivity. }
  rewrite VA in Ho by lia. replace (Z.of_nat (cell_no x) + 1)%Z with (Z.of_nat (S (cell_no x))) in Ho by lia.
  rewrite VA in Ho by lia.
  change ((1 - (x - (fst l + INR (cell_no x) * D)) / D) * nth (cell_no x) v 0 +
          (x - (fst l + INR (cell_no x) * D)) / D * nth (S (cell_no x)) v 0) with (line (fun j => nth j v 0) x) in Ho.
  set (e' := line (fun j => nth j v 0) x) in *.
  assert (BE : Rabs e' <= B) by (apply line_bound; auto).
  assert (CC : / 2 ^ 43 * (Rmax (Rabs (fst l)) (Rabs (snd l)) / D) * B = c / 2 * B).
  { unfold sweep_error. change (lower g 0) with (fst l). change (upper g 0) with (snd l). change (spacing g 0) with D. lra. }
  rewrite CC in Ho. fold e'.
  pose proof (Rabs_pos (rl_reward P s a)) as RP. set (r := rl_reward P s a) in *.
  assert (GB : 0 <= gam * B) by nra.
  assert (CB : c * B <= B) by lra.
  assert (RB : Rabs r <= B) by nra.
  apply Rabs_le_inv in BE. apply Rabs_le_inv in Ho. apply Rabs_le_inv in RB.
  assert (E2 : Rabs (gam * e) <= 2 * B).
  { rewrite Rabs_mult, (Rabs_pos_eq gam) by lra. assert (Rabs e <= 2 * B) by (apply Rabs_le; lra).
    pose proof (Rabs_pos e). nra. }
  assert (S1 : / 2 ^ 401 <= B).
  { eapply Rle_trans; [|exact HB]. apply Rinv_le_contravar; [apply pow_lt; lra|]. apply Rle_pow; [lra|lia]. }
  pose proof (rnd_abs (gam * e) (2 * B) ltac:(lra) E2) as R1. apply Rabs_le_inv in E2. apply Rabs_le_inv in R1.
  set (z := rnd (gam * e)) in *.
  assert (E3 : Rabs (r + z) <= 4 * B) by (apply Rabs_le; lra).
  pose proof (rnd_abs (r + z) (4 * B) ltac:(lra) E3) as R2. apply Rabs_le_inv in R2.
  assert (GE : - (c / 2 * B) <= gam * e - gam * e' <= c / 2 * B).
  { assert (0 <= c / 2 * B) by nra. assert (X : gam * e - gam * e' = gam * (e - e')) by ring. rewrite X. split; nra. }
  assert (SM : 6 * (/ 4503599627370496 * B) <= c / 2 * B) by nra.
  apply Rabs_le. split; lra.
Qed.
Hypothesis Lv0 : length v0 = N.
Hypothesis HN : forall k, (k < N)%nat -> exists y, next_at P g k = [y] /\ (project = false -> fst l <= y <= snd l).
Hypothesis B0 : forall k, (k < N)%nat -> Rabs (nth k v0 0) <= B.
Hypothesis HR : forall k, (k < N)%nat -> Rabs (reward_at P g k) + (gam + c) * B <= B.

Definition point (k : nat) : R := clipR (coordinate (next_at P g k) 0) (fst l) (snd l).
Definition back (v : nat -> R) (k : nat) : R := reward_at P g k + gam * line v (point k).

Lemma back_contracts u v d : (forall k, (k < N)%nat -> Rabs (u k - v k) <= d) ->
  forall k, (k < N)%nat -> Rabs (back u k - back v k) <= gam * d.
Proof.
  intros H k Hk. unfold back.
  replace (reward_at P g k + gam * line u (point k) - (reward_at P g k + gam * line v (point k)))
    with (gam * (line u (point k) - line v (point k))) by ring.
  rewrite Rabs_mult, (Rabs_pos_eq gam) by lra. apply Rmult_le_compat_l; [lra|].
  apply line_diff; auto. apply clip_in.
Qed.

Lemma solves_fixed v : solves P g v <-> length v = N /\ fixed N back (fun k => nth k v 0).
Proof.
  pose proof sw_n as n2. unfold solves. change (npts g 0) with n. split.
  - intros (L & H). assert (LN : length v = N) by lia. split; [exact LN|]. intros k Hk. rewrite <- LN in Hk.
    destruct (H k Hk) as (e & He & E). unfold back. rewrite E. do 2 f_equal.
    eapply on_line_unique; [|exact He]. apply line_ok. apply clip_in.
  - intros (L & F). split; [lia|]. intros k Hk. eexists. split; [apply line_ok, clip_in|].
    symmetry. apply F. lia.
Qed.

(** One sweep. *)
Lemma future_near v k : length v = N -> (forall j, (j < N)%nat -> Rabs (nth j v 0) <= B) -> (k < N)%nat ->
  exists r, f_future_value (with_values P v) None (listed g k) = Ok r /\ Rabs (r - back (fun j => nth j v 0) k) <= c * B.
Proof.
  intros Lv Bv Hk. destruct (HN k Hk) as (y & Ey & Hy).
  destruct (future_close v None (listed g k) y Lv Bv Ey Hy (HR k Hk)) as (r & E & H). exists r. split; [exact E|].
  unfold back, point. rewrite Ey. exact H.
Qed.

Lemma points_N : length (f_all_points g) = N.
Proof.
  unfold f_all_points. cbn [limits num_points map2].
  assert (X : forall (A : Type) (z : list A), length (flat_map (fun a => map (cons a) [[]]) z) = length z).
  { intros A z. induction z as [|a z IH]; cbn; auto. }
  transitivity (length (f_linspace l n)); [|unfold f_linspace; now rewrite map_length, seq_length].
  apply X.
Qed.
Lemma mapM_near (f : list R -> res R) (h : nat -> R) d (ls : list (list R)) :
  (forall k, (k < length ls)%nat -> exists r, f (nth k ls []) = Ok r /\ Rabs (r - h k) <= d) ->
  exists v, mapM f ls = Ok v /\ length v = length ls /\ forall k, (k < length ls)%nat -> Rabs (nth k v 0 - h k) <= d.
Proof.
  revert h. induction ls as [|a ls IH]; intros h H; cbn [mapM].
  - exists []. split; [reflexivity|]. split; [reflexivity|]. cbn. lia.
  - destruct (H 0%nat ltac:(cbn; lia)) as (r & E & B1). cbn [nth] in E. rewrite E. cbn [bind].
    destruct (IH (fun k => h (S k))) as (v & Ev & Lv & Hv).
    { intros k Hk. apply (H (S k)). cbn. lia. }
    rewrite Ev. cbn [bind]. exists (r :: v). split; [reflexivity|]. split; [cbn; lia|].
    intros [|k] Hk; cbn in *; auto. apply Hv. lia.
Qed.
Lemma values_twice v w : with_values (with_values P v) w = with_values P w.
Proof. reflexivity. Qed.
Lemma values_same : with_values P v0 = P.
Proof. unfold with_values, tf_assign. rewrite HT. cbn. rewrite <- HT. now destruct P. Qed.

Lemma sweep_ok v : length v = N -> (forall j, (j < N)%nat -> Rabs (nth j v 0) <= B) ->
  exists w, f_value_iteration (with_values P v) = Ok (with_values P w) /\ length w = N /\
    (forall j, (j < N)%nat -> Rabs (nth j w 0) <= B) /\
    (forall k, (k < N)%nat -> Rabs (nth k w 0 - back (fun j => nth j v 0) k) <= c * B).
Proof.
  intros Lv Bv. unfold f_value_iteration.
  assert (TG : t_grid (tf_inner (rl_value (with_values P v))) = g).
  { cbn [rl_value with_values]. rewrite HT. cbn [tf_assign tf_inner]. exact sw_grid. }
  rewrite TG.
  destruct (mapM_near (f_future_value (with_values P v) None) (back (fun j => nth j v 0)) (c * B) (f_all_points g)) as (w & E & Lw & Hw).
  { intros k Hk. rewrite points_N in Hk. now apply future_near. }
  rewrite E. cbn [bind]. rewrite points_N in Lw, Hw. exists w. split; [reflexivity|]. split; [exact Lw|]. split; [|exact Hw].
  intros j Hj. specialize (Hw j Hj). specialize (HR j Hj).
  assert (BB : Rabs (back (fun i => nth i v 0) j) <= Rabs (reward_at P g j) + gam * B).
  { unfold back. eapply Rle_trans; [apply Rabs_triang|]. apply Rplus_le_compat_l.
    rewrite Rabs_mult, (Rabs_pos_eq gam) by lra. apply Rmult_le_compat_l; [lra|]. apply line_bound; [apply clip_in|exact Bv]. }
  pose proof (Rabs_triang_inv (nth j w 0) (back (fun i => nth i v 0) j)). lra.
Qed.

Lemma sweeps_ok i : exists w, f_value_iterations i P = Ok (with_values P w) /\ length w = N /\
  (forall j, (j < N)%nat -> Rabs (nth j w 0) <= B) /\
  forall v d, length v = N -> fixed N back (fun k => nth k v 0) ->
    (forall k, (k < N)%nat -> Rabs (nth k v0 0 - nth k v 0) <= d) ->
    forall k, (k < N)%nat -> Rabs (nth k w 0 - nth k v 0) <= gam ^ i * d + (1 - gam ^ i) * (c * B / (1 - gam)).
Proof.
  induction i as [|i (u & E & Lu & Bu & Hu)]; cbn [f_value_iterations].
  - exists v0. rewrite values_same. split; [reflexivity|]. split; [exact Lv0|]. split; [exact B0|].
    intros v d Lv F Hd k Hk. cbn [pow]. specialize (Hd k Hk). lra.
  - rewrite E. cbn [bind]. destruct (sweep_ok u Lu Bu) as (w & Ew & Lw & Bw & Hw).
    exists w. split; [exact Ew|]. split; [exact Lw|]. split; [exact Bw|].
    intros v d Lv F Hd k Hk. specialize (Hu v d Lv F Hd).
    pose proof (back_contracts _ _ _ Hu k Hk) as C. rewrite (F k Hk) in C. specialize (Hw k Hk).
    replace (nth k w 0 - nth k v 0) with ((nth k w 0 - back (fun j => nth j u 0) k) + (back (fun j => nth j u 0) k - nth k v 0)) by ring.
    eapply Rle_trans; [apply Rabs_triang|]. eapply Rle_trans; [apply Rplus_le_compat; [exact Hw|exact C]|].
    right. cbn [pow]. field. lra.
Qed.
End Sweep.
