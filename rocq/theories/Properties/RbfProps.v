(** C103: radial basis function networks. *)
From Coq Require Import Reals List Bool Arith ZArith Lia Lra Psatz.
From Verif Require Import Prelude NumModel NumProofs FunModel QuadModel QuadSpec QuadProofs NNProofs LipProofs RbfModel.
From Verif Require Import GridModel GridSpec GridProofs ListFacts RbfSpec RbfProofs.
Import ListNotations.
Local Open Scope R_scope.

(** As it is in the repository no network can be created. *)
Theorem C103_constructor_refuted : forall g variances, make_rbf g variances None = Err AttributeError.
Proof. reflexivity. Qed.
Print Assumptions C103_constructor_refuted.

(** With the missing attribute the number of grid states (or -1) is needed. *)
Theorem C103_constructor : forall g variances h, valid_grid g -> (0 < dims g)%nat ->
  ((h = -1 \/ h = nindex g)%Z -> exists f, make_rbf g variances (Some h) = Ok f) /\
  ((h <> -1 /\ h <> nindex g)%Z -> make_rbf g variances (Some h) = Err ValueError).
Proof.
  intros g variances h V D. unfold make_rbf. pose proof (all_points_length g V) as AP. split; intros H.
  - destruct (reshape_ok (ndim g) (all_points g) h) as (e & E & _); [exact D|rewrite AP; exact H|].
    rewrite E. cbn [bind]. eauto.
  - rewrite reshape_err; [reflexivity|exact D|apply H|rewrite AP; apply H].
Qed.
Print Assumptions C103_constructor.

Lemma rbf_value g variances h sigma f w x : valid_grid g -> (0 < dims g)%nat ->
  0 < sigma -> rbf_variance g variances = sigma ^ 2 ->
  (h = -1 \/ h = nindex g)%Z -> make_rbf g variances (Some h) = Ok f ->
  Z.of_nat (length w) = nindex g -> length x = dims g ->
  rbf_eval f w x = Ok (rsum (length w) (fun k => bell (dims g) sigma (nth k (all_points g) []) x * nth k w 0)).
Proof.
  intros V D S0 SV H EF Lw Lx. pose proof (all_points_length g V) as AP.
  assert (LW : length (all_points g) = length w) by lia.
  destruct (reshape_ok (ndim g) (all_points g) h) as (e & E & He); [exact D|rewrite AP; exact H|].
  unfold make_rbf in EF. rewrite E in EF. cbn [bind fst snd] in EF. injection EF as <-.
  unfold rbf_eval. cbn [c_cols]. rewrite LW, Nat.eqb_refl.
  rewrite (mapM_seq_ok _ (fun k => bell (dims g) sigma (nth k (all_points g) []) x) (length w)); [|intros k Hk|lia].
  - cbn [bind]. f_equal. apply rsum_ext. intros k Hk. f_equal.
    rewrite (nth_map_lt _ _ _ 0%nat) by now rewrite seq_length. now rewrite seq_nth by auto.
  - rewrite (phi_ok _ x k (dims g) (nth k (all_points g) [])); [|exact Lx|reflexivity|].
    + cbn [betas]. unfold bell. rewrite SV. do 2 f_equal. field. lra.
    + intros d Hd. cbn [c_entry]. apply He. lia.
Qed.

(** The network is the weighted sum of bells of width sigma around the grid
    states, in the order of their indices. *)
Theorem C103_evaluation : forall g variances h sigma f w x, valid_grid g -> (0 < dims g)%nat ->
  0 < sigma -> rbf_variance g variances = sigma ^ 2 ->
  (h = -1 \/ h = nindex g)%Z -> make_rbf g variances (Some h) = Ok f ->
  Z.of_nat (length w) = nindex g -> length x = dims g ->
  exists centres, length centres = length w /\
    (forall k, (k < length w)%nat -> index_to_state g (Z.of_nat k) = Ok (nth k centres [])) /\
    rbf_eval f w x = Ok (rsum (length w) (fun k => bell (dims g) sigma (nth k centres []) x * nth k w 0)).
Proof.
  intros g variances h sigma f w x V D S0 SV H EF Lw Lx. pose proof (all_points_length g V) as AP.
  exists (all_points g). split; [lia|]. split.
  - intros k Hk. rewrite (all_points_nth g V) by lia. now rewrite Nat2Z.id.
  - eapply rbf_value; eauto.
Qed.
Print Assumptions C103_evaluation.

(** Its size is at most the total weight, less far away from the grid, and its
    Lipschitz constant is at most total weight * exp(-1/2) / sigma. *)
Theorem C103_bounds : forall g variances h sigma f w, valid_grid g -> (0 < dims g)%nat ->
  0 < sigma -> rbf_variance g variances = sigma ^ 2 ->
  (h = -1 \/ h = nindex g)%Z -> make_rbf g variances (Some h) = Ok f -> Z.of_nat (length w) = nindex g ->
  forall x y, length x = dims g -> length y = dims g ->
  exists u v, rbf_eval f w x = Ok u /\ rbf_eval f w y = Ok v /\
    Rabs u <= total_weight w /\
    (forall r, 0 <= r -> (forall p, is_vertex g p -> r <= distance (dims g) x p) ->
       Rabs u <= total_weight w * exp (- r ^ 2 / (2 * sigma ^ 2))) /\
    Rabs (u - v) <= total_weight w * (exp (- (1 / 2)) / sigma) * distance (dims g) x y.
Proof.
  intros g variances h sigma f w V D S0 SV H EF Lw x y Lx Ly.
  pose proof (all_points_length g V) as AP.
  do 2 eexists. split; [eapply (rbf_value g variances h sigma); eauto|].
  split; [eapply (rbf_value g variances h sigma); eauto|].
  split; [|split].
  - unfold total_weight. rewrite <- (Rmult_1_r (rsum _ (fun k => Rabs _))). apply weighted_bound; [lra|].
    intros k Hk. pose proof (bell_range (dims g) sigma (nth k (all_points g) []) x S0). rewrite Rabs_pos_eq; lra.
  - intros r R0 Hr. apply weighted_bound; [left; apply exp_pos|]. intros k Hk.
    pose proof (bell_range (dims g) sigma (nth k (all_points g) []) x S0). rewrite Rabs_pos_eq by lra.
    unfold bell. specialize (Hr (nth k (all_points g) [])).
    assert (Q : r <= distance (dims g) x (nth k (all_points g) [])).
    { apply Hr. apply all_points_In; auto. apply nth_In. lia. }
    assert (X : - distance (dims g) x (nth k (all_points g) []) ^ 2 / (2 * sigma ^ 2) <= - r ^ 2 / (2 * sigma ^ 2)).
    { unfold Rdiv. apply Rmult_le_compat_r; [left; apply Rinv_0_lt_compat; nra|]. nra. }
    destruct X as [X|X]; [left; now apply exp_increasing|right; now rewrite X].
  -
    assert (EQ : forall n p q (c : nat -> R), rsum n (fun k => p k * c k) - rsum n (fun k => q k * c k) = rsum n (fun k => (p k - q k) * c k)).
    { induction n as [|n IH]; intros; [unfold rsum; simpl; ring|]. rewrite !rsum_S, <- IH. ring. }
    rewrite EQ, Rmult_assoc. unfold total_weight. apply weighted_bound.
    + apply Rmult_le_pos; [|apply dist_pos]. apply Rmult_le_pos; [left; apply exp_pos|left; now apply Rinv_0_lt_compat].
    + intros k Hk. now apply bell_lipschitz.
Qed.
Print Assumptions C103_bounds.

(** The default width is the finest spacing of the grid; the bell of a grid state
    has at most the height exp(-1/2) at the other grid states. *)
Theorem C103_default_width : forall g, valid_grid g -> (0 < dims g)%nat ->
  exists sigma, 0 < sigma /\ finest g sigma /\ rbf_variance g None = sigma ^ 2 /\
    forall p q, is_vertex g p -> is_vertex g q -> p <> q -> bell (dims g) sigma p q <= exp (- (1 / 2)).
Proof.
  intros g V D. assert (LU : length (unit_maxes g) = dims g) by now apply unit_len.
  destruct (np_min_spec (unit_maxes g)) as (I & M). { intros E. rewrite E in LU. cbn in LU. lia. }
  set (sigma := np_min (unit_maxes g)) in *. exists sigma.
  assert (FI : finest g sigma).
  { split.
    - intros j Hj. apply M. rewrite <- (unit_nth g V j Hj). apply nth_In. lia.
    - destruct (In_nth _ _ 0 I) as (j & Hj & E). exists j. split; [lia|]. rewrite <- E. symmetry. apply unit_nth; auto. lia. }
  assert (S0 : 0 < sigma).
  { destruct FI as (_ & j & Hj & <-). now apply spacing_pos. }
  split; auto. split; auto. split; [reflexivity|].
  intros p q (Lp & Hp) (Lq & Hq) N.
  assert (DJ : exists j, (j < dims g)%nat /\ coordinate p j <> coordinate q j).
  { destruct (Exists_dec (fun j => coordinate p j <> coordinate q j) (seq 0 (dims g))) as [EX|NX].
    - intros j. destruct (Req_EM_T (coordinate p j) (coordinate q j)); [right; tauto|left; auto].
    - apply Exists_exists in EX as (j & Hj & Q). exists j. split; auto. apply in_seq in Hj. lia.
    - exfalso. apply N. apply (nth_ext _ _ 0 0); [congruence|]. intros j Hj.
      destruct (Req_EM_T (coordinate p j) (coordinate q j)) as [Q|Q]; auto.
      exfalso. apply NX. apply Exists_exists. exists j. split; auto. apply in_seq. lia. }
  destruct DJ as (j & Hj & Q). destruct (Hp j Hj) as (a & Ha & Ea). destruct (Hq j Hj) as (b & Hb & Eb).
  assert (AB : a <> b) by (intros ->; congruence).
  pose proof (proj1 FI j Hj) as SJ.
  assert (D1 : sigma ^ 2 <= (nth j q 0 - nth j p 0) ^ 2).
  { unfold coordinate in Ea, Eb. rewrite Ea, Eb.
    replace (lower g j + IZR b * spacing g j - (lower g j + IZR a * spacing g j)) with (IZR (b - a) * spacing g j)
      by (rewrite minus_IZR; ring).
    assert (Z1 : 1 <= IZR (b - a) ^ 2).
    { rewrite pow_IZR. apply IZR_le. cbn [Z.of_nat]. nia. }
    rewrite Rpow_mult_distr. assert (sigma ^ 2 <= spacing g j ^ 2) by nra. assert (0 <= spacing g j ^ 2) by nra. nra. }
  assert (D2 : sigma ^ 2 <= distance (dims g) q p ^ 2).
  { rewrite dist_sq. eapply Rle_trans; [exact D1|].
    assert (G : forall n i F, (i < n)%nat -> (forall d, 0 <= F d) -> F i <= rsum n F).
    { induction n as [|n IH]; intros i F Hi P; [lia|]. rewrite rsum_S. destruct (Nat.eq_dec i n) as [E|E].
      - subst i. assert (0 <= rsum n F) by (apply NNProofs.rsum_nonneg; auto). lra.
      - pose proof (IH i F ltac:(lia) P). pose proof (P n). lra. }
    apply (G (dims g) j (fun d => (nth d q 0 - nth d p 0) ^ 2)); auto. intros. apply pow2_ge_0. }
  unfold bell.
  assert (X : - distance (dims g) q p ^ 2 / (2 * sigma ^ 2) <= - (1 / 2)).
  { apply Rmult_le_reg_r with (2 * sigma ^ 2); [nra|].
    replace (- distance (dims g) q p ^ 2 / (2 * sigma ^ 2) * (2 * sigma ^ 2)) with (- distance (dims g) q p ^ 2) by (field; nra). nra. }
  destruct X as [X|X]; [left; now apply exp_increasing|right; now rewrite X].
Qed.
Print Assumptions C103_default_width.

(** A number of columns other than the dimension is not always noticed: a single
    coordinate is used for all axes. *)
Theorem C103_width_refuted : exists g f w x y,
  valid_grid g /\ dims g = 2%nat /\ make_rbf g None (Some (nindex g)) = Ok f /\
  rbf_eval f w [x] = Ok y /\ rbf_eval f w [x; x] = Ok y.
Proof.
  set (g := Grid [(0, 1); (0, 1)] [2%Z; 2%Z]).
  assert (V : valid_grid g) by (unfold valid_grid, g; simpl; repeat constructor; simpl; lra || lia).
  destruct (proj1 (C103_constructor g None (nindex g) V ltac:(cbv; lia)) (or_intror eq_refl)) as (f & Ef).
  exists g, f, [1; 2; 3; 4], 0.
  assert (CC : c_cols f = 4%nat /\ c_rows f = 2%nat).
  { unfold make_rbf in Ef. destruct (reshape_ok (ndim g) (all_points g) (nindex g)) as (e & E & _); [cbv; lia|right; reflexivity|].
    rewrite E in Ef. cbn [bind] in Ef. injection Ef as <-. split; reflexivity. }
  destruct CC as [C1 C2]. eexists. split; [exact V|]. split; [reflexivity|]. split; [exact Ef|].
  assert (P : forall k, phi f [0] k = phi f [0; 0] k).
  { intros k. unfold phi. rewrite C2. cbn [length broadcast_width Nat.eqb bind]. reflexivity. }
  assert (OKp : forall k, exists z, phi f [0; 0] k = Ok z).
  { intros k. unfold phi. rewrite C2. cbn [length broadcast_width Nat.eqb bind]. eauto. }
  assert (EE : rbf_eval f [1; 2; 3; 4] [0] = rbf_eval f [1; 2; 3; 4] [0; 0]).
  { unfold rbf_eval. rewrite C1. cbn [length Nat.eqb seq mapM]. now rewrite !P. }
  rewrite EE. unfold rbf_eval. rewrite C1. cbn [length Nat.eqb].
  rewrite (mapM_seq_ok _ (fun k => match phi f [0; 0] k with Ok z => z | _ => 0 end) 4); [cbn [bind]; split; reflexivity| |lia].
  intros k _. destruct (OKp k) as (z & ->). reflexivity.
Qed.
Print Assumptions C103_width_refuted.

(** Otherwise a wrong number of weights or of columns is reported. *)
Theorem C103_errors : forall g variances h f w x, valid_grid g -> (1 < dims g)%nat ->
  make_rbf g variances (Some h) = Ok f ->
  (length x = dims g -> Z.of_nat (length w) <> nindex g -> rbf_eval f w x = Err ValueError) /\
  (length x <> dims g -> length x <> 1%nat -> rbf_eval f w x = Err ValueError).
Proof.
  intros g variances h f w x V D EF. pose proof (all_points_length g V) as AP.
  assert (H : (h = -1 \/ h = nindex g)%Z).
  { destruct (Z.eq_dec h (-1)) as [|N1]; [now left|]. destruct (Z.eq_dec h (nindex g)) as [|N2]; [now right|].
    rewrite (proj2 (C103_constructor g variances h V ltac:(lia)) (conj N1 N2)) in EF. discriminate. }
  destruct (reshape_ok (ndim g) (all_points g) h) as (e & E & He); [unfold ndim; change (0 < dims g)%nat; lia|rewrite AP; exact H|].
  unfold make_rbf in EF. rewrite E in EF. cbn [bind fst snd] in EF. injection EF as <-.
  split.
  - intros Lx Lw. unfold rbf_eval. cbn [c_cols].
    replace (length (all_points g) =? length w)%nat with false by (symmetry; apply Nat.eqb_neq; lia). reflexivity.
  - intros Lx N1. unfold rbf_eval. cbn [c_cols]. destruct (_ =? _)%nat; [|reflexivity].
    assert (0 < nindex g)%Z by (unfold nindex; apply prodZ_pos; now apply pos_points). destruct (length (all_points g)) as [|n]; [lia|]. cbn [seq mapM].
    unfold phi, broadcast_width. cbn [c_rows]. change (ndim g) with (dims g).
    rewrite (proj2 (Nat.eqb_neq _ _) Lx), (proj2 (Nat.eqb_neq _ _) N1).
    replace (dims g =? 1)%nat with false by (symmetry; apply Nat.eqb_neq; lia). reflexivity.
Qed.
Print Assumptions C103_errors.

(** Two centres 0 and 1, default width 1: the value at 0 is w0 + w1 exp(-1/2). *)
Example C103_ex : exists f, make_rbf (Grid [(0, 1)] [2%Z]) None (Some 2%Z) = Ok f /\
  rbf_eval f [3; 2] [0] = Ok (3 + 2 * exp (- (1 / 2))).
Proof.
  set (g := Grid [(0, 1)] [2%Z]).
  assert (V : valid_grid g) by (unfold valid_grid, g; simpl; repeat constructor; simpl; lra || lia).
  destruct (proj1 (C103_constructor g None 2 V ltac:(cbv; lia)) (or_intror eq_refl)) as (f & Ef).
  exists f. split; [exact Ef|].
  assert (SV : rbf_variance g None = 1 ^ 2).
  { unfold rbf_variance, np_min, unit_maxes, g. cbn. unfold Rmin. repeat destruct Rle_dec; field. }
  rewrite (rbf_value g None 2 1 f [3; 2] [0] V ltac:(cbv; lia) ltac:(lra) SV (or_intror eq_refl) Ef eq_refl eq_refl).
  assert (AP : all_points g = [[0]; [1]]).
  { unfold all_points, discrete_points, g; simpl. unfold linspace; simpl. repeat f_equal; field_simplify; lra. }
  rewrite AP. f_equal. unfold rsum, bell. cbn [length seq map fold_right nth dims g limits]. 
  change (dims g) with 1%nat. rewrite !dist_sq. unfold rsum. cbn [seq map fold_right nth].
  replace (- ((0 - 0) ^ 2 + 0) / (2 * 1 ^ 2)) with 0 by field.
  replace (- ((0 - 1) ^ 2 + 0) / (2 * 1 ^ 2)) with (- (1 / 2)) by field.
  rewrite exp_0. ring.
Qed.
