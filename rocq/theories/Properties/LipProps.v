(** Properties C77-C79: the constants that the examples pass to [Lyapunov]. *)
From Coq Require Import Reals List Bool Arith ZArith Lia Lra Psatz.
From Verif Require Import Prelude ListFacts NumModel FunModel QuadModel QuadSpec QuadProofs GridModel
  GridSpec GridProofs SafeModel CertModel CertSpec CertProofs LipModel LipSpec LipProofs.
Import ListNotations.
Local Open Scope R_scope.

(** ** C77: discretization constants *)

(** Half of the sum of the spacings is the smallest constant with which every
    state of the box is close enough to a grid state. *)
Theorem C77_half_sum : forall g t, valid_grid g -> (covers g t <-> tau_sum g <= t).
Proof. exact covers_iff. Qed.

(** The largest spacing is enough for one or two axes, ... *)
Theorem C77_largest_spacing : forall g, valid_grid g -> (1 <= GridSpec.dims g <= 2)%nat -> covers g (tau_max g).
Proof.
  intros g V D. apply C77_half_sum; [auto|]. rewrite half_sum by auto.
  pose proof (spacing_le_max g 0 V ltac:(lia)) as M0.
  destruct (GridSpec.dims g) as [|[|[|d]]] eqn:E; try lia.
  - rewrite rsum_S, rsum_0. pose proof (spacing_pos g V 0 ltac:(lia)). lra.
  - rewrite !rsum_S, rsum_0. pose proof (spacing_le_max g 1 V ltac:(lia)). lra.
Qed.
(** ... but for three or more axes with the same spacing it never is. *)
Theorem C77_largest_spacing_refuted : forall g h, valid_grid g -> (3 <= GridSpec.dims g)%nat ->
  (forall j, (j < GridSpec.dims g)%nat -> spacing g j = h) -> ~ covers g (tau_max g).
Proof.
  intros g h V D Eh C. apply C77_half_sum in C; [|auto]. rewrite half_sum in C by auto.
  rewrite (rsum_ext _ _ (fun _ => h / 2)) in C by (intros j Hj; now rewrite Eh).
  assert (Hh : 0 < h) by (rewrite <- (Eh 0%nat) by lia; apply spacing_pos; auto; lia).
  assert (M : tau_max g = h).
  { unfold tau_max. assert (NE : unit_maxes g <> []).
    { intros E. apply (f_equal (@length R)) in E. rewrite unit_len in E by auto. simpl in E. lia. }
    apply np_max_in in NE. apply (In_nth _ _ 0) in NE. destruct NE as (j & Hj & E). rewrite unit_len in Hj by auto.
    rewrite <- E, unit_nth by auto. auto. }
  rewrite M in C.
  assert (N : forall n, (3 <= n)%nat -> 3 * (h / 2) <= rsum n (fun _ => h / 2)).
  { induction n as [|n IH]; intros Hn; [lia|]. destruct (Nat.eq_dec n 2) as [->|].
    - rewrite !rsum_S, rsum_0. lra.
    - rewrite rsum_S. pose proof (IH ltac:(lia)). lra. }
  pose proof (N _ D). lra.
Qed.

(** The smallest spacing is enough for one axis, and for two axes exactly if they
    have the same spacing. *)
Theorem C77_smallest_spacing : forall g, valid_grid g ->
  (GridSpec.dims g = 1%nat -> covers g (tau_min g)) /\
  (GridSpec.dims g = 2%nat -> (covers g (tau_min g) <-> spacing g 0 = spacing g 1)).
Proof.
  intros g V. split; intros D.
  - apply C77_half_sum; [auto|]. rewrite half_sum, D, rsum_S, rsum_0 by auto.
    assert (tau_min g = spacing g 0).
    { rewrite <- unit_nth by (auto; lia). unfold tau_min. pose proof (unit_len g V) as L.
      destruct (unit_maxes g) as [|a [|b l]]; simpl in L; try lia. reflexivity. }
    pose proof (spacing_pos g V 0 ltac:(lia)). lra.
  - rewrite C77_half_sum, half_sum, D, !rsum_S, rsum_0 by auto.
    assert (tau_min g = Rmin (spacing g 0) (spacing g 1)).
    { rewrite <- !unit_nth by (auto; lia). unfold tau_min. pose proof (unit_len g V) as L.
      destruct (unit_maxes g) as [|a [|b [|c l]]]; simpl in L; try lia. reflexivity. }
    unfold Rmin in H. destruct Rle_dec; split; intros; lra.
Qed.

(** One over the number of states is too small on [-1, 1] for every number of
    states. *)
Theorem C77_inverse_count_refuted : forall n g, make_grid [(-1, 1)] (Scalar n) = Ok g -> ~ covers g (tau_inverse g).
Proof.
  intros n g E C.
  assert (N : (2 <= n)%Z /\ g = Grid [(-1, 1)] [n]).
  { unfold make_grid in E. simpl in E. destruct (Z.ltb_spec n 2); simpl in E; [discriminate|].
    injection E as <-. split; [lia|reflexivity]. }
  destruct N as [N ->].
  assert (V : valid_grid (Grid [(-1, 1)] [n])).
  { unfold valid_grid. simpl. repeat constructor; simpl; [lra|lia]. }
  apply C77_half_sum in C; [|auto]. rewrite half_sum in C by auto.
  unfold GridSpec.dims, tau_inverse, nindex in C. simpl in C. rewrite rsum_S, rsum_0 in C.
  unfold spacing, upper, lower, npts in C. simpl in C.
  rewrite Z.mul_1_r in C.
  assert (2 <= IZR n) by (apply (IZR_le 2); lia). rewrite minus_IZR in C.
  assert (L : 1 / IZR n < 1 / (IZR n - 1)).
  { unfold Rdiv. apply Rmult_lt_compat_l; [lra|]. apply Rinv_lt_contravar; [|lra]. apply Rmult_lt_0_compat; lra. }
  assert (Q : 0 + (1 - -1) / (IZR n - 1) / 2 = 1 / (IZR n - 1)) by (field; lra).
  lra.
Qed.

Example C77_ex :
  let g := Grid [(-2, 2); (-1.5, 1.5)] [2001; 1501]%Z in
  valid_grid g /\ covers g (tau_min g) /\
  let g' := Grid [(-2, 2); (-1.5, 1.5)] [2001; 2001]%Z in
  valid_grid g' /\ ~ covers g' (tau_min g').
Proof.
  intros g.
  assert (V : valid_grid g) by (unfold valid_grid, g; simpl; repeat constructor; simpl; try lra; lia).
  split; [exact V|]. split.
  - apply (proj2 (C77_smallest_spacing g V)); [reflexivity|]. unfold spacing, g, upper, lower, npts. simpl. lra.
  - intros g'.
    assert (V' : valid_grid g') by (unfold valid_grid, g'; simpl; repeat constructor; simpl; try lra; lia).
    split; [exact V'|]. intros C. apply (proj2 (C77_smallest_spacing g' V')) in C; [|reflexivity].
    unfold spacing, g', upper, lower, npts in C. simpl in C. lra.
Qed.

(** ** C78: constants of the closed loop *)

(** The largest column sums give a constant of the closed loop for the 1-norm,
    with any policy that has the constant [l]. *)
Theorem C78_closed_loop : forall n m A B p l, shape n n A -> shape n m B ->
  lipschitz dist1 n m l p ->
  lipschitz dist1 n n (loop_constant A B l) (fun x => linear_dynamics A B x (p x)).
Proof. exact closed_loop. Qed.
(** Linear policies have their largest column sum, and saturation keeps constants. *)
Theorem C78_policies : forall n m K, shape m n K ->
  lipschitz dist1 n m (policy_constant K) (linear_policy K) /\
  forall p l lower upper, lipschitz dist1 n m l p -> lipschitz dist1 n m l (saturated lower upper p).
Proof.
  intros n m K SK. split; [now apply policy_lipschitz|]. intros. now apply saturated_lipschitz.
Qed.
(** The largest entries give one if they are multiplied with the number of states, ... *)
Lemma norm1_entries t : np_norm1 t <= INR (rows t) * np_max_abs t.
Proof.
  assert (M : 0 <= np_max_abs t).
  { unfold np_max_abs. destruct (map Rabs _) as [|a l] eqn:E; [simpl; lra|]. rewrite <- E.
    assert (In (np_max (map Rabs (concat (map (fun i => map (entry t i) (seq 0 (cols t))) (seq 0 (rows t)))))) (map Rabs (concat (map (fun i => map (entry t i) (seq 0 (cols t))) (seq 0 (rows t)))))).
    { apply np_max_in. rewrite E. discriminate. }
    apply in_map_iff in H as (x & <- & _). apply Rabs_pos. }
  destruct (cols t) as [|c] eqn:E.
  - unfold np_norm1. rewrite E. simpl. apply Rmult_le_pos; [apply pos_INR|exact M].
  - unfold np_norm1 at 1.
    assert (I : In (np_max (map (fun j => rsum (rows t) (fun i => Rabs (entry t i j))) (seq 0 (cols t))))
      (map (fun j => rsum (rows t) (fun i => Rabs (entry t i j))) (seq 0 (cols t)))).
    { apply np_max_in. rewrite E. discriminate. }
    apply in_map_iff in I as (j & <- & Hj).
    assert (B : forall i, (i < rows t)%nat -> Rabs (entry t i j) <= np_max_abs t).
    { intros i Hi. apply np_max_ge. apply in_map, in_concat. exists (map (entry t i) (seq 0 (cols t))).
      split; apply in_map_iff; [exists i; split; [reflexivity|apply in_seq; lia]|exists j; split; [reflexivity|exact Hj]]. }
    revert B. generalize (rows t). induction n as [|n IH]; intros B; [rewrite rsum_0; simpl; lra|].
    rewrite rsum_S, S_INR. specialize (IH (fun i Hi => B i (Nat.lt_lt_succ_r _ _ Hi))). specialize (B n (Nat.lt_succ_diag_r n)). lra.
Qed.
Theorem C78_largest_entries : forall n m A B p l, shape n n A -> shape n m B -> 0 <= l ->
  lipschitz dist1 n m l p ->
  lipschitz dist1 n n (INR n * loop_constant_entries A B l) (fun x => linear_dynamics A B x (p x)).
Proof.
  intros n m A B p l SA SB Hl HP. destruct (C78_closed_loop n m A B p l SA SB HP) as [L H].
  split; [exact L|]. intros x y Hx Hy. eapply Rle_trans; [apply H; assumption|].
  apply Rmult_le_compat_r; [apply dist1_nonneg|]. unfold loop_constant, loop_constant_entries.
  pose proof (norm1_entries A) as NA. pose proof (norm1_entries B) as NB.
  rewrite (proj1 SA) in NA. rewrite (proj1 SB) in NB.
  pose proof (Rmult_le_compat_r l _ _ Hl NB). lra.
Qed.
(** ... but not by themselves: two states, no influence of the action. *)
Theorem C78_largest_entries_refuted : exists A B p,
  shape 2 2 A /\ shape 2 1 B /\
  let F := fun x => linear_dynamics A B x (p x) in
  Forall (fun d => lipschitz d 2 1 1 p /\ ~ lipschitz d 2 2 (loop_constant_entries A B 1) F)
    [dist1; dist_max; dist2].
Proof.
  exists {| rows := 2; cols := 2; entry := fun _ _ => 1 |}, {| rows := 2; cols := 1; entry := fun _ _ => 0 |},
    (fun _ => [0]).
  split; [split; reflexivity|]. split; [split; reflexivity|]. intros F.
  assert (SA : shape 2 2 {| rows := 2; cols := 2; entry := fun _ _ => 1 |}) by (split; reflexivity).
  assert (SB : shape 2 1 {| rows := 2; cols := 1; entry := fun _ _ => 0 |}) by (split; reflexivity).
  assert (EF : forall a b, F [a; b] = [a + b; a + b]).
  { intros a b. destruct (dynamics_at 2 1 _ _ [a; b] [0] SA SB eq_refl eq_refl) as [L H].
    fold (F [a; b]) in L, H. destruct (F [a; b]) as [|u [|v [|]]]; try discriminate.
    pose proof (H 0%nat ltac:(lia)) as H0. pose proof (H 1%nat ltac:(lia)) as H1.
    unfold dot, vec in H0, H1. rewrite !rsum_S, !rsum_0 in H0, H1. simpl in H0, H1. f_equal; [lra|f_equal; lra]. }
  assert (EC : loop_constant_entries {| rows := 2; cols := 2; entry := fun _ _ => 1 |}
     {| rows := 2; cols := 1; entry := fun _ _ => 0 |} 1 = 1).
  { unfold loop_constant_entries, np_max_abs. simpl. rewrite Rabs_R1, Rabs_R0.
    unfold Rmax. repeat destruct Rle_dec; lra. }
  rewrite EC.
  assert (S2 : 0 < sqrt 2) by (apply sqrt_lt_R0; lra).
  apply Forall_cons; [|apply Forall_cons; [|apply Forall_cons; [|apply Forall_nil]]];
    (split; [split; [reflexivity|]|]).
  - intros x y _ _. unfold dist1 at 1. simpl. rewrite Rminus_0_r, Rabs_R0. pose proof (dist1_nonneg x y). lra.
  - intros [_ H]. specialize (H [1; 1] [0; 0] eq_refl eq_refl). rewrite !EF in H. unfold dist1 in H. simpl in H.
    rewrite !Rabs_pos_eq in H by lra. lra.
  - intros x y _ _. unfold dist_max at 1. simpl. rewrite Rminus_0_r, Rabs_R0.
    assert (G : forall l, 0 <= fold_right Rmax 0 l).
    { induction l as [|a l IH]; simpl; [lra|]. eapply Rle_trans; [exact IH|apply Rmax_r]. }
    unfold dist_max. rewrite Rmax_left by lra. pose proof (G (map2 (fun a b => Rabs (a - b)) x y)). lra.
  - intros [_ H]. specialize (H [1; 1] [0; 0] eq_refl eq_refl). rewrite !EF in H. unfold dist_max in H. simpl in H.
    rewrite !Rabs_pos_eq in H by lra. unfold Rmax in H. repeat destruct Rle_dec; lra.
  - intros x y _ _. unfold dist2 at 1. simpl. replace ((0 - 0) * ((0 - 0) * 1) + 0) with 0 by ring. rewrite sqrt_0.
    rewrite Rmult_1_l. apply sqrt_pos.
  - intros [_ H]. specialize (H [1; 1] [0; 0] eq_refl eq_refl). rewrite !EF in H. unfold dist2 in H. simpl in H.
    replace ((1 - 0) * ((1 - 0) * 1) + ((1 - 0) * ((1 - 0) * 1) + 0)) with 2 in H by ring.
    replace ((1 + 1 - (0 + 0)) * ((1 + 1 - (0 + 0)) * 1) + ((1 + 1 - (0 + 0)) * ((1 + 1 - (0 + 0)) * 1) + 0)) with (2 ^ 2 * 2) in H by ring.
    rewrite sqrt_mult_alt, sqrt_pow2 in H by lra. lra.
Qed.

Example C78_ex :
  let A := {| rows := 2; cols := 2; entry := fun i j => if Nat.eqb i j then 1 else INR i / 10 |} in
  let B := {| rows := 2; cols := 1; entry := fun i _ => INR i / 10 |} in
  let K := {| rows := 1; cols := 2; entry := fun _ j => INR (S j) |} in
  lipschitz dist1 2 2 1.3 (fun x => linear_dynamics A B x (saturated (-1) 1 (linear_policy K) x)).
Proof.
  intros A B K.
  assert (E : loop_constant A B (policy_constant K) = 1.3).
  { unfold loop_constant, policy_constant, np_norm1, rsum. simpl.
    unfold Rdiv. rewrite ?Rmult_0_l, ?Rmult_1_l, ?Rabs_R0, ?Rabs_R1.
    rewrite (Rabs_pos_eq (/ 10)), (Rabs_left (-1 * 1)), (Rabs_left (-1 * (1 + 1))) by lra. unfold Rmax. repeat destruct Rle_dec; lra. }
  rewrite <- E. apply (C78_closed_loop 2 1); [split; reflexivity|split; reflexivity|].
  apply (C78_policies 2 1 K); [split; reflexivity|]. apply (C78_policies 2 1 K). split; reflexivity.
Qed.

(** ** C79: gradients as Lipschitz constants of quadratic functions *)

(** With gradients that are enlarged by [k] the certificate of a grid state is
    right if [k^2] times the smallest eigenvalue is at least every diagonal entry;
    for multiples of the identity [k = 1] is enough. *)
Theorem C79_enlarged_gradients : forall n P mu k S scaling F c x,
  shape n n P -> symmetric n P -> 0 < mu -> form_at_least n mu P -> 0 <= k ->
  (forall j, (j < n)%nat -> entry P j j <= k ^ 2 * mu) ->
  (forall z, lyapunov_function S z = quadratic_lyapunov P z) ->
  lip_v S = times k (gradient_constants scaling P) ->
  lipschitz dist1 n n (lf_scalar S c) F -> 0 <= lf_scalar S c ->
  length c = n -> length x = n ->
  lyapunov_function S (F c) - lyapunov_function S c <= decrease S c ->
  decrease S c < threshold S c (tau S) -> dist1 x c <= tau S ->
  lyapunov_function S (F x) < lyapunov_function S x.
Proof.
  intros n P mu k S scaling F c x SP SYM M0 PD K0 DIAG HV HL [LF HF] Lf Lc Lx Hd Hdec Ht.
  rewrite !HV in *.
  apply (quadratic_neighbourhood n P mu k SP SYM M0 PD K0 DIAG F c x (lv_scalar S c) (lf_scalar S c) (tau S) (decrease S c)); auto.
  destruct (gradient_at n P c SP Lc) as [LG _].
  unfold lv_scalar. rewrite HL. unfold times, gradient_constants. cbv zeta.
  assert (E : norm1 (map (Rmult k) (map Rabs (grad_lyapunov P c))) = k * norm1 (grad_lyapunov P c)).
  { unfold norm1. rewrite !map_map. rewrite !sum_map_rsum. rewrite <- rsum_scal. apply rsum_ext. intros i Hi.
    rewrite Rabs_mult, Rabs_Rabsolu, (Rabs_pos_eq k) by auto. reflexivity. }
  destruct scaling; simpl.
  - rewrite !map_length, LG. destruct (Nat.ltb_spec 1 n); [lra|].
    rewrite <- E. destruct n as [|[|]]; [| |lia].
    + destruct (grad_lyapunov P c); [unfold norm1; simpl; lra|discriminate].
    + destruct (grad_lyapunov P c) as [|a [|]]; try discriminate. unfold norm1. simpl.
      rewrite Rabs_mult, Rabs_Rabsolu, (Rabs_pos_eq k) by auto. lra.
  - lra.
Qed.

(** With the gradients themselves it is wrong for other matrices: P = diag(1, 1/20)
    and the linear system x -> (2 x1, 0), the constants as in the notebook. *)
Definition diag2 (a b : R) : tensor :=
  {| rows := 2; cols := 2; entry := fun i j => if Nat.eqb i j then (if Nat.eqb i 0 then a else b) else 0 |}.
Definition zero21 : tensor := {| rows := 2; cols := 1; entry := fun _ _ => 0 |}.
Definition zero12 : tensor := {| rows := 1; cols := 2; entry := fun _ _ => 0 |}.
Definition notebook (scaling : bool) (P A B K : tensor) (t : R) : setup :=
  {| lyapunov_function := quadratic_lyapunov P; policy := linear_policy K;
     dynamics := fun x u => Exact (linear_dynamics A B x u);
     lip_v := gradient_constants scaling P; lip_f := LfConst (loop_constant A B (policy_constant K)); tau := t |}.

Lemma diag_lyapunov a b x y : quadratic_lyapunov (diag2 a b) [x; y] = a * x ^ 2 + b * y ^ 2.
Proof.
  rewrite (lyapunov_at 2) by (split; reflexivity). unfold form, vec. rewrite !rsum_S, !rsum_0. simpl. ring.
Qed.
Lemma diag_gradient a b x y : grad_lyapunov (diag2 a b) [x; y] = [2 * (a * x); 2 * (b * y)].
Proof.
  destruct (gradient_at 2 (diag2 a b) [x; y]) as [L H]; [split; reflexivity|reflexivity|].
  destruct (grad_lyapunov (diag2 a b) [x; y]) as [|u [|v [|]]]; try discriminate.
  pose proof (H 0%nat ltac:(lia)) as H0. pose proof (H 1%nat ltac:(lia)) as H1.
  unfold dot, vec in H0, H1. rewrite !rsum_S, !rsum_0 in H0, H1. simpl in H0, H1. f_equal; [lra|f_equal; lra].
Qed.
Lemma zero_policy x y : linear_policy zero12 [x; y] = [0].
Proof.
  destruct (policy_at 2 1 zero12 [x; y]) as [L H]; [split; reflexivity|reflexivity|].
  destruct (linear_policy zero12 [x; y]) as [|u [|]]; try discriminate.
  pose proof (H 0%nat ltac:(lia)) as H0. unfold dot, vec in H0. rewrite !rsum_S, !rsum_0 in H0. simpl in H0. f_equal. lra.
Qed.
Lemma diag_dynamics a b x y u : linear_dynamics (diag2 a b) zero21 [x; y] [u] = [a * x; b * y].
Proof.
  destruct (dynamics_at 2 1 (diag2 a b) zero21 [x; y] [u]) as [L H]; try (split; reflexivity); auto.
  destruct (linear_dynamics (diag2 a b) zero21 [x; y] [u]) as [|p [|q [|]]]; try discriminate.
  pose proof (H 0%nat ltac:(lia)) as H0. pose proof (H 1%nat ltac:(lia)) as H1.
  unfold dot, vec in H0, H1. rewrite !rsum_S, !rsum_0 in H0, H1. simpl in H0, H1. f_equal; [lra|f_equal; lra].
Qed.
Lemma diag_constant a b : 0 <= b <= a -> loop_constant (diag2 a b) zero21 (policy_constant zero12) = a.
Proof.
  intros H. unfold loop_constant, policy_constant, np_norm1, rsum. simpl. rewrite ?Rmult_0_r, ?Rabs_R0.
  rewrite !Rabs_pos_eq by lra. unfold Rmax. repeat destruct Rle_dec; lra.
Qed.

Theorem C79_gradients_refuted : exists P A B K t c x, forall scaling,
  let S := notebook scaling P A B K t in
  let F := fun z => linear_dynamics A B z (linear_policy K z) in
  shape 2 2 P /\ symmetric 2 P /\ form_at_least 2 (1 / 20) P /\
  lipschitz dist1 2 2 (lf_scalar S c) F /\ 0 <= lf_scalar S c /\
  (forall z, dynamics S z (policy S z) = Exact (F z)) /\
  decrease S c < threshold S c (tau S) /\ dist1 x c <= tau S /\
  lyapunov_function S x < lyapunov_function S (F x).
Proof.
  exists (diag2 1 (1 / 20)), (diag2 2 0), zero21, zero12, 1, [0; 7], [1; 7]. intros scaling S F.
  assert (EL : lf_scalar S [0; 7] = 2) by (apply diag_constant; lra).
  split; [split; reflexivity|]. split.
  { intros i j Hi Hj. simpl. rewrite Nat.eqb_sym. destruct (Nat.eqb_spec j i) as [->|]; reflexivity. }
  split.
  { intros v. unfold dot, form. rewrite !rsum_S, !rsum_0. simpl. nra. }
  split.
  { apply (C78_closed_loop 2 1); try (split; reflexivity). apply (C78_policies 2 1). split; reflexivity. }
  rewrite EL. split; [lra|]. split; [reflexivity|].
  assert (EF : forall a b, F [a; b] = [2 * a; 0 * b]) by (intros; unfold F; rewrite zero_policy; apply diag_dynamics).
  split.
  - unfold decrease, v_decrease_bound, v_decrease_confidence.
    change (dynamics S [0; 7] (policy S [0; 7])) with (Exact (F [0; 7])). rewrite EF.
    unfold threshold. rewrite EL. simpl tau.
    assert (ELV : lv_scalar S [0; 7] = 7 / 10).
    { unfold lv_scalar, S, notebook, gradient_constants. cbn [lip_v times]. cbv zeta. rewrite diag_gradient.
      destruct scaling; unfold norm1; simpl; rewrite ?Rabs_Rabsolu, !Rmult_0_r, Rabs_R0, ?Rabs_R0, Rabs_pos_eq by lra; lra. }
    rewrite ELV. simpl lyapunov_function. rewrite !diag_lyapunov. lra.
  - split.
    + unfold dist1. simpl. replace (1 - 0) with 1 by ring. replace (7 - 7) with 0 by ring.
      rewrite Rabs_R1, Rabs_R0. lra.
    + rewrite EF. simpl lyapunov_function. rewrite !diag_lyapunov. lra.
Qed.

(** The bound on the change of a quadratic function for uncertain dynamics, computed
    with the gradient at the mean, is never a bound: some successor within the
    error bounds exceeds it. *)
Theorem C79_error_bound_refuted : forall n P S x mean err, shape n n P -> symmetric n P ->
  (forall v, (exists i, (i < n)%nat /\ v i <> 0) -> 0 < form n (entry P) v) ->
  (forall z, length z = n -> lyapunov_function S z = quadratic_lyapunov P z) ->
  lip_v S = gradient_constants true P ->
  length x = n -> length mean = n -> length err = n -> Forall (Rle 0) err -> (exists i, nth i err 0 <> 0) ->
  exists y, within y mean err /\
    v_decrease_bound S x (Uncertain mean err) < lyapunov_function S y - lyapunov_function S x.
Proof. exact error_bound_violated. Qed.
(** It is one after adding the square of the weighted error. *)
Theorem C79_error_bound_slack : forall n P S x mean err y, shape n n P -> symmetric n P ->
  (forall v, 0 <= form n (entry P) v) ->
  (forall z, length z = n -> lyapunov_function S z = quadratic_lyapunov P z) ->
  lip_v S = gradient_constants true P ->
  length x = n -> length mean = n -> within y mean err ->
  lyapunov_function S y - lyapunov_function S x <=
    v_decrease_bound S x (Uncertain mean err) +
    (rsum n (fun j => sqrt (entry P j j) * nth j err 0)) ^ 2.
Proof. exact error_bound_slack. Qed.

(** With P = 3 I gradients are enough; in the example above a factor 5
    makes them large enough. *)
Example C79_ex : forall x,
  let S := notebook true (diag2 3 3) (diag2 (1 / 2) (1 / 4)) zero21 zero12 (1 / 8) in
  length x = 2%nat -> dist1 x [1; 1] <= 1 / 8 ->
  lyapunov_function S (linear_dynamics (diag2 (1 / 2) (1 / 4)) zero21 x (linear_policy zero12 x)) < lyapunov_function S x.
Proof.
  intros x S Lx Hx.
  set (F := fun z => linear_dynamics (diag2 (1 / 2) (1 / 4)) zero21 z (linear_policy zero12 z)).
  assert (EL : lf_scalar S [1; 1] = 1 / 2) by (apply diag_constant; lra).
  assert (EF : F [1; 1] = [1 / 2 * 1; 1 / 4 * 1]) by (unfold F; rewrite zero_policy; apply diag_dynamics).
  assert (ED : decrease S [1; 1] = -6 + 3 / 4 + 3 / 16).
  { unfold decrease, v_decrease_bound, v_decrease_confidence.
    change (dynamics S [1; 1] (policy S [1; 1])) with (Exact (F [1; 1])). rewrite EF.
    simpl lyapunov_function. rewrite !diag_lyapunov. field. }
  assert (ELV : lv_scalar S [1; 1] = 12).
  { unfold lv_scalar, S, notebook, gradient_constants. cbn [lip_v times]. cbv zeta. rewrite diag_gradient. unfold norm1. simpl. rewrite ?Rabs_Rabsolu, !Rabs_pos_eq by lra. lra. }
  apply (C79_enlarged_gradients 2 (diag2 3 3) 3 1
    {| lyapunov_function := lyapunov_function S; policy := policy S; dynamics := dynamics S;
       lip_v := times 1 (lip_v S); lip_f := lip_f S; tau := tau S |} true F [1; 1] x); auto; try lra.
  - split; reflexivity.
  - intros i j Hi Hj. simpl. rewrite Nat.eqb_sym. destruct (Nat.eqb_spec j i) as [->|]; reflexivity.
  - intros v. unfold dot, form. rewrite !rsum_S, !rsum_0. simpl. nra.
  - intros j Hj. simpl. rewrite Nat.eqb_refl. destruct (j =? 0)%nat; lra.
  - change (lf_scalar _ [1; 1]) with (lf_scalar S [1; 1]).
    apply (C78_closed_loop 2 1); try (split; reflexivity). apply (C78_policies 2 1). split; reflexivity.
  - change (lf_scalar _ [1; 1]) with (lf_scalar S [1; 1]). lra.
  - change (decrease _ [1; 1]) with (decrease S [1; 1]). rewrite ED. rewrite EF. simpl lyapunov_function.
    rewrite !diag_lyapunov. lra.
  - change (decrease _ [1; 1]) with (decrease S [1; 1]). unfold threshold.
    change (lf_scalar _ [1; 1]) with (lf_scalar S [1; 1]).
    replace (lv_scalar _ [1; 1]) with (lv_scalar S [1; 1]).
    + rewrite ED, EL, ELV. simpl tau. lra.
    + unfold lv_scalar, S, notebook, gradient_constants. cbn [lip_v times]. cbv zeta. rewrite diag_gradient. unfold norm1. simpl. rewrite !Rmult_1_l. reflexivity.
Qed.

(** At the origin the gradient bounds ignore the errors altogether. *)
Example C79_ex2 :
  let S := notebook true (diag2 1 2) (diag2 1 1) zero21 zero12 1 in
  v_decrease_bound S [0; 0] (Uncertain [0; 0] [1; 1]) = 0 /\
  exists y, within y [0; 0] [1; 1] /\ 0 < lyapunov_function S y - lyapunov_function S [0; 0].
Proof.
  intros S.
  assert (E : v_decrease_bound S [0; 0] (Uncertain [0; 0] [1; 1]) = 0).
  { unfold v_decrease_bound, v_decrease_confidence, weighted_error, S, notebook, gradient_constants.
    cbn [lip_v]. rewrite diag_gradient. rewrite !Rmult_0_r. cbn [map map2 sum fold_right]. rewrite Rabs_R0. ring. }
  split; [exact E|].
  destruct (C79_error_bound_refuted 2 (diag2 1 2) S [0; 0] [0; 0] [1; 1]) as (y & W & H);
    [split; reflexivity|..]; auto; [| | | |exists y; rewrite E in H; auto].
  - intros i j Hi Hj. simpl. rewrite Nat.eqb_sym. destruct (Nat.eqb_spec j i) as [->|]; reflexivity.
  - intros v (i & Hi & Hv). unfold form. rewrite !rsum_S, !rsum_0. simpl.
    destruct i as [|[|]]; [| |lia]; nra.
  - repeat constructor; lra.
  - exists 0%nat. simpl. lra.
Qed.

Print Assumptions C77_half_sum.
Print Assumptions C78_closed_loop.
Print Assumptions C79_enlarged_gradients.
Print Assumptions C79_error_bound_refuted.
