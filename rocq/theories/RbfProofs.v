(** Proofs about radial basis function networks. *)
From Coq Require Import Reals List Bool Arith ZArith Lia Lra Psatz.
From Verif Require Import Prelude NumModel NumProofs FunModel QuadModel QuadSpec QuadProofs NNProofs LipProofs RbfModel.
From Verif Require Import GridModel GridSpec GridProofs RbfSpec ListFacts.
Import ListNotations.
Local Open Scope R_scope.

Lemma np_min_spec l : l <> [] -> In (np_min l) l /\ forall x, In x l -> np_min l <= x.
Proof.
  intros N. unfold np_min. destruct l as [|a l]; [contradiction|]. cbn [hd]. clear N.
  assert (H : forall l, (fold_right Rmin a l = a \/ In (fold_right Rmin a l) l) /\ fold_right Rmin a l <= a /\ forall x, In x l -> fold_right Rmin a l <= x).
  { induction l0 as [|b l0 (I1 & I2 & I3)]; cbn [fold_right]. { split; auto. split; [lra|]. intros x []. }
    split; [|split].
    - destruct (Rle_dec b (fold_right Rmin a l0)) as [Q|Q].
      + rewrite Rmin_left by auto. right; left; auto.
      + rewrite Rmin_right by lra. destruct I1 as [I1|I1]; auto. right; right; auto.
    - eapply Rle_trans; [apply Rmin_r|exact I2].
    - intros x [<-|Hx]; [apply Rmin_l|]. eapply Rle_trans; [apply Rmin_r|auto]. }
  destruct (H (a :: l)) as (A & B & C). split; auto. destruct A as [->|A]; auto. left; auto.
Qed.

Lemma centres_entry (centres : list (list R)) i j : (j < length centres)%nat ->
  let n := length centres in
  nth ((i * n + j) / n) (nth ((i * n + j) mod n) centres []) 0 = nth i (nth j centres []) (0 : R).
Proof.
  intros H n. rewrite Nat.div_add_l by lia. rewrite Nat.div_small by lia. rewrite Nat.add_0_r.
  replace ((i * n + j) mod n)%nat with j; auto.
  rewrite Nat.add_comm, Nat.mod_add by lia. symmetry. now apply Nat.mod_small.
Qed.
Lemma reshape_ok nd centres h : (0 < nd)%nat ->
  (h = -1 \/ h = Z.of_nat (length centres))%Z ->
  exists e, reshape_centres nd centres h = Ok (length centres, e) /\
    forall i j, (j < length centres)%nat -> e i j = nth i (nth j centres []) 0.
Proof.
  intros D H. unfold reshape_centres.
  assert (C : (if (h =? -1)%Z then Z.of_nat (length centres) else h) = Z.of_nat (length centres)).
  { destruct H as [-> | ->]; [reflexivity|]. destruct (Z.eqb_spec (Z.of_nat (length centres)) (-1)); lia. }
  rewrite C. rewrite <- Nat2Z.inj_mul, Z.eqb_refl. destruct (Z.leb_spec 0 (Z.of_nat (length centres))); [|lia].
  cbn [andb]. rewrite Nat2Z.id. eexists. split; [reflexivity|]. intros i j Hj. now apply centres_entry.
Qed.
Lemma reshape_err nd centres h : (0 < nd)%nat -> (h <> -1)%Z -> (h <> Z.of_nat (length centres))%Z ->
  reshape_centres nd centres h = Err ValueError.
Proof.
  intros D N1 N2. unfold reshape_centres. destruct (Z.eqb_spec h (-1)); [contradiction|].
  destruct (Z.eqb_spec (Z.of_nat nd * h) (Z.of_nat (nd * length centres))); [|reflexivity].
  exfalso. rewrite Nat2Z.inj_mul in e. apply Z.mul_cancel_l in e; lia.
Qed.

Lemma dist_sq n x y : distance n x y ^ 2 = rsum n (fun d => (nth d x 0 - nth d y 0) ^ 2).
Proof.
  unfold distance. rewrite <- Rsqr_pow2, Rsqr_sqrt; auto. apply NNProofs.rsum_nonneg. intros. apply pow2_ge_0.
Qed.
Lemma dist_pos n x y : 0 <= distance n x y. Proof. apply sqrt_pos. Qed.

Lemma mapM_seq_ok {B} (f : nat -> res B) (h : nat -> B) n : (forall k, (k < n)%nat -> f k = Ok (h k)) ->
  forall s m, (s + m <= n)%nat -> mapM f (seq s m) = Ok (map h (seq s m)).
Proof.
  intros H s m. revert s. induction m as [|m IH]; intros s Hs; [reflexivity|].
  cbn [seq mapM map]. rewrite H by lia. cbn [bind]. rewrite IH by lia. reflexivity.
Qed.

Lemma phi_ok f x k n c : length x = n -> c_rows f = n ->
  (forall d, (d < n)%nat -> c_entry f d k = nth d c 0) ->
  phi f x k = Ok (exp (- betas f * distance n x c ^ 2)).
Proof.
  intros L C E. unfold phi, broadcast_width. rewrite L, C, Nat.eqb_refl. cbn [bind].
  rewrite dist_sq. do 3 f_equal. apply rsum_ext. intros d Hd. unfold at_axis.
  destruct (Nat.eqb_spec n 1) as [->|]; [assert (d = 0%nat) as -> by lia|]; rewrite E by lia; reflexivity.
Qed.

(** ** The bell is Lipschitz *)
Lemma slope_bound t : Rabs (t * exp (- t ^ 2 / 2)) <= exp (- (1 / 2)).
Proof.
  apply Rsqr_incr_0_var; [|left; apply exp_pos]. rewrite <- Rsqr_abs. unfold Rsqr.
  replace (t * exp (- t ^ 2 / 2) * (t * exp (- t ^ 2 / 2))) with (t ^ 2 * (exp (- t ^ 2 / 2) * exp (- t ^ 2 / 2))) by ring.
  rewrite <- !exp_plus. replace (- t ^ 2 / 2 + - t ^ 2 / 2) with (- (t ^ 2)) by field.
  replace (- (1 / 2) + - (1 / 2)) with (- (1)) by field.
  assert (E : t ^ 2 <= exp (t ^ 2 - 1)).
  { destruct (Req_dec (t ^ 2 - 1) 0) as [Q|Q]; [rewrite Q, exp_0; lra|].
    pose proof (exp_ineq1 (t ^ 2 - 1) Q). lra. }
  apply Rle_trans with (exp (t ^ 2 - 1) * exp (- t ^ 2)).
  - apply Rmult_le_compat_r; [left; apply exp_pos|exact E].
  - rewrite <- exp_plus. right. f_equal. ring.
Qed.
Lemma bell1_lipschitz a b : Rabs (exp (- a ^ 2 / 2) - exp (- b ^ 2 / 2)) <= exp (- (1 / 2)) * Rabs (a - b).
Proof.
  set (f := fun t => exp (- t ^ 2 / 2)). set (f' := fun t => - (t * exp (- t ^ 2 / 2))).
  assert (D : forall c, derivable_pt_lim f c (f' c)).
  { intros c. unfold f, f'. 
    replace (- (c * exp (- c ^ 2 / 2))) with (exp (- c ^ 2 / 2) * (- c)) by ring.
    apply (derivable_pt_lim_comp (fun t => - t ^ 2 / 2) exp).
    - replace (- c) with (- (INR 2 * c ^ 1) / 2) by (simpl; field).
      unfold Rdiv. apply (derivable_pt_lim_ext (mult_real_fct (/ 2) (opp_fct (fun t => t ^ 2)))).
      + intros t. unfold mult_real_fct, opp_fct. ring.
      + replace (- (INR 2 * c ^ 1) * / 2) with (/ 2 * - (INR 2 * c ^ 1)) by ring.
        apply derivable_pt_lim_scal, derivable_pt_lim_opp. apply (derivable_pt_lim_pow c 2).
    - apply derivable_pt_lim_exp. }
  assert (K : forall a b, a < b -> Rabs (f b - f a) <= exp (- (1 / 2)) * Rabs (b - a)).
  { intros p q Hpq. destruct (MVT_cor2 f f' p q Hpq (fun c _ => D c)) as (c & E & _). rewrite E, Rabs_mult.
    apply Rmult_le_compat_r; [apply Rabs_pos|]. unfold f'. rewrite Rabs_Ropp. apply slope_bound. }
  destruct (Rtotal_order a b) as [H|[->|H]].
  - rewrite Rabs_minus_sym, (Rabs_minus_sym a b). apply K; auto.
  - rewrite !Rminus_diag_eq, Rabs_R0 by auto. lra.
  - apply K; auto.
Qed.

Lemma dist_triangle n x y c : Rabs (distance n x c - distance n y c) <= distance n x y.
Proof.
  assert (PS : forall v, 0 <= form n ident v).
  { intros w. rewrite <- bil_form, bil_ident. apply dot_pos. }
  assert (SY : forall i j, (i < n)%nat -> (j < n)%nat -> ident i j = ident j i).
  { intros. unfold ident. now rewrite Nat.eqb_sym. }
  assert (ND : forall x y, distance n x y = nrm n ident (fun d => nth d x 0 - nth d y 0)).
  { intros u v. unfold distance, nrm. f_equal. rewrite <- bil_form, bil_ident. unfold dot.
    apply rsum_ext. intros. ring. }
  assert (T : forall x y, distance n x c <= distance n x y + distance n y c).
  { intros u v. rewrite !ND.
    rewrite (nrm_ext n ident (fun d => nth d u 0 - nth d c 0)
       (fun d => (nth d u 0 - nth d v 0) + (nth d v 0 - nth d c 0))) by (intros; ring).
    apply nrm_triangle; auto. }
  assert (S : distance n y x = distance n x y).
  { unfold distance. f_equal. apply rsum_ext. intros. ring. }
  pose proof (T x y). pose proof (T y x). rewrite S in *. apply Rabs_le. lra.
Qed.
Lemma bell_scaled n sigma c x : 0 < sigma -> bell n sigma c x = exp (- (distance n x c / sigma) ^ 2 / 2).
Proof. intros H. unfold bell. f_equal. field. lra. Qed.
Lemma bell_lipschitz n sigma c x y : 0 < sigma ->
  Rabs (bell n sigma c x - bell n sigma c y) <= exp (- (1 / 2)) / sigma * distance n x y.
Proof.
  intros H. rewrite !bell_scaled by auto. eapply Rle_trans; [apply bell1_lipschitz|].
  replace (distance n x c / sigma - distance n y c / sigma) with ((distance n x c - distance n y c) * / sigma) by (field; lra).
  rewrite Rabs_mult, (Rabs_pos_eq (/ sigma)) by (left; now apply Rinv_0_lt_compat).
  unfold Rdiv. rewrite Rmult_assoc. apply Rmult_le_compat_l; [left; apply exp_pos|].
  rewrite Rmult_comm. apply Rmult_le_compat_l; [left; now apply Rinv_0_lt_compat|apply dist_triangle].
Qed.
Lemma bell_range n sigma c x : 0 < sigma -> 0 < bell n sigma c x <= 1.
Proof.
  intros H. unfold bell. split; [apply exp_pos|]. rewrite <- exp_0.
  assert (Q : - distance n x c ^ 2 / (2 * sigma ^ 2) <= 0).
  { pose proof (dist_pos n x c). assert (0 < / (2 * sigma ^ 2)) by (apply Rinv_0_lt_compat; nra). unfold Rdiv. nra. }
  destruct Q as [Q|Q]; [left; now apply exp_increasing|rewrite Q; lra].
Qed.

Lemma weighted_bound (w p : nat -> R) n B : 0 <= B -> (forall k, (k < n)%nat -> Rabs (p k) <= B) ->
  Rabs (rsum n (fun k => p k * w k)) <= rsum n (fun k => Rabs (w k)) * B.
Proof.
  intros B0. induction n as [|n IH]; intros H; [unfold rsum; simpl; rewrite Rabs_R0; lra|].
  rewrite !rsum_S. eapply Rle_trans; [apply Rabs_triang|]. rewrite Rmult_plus_distr_r.
  apply Rplus_le_compat; [apply IH; intros; apply H; lia|].
  rewrite Rabs_mult, Rmult_comm. apply Rmult_le_compat_l; [apply Rabs_pos|apply H; lia].
Qed.
