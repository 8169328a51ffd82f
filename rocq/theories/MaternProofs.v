(** The function (1 + r) exp(-r) is a mixture of Gaussian functions of r. *)
From Coq Require Import Reals Lra Lia.
From Coquelicot Require Import Coquelicot.
Open Scope R_scope.

Definition bell (w : R) : R := exp (- w ^ 2).
Lemma bell_cont w : continuous bell w.
Proof. apply (ex_derive_continuous bell). unfold bell. auto_derive. exact I. Qed.
Lemma bell_int a b : ex_RInt bell a b.
Proof. apply (@ex_RInt_continuous R_CompleteNormedModule). intros z _. apply bell_cont. Qed.
Definition Phi (v : R) : R := RInt bell 0 v.
Lemma Phi_derive v : is_derive Phi v (bell v).
Proof.
  apply (is_derive_RInt bell Phi 0 v); [|apply bell_cont].
  exists (mkposreal 1 Rlt_0_1). intros y _. exact (@RInt_correct R_CompleteNormedModule bell 0 y (bell_int 0 y)).
Qed.
Lemma Phi_ex v : ex_derive Phi v.
Proof. exists (bell v). apply Phi_derive. Qed.
Lemma Phi_Derive v : Derive Phi v = bell v.
Proof. apply is_derive_unique, Phi_derive. Qed.
Lemma Phi_0 : Phi 0 = 0.
Proof. unfold Phi. apply (@RInt_point R_CompleteNormedModule). Qed.
Lemma Phi_incr a b : a <= b -> Phi a <= Phi b.
Proof.
  intros H. destruct (Req_dec a b) as [->|N]; [lra|].
  destruct (MVT_gen Phi a b bell) as [c [Hc E]].
  - intros x _. apply Phi_derive.
  - intros x _. apply continuity_pt_filterlim. apply (ex_derive_continuous Phi), Phi_ex.
  - assert (0 < bell c) by apply exp_pos. nra.
Qed.
Lemma Phi_odd v : Phi (- v) = - Phi v.
Proof.
  destruct (MVT_gen (fun u => Phi (- u) + Phi u) 0 v (fun u => 0)) as [c [_ E]].
  - intros x _. auto_derive; [split; [apply Phi_ex|split; [apply Phi_ex|exact I]]|].
    rewrite !Phi_Derive. unfold bell. replace ((- x) ^ 2) with (x ^ 2) by ring. ring.
  - intros x _. apply continuity_pt_filterlim. apply (ex_derive_continuous (fun u => Phi (- u) + Phi u)).
    auto_derive. split; [apply Phi_ex|split; [apply Phi_ex|exact I]].
  - cbv beta in E. rewrite Ropp_0, Phi_0 in E. lra.
Qed.
Lemma Phi_bound v : Phi v <= exp 1.
Proof.
  destruct (Rle_lt_dec v 0) as [H|H].
  { apply Rle_trans with (Phi 0); [apply Phi_incr; assumption|]. rewrite Phi_0. left. apply exp_pos. }
  destruct (MVT_gen (fun u => Phi u + exp (1 - u)) 0 v (fun u => bell u - exp (1 - u))) as [c [_ E]].
  - intros x _. auto_derive; [apply Phi_ex|]. rewrite Phi_Derive. unfold Rminus. ring.
  - intros x _. apply continuity_pt_filterlim. apply (ex_derive_continuous (fun u => Phi u + exp (1 - u))).
    auto_derive. apply Phi_ex.
  - cbv beta in E. rewrite Phi_0, Rminus_0_r in E.
    assert (bell c <= exp (1 - c)).
    { unfold bell. destruct (Req_dec (- c ^ 2) (1 - c)) as [->|]; [lra|]. left. apply exp_increasing. nra. }
    assert (0 < exp (1 - v)) by apply exp_pos. nra.
Qed.
(** The limit of [Phi]. *)
Lemma Phi_limit : exists G, 0 < G /\ forall s : nat -> R, is_lim_seq s p_infty ->
  is_lim_seq (fun n => Phi (s n)) G.
Proof.
  destruct (completeness (fun y => exists v, y = Phi v)) as [G [U L]].
  - exists (exp 1). intros y [v ->]. apply Phi_bound.
  - exists (Phi 0), 0. reflexivity.
  - exists G. split.
    + apply Rlt_le_trans with (Phi 1); [|apply U; exists 1; reflexivity].
      destruct (MVT_gen Phi 0 1 bell) as [c [Hc E]].
      * intros x _. apply Phi_derive.
      * intros x _. apply continuity_pt_filterlim. apply (ex_derive_continuous Phi), Phi_ex.
      * rewrite Phi_0 in E. assert (0 < bell c) by apply exp_pos. lra.
    + intros s Hs. apply is_lim_seq_spec. intros e.
      assert (N : ~ forall v, Phi v <= G - e).
      { intros A. assert (G <= G - e) by (apply L; intros y [v ->]; apply A). destruct e; simpl in *; lra. }
      assert (exists v, G - e < Phi v) as [v Hv].
      { apply Classical_Pred_Type.not_all_ex_not in N. destruct N as [v N]. exists v. lra. }
      apply is_lim_seq_spec in Hs. destruct (Hs v) as [n0 H]. exists n0. intros n Hn. specialize (H n Hn).
      assert (Phi v <= Phi (s n)) by (apply Phi_incr; lra).
      assert (Phi (s n) <= G) by (apply U; exists (s n); reflexivity).
      apply Rabs_def1; lra.
Qed.

(** The weights of the mixture. *)
Definition mixture (q u : R) : R := 2 * u ^ 2 * exp (- u ^ 2) * exp (- (q / (4 * u ^ 2))).
Definition antiderivative (r u : R) : R :=
  / 2 * (1 + r) * exp (- r) * Phi (u - r / (2 * u)) + / 2 * (1 - r) * exp r * Phi (u + r / (2 * u))
  - u * exp (- u ^ 2 - r ^ 2 / (4 * u ^ 2)).

Lemma antiderivative_ok r u : 0 < u -> is_derive (antiderivative r) u (mixture (r ^ 2) u).
Proof.
  intros H. unfold antiderivative, mixture. auto_derive.
  - repeat split; try apply Phi_ex; try lra; nra.
  - rewrite !Phi_Derive. unfold bell.
    set (E := exp (- u ^ 2 - r ^ 2 / (4 * u ^ 2))).
    assert (A : exp (- (u + - (r / (2 * u))) ^ 2) = exp r * E).
    { unfold E. rewrite <- exp_plus. f_equal. field. lra. }
    assert (B : exp (- (u + r / (2 * u)) ^ 2) = exp (- r) * E).
    { unfold E. rewrite <- exp_plus. f_equal. field. lra. }
    assert (C : exp (- u ^ 2) * exp (- (r ^ 2 / (4 * u ^ 2))) = E).
    { unfold E. rewrite <- exp_plus. f_equal. }
    assert (I1 : exp (- r) * exp r = 1) by (rewrite <- exp_plus, Rplus_opp_l; apply exp_0).
    change (u + - (r * / (2 * u))) with (u + - (r / (2 * u))).
    change (u + r * / (2 * u)) with (u + r / (2 * u)).
    change (exp (- (u * (u * 1)) + - (r * (r * 1) * / (4 * (u * (u * 1)))))) with E.
    rewrite A, B, (Rmult_assoc (2 * u ^ 2)), C.
    transitivity (/ 2 * (1 + r) * (1 + r / (2 * u ^ 2)) * (exp (- r) * exp r) * E
      + / 2 * (1 - r) * (1 - r / (2 * u ^ 2)) * (exp (- r) * exp r) * E
      - E * (1 - 2 * u ^ 2 + r ^ 2 / (2 * u ^ 2))); [|rewrite I1]; field; lra.
Qed.

Lemma mixture_integral r a b : 0 < a -> a <= b ->
  is_RInt (mixture (r ^ 2)) a b (antiderivative r b - antiderivative r a).
Proof.
  intros Ha Hab. apply (is_RInt_derive (antiderivative r) (mixture (r ^ 2))).
  - intros x Hx. rewrite Rmin_left in Hx by assumption. apply antiderivative_ok. lra.
  - intros x Hx. rewrite Rmin_left in Hx by assumption.
    apply (ex_derive_continuous (mixture (r ^ 2))). unfold mixture. auto_derive. nra.
Qed.

Definition small (n : nat) : R := / INR (S n).
Definition large (n : nat) : R := INR (S n).
Lemma small_pos n : 0 < small n.
Proof. apply Rinv_0_lt_compat, lt_0_INR. lia. Qed.
Lemma small_large n : small n <= large n.
Proof.
  unfold small, large. assert (1 <= INR (S n)) by (apply (le_INR 1); lia).
  apply Rle_trans with 1; [|assumption]. rewrite <- Rinv_1. apply Rinv_le_contravar; lra.
Qed.
Lemma large_lim : is_lim_seq large p_infty.
Proof. apply (is_lim_seq_incr_1 INR), is_lim_seq_INR. Qed.
Lemma small_lim : is_lim_seq small 0.
Proof. apply (is_lim_seq_inv large p_infty large_lim). discriminate. Qed.

(** [u exp(-u^2 - ...)] vanishes at both ends. *)
Lemma edge_bound r u : 0 < u -> 0 <= u * exp (- u ^ 2 - r ^ 2 / (4 * u ^ 2)) <= u /\
  u * exp (- u ^ 2 - r ^ 2 / (4 * u ^ 2)) <= / u.
Proof.
  intros H. set (E := exp _).
  assert (0 < E) by apply exp_pos.
  assert (0 <= r ^ 2 / (4 * u ^ 2)) by (apply Rdiv_le_0_compat; nra).
  assert (E1 : E <= exp (- u ^ 2)).
  { unfold E. destruct (Req_dec (r ^ 2 / (4 * u ^ 2)) 0) as [->|]; [right; f_equal; ring|].
    left. apply exp_increasing. lra. }
  assert (E2 : exp (- u ^ 2) * (1 + u ^ 2) <= 1).
  { rewrite exp_Ropp. apply Rmult_le_reg_l with (exp (u ^ 2)); [apply exp_pos|].
    rewrite <- Rmult_assoc, Rinv_r by (apply Rgt_not_eq, exp_pos).
    rewrite Rmult_1_l, Rmult_1_r. destruct (Req_dec (u ^ 2) 0) as [->|N]; [rewrite exp_0; lra|].
    left. apply exp_ineq1. nra. }
  assert (0 < exp (- u ^ 2)) by apply exp_pos.
  clearbody E. set (e := exp (- u ^ 2)) in *. clearbody e.
  assert (0 <= u ^ 2) by apply pow2_ge_0.
  assert (E <= 1) by nra. assert (E * u ^ 2 <= 1) by nra.
  repeat split; [nra|nra|].
  apply Rmult_le_reg_r with u; [assumption|]. rewrite Rinv_l by lra. nra.
Qed.

Theorem mixture_limit : exists G, 0 < G /\ forall r, 0 <= r ->
  is_lim_seq (fun n => RInt (mixture (r ^ 2)) (small n) (large n)) (G * ((1 + r) * exp (- r))).
Proof.
  destruct Phi_limit as [G [GP GL]]. exists G. split; [assumption|]. intros r Hr.
  apply is_lim_seq_ext with (fun n => antiderivative r (large n) - antiderivative r (small n)).
  { intros n. symmetry. apply is_RInt_unique, mixture_integral; [apply small_pos|apply small_large]. }
  assert (EL : is_lim_seq (fun n => large n * exp (- large n ^ 2 - r ^ 2 / (4 * large n ^ 2))) 0).
  { apply is_lim_seq_le_le with (fun _ => 0) small; [|apply is_lim_seq_const|apply small_lim].
    intros n. assert (0 < large n) by (apply lt_0_INR; lia).
    destruct (edge_bound r (large n) H) as [[? ?] ?]. split; assumption. }
  assert (ES : is_lim_seq (fun n => small n * exp (- small n ^ 2 - r ^ 2 / (4 * small n ^ 2))) 0).
  { apply is_lim_seq_le_le with (fun _ => 0) small; [|apply is_lim_seq_const|apply small_lim].
    intros n. destruct (edge_bound r (small n) (small_pos n)) as [[? ?] ?]. split; assumption. }
  assert (PL : is_lim_seq (fun n => Phi (large n - r / (2 * large n))) G).
  { apply GL. apply is_lim_seq_le_p_loc with (fun n => large n - r / 2).
    - exists 0%nat. intros n _. assert (1 <= large n) by (apply (le_INR 1); lia).
      assert (r / (2 * large n) <= r / 2); [|lra].
      unfold Rdiv. apply Rmult_le_compat_l; [assumption|]. apply Rinv_le_contravar; lra.
    - eapply is_lim_seq_minus; [apply large_lim|apply is_lim_seq_const|]. reflexivity. }
  assert (QL : is_lim_seq (fun n => Phi (large n + r / (2 * large n))) G).
  { apply GL. apply is_lim_seq_le_p_loc with large; [|apply large_lim].
    exists 0%nat. intros n _. assert (1 <= large n) by (apply (le_INR 1); lia).
    assert (0 <= r / (2 * large n)); [apply Rdiv_le_0_compat; lra|lra]. }
  destruct (Req_dec r 0) as [R0|R0].
  - subst r.
    assert (PS : is_lim_seq (fun n => Phi (small n)) 0).
    { rewrite <- Phi_0. apply (is_lim_seq_continuous Phi small 0); [|apply small_lim].
      apply continuity_pt_filterlim, (ex_derive_continuous Phi), Phi_ex. }
    apply is_lim_seq_ext with (fun n =>
      / 2 * Phi (large n - 0 / (2 * large n)) + / 2 * Phi (large n + 0 / (2 * large n))
      - large n * exp (- large n ^ 2 - 0 ^ 2 / (4 * large n ^ 2))
      - (Phi (small n) - small n * exp (- small n ^ 2 - 0 ^ 2 / (4 * small n ^ 2)))).
    { intros n. unfold antiderivative. rewrite Ropp_0, exp_0.
      replace (small n - 0 / (2 * small n)) with (small n) by (unfold Rdiv; ring).
      replace (small n + 0 / (2 * small n)) with (small n) by (unfold Rdiv; ring). field. }
    replace (G * ((1 + 0) * exp (- 0))) with (/ 2 * G + / 2 * G - 0 - (0 - 0))
      by (rewrite Ropp_0, exp_0; field).
    repeat first [apply is_lim_seq_minus' | apply is_lim_seq_plus' | apply (is_lim_seq_scal_l _ (/ 2) (Finite G))];
      assumption.
  - assert (Hr' : 0 < r) by lra.
    assert (big : is_lim_seq (fun n => r / (2 * small n) - small n) p_infty).
    { apply is_lim_seq_le_p_loc with (fun n => r / 2 * large n - 1).
      - exists 0%nat. intros n _. unfold small, large. assert (1 <= INR (S n)) by (apply (le_INR 1); lia).
        replace (r / (2 * / INR (S n))) with (r / 2 * INR (S n)) by (field; lra).
        assert (/ INR (S n) <= 1); [|lra]. rewrite <- Rinv_1. apply Rinv_le_contravar; lra.
      - eapply is_lim_seq_minus; [eapply is_lim_seq_scal_l, large_lim|apply is_lim_seq_const|].
        unfold is_Rbar_minus, is_Rbar_plus, Rbar_mult. simpl. destruct (Rle_dec 0 (r / 2)); [|lra].
        destruct (Rle_lt_or_eq_dec 0 (r / 2) r0); [reflexivity|lra]. }
    assert (PS : is_lim_seq (fun n => Phi (small n - r / (2 * small n))) (- G)).
    { apply is_lim_seq_ext with (fun n => - Phi (r / (2 * small n) - small n)).
      - intros n. rewrite <- Phi_odd. f_equal. ring.
      - apply (is_lim_seq_opp _ (Finite G)). apply GL, big. }
    assert (QS : is_lim_seq (fun n => Phi (small n + r / (2 * small n))) G).
    { apply GL. apply is_lim_seq_le_p_loc with (fun n => r / (2 * small n) - small n); [|apply big].
      exists 0%nat. intros n _. assert (S := small_pos n). lra. }
    unfold antiderivative.
    replace (G * ((1 + r) * exp (- r))) with
      ((/ 2 * (1 + r) * exp (- r) * G + / 2 * (1 - r) * exp r * G - 0)
       - (/ 2 * (1 + r) * exp (- r) * - G + / 2 * (1 - r) * exp r * G - 0)) by field.
    assert (scal : forall f l c, is_lim_seq f (Finite l) -> is_lim_seq (fun n => c * f n) (Finite (c * l))).
    { intros f l c. apply (is_lim_seq_scal_l f c (Finite l)). }
    repeat first [assumption | apply scal | apply is_lim_seq_minus' | apply is_lim_seq_plus'].
Qed.
