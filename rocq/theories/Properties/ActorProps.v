(** Property C97: objectives of the actor-critic examples. *)
From Coq Require Import Reals List Bool Arith Lia Lra Psatz.
From Verif Require Import Prelude FunModel QuadModel QuadSpec QuadProofs NNModel NNSpec NNProofs
  RolloutModel RolloutSpec RolloutProofs ActorModel ActorSpec ActorProofs.
Import ListNotations.
Local Open Scope R_scope.

Lemma opp_le_abs a : - a <= Rabs a.
Proof. rewrite <- Rabs_Ropp. apply Rle_abs. Qed.

(** The objectives in terms of single states. *)
Theorem C97_objectives Q Rc n m f dynamics gamma pi policy v V X :
  square n Q -> square m Rc -> rowwise2 n m n f dynamics -> rowwise n m pi policy ->
  rowwise n 1 (fun x => [v x]) V -> cols X = n ->
  let r := total Q + total Rc in
  let residual := fun i => Rabs (v (row_of X i) - one_step Q Rc gamma f pi v (row_of X i)) in
  value_objective Q Rc n m dynamics gamma plain_scaling policy V V X =
    Ok (1 / r * (rsum (rows X) residual / INR (rows X))) /\
  value_objective Q Rc n m dynamics gamma discount_scaling policy V V X =
    Ok ((1 - gamma) / r * (rsum (rows X) residual / INR (rows X))) /\
  policy_objective Q Rc n m dynamics gamma policy V X =
    Ok (- ((1 - gamma) / r) * (rsum (rows X) (fun i => one_step Q Rc gamma f pi v (row_of X i)) / INR (rows X))).
Proof.
  intros HQ HR Hf Hp Hv cX r residual. split; [|split].
  - exact (value_objective_ok Q Rc n m HQ HR f dynamics Hf gamma plain_scaling pi policy v V v V X Hp Hv Hv cX).
  - exact (value_objective_ok Q Rc n m HQ HR f dynamics Hf gamma discount_scaling pi policy v V v V X Hp Hv Hv cX).
  - exact (policy_objective_ok Q Rc n m HQ HR f dynamics Hf gamma pi policy v V X Hp Hv cX).
Qed.

(** The objective of the critic is zero exactly if the Bellman equation holds on the
    batch, and bounds its error at every state of the batch. *)
Theorem C97_value_objective Q Rc n m f dynamics gamma scaling pi policy v V X :
  square n Q -> square m Rc -> rowwise2 n m n f dynamics -> rowwise n m pi policy ->
  rowwise n 1 (fun x => [v x]) V -> cols X = n -> (0 < rows X)%nat ->
  0 < total Q + total Rc -> gamma < 1 -> (scaling = plain_scaling \/ scaling = discount_scaling) ->
  exists o, value_objective Q Rc n m dynamics gamma scaling policy V V X = Ok o /\ 0 <= o /\
    (o = 0 <-> forall i, (i < rows X)%nat -> v (row_of X i) = one_step Q Rc gamma f pi v (row_of X i)) /\
    (forall i, (i < rows X)%nat ->
       scaling gamma (total Q + total Rc) * Rabs (v (row_of X i) - one_step Q Rc gamma f pi v (row_of X i)) <=
       INR (rows X) * o).
Proof.
  intros HQ HR Hf Hp Hv cX rX Hr Hg Hs.
  rewrite (value_objective_ok Q Rc n m HQ HR f dynamics Hf gamma scaling pi policy v V v V X Hp Hv Hv cX).
  set (res := fun i => Rabs (v (row_of X i) - one_step Q Rc gamma f pi v (row_of X i))).
  set (s := scaling gamma (total Q + total Rc)).
  assert (sp : 0 < s).
  { unfold s. destruct Hs as [-> | ->]; unfold plain_scaling, discount_scaling;
      apply Rmult_lt_0_compat; try lra; apply Rinv_0_lt_compat; auto. }
  assert (np : 0 < INR (rows X)) by (apply lt_0_INR; auto).
  assert (rp : forall i, (i < rows X)%nat -> 0 <= res i) by (intros; apply Rabs_pos).
  assert (sum : 0 <= rsum (rows X) res) by (apply rsum_nonneg; auto).
  assert (ip : 0 < / INR (rows X)) by (apply Rinv_0_lt_compat; auto).
  assert (big : forall i, (i < rows X)%nat -> res i <= rsum (rows X) res) by (apply rsum_term_le; auto).
  exists (s * (rsum (rows X) res / INR (rows X))). split; [reflexivity|].
  split; [apply Rmult_le_pos; [lra|]; apply Rmult_le_pos; lra|]. split.
  - split.
    + intros H i Hi. assert (Z : rsum (rows X) res = 0).
      { apply Rmult_integral in H. destruct H as [H|H]; [lra|]. unfold Rdiv in H. apply Rmult_integral in H.
        destruct H as [H|H]; lra. }
      pose proof (big i Hi) as B. pose proof (rp i Hi) as P. rewrite Z in B. unfold res in B, P.
      assert (A0 : Rabs (v (row_of X i) - one_step Q Rc gamma f pi v (row_of X i)) = 0) by lra.
      destruct (Req_dec (v (row_of X i) - one_step Q Rc gamma f pi v (row_of X i)) 0) as [E|E]; [lra|].
      apply Rabs_no_R0 in E. contradiction.
    + intros H. rewrite (rsum_ext _ res (fun _ => 0)), rsum_zero; [unfold Rdiv; ring|].
      intros i Hi. unfold res. rewrite (H i Hi), Rminus_diag_eq, Rabs_R0; reflexivity.
  - intros i Hi. replace (INR (rows X) * (s * (rsum (rows X) res / INR (rows X)))) with (s * rsum (rows X) res) by (field; lra).
    apply Rmult_le_compat_l; [lra|]. apply big; auto.
Qed.

(** If the objective is at most e for every state of an invariant set, then on that set
    the critic is the return of the policy up to e * r_max / (1 - gamma). *)
Theorem C97_value_error Q Rc n m f dynamics gamma pi policy v V (A : list R -> Prop) e b :
  square n Q -> square m Rc -> rowwise2 n m n f dynamics -> rowwise n m pi policy ->
  rowwise n 1 (fun x => [v x]) V -> 0 < total Q + total Rc -> 0 <= gamma < 1 -> 0 <= e ->
  (forall x, A x -> length x = n /\ A (loop f pi x) /\ Rabs (v x) <= b) ->
  (forall x, A x -> exists o,
     value_objective Q Rc n m dynamics gamma plain_scaling policy V V (single x) = Ok o /\ o <= e) ->
  forall T x, A x ->
    Rabs (v x - closed_return Q Rc gamma f pi T x) <= e * (total Q + total Rc) / (1 - gamma) + gamma ^ T * b.
Proof.
  intros HQ HR Hf Hp Hv Hr Hg He HA Ho T x Hx. unfold closed_return.
  apply (residual_bound A); auto.
  - apply Rmult_le_pos; lra.
  - intros y Hy. apply HA; auto.
  - intros y Hy. apply HA; auto.
  - intros y Hy. destruct (HA y Hy) as (ly & _). destruct (Ho y Hy) as (o & Eo & oe).
    destruct (C97_value_objective Q Rc n m f dynamics gamma plain_scaling pi policy v V (single y)) as (o' & Eo' & _ & _ & B);
      auto; try lra.
    rewrite Eo' in Eo. injection Eo as ->. specialize (B 0%nat ltac:(cbn; lia)). rewrite row_of_single in B.
    unfold one_step in B. unfold plain_scaling in B. cbn [rows single INR] in B.
    apply Rmult_le_reg_l with (1 / (total Q + total Rc)).
    + apply Rmult_lt_0_compat; [lra|]. apply Rinv_0_lt_compat; auto.
    + replace (1 / (total Q + total Rc) * (e * (total Q + total Rc))) with e by (field; lra).
      unfold loop. eapply Rle_trans; [exact B|]. lra.
Qed.

(** r_max is the largest size of a reward on the box if no entry of Q and R is negative,
    and the scaled return then lies between -1 and 0. *)
Theorem C97_scaling Q Rc n m : square n Q -> square m Rc ->
  r_max Q Rc n m = Ok (total Q + total Rc) /\
  reward Q Rc (repeat 1 n) (repeat 1 m) = - (total Q + total Rc) /\
  ((forall i j, (i < n)%nat -> (j < n)%nat -> 0 <= entry Q i j) ->
   (forall i j, (i < m)%nat -> (j < m)%nat -> 0 <= entry Rc i j) ->
   (forall x u, in_box x -> in_box u -> Rabs (reward Q Rc x u) <= total Q + total Rc) /\
   ((forall x, 0 <= quad Q x) -> (forall u, 0 <= quad Rc u) -> 0 < total Q + total Rc ->
    forall f pi gamma (A : list R -> Prop), 0 <= gamma < 1 ->
    (forall x, A x -> in_box x /\ in_box (pi x) /\ A (loop f pi x)) ->
    forall T x, A x ->
      -1 <= (1 - gamma) / (total Q + total Rc) * closed_return Q Rc gamma f pi T x <= 0)).
Proof.
  intros HQ HR. split; [apply r_max_ok; auto|]. split.
  { unfold reward. rewrite (quad_ones n), (quad_ones m) by auto. ring. }
  intros PQ PR. assert (B : forall x u, in_box x -> in_box u -> Rabs (reward Q Rc x u) <= total Q + total Rc).
  { intros x u Hx Hu. unfold reward. pose proof (quad_box n Q x HQ PQ Hx). pose proof (quad_box m Rc u HR PR Hu).
    replace (- quad Q x - quad Rc u) with (- (quad Q x + quad Rc u)) by ring. rewrite Rabs_Ropp.
    eapply Rle_trans; [apply Rabs_triang|]. lra. }
  split; [exact B|]. intros Q0 R0 Hr f pi gamma A Hg HA T x Hx.
  destruct (return_scaled gamma (loop f pi) (fun y => reward Q Rc y (pi y)) A (total Q + total Rc)) with (T := T) (x := x)
    as [L U]; auto; try lra.
  - intros y Hy. apply HA; auto.
  - intros y Hy. destruct (HA y Hy) as (b1 & b2 & _). pose proof (B y (pi y) b1 b2) as B'.
    split.
    + pose proof (opp_le_abs (reward Q Rc y (pi y))). lra.
    + unfold reward. pose proof (Q0 y). pose proof (R0 (pi y)). lra.
  - fold (closed_return Q Rc gamma f pi T x) in L, U. set (V := closed_return _ _ _ _ _ _ _) in *.
    assert (sp : 0 < (1 - gamma) / (total Q + total Rc)).
    { apply Rmult_lt_0_compat; [lra|apply Rinv_0_lt_compat; auto]. }
    split.
    + replace (-1) with ((1 - gamma) / (total Q + total Rc) * - ((total Q + total Rc) / (1 - gamma))) by (field; lra).
      apply Rmult_le_compat_l; lra.
    + nra.
Qed.

Definition num_tensor (a : R) : tensor := {| rows := 1; cols := 1; entry := fun _ _ => a |}.
(** With negative entries r_max can be too small, even for a positive definite Q. *)
Theorem C97_scaling_refuted : exists Q Rc x u, square 2 Q /\ square 1 Rc /\
  (forall y, y <> [] -> (exists a, In a (firstn 2 y) /\ a <> 0) -> 0 < quad Q y) /\
  (forall i j, entry Q i j = entry Q j i) /\ in_box x /\ in_box u /\
  exists r, r_max Q Rc 2 1 = Ok r /\ 0 < r /\ 10 * r < Rabs (reward Q Rc x u).
Proof.
  set (Q := {| rows := 2; cols := 2; entry := fun i j => if Nat.eqb i j then 1 else - (9 / 10) |}).
  exists Q, (num_tensor (1 / 10)), [1; -1], [0].
  assert (HQ : square 2 Q) by (split; reflexivity).
  assert (HR : square 1 (num_tensor (1 / 10))) by (split; reflexivity).
  assert (E : forall a b, quad Q [a; b] = a * a + b * b - 18 / 10 * a * b).
  { intros a b. unfold quad, form, rsum, Q. cbn. field. }
  split; [auto|]. split; [auto|]. split.
  { intros y Hy (a & Ha & na). destruct y as [|p [|q y]]; [congruence| |].
    - cbn in Ha. destruct Ha as [<-|[]]. assert (E1 : quad Q [p] = p * p) by (unfold quad, form, rsum, Q; cbn; field).
      rewrite E1. nra.
    - assert (E2 : quad Q (p :: q :: y) = p * p + q * q - 18 / 10 * p * q).
      { unfold quad, form, rsum, Q. cbn. field. }
      rewrite E2. cbn in Ha.
      assert (0 < p * p + q * q) by (destruct Ha as [<-|[<-|[]]]; nra).
      pose proof (Rle_0_sqr (p - q)) as S2. unfold Rsqr in S2. lra. }
  split; [intros i j; unfold Q; cbn; now rewrite Nat.eqb_sym|].
  split; [repeat apply Forall_cons; try apply Forall_nil; unfold Rabs; destruct Rcase_abs; lra|].
  split; [repeat apply Forall_cons; try apply Forall_nil; unfold Rabs; destruct Rcase_abs; lra|].
  rewrite (r_max_ok Q (num_tensor (1 / 10)) 2 1 HQ HR). eexists. split; [reflexivity|].
  assert (T : total Q + total (num_tensor (1 / 10)) = 3 / 10).
  { unfold total, rsum, Q, num_tensor. cbn. field. }
  rewrite T. split; [lra|].
  assert (V : reward Q (num_tensor (1 / 10)) [1; -1] [0] = - (38 / 10)).
  { unfold reward. rewrite E. unfold quad, form, rsum, num_tensor. cbn. field. }
  rewrite V. rewrite Rabs_left by lra. lra.
Qed.

(** If the critic is exact and the objective of a policy is not larger than that of the
    old one at every single state, then the policy is at least as good. *)
Theorem C97_policy_improvement Q Rc n m f dynamics gamma pi policy pi' policy' v V (A : list R -> Prop) b :
  square n Q -> square m Rc -> rowwise2 n m n f dynamics -> rowwise n m pi policy -> rowwise n m pi' policy' ->
  rowwise n 1 (fun x => [v x]) V -> 0 < total Q + total Rc -> 0 <= gamma < 1 ->
  (forall x, A x -> length x = n /\ A (loop f pi x) /\ A (loop f pi' x) /\ Rabs (v x) <= b) ->
  (forall x, A x -> value_objective Q Rc n m dynamics gamma plain_scaling policy V V (single x) = Ok 0) ->
  (forall x, A x -> exists o o', policy_objective Q Rc n m dynamics gamma policy V (single x) = Ok o /\
     policy_objective Q Rc n m dynamics gamma policy' V (single x) = Ok o' /\ o' <= o) ->
  forall T x, A x ->
    closed_return Q Rc gamma f pi T x <= closed_return Q Rc gamma f pi' T x + 2 * gamma ^ T * b.
Proof.
  intros HQ HR Hf Hp Hp' Hv Hr Hg HA Hz Ho T x Hx.
  assert (Z : forall y, A y -> v y = one_step Q Rc gamma f pi v y).
  { intros y Hy. destruct (HA y Hy) as (ly & _).
    destruct (C97_value_objective Q Rc n m f dynamics gamma plain_scaling pi policy v V (single y)) as (o & Eo & _ & I & _);
      auto; try lra.
    rewrite (Hz y Hy) in Eo. injection Eo as <-. destruct I as [I _]. specialize (I eq_refl 0%nat ltac:(cbn; lia)).
    now rewrite row_of_single in I. }
  assert (Up : v x <= closed_return Q Rc gamma f pi' T x + gamma ^ T * b).
  { apply (residual_lower A); auto.
    - intros y Hy. apply HA; auto.
    - intros y Hy. apply HA; auto.
    - intros y Hy. destruct (HA y Hy) as (ly & _). rewrite (Z y Hy) at 1.
      destruct (Ho y Hy) as (o & o' & Eo & Eo' & L).
      rewrite (policy_objective_ok Q Rc n m HQ HR f dynamics Hf gamma pi policy v V) in Eo by auto.
      rewrite (policy_objective_ok Q Rc n m HQ HR f dynamics Hf gamma pi' policy' v V) in Eo' by auto.
      injection Eo as <-. injection Eo' as <-. cbn [rows single INR] in L. rewrite !rsum_S, !rsum_0, row_of_single in L.
      change (reward Q Rc y (pi' y) + gamma * v (loop f pi' y)) with (one_step Q Rc gamma f pi' v y).
      assert (sp : 0 < (1 - gamma) / (total Q + total Rc)).
      { apply Rmult_lt_0_compat; [lra|apply Rinv_0_lt_compat; auto]. }
      unfold Rdiv at 2 4 in L. rewrite Rinv_1, !Rplus_0_l, !Rmult_1_r in L. nra. }
  assert (Lo : Rabs (v x - closed_return Q Rc gamma f pi T x) <= 0 / (1 - gamma) + gamma ^ T * b).
  { apply (residual_bound A); auto; try lra.
    - intros y Hy. apply HA; auto.
    - intros y Hy. apply HA; auto.
    - intros y Hy. rewrite (Z y Hy) at 1. unfold one_step, loop. rewrite Rminus_diag_eq, Rabs_R0; [lra|reflexivity]. }
  pose proof (opp_le_abs (v x - closed_return Q Rc gamma f pi T x)). unfold Rdiv in Lo. lra.
Qed.

(** A smaller mean over the batch is not enough. *)
Theorem C97_policy_improvement_refuted : exists Q Rc f dynamics pi policy pi' policy' v V X gamma,
  square 1 Q /\ square 1 Rc /\ rowwise2 1 1 1 f dynamics /\ rowwise 1 1 pi policy /\ rowwise 1 1 pi' policy' /\
  rowwise 1 1 (fun x => [v x]) V /\ cols X = 1%nat /\ rows X = 2%nat /\ 0 <= gamma < 1 /\
  (forall x, value_objective Q Rc 1 1 dynamics gamma plain_scaling policy V V (single [x]) = Ok 0) /\
  (exists o o', policy_objective Q Rc 1 1 dynamics gamma policy V X = Ok o /\
     policy_objective Q Rc 1 1 dynamics gamma policy' V X = Ok o' /\ o' < o) /\
  (forall i T, (i < 2)%nat -> (6 <= T)%nat ->
     closed_return Q Rc gamma f pi' T (row_of X i) < closed_return Q Rc gamma f pi T (row_of X i)).
Proof.
  set (P := num_tensor (1 / 10)). set (g := 95 / 100).
  set (f := fun _ _ : list R => [0]).
  set (dyn := fun X U : tensor => Ok {| rows := rows X; cols := 1; entry := fun _ _ => 0 |}).
  set (pi := fun x : list R => [nth 0 x 0]).
  set (policy := fun X : tensor => Ok {| rows := rows X; cols := 1; entry := fun i _ => entry X i 0%nat |}).
  set (pi' := fun x : list R => [1 / 2 - nth 0 x 0 / 2]).
  set (policy' := fun X : tensor => Ok {| rows := rows X; cols := 1; entry := fun i _ => 1 / 2 - entry X i 0%nat / 2 |}).
  set (v := fun x : list R => - (2 / 10) * (nth 0 x 0 * nth 0 x 0)).
  set (V := fun X : tensor => Ok {| rows := rows X; cols := 1;
                                    entry := fun i _ => - (2 / 10) * (entry X i 0%nat * entry X i 0%nat) |}).
  set (X := {| rows := 2; cols := 1; entry := fun i _ => if Nat.eqb i 0 then 1 else 0 |}).
  assert (HP : square 1 P) by (split; reflexivity).
  assert (Hf : rowwise2 1 1 1 f dyn).
  { intros Y U cY cU rU. eexists. split; [reflexivity|]. cbn. auto. }
  assert (R1 : forall Y i, cols Y = 1%nat -> row_of Y i = [entry Y i 0%nat]).
  { intros Y i H. unfold row_of. now rewrite H. }
  assert (Hp : rowwise 1 1 pi policy).
  { intros Y cY. eexists. split; [reflexivity|]. cbn [rows cols]. split; [auto|]. split; [auto|]. intros i Hi.
    rewrite (R1 Y i cY). reflexivity. }
  assert (Hp' : rowwise 1 1 pi' policy').
  { intros Y cY. eexists. split; [reflexivity|]. cbn [rows cols]. split; [auto|]. split; [auto|]. intros i Hi.
    rewrite (R1 Y i cY). reflexivity. }
  assert (HV : rowwise 1 1 (fun x => [v x]) V).
  { intros Y cY. eexists. split; [reflexivity|]. cbn [rows cols]. split; [auto|]. split; [auto|]. intros i Hi.
    rewrite (R1 Y i cY). reflexivity. }
  assert (qd : forall a, quad P [a] = a * a / 10).
  { intros a. unfold quad, form, rsum, P, num_tensor. cbn. field. }
  exists P, P, f, dyn, pi, policy, pi', policy', v, V, X, g.
  split; [auto|]. split; [auto|]. split; [auto|]. split; [auto|]. split; [auto|]. split; [auto|].
  split; [auto|]. split; [auto|]. split; [unfold g; lra|]. split; [|split].
  - intros x. rewrite (value_objective_ok P P 1 1 HP HP f dyn Hf g plain_scaling pi policy v V v V) by auto.
    cbn [rows single]. rewrite rsum_S, rsum_0, row_of_single. f_equal.
    assert (E : v [x] - one_step P P g f pi v [x] = 0).
    { unfold one_step, reward, f, pi, v. cbn [nth]. rewrite qd. field. }
    rewrite E, Rabs_R0. unfold Rdiv. ring.
  - rewrite (policy_objective_ok P P 1 1 HP HP f dyn Hf g pi policy v V) by auto.
    rewrite (policy_objective_ok P P 1 1 HP HP f dyn Hf g pi' policy' v V) by auto.
    eexists. eexists. split; [reflexivity|]. split; [reflexivity|].
    assert (T : total P = 1 / 10) by (unfold total, rsum, P, num_tensor; cbn; field). rewrite T.
    cbn [rows X]. rewrite !rsum_S, !rsum_0, !R1 by auto. cbn [entry X Nat.eqb].
    unfold one_step, reward, f, pi, pi', v, g. cbn [nth]. rewrite !qd. cbn [INR]. lra.
  - assert (it : forall p t x, iterate (S t) (loop f p) x = [0]) by reflexivity.
    assert (ret : forall p T x, closed_return P P g f p (S T) x =
       reward P P x (p x) + reward P P [0] (p [0]) * rsum T (fun t => g ^ S t)).
    { intros p T x. unfold closed_return, return_of. replace (S T) with (1 + T)%nat by lia.
      rewrite rsum_app, rsum_S, rsum_0. cbn [iterate pow]. rewrite <- rsum_scal. f_equal; [ring|].
      apply rsum_ext. intros t _. cbn [Nat.add]. rewrite it. cbn [pow]. ring. }
    assert (five : forall T, (5 <= T)%nat -> rsum 5 (fun t => g ^ S t) <= rsum T (fun t => g ^ S t)).
    { intros T HT. replace T with (5 + (T - 5))%nat by lia. rewrite rsum_app.
      assert (0 <= rsum (T - 5) (fun k => g ^ S (5 + k))) by (apply rsum_nonneg; intros; apply pow_le; unfold g; lra). lra. }
    intros i T Hi HT. destruct T as [|T]; [lia|]. rewrite !ret. specialize (five T ltac:(lia)).
    assert (low : 4 < rsum 5 (fun t => g ^ S t)).
    { rewrite !rsum_S, rsum_0. unfold g. cbn [pow]. lra. }
    set (s := rsum T (fun t => g ^ S t)) in *. rewrite R1 by auto.
    unfold reward, pi, pi'. cbn [nth]. rewrite !qd.
    destruct i as [|[|i]]; [| |lia]; cbn [entry X Nat.eqb]; lra.
Qed.

(** Networks without biases map zero states to zero, if their activations do, so that an
    equilibrium for zero input is one of the closed loop; with a bounded last activation
    all outputs are bounded by the output scale. *)
Theorem C97_zero_state nn ps x y i : use_bias nn = false -> Forall fixes_zero (nonlinearities nn) ->
  nn_eval nn ps x = Ok y -> (i < rows x)%nat -> row_of x i = repeat 0 (cols x) ->
  row_of y i = repeat 0 (cols y).
Proof.
  intros Hb Ha E Hi Z. assert (Z' : forall j, (j < cols x)%nat -> entry x i j = 0).
  { intros j Hj. rewrite <- (row_of_nth x i j Hj), Z. apply nth_repeat. }
  destruct (nn_zero nn ps x y i Hb Ha E Hi Z') as (_ & H).
  apply nth_ext with 0 0; [now rewrite row_of_length, repeat_length|]. intros j Hj. rewrite row_of_length in Hj.
  rewrite row_of_nth, H, nth_repeat by auto. reflexivity.
Qed.
Theorem C97_action_limits nn ps x y : (forall u, Rabs (activate (last (nonlinearities nn) None) u) <= 1) ->
  nn_eval nn ps x = Ok y ->
  forall i j, (i < rows x)%nat -> (j < cols y)%nat -> Rabs (entry y i j) <= Rabs (output_scale nn).
Proof.
  intros Ha E i j Hi Hj. destruct (nn_rows nn ps x y E) as [rr ne].
  apply (nn_bounded nn ps x y); auto. lia.
Qed.
(** With biases the value of the zero state can be anything. *)
Theorem C97_zero_state_refuted c : exists nn ps y, use_bias nn = true /\ Forall fixes_zero (nonlinearities nn) /\
  nn_eval nn ps (num_tensor 0) = Ok y /\ rows y = 1%nat /\ cols y = 1%nat /\ entry y 0%nat 0%nat = c.
Proof.
  exists {| layers := [1; 1]%nat; nonlinearities := [None; None]; output_scale := 1; use_bias := true |},
    [num_tensor 0; num_tensor c; num_tensor 1].
  eexists. split; [reflexivity|]. split; [repeat constructor|]. split; [reflexivity|]. split; [reflexivity|].
  split; [reflexivity|]. cbn. unfold rsum. cbn. ring.
Qed.

(** The gradient step treats the target as a constant.  It can increase the objective it
    is meant to decrease at every step and for every learning rate, although there are
    parameters for which the objective is zero. *)
Definition line : network := {| layers := [1]%nat; nonlinearities := [None]; output_scale := 1; use_bias := false |}.
Theorem C97_value_update_refuted : exists Q Rc f dynamics pi policy x,
  square 1 Q /\ square 1 Rc /\ rowwise2 1 1 1 f dynamics /\ rowwise 1 1 pi policy /\ in_box [x] /\ in_box (f [x] (pi [x])) /\
  let V := fun w => nn_eval line [num_tensor w] in
  let objective := fun w => value_objective Q Rc 1 1 dynamics (95 / 100) plain_scaling policy (V w) (V w) (single [x]) in
  let update := fun rate => value_update Q Rc 1 1 dynamics (95 / 100) plain_scaling policy V rate (single [x]) in
  (exists w, objective w = Ok 0) /\
  forall rate, 0 < rate ->
    (forall w, w <= 0 -> exists w', update rate w w') /\
    forall k w, updates (update rate) k 0 w -> exists o, objective w = Ok (o + INR k * (rate * (45 / 8))) /\ objective 0 = Ok o.
Proof.
  set (P := num_tensor (1 / 10)). set (g := 95 / 100).
  set (f := fun x _ : list R => [2 * nth 0 x 0]).
  set (dyn := fun X U : tensor => Ok {| rows := rows X; cols := 1; entry := fun i _ => 2 * entry X i 0%nat |}).
  set (pi := fun _ : list R => [0]).
  set (policy := fun X : tensor => Ok {| rows := rows X; cols := 1; entry := fun _ _ => 0 |}).
  assert (HP : square 1 P) by (split; reflexivity).
  assert (R1 : forall Y i, cols Y = 1%nat -> row_of Y i = [entry Y i 0%nat]).
  { intros Y i H. unfold row_of. now rewrite H. }
  assert (Hf : rowwise2 1 1 1 f dyn).
  { intros Y U cY cU rU. eexists. split; [reflexivity|]. cbn [rows cols]. split; [auto|]. split; [auto|]. intros i Hi.
    rewrite (R1 Y i cY). reflexivity. }
  assert (Hp : rowwise 1 1 pi policy).
  { intros Y cY. eexists. split; [reflexivity|]. cbn. auto. }
  assert (HV : forall w, rowwise 1 1 (fun x => [w * nth 0 x 0]) (nn_eval line [num_tensor w])).
  { intros w Y cY. unfold nn_eval. cbn [use_bias line layers nonlinearities but_last removelast zip hidden bind snd fst last].
    unfold dense, matmul. rewrite cY. cbn [num_tensor cols rows Nat.eqb bind as_tensor]. eexists. split; [reflexivity|].
    cbn [rows cols]. split; [auto|]. split; [auto|]. intros i Hi. rewrite (R1 Y i cY). unfold row_of. cbn [cols seq map entry].
    f_equal. unfold rsum. cbn [seq map fold_right activate nth output_scale line entry num_tensor]. ring. }
  exists P, P, f, dyn, pi, policy, (1 / 2).
  split; [auto|]. split; [auto|]. split; [auto|]. split; [auto|].
  split; [apply Forall_cons; [rewrite Rabs_right; lra|apply Forall_nil]|].
  split; [apply Forall_cons; [cbn [nth]; rewrite Rabs_right; lra|apply Forall_nil]|].
  cbv zeta.
  assert (T : total P = 1 / 10) by (unfold total, rsum, P, num_tensor; cbn; field).
  assert (qd : forall a, quad P [a] = a * a / 10).
  { intros a. unfold quad, form, rsum, P, num_tensor. cbn. field. }
  assert (OB : forall w u, value_objective P P 1 1 dyn g plain_scaling policy (nn_eval line [num_tensor w])
     (nn_eval line [num_tensor u]) (single [1 / 2]) = Ok (5 * Rabs (u / 2 - (g * w - 1 / 40)))).
  { intros w u. rewrite (value_objective_ok P P 1 1 HP HP f dyn Hf g plain_scaling pi policy _ _ _ _ (single [1 / 2]) Hp (HV w) (HV u)) by auto.
    cbn [rows single]. rewrite rsum_S, rsum_0, row_of_single, T. unfold one_step, reward, f, pi, plain_scaling. cbn [nth].
    rewrite !qd. cbn [INR]. f_equal.
    replace (u * (1 / 2) - (- (1 / 2 * (1 / 2) / 10) - 0 * 0 / 10 + g * (w * (2 * (1 / 2))))) with (u / 2 - (g * w - 1 / 40)) by field.
    field. }
  assert (D : forall w u, w <= 0 -> u = w -> derivable_pt_lim (fun u => 5 * Rabs (u / 2 - (g * w - 1 / 40))) u (5 / 2)).
  { intros w u Hw ->. set (c := g * w - 1 / 40).
    assert (pos : 0 < w / 2 - c) by (unfold c, g; lra).
    replace (5 / 2) with (5 * (1 * (1 / 2))) by field.
    apply derivable_pt_lim_scal with (f := fun u => Rabs (u / 2 - c)).
    apply (derivable_pt_lim_comp (fun u => u / 2 - c) Rabs).
    - replace (1 / 2) with (1 / 2 - 0) by ring. apply derivable_pt_lim_minus; [|apply derivable_pt_lim_const].
      unfold Rdiv. replace (1 * / 2) with (1 * / 2 + id w * 0) by ring.
      apply (derivable_pt_lim_mult id (fun _ => / 2)); [apply derivable_pt_lim_id | apply derivable_pt_lim_const].
    - apply Rabs_derive_1. exact pos. }
  split.
  { exists (1 / 18). rewrite OB. f_equal. replace (1 / 18 / 2 - (g * (1 / 18) - 1 / 40)) with 0 by (unfold g; field).
    rewrite Rabs_R0. ring. }
  intros rate Hr. split.
  { intros w Hw. exists (w - rate * (5 / 2)). eexists. exists (5 / 2). split; [intros u; apply OB|]. split; [|reflexivity].
    apply (D w w); auto. }
  assert (St : forall w w', w <= 0 -> value_update P P 1 1 dyn g plain_scaling policy (fun w => nn_eval line [num_tensor w]) rate
      (single [1 / 2]) w w' -> w' = w - rate * (5 / 2)).
  { intros w w' Hw (F & l & HF & Hl & ->). f_equal. f_equal. apply (uniqueness_limite F w); [auto|].
    intros eps He. destruct (D w w Hw eq_refl eps He) as (del & Hd). exists del. intros h nh hh.
    pose proof (HF (w + h)) as F1. rewrite OB in F1. injection F1 as F1. pose proof (HF w) as F2. rewrite OB in F2. injection F2 as F2.
    rewrite <- F1, <- F2. apply Hd; auto. }
  assert (G : forall k w u, w <= 0 -> updates (value_update P P 1 1 dyn g plain_scaling policy (fun w => nn_eval line [num_tensor w]) rate
      (single [1 / 2])) k w u -> u = w - INR k * (rate * (5 / 2))).
  { induction k as [|k IH]; intros w u Hw H; cbn [updates] in H.
    - subst. cbn [INR]. ring.
    - destruct H as (z & Hz & H). apply St in Hz; auto. rewrite S_INR. rewrite (IH z u); [subst z; ring| |auto].
      subst z. nra. }
  intros k w H. apply G in H; [|lra]. exists (5 * (1 / 40)). subst w. rewrite !OB.
  assert (0 <= INR k * (rate * (5 / 2))) by (apply Rmult_le_pos; [apply pos_INR|lra]).
  split; f_equal.
  - rewrite Rabs_right; [unfold g; field|]. unfold g. lra.
  - rewrite Rabs_right; [unfold g; field|]. unfold g. lra.
Qed.

(** The objective for given values is zero exactly if the network has these values. *)
Theorem C97_supervised n v V X T : rowwise n 1 (fun x => [v x]) V -> cols X = n -> rows T = rows X -> cols T = 1%nat ->
  (0 < rows X)%nat ->
  exists o, supervised_objective V X T = Ok o /\ 0 <= o /\
    (o = 0 <-> forall i, (i < rows X)%nat -> v (row_of X i) = entry T i 0%nat) /\
    (forall i, (i < rows X)%nat -> Rabs (v (row_of X i) - entry T i 0%nat) <= INR (rows X) * o).
Proof.
  intros Hv cX rT cT rX. rewrite (supervised_ok n v V X T) by auto.
  set (res := fun i => Rabs (v (row_of X i) - entry T i 0%nat)).
  assert (np : 0 < INR (rows X)) by (apply lt_0_INR; auto).
  assert (rp : forall i, (i < rows X)%nat -> 0 <= res i) by (intros; apply Rabs_pos).
  assert (sum : 0 <= rsum (rows X) res) by (apply rsum_nonneg; auto).
  assert (ip : 0 < / INR (rows X)) by (apply Rinv_0_lt_compat; auto).
  assert (big : forall i, (i < rows X)%nat -> res i <= rsum (rows X) res) by (apply rsum_term_le; auto).
  eexists. split; [reflexivity|]. split; [apply Rmult_le_pos; lra|]. split; [split|].
  - intros H i Hi. unfold Rdiv in H. apply Rmult_integral in H. destruct H as [H|H]; [|lra].
    pose proof (big i Hi) as B. pose proof (rp i Hi) as P. rewrite H in B. unfold res in B, P.
    destruct (Req_dec (v (row_of X i) - entry T i 0%nat) 0) as [E|E]; [lra|].
    apply Rabs_no_R0 in E. exfalso. apply E. lra.
  - intros H. rewrite (rsum_ext _ res (fun _ => 0)), rsum_zero; [unfold Rdiv; ring|].
    intros i Hi. unfold res. rewrite (H i Hi), Rminus_diag_eq, Rabs_R0; reflexivity.
  - intros i Hi. replace (INR (rows X) * (rsum (rows X) res / INR (rows X))) with (rsum (rows X) res) by (field; lra).
    apply big; auto.
Qed.

(** The numbers of the pendulum example: r_max = 0.3 is the largest size of a reward on
    the box; the activations of its policy fix zero and the last one is bounded. *)
Lemma tanh_bound u : Rabs (tanh u) <= 1.
Proof.
  unfold tanh, sinh, cosh. pose proof (exp_pos u). pose proof (exp_pos (- u)).
  set (a := exp u) in *. set (b := exp (- u)) in *.
  replace ((a - b) / 2 / ((a + b) / 2)) with ((a - b) / (a + b)) by (field; lra).
  apply Rabs_le. split; apply Rmult_le_reg_r with (a + b); try lra.
  - replace ((a - b) / (a + b) * (a + b)) with (a - b) by (field; lra). lra.
  - replace ((a - b) / (a + b) * (a + b)) with (a - b) by (field; lra). lra.
Qed.
Definition tenth (n : nat) : tensor :=
  {| rows := n; cols := n; entry := fun i j => if Nat.eqb i j then 1 / 10 else 0 |}.
Definition relu (x : R) : R := Rmax x 0.
Example C97_ex :
  square 2 (tenth 2) /\ square 1 (tenth 1) /\
  r_max (tenth 2) (tenth 1) 2 1 = Ok (3 / 10) /\
  (forall x u, in_box x -> in_box u -> Rabs (reward (tenth 2) (tenth 1) x u) <= 3 / 10) /\
  Forall fixes_zero [Some relu; Some relu; Some tanh] /\
  (forall u, Rabs (activate (last [Some relu; Some relu; Some tanh] None) u) <= 1) /\
  (* the critic -x^2/5 is exact for u = x, and the actor u = 0 improves on it *)
  (forall T x, Rabs x <= 1 ->
    closed_return (tenth 1) (tenth 1) (95 / 100) (fun _ _ => [0]) (fun x => [nth 0 x 0]) T [x] <=
    closed_return (tenth 1) (tenth 1) (95 / 100) (fun _ _ => [0]) (fun _ => [0]) T [x] + 2 * (95 / 100) ^ T * (1 / 5)).
Proof.
  assert (S2 : square 2 (tenth 2)) by (split; reflexivity).
  assert (S1 : square 1 (tenth 1)) by (split; reflexivity).
  assert (T2 : total (tenth 2) + total (tenth 1) = 3 / 10) by (unfold total, rsum, tenth; cbn; field).
  assert (T1 : total (tenth 1) = 1 / 10) by (unfold total, rsum, tenth; cbn; field).
  assert (P : forall n i j, 0 <= entry (tenth n) i j) by (intros n i j; cbn; destruct (i =? j); lra).
  split; [auto|]. split; [auto|].
  destruct (C97_scaling (tenth 2) (tenth 1) 2 1 S2 S1) as (E & _ & B). rewrite T2 in *.
  split; [exact E|]. split; [apply B; auto|].
  split; [repeat apply Forall_cons; try apply Forall_nil; unfold fixes_zero; cbn; unfold relu;
          [apply Rmax_left; lra | apply Rmax_left; lra | unfold tanh; rewrite sinh_0; unfold Rdiv; ring]|].
  split; [exact tanh_bound|].
  intros T x Hx.
  set (dyn := fun X U : tensor => Ok {| rows := rows X; cols := 1; entry := fun _ _ => 0 |}).
  set (policy := fun X : tensor => Ok {| rows := rows X; cols := 1; entry := fun i _ => entry X i 0%nat |}).
  set (policy' := fun X : tensor => Ok {| rows := rows X; cols := 1; entry := fun i _ => 0 |}).
  set (V := fun X : tensor => Ok {| rows := rows X; cols := 1;
                                    entry := fun i _ => - (2 / 10) * (entry X i 0%nat * entry X i 0%nat) |}).
  set (v := fun x : list R => - (2 / 10) * (nth 0 x 0 * nth 0 x 0)).
  assert (R1 : forall Y i, cols Y = 1%nat -> row_of Y i = [entry Y i 0%nat]).
  { intros Y i H. unfold row_of. now rewrite H. }
  assert (qd : forall a, quad (tenth 1) [a] = a * a / 10).
  { intros a. unfold quad, form, rsum, tenth. cbn. field. }
  assert (Hf : rowwise2 1 1 1 (fun _ _ => [0]) dyn).
  { intros Y U cY cU rU. eexists. split; [reflexivity|]. cbn. auto. }
  assert (Hp : rowwise 1 1 (fun x => [nth 0 x 0]) policy).
  { intros Y cY. eexists. split; [reflexivity|]. cbn [rows cols]. split; [auto|]. split; [auto|]. intros i Hi.
    rewrite (R1 Y i cY). reflexivity. }
  assert (Hp' : rowwise 1 1 (fun x => [0]) policy').
  { intros Y cY. eexists. split; [reflexivity|]. cbn. auto. }
  assert (HV : rowwise 1 1 (fun x => [v x]) V).
  { intros Y cY. eexists. split; [reflexivity|]. cbn [rows cols]. split; [auto|]. split; [auto|]. intros i Hi.
    rewrite (R1 Y i cY). reflexivity. }
  apply (C97_policy_improvement (tenth 1) (tenth 1) 1 1 (fun _ _ => [0]) dyn (95 / 100) _ policy _ policy' v V
    (fun y => exists a, y = [a] /\ Rabs a <= 1)); auto.
  - lra.
  - lra.
  - intros y (a & -> & Ha). split; [reflexivity|].
    split; [exists 0; rewrite Rabs_R0; split; [reflexivity|lra]|].
    split; [exists 0; rewrite Rabs_R0; split; [reflexivity|lra]|].
    unfold v. cbn [nth]. rewrite Rabs_mult, Rabs_Ropp, (Rabs_right (2 / 10)) by lra. rewrite Rabs_mult.
    pose proof (Rabs_pos a). nra.
  - intros y (a & -> & Ha).
    rewrite (value_objective_ok (tenth 1) (tenth 1) 1 1 S1 S1 (fun _ _ => [0]) dyn Hf (95 / 100) plain_scaling
      _ policy v V v V (single [a]) Hp HV HV eq_refl).
    cbn [rows single]. rewrite rsum_S, rsum_0, row_of_single. f_equal.
    assert (E0 : v [a] - one_step (tenth 1) (tenth 1) (95 / 100) (fun _ _ => [0]) (fun x => [nth 0 x 0]) v [a] = 0).
    { unfold one_step, reward, v. cbn [nth]. rewrite qd. field. }
    rewrite E0, Rabs_R0. unfold Rdiv. ring.
  - intros y (a & -> & Ha).
    rewrite (policy_objective_ok (tenth 1) (tenth 1) 1 1 S1 S1 (fun _ _ => [0]) dyn Hf (95 / 100) _ policy v V (single [a]) Hp HV eq_refl).
    rewrite (policy_objective_ok (tenth 1) (tenth 1) 1 1 S1 S1 (fun _ _ => [0]) dyn Hf (95 / 100) _ policy' v V (single [a]) Hp' HV eq_refl).
    eexists. eexists. split; [reflexivity|]. split; [reflexivity|].
    cbn [rows single]. rewrite !rsum_S, !rsum_0, row_of_single, T1. unfold one_step, reward, v. cbn [nth INR]. rewrite !qd.
    pose proof (Rle_0_sqr a) as Sq. unfold Rsqr in Sq. lra.
  - exists x. auto.
Qed.
