(** Property C52: the Lipschitz constant of [NeuralNetwork]. *)
From Coq Require Import Reals List Bool Arith Lia Lra Psatz.
From Verif Require Import Prelude FunModel QuadModel QuadProofs NNModel NNSpec NNProofs.
Import ListNotations.
Local Open Scope R_scope.

(** With biases, or with at most one hidden layer, |scale| * lipschitz() bounds the
    slope between any two inputs (rows r of two batches), ... *)
Theorem C52_lipschitz nn tf ps Ws L x x' y y' r :
  Forall contractive (nonlinearities nn) ->
  (use_bias nn = true \/ (depth nn <= 1)%nat) ->
  parameter_iter ps = Ok Ws -> (forall W, In W Ws -> is_svd W (tf W)) ->
  lipschitz tf ps = Ok L ->
  nn_eval nn ps x = Ok y -> nn_eval nn ps x' = Ok y' ->
  rows x' = rows x -> cols x' = cols x -> (r < rows x)%nat ->
  0 <= L /\ rows y = rows x /\ cols y' = cols y /\
  distance (cols y) (entry y r) (entry y' r) <=
  Rabs (output_scale nn) * L * distance (cols x) (entry x r) (entry x' r).
Proof.
  intros C ub PI sv EL E E' rr cc Hr.
  assert (all : forall h W, hidden (use_bias nn) (zip (but_last (layers nn)) (but_last (nonlinearities nn))) ps x = Ok h ->
     snd h = [W] -> Ws = all_weights nn W ps).
  { intros h W H1 H2. destruct ps as [|p ps'] eqn:Eps; [discriminate|].
    assert (PW : Ws = in_pairs ps ++ [last ps p]) by (rewrite Eps; unfold parameter_iter in PI; congruence).
    rewrite PW. unfold all_weights. rewrite <- Eps in *.
    destruct (use_bias nn) eqn:B.
    - destruct (hidden_rest_true _ _ _ _ H1 W H2) as (q & ne & e).
      rewrite (last_default ps p q ne). exact e.
    - destruct ub as [|ub]; [discriminate|]. unfold depth in *.
      destruct (zip _ _) as [|[u a] [|? ?]] eqn:Z; [| |simpl in ub; lia].
      + simpl in H1. injection H1 as <-. simpl in H2. rewrite H2. reflexivity.
      + rewrite Eps in H1. simpl in H1. destruct (dense x u p None a) as [t|]; [|discriminate].
        simpl in H1. injection H1 as <-. simpl in H2. subst ps'. rewrite Eps. reflexivity. }
  destruct (nn_contracts tf nn ps x x' y y' r C) as (h & W & H1 & H2 & wp & ry & cy & bd); auto.
  { intros h W H1 H2 V HV. apply sv. rewrite (all h W H1 H2). exact HV. }
  rewrite <- (all h W H1 H2) in wp, bd.
  unfold lipschitz in EL. rewrite PI in EL. cbn [bind] in EL. rewrite fold_left_product, Rmult_1_l in EL.
  injection EL as <-. split; [auto|]. split; [auto|]. split; [auto|].
  apply sq_to_distance; [apply Rmult_le_pos; [apply Rabs_pos | auto]|].
  eapply Rle_trans; [exact bd|]. apply Req_le. f_equal.
  rewrite !Rsqr_mult, <- Rsqr_abs. reflexivity.
Qed.

(** ... so lipschitz() itself does for output scales between -1 and 1. *)
Theorem C52_lipschitz_unit_scale nn tf ps Ws L x x' y y' r :
  Forall contractive (nonlinearities nn) ->
  (use_bias nn = true \/ (depth nn <= 1)%nat) -> Rabs (output_scale nn) <= 1 ->
  parameter_iter ps = Ok Ws -> (forall W, In W Ws -> is_svd W (tf W)) ->
  lipschitz tf ps = Ok L ->
  nn_eval nn ps x = Ok y -> nn_eval nn ps x' = Ok y' ->
  rows x' = rows x -> cols x' = cols x -> (r < rows x)%nat ->
  distance (cols y) (entry y r) (entry y' r) <= L * distance (cols x) (entry x r) (entry x' r).
Proof.
  intros C ub S PI sv EL E E' rr cc Hr.
  destruct (C52_lipschitz nn tf ps Ws L x x' y y' r) as (Lp & _ & _ & H); auto.
  eapply Rle_trans; [exact H|].
  assert (0 <= distance (cols x) (entry x r) (entry x' r)) by apply sqrt_pos.
  apply Rmult_le_compat_r; [auto|]. rewrite <- (Rmult_1_l L) at 2. apply Rmult_le_compat_r; auto.
Qed.

(** Each factor is the exact largest stretch of one weight matrix: for a matrix with
    the decomposition (s, U, V) and its largest singular value s k, the direction
    U_k is stretched by exactly that factor. *)
Theorem C52_factor_is_attained tf A s U V k : tf A = (s, U, V) -> is_svd A (s, U, V) ->
  (k < Nat.min (rows A) (cols A))%nat ->
  (forall l, (l < Nat.min (rows A) (cols A))%nat -> s l <= s k) ->
  reduce_max (svd tf A) = s k /\
  rsum (cols A) (fun j => Rsqr (rsum (rows A) (fun i => entry U i k * entry A i j))) =
  Rsqr (s k) * rsum (rows A) (fun i => Rsqr (entry U i k)).
Proof.
  intros E sv Hk top. pose proof (svd_values tf A s U V E sv) as SV.
  split.
  - rewrite SV. apply Rle_antisym.
    + assert (G : forall l x, x <= s k -> (forall y, In y l -> y <= s k) -> fold_left Rmax l x <= s k).
      { induction l as [|a l IH]; intros x Hx Hl; simpl; [auto|]. apply IH; [apply Rmax_lub; simpl in *; auto|].
        intros; apply Hl; simpl; auto. }
      destruct (map s _) as [|a l] eqn:M.
      { apply (f_equal (@length R)) in M. rewrite map_length, seq_length in M. simpl in M. lia. }
      assert (all : forall y, In y (a :: l) -> y <= s k).
      { intros y Hy. rewrite <- M in Hy. apply in_map_iff in Hy. destruct Hy as (i & <- & Hi).
        apply in_seq in Hi. apply top. lia. }
      simpl. apply G; simpl in all; auto.
    + apply reduce_max_ge, in_map, in_seq. lia.
  - destruct sv as (oU & oV & nn & e). set (r := Nat.min (rows A) (cols A)) in *.
    assert (X : forall j, (j < cols A)%nat ->
      rsum (rows A) (fun i => entry U i k * entry A i j) = s k * entry V j k).
    { intros j Hj.
      rewrite (rsum_ext (rows A) _ (fun i => rsum r (fun l => (s l * entry V j l) * (entry U i l * entry U i k)))).
      - rewrite rsum_swap.
        rewrite (rsum_ext r _ (fun l => (s l * entry V j l) * (if Nat.eqb k l then 1 else 0))).
        + apply (rsum_delta r (fun l => s l * entry V j l)). auto.
        + intros l Hl. rewrite rsum_scal, oU, Nat.eqb_sym by auto. reflexivity.
      - intros i Hi. rewrite e by auto. rewrite <- rsum_scal. apply rsum_ext; intros; ring. }
    rewrite (rsum_ext (cols A) _ (fun j => Rsqr (s k) * (entry V j k * entry V j k))).
    + rewrite rsum_scal, oV by auto. unfold Rsqr at 3. rewrite oU by auto. reflexivity.
    + intros j Hj. rewrite X by auto. unfold Rsqr. ring.
Qed.

(** Before the first evaluation there are no variables: an IndexError. *)
Theorem C52_no_variables tf : lipschitz tf [] = Err IndexError.
Proof. reflexivity. Qed.

(** * Concrete networks with 1 x 1 weights *)
Definition num (x : R) : tensor := {| rows := 1; cols := 1; entry := fun _ _ => x |}.
(** A decomposition of 1 x 1 matrices. *)
Definition svd1 (A : tensor) : (nat -> R) * tensor * tensor :=
  let a := entry A 0%nat 0%nat in
  (fun _ => Rabs a, num (if Rle_dec 0 a then 1 else -1), num 1).
Lemma svd1_ok x : is_svd (num x) (svd1 (num x)).
Proof.
  unfold is_svd, svd1, num. cbn [rows cols entry Nat.min].
  repeat split.
  - intros k l Hk Hl. replace k with 0%nat by lia. replace l with 0%nat by lia.
    unfold rsum; simpl. destruct (Rle_dec 0 x); lra.
  - intros k l Hk Hl. replace k with 0%nat by lia. replace l with 0%nat by lia.
    unfold rsum; simpl. lra.
  - intros; apply Rabs_pos.
  - intros i j _ _. unfold rsum; simpl. destruct (Rle_dec 0 x).
    + rewrite Rabs_right by lra. lra.
    + rewrite Rabs_left by lra. lra.
Qed.
Lemma svd1_max tf x : is_svd (num x) (tf (num x)) -> reduce_max (svd tf (num x)) = Rabs x.
Proof.
  intros H. destruct (tf (num x)) as [[s U] V] eqn:E. rewrite (svd_values tf (num x) s U V E H).
  destruct H as (oU & oV & nn & e). simpl. cbn [num rows cols entry Nat.min] in *.
  specialize (oU 0%nat 0%nat ltac:(lia) ltac:(lia)). specialize (oV 0%nat 0%nat ltac:(lia) ltac:(lia)).
  specialize (nn 0%nat ltac:(lia)). specialize (e 0%nat 0%nat ltac:(lia) ltac:(lia)).
  unfold rsum in *. simpl in *.
  set (u := entry U 0%nat 0%nat) in *. set (v := entry V 0%nat 0%nat) in *. set (s0 := s 0%nat) in *.
  rewrite e, Rplus_0_r, !Rabs_mult, (Rabs_right s0) by lra.
  assert (Au : Rabs u = 1).
  { assert (Q : u * u = 1) by lra. apply Rsqr_eq_abs_0 in Q || idtac.
    destruct (Rcase_abs u) as [n|n]; [rewrite Rabs_left by auto | rewrite Rabs_right by auto]; nra. }
  assert (Av : Rabs v = 1).
  { assert (Q : v * v = 1) by lra.
    destruct (Rcase_abs v) as [n|n]; [rewrite Rabs_left by auto | rewrite Rabs_right by auto]; nra. }
  rewrite Au, Av. ring.
Qed.

Definition relu (x : R) : R := Rmax x 0.
Lemma relu_contractive : contractive (Some relu).
Proof.
  intros u v. simpl. unfold relu.
  unfold Rmax. destruct (Rle_dec u 0), (Rle_dec v 0);
    unfold Rabs; repeat destruct (Rcase_abs _); lra.
Qed.
Lemma identity_contractive : contractive None.
Proof. intros u v. simpl. lra. Qed.

(** Two hidden layers with biases. *)
Definition nn_ex : network :=
  {| layers := [1; 1; 1]%nat; nonlinearities := [Some relu; Some relu; None]; output_scale := 1; use_bias := true |}.
Definition ps_ex : list tensor := [num 2; num 1; num (-3); num 10; num 5].
Example C52_ex : exists y y',
  nn_eval nn_ex ps_ex (num 0) = Ok y /\ nn_eval nn_ex ps_ex (num 1) = Ok y' /\
  lipschitz svd1 ps_ex = Ok 30 /\ entry y 0%nat 0%nat = 35 /\ entry y' 0%nat 0%nat = 5 /\
  distance 1 (entry y 0%nat) (entry y' 0%nat) <= 30 * distance 1 (fun _ => 0) (fun _ => 1).
Proof.
  assert (EL : lipschitz svd1 ps_ex = Ok 30).
  { unfold lipschitz, ps_ex, parameter_iter. cbn [in_pairs last app bind fold_left].
    rewrite !(svd1_max svd1) by apply svd1_ok.
    rewrite (Rabs_right 2), (Rabs_left (-3)), (Rabs_right 5) by lra. f_equal. lra. }
  eexists. eexists. split; [reflexivity|]. split; [reflexivity|]. split; [exact EL|].
  split; [|split].
  - unfold rsum. simpl. unfold relu. rewrite (Rmax_left (_ + 1)), (Rmax_left _ 0) by lra. lra.
  - unfold rsum. simpl. unfold relu. rewrite (Rmax_left (_ + 1)), (Rmax_left _ 0) by lra. lra.
  - refine (C52_lipschitz_unit_scale nn_ex svd1 ps_ex [num 2; num (-3); num 5] 30 (num 0) (num 1) _ _ 0
      _ (or_introl eq_refl) _ eq_refl _ EL eq_refl eq_refl eq_refl eq_refl _).
    + apply Forall_cons; [apply relu_contractive|]. apply Forall_cons; [apply relu_contractive|].
      apply Forall_cons; [apply identity_contractive | apply Forall_nil].
    + simpl. rewrite Rabs_right; lra.
    + intros W HW. simpl in HW. destruct HW as [<-|[<-|[<-|[]]]]; apply svd1_ok.
    + simpl. lia.
Qed.

(** Without biases every second hidden layer is left out: with three weights 1, c,
    1 the network multiplies by c, but lipschitz() is 1. *)
Definition nn_nobias : network :=
  {| layers := [1; 1; 1]%nat; nonlinearities := [None; None; None]; output_scale := 1; use_bias := false |}.
Theorem C52_no_bias_refuted tf c : 0 <= c -> (forall x, is_svd (num x) (tf (num x))) ->
  exists ps y y', nn_eval nn_nobias ps (num 0) = Ok y /\ nn_eval nn_nobias ps (num 1) = Ok y' /\
  lipschitz tf ps = Ok 1 /\
  distance 1 (entry y 0%nat) (entry y' 0%nat) = c /\ distance 1 (entry (num 0) 0%nat) (entry (num 1) 0%nat) = 1.
Proof.
  intros Hc H. exists [num 1; num c; num 1]. eexists. eexists.
  split; [reflexivity|]. split; [reflexivity|]. split; [|split].
  - unfold lipschitz, parameter_iter. cbn [in_pairs last app bind fold_left].
    rewrite !(svd1_max tf) by apply H. rewrite !(Rabs_right 1) by lra. f_equal. lra.
  - unfold distance, rsum. simpl. replace (_ + 0) with (Rsqr c) by (unfold Rsqr; ring). apply sqrt_Rsqr. lra.
  - unfold distance, rsum. simpl. replace (_ + 0) with (Rsqr 1) by (unfold Rsqr; lra). apply sqrt_Rsqr. lra.
Qed.

(** The output scale is left out as well. *)
Definition nn_scaled : network :=
  {| layers := [1]%nat; nonlinearities := [None]; output_scale := 2; use_bias := true |}.
Example C52_no_bias_ex : forall x, is_svd (num x) (svd1 (num x)).
Proof. exact svd1_ok. Qed.
Theorem C52_output_scale_refuted tf : (forall x, is_svd (num x) (tf (num x))) ->
  exists ps y y', nn_eval nn_scaled ps (num 0) = Ok y /\ nn_eval nn_scaled ps (num 1) = Ok y' /\
  lipschitz tf ps = Ok 1 /\
  distance 1 (entry y 0%nat) (entry y' 0%nat) = 2 /\ distance 1 (entry (num 0) 0%nat) (entry (num 1) 0%nat) = 1.
Proof.
  intros H. exists [num 1]. eexists. eexists.
  split; [reflexivity|]. split; [reflexivity|]. split; [|split].
  - unfold lipschitz, parameter_iter. cbn [in_pairs last app bind fold_left].
    rewrite !(svd1_max tf) by apply H. rewrite !(Rabs_right 1) by lra. f_equal. lra.
  - unfold distance, rsum. simpl. replace (_ + 0) with (Rsqr 2) by (unfold Rsqr; lra). apply sqrt_Rsqr. lra.
  - unfold distance, rsum. simpl. replace (_ + 0) with (Rsqr 1) by (unfold Rsqr; lra). apply sqrt_Rsqr. lra.
Qed.

Print Assumptions C52_lipschitz.
Print Assumptions C52_no_bias_refuted.
