(** The tests of Gaussian processes in [safe_learning/tests/test_functions.py]
    (lines 152-261), evaluated on the model. *)
From Coq Require Import Reals List Lra Lia.
From Interval Require Import Tactic.
From Verif Require Import Prelude CertModel GPModel RField GPLoopModel GPLoopSpec.
From Verif Require Import KernelModel KernelSpec KernelProofs CholProofs GPLoopProofs.
From Verif Require Import Properties.KernelProps Properties.GPEqProps.
Import ListNotations.
Local Open Scope R_scope.

(** Lines 214-219 and 241-242: the data, with the added point, and the model. *)
Definition old_data : dataset := [([1; 0], [0]); ([0; 1], [1])].
Definition new_data : dataset := old_data ++ [([1.2; 2.3], [2.4])].
Definition gp (scale beta : R) : member :=
  with_kernel 0 (RBF 1 [1; 1] [0%nat; 1%nat]) (fun _ => 0) 1 scale beta (@cholesky R_realFieldType R_sqrt.sqrt).

Lemma gp_sensible scale beta : scale <> 0 -> 0 <= beta -> sensible (gp scale beta).
Proof.
  intros H B. apply C91_sensible; try lra; auto.
  - simpl. split; [lra|]. split; [|reflexivity]. constructor; [lra|]. constructor; [lra|]. constructor.
  - intros n. apply cholesky_factors. exact sqrt_root.
Qed.

Definition rbf (a b c d : R) : R := exp (- ((a - c) ^ 2 + (b - d) ^ 2) / 2).
Lemma kern_rbf scale beta a b c d : me_kern (gp scale beta) [a; b] [c; d] = rbf a b c d.
Proof.
  cbn. unfold square_dist, column. cbn [combine map CertModel.sum nth fst snd]. rewrite Rmult_1_l.
  unfold rbf. f_equal. unfold CertModel.sum; simpl. field.
Qed.

(** Three equations with a symmetric matrix that has [d] on the diagonal. *)
Definition det3 (d p q r : R) : R := d * (d * d - r * r) - p * (p * d - r * q) + q * (p * r - d * q).
Definition sol1 d p q r x y z := (x * (d * d - r * r) - p * (y * d - r * z) + q * (y * r - d * z)) / det3 d p q r.
Definition sol2 d p q r x y z := (d * (y * d - z * r) - x * (p * d - r * q) + q * (p * z - y * q)) / det3 d p q r.
Definition sol3 d p q r x y z := (d * (d * z - r * y) - p * (p * z - y * q) + x * (p * r - d * q)) / det3 d p q r.
Lemma cramer d p q r x y z : det3 d p q r <> 0 ->
  d * sol1 d p q r x y z + p * sol2 d p q r x y z + q * sol3 d p q r x y z = x /\
  p * sol1 d p q r x y z + d * sol2 d p q r x y z + r * sol3 d p q r x y z = y /\
  q * sol1 d p q r x y z + r * sol2 d p q r x y z + d * sol3 d p q r x y z = z.
Proof. intros H. unfold sol1, sol2, sol3, det3 in *. repeat split; field; exact H. Qed.

Definition P : R := rbf 1 0 0 1.
Definition Q : R := rbf 1 0 1.2 2.3.
Definition U : R := rbf 0 1 1.2 2.3.
Definition prediction_mean (x y : R) : R :=
  rbf 1 0 x y * sol1 2 P Q U 0 1 2.4 + rbf 0 1 x y * sol2 2 P Q U 0 1 2.4 + rbf 1.2 2.3 x y * sol3 2 P Q U 0 1 2.4.
Definition prediction_var (x y : R) : R :=
  let f := fun s => s 2 P Q U (rbf 1 0 x y) (rbf 0 1 x y) (rbf 1.2 2.3 x y) in
  1 - (rbf 1 0 x y * f sol1 + rbf 0 1 x y * f sol2 + rbf 1.2 2.3 x y * f sol3).

Lemma det_pos : det3 2 P Q U <> 0.
Proof. assert (4 < det3 2 P Q U); [|lra]. unfold det3, P, Q, U, rbf. interval. Qed.

Lemma solves3 scale beta rhs :
  solves (gp scale beta) new_data rhs [sol1 2 P Q U (rhs 0%nat) (rhs 1%nat) (rhs 2%nat);
    sol2 2 P Q U (rhs 0%nat) (rhs 1%nat) (rhs 2%nat); sol3 2 P Q U (rhs 0%nat) (rhs 1%nat) (rhs 2%nat)].
Proof.
  destruct (cramer 2 P Q U (rhs 0%nat) (rhs 1%nat) (rhs 2%nat) det_pos) as (E1 & E2 & E3).
  intros i Hi. cbn [new_data old_data app length] in Hi |- *.
  assert (one : forall a b, me_kern (gp scale beta) [a; b] [a; b] = 1).
  { intros. rewrite kern_rbf. unfold rbf. replace (- _ / 2) with 0 by field. apply exp_0. }
  assert (sym : forall a b c d, rbf a b c d = rbf c d a b) by (intros; unfold rbf; f_equal; field).
  set (s1 := sol1 _ _ _ _ _ _ _) in *. set (s2 := sol2 _ _ _ _ _ _ _) in *. set (s3 := sol3 _ _ _ _ _ _ _) in *.
  destruct i as [|[|[|i]]]; [..|simpl in Hi; lia];
    cbn [seq map nth measurement new_data old_data app fst snd Nat.eqb me_noise gp with_kernel];
    change (with_kernel _ _ _ _ _ _ _) with (gp scale beta); rewrite ?one, ?kern_rbf.
  - rewrite <- E1. fold P Q. unfold CertModel.sum; simpl. ring.
  - rewrite <- E2. rewrite (sym 0 1 1 0). fold P U. unfold CertModel.sum; simpl. ring.
  - rewrite <- E3. rewrite (sym 1.2 2.3 1 0), (sym 1.2 2.3 0 1). fold Q U. unfold CertModel.sum; simpl. ring.
Qed.

(** What the model computes. *)
Lemma predicts scale beta x y : scale <> 0 -> 0 <= beta ->
  member_eval 0 (gp scale beta) new_data [x; y] = (prediction_mean x y, beta * R_sqrt.sqrt (prediction_var x y)).
Proof.
  intros H B.
  pose proof (solves3 scale beta (fun i => nth 0 (snd (measurement new_data i)) 0 - me_mean (gp scale beta) (fst (measurement new_data i)))) as S1.
  pose proof (solves3 scale beta (fun i => me_kern (gp scale beta) (fst (measurement new_data i)) [x; y])) as S2.
  rewrite (@C49_normal_equations 0%nat (gp scale beta) new_data [x; y] _ _ (gp_sensible scale beta H B) S1 S2).
  unfold over. cbn [new_data old_data app length seq map nth measurement fst snd].
  rewrite !kern_rbf. f_equal.
  - unfold prediction_mean, CertModel.sum. cbn [me_mean gp with_kernel]. rewrite !Rminus_0_r. simpl. ring.
  - unfold prediction_var, CertModel.sum. cbn [me_kdiag gp with_kernel Kdiag]. simpl. f_equal. f_equal. ring.
Qed.

(** [assert_allclose]: relative tolerance 1e-7. *)
Definition allclose (x y : R) : Prop := Rabs (x - y) <= Rabs y / 10000000.

(** Lines 236-261 with the default [beta = 2], whatever the scale. *)
Example test_new_data scale : scale <> 0 ->
  let at_1 := member_eval 0 (gp scale 2) new_data [0.9; 0.1] in
  let at_2 := member_eval 0 (gp scale 2) new_data [3; 2] in
  allclose (fst at_1) 0.16371139 /\ allclose (fst at_2) 0.22048311 /\
  allclose (snd at_1) 1.37678679 /\ allclose (snd at_2) 1.98183191.
Proof.
  intros H. cbv zeta. rewrite !predicts by lra. cbn [fst snd].
  unfold allclose, prediction_mean, prediction_var, sol1, sol2, sol3, det3, P, Q, U, rbf.
  repeat split; interval with (i_prec 80).
Qed.
