(** Property C102, continued: how cells of the notebooks report wrong arguments. *)
From Coq Require Import Reals List Bool Arith ZArith.
From Verif Require Import Prelude GridModel SafeModel CertModel ViewModel ExUtilModel DynModel SosModel.
Import ListNotations.
Local Open Scope R_scope.

(** Dynamics without error bounds cannot be unpacked. *)
Theorem C102_exact_dynamics : forall S g c lv safe x u y,
  dynamics S x u = Exact y ->
  maps_inside S c lv x u = Err ValueError /\ safe_in_expectation S g safe x u = Err ValueError.
Proof. intros S g c lv safe x u y E. unfold maps_inside, safe_in_expectation. now rewrite E. Qed.
Print Assumptions C102_exact_dynamics.

(** The level of the polynomial candidate: only an empty grid fails. *)
Theorem C102_polynomial_level : forall order values dvdt,
  sos_level order values dvdt = Err IndexError <-> order = [].
Proof.
  intros order values dvdt. split; [|intros ->; reflexivity].
  unfold sos_level. destruct order as [|i order]; [reflexivity|]. cbn [tl].
  set (c := map _ order). assert (L : length c = length order) by (unfold c; now rewrite map_length).
  assert (F : (first_false c <= length c)%nat).
  { clear. induction c as [|[|] c IH]; cbn; auto with arith. }
  destruct (nth_error (i :: order) _) eqn:E; [discriminate|]. apply nth_error_None in E. cbn [length] in E.
  exfalso. destruct (forallb _ c).
  - rewrite Nat.add_sub, L in E. exact (Nat.nle_succ_diag_l _ E).
  - rewrite Nat.add_sub in E. rewrite L in F. exact (Nat.nle_succ_diag_l _ (Nat.le_trans _ _ _ E F)).
Qed.
Print Assumptions C102_polynomial_level.

Example C102_notebook_ex :
  sos_level [] [] [] = Err IndexError /\ sos_level [0%nat] [3] [1] = Ok 3.
Proof. split; reflexivity. Qed.

(** The matrix of the polynomial candidate must be 9 times 9 in two dimensions. *)
Theorem C102_polynomial_matrix : forall state_norm a b Q,
  lyapunov_sos state_norm [a; b] Q None = Err ValueError <->
  ~ (length Q = 9%nat /\ forall r, In r Q -> length r = 9%nat).
Proof.
  intros state_norm a b Q. unfold lyapunov_sos. cbn [sos_denormalize bind].
  destruct (monomials [a; b] 3) as [M|e] eqn:E; [|discriminate E].
  assert (L : length M = 9%nat) by (injection E as <-; reflexivity). cbn [bind].
  unfold sos_linear_form. rewrite L.
  destruct (Nat.eqb_spec 9 (length Q)) as [H|H]; cbn [andb].
  - destruct (forallb _ Q) eqn:F; cbn [bind].
    + split; [discriminate|]. intros N. exfalso. apply N. split; [congruence|]. intros r Hr.
      rewrite forallb_forall in F. now apply Nat.eqb_eq, F.
    + split; [|reflexivity]. intros _ (_ & N).
      assert (forallb (fun r => Nat.eqb (length r) 9) Q = true); [|congruence].
      apply forallb_forall. intros r Hr. now apply Nat.eqb_eq, N.
  - split; [|reflexivity]. intros _ (N & _). congruence.
Qed.
Print Assumptions C102_polynomial_matrix.

(** A pendulum without normalization has no constants to unpack. *)
Theorem C102_polynomial_rate : forall p x u Q, pendulum_norm p = None -> sos_dvdt p x u Q = Err TypeError.
Proof. intros p x u Q E. unfold sos_dvdt. now rewrite E. Qed.
Print Assumptions C102_polynomial_rate.
