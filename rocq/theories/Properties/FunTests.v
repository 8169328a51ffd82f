(** The tests of [safe_learning/tests/test_functions.py] for function objects
    (lines 24-125), evaluated on the model. *)
From Coq Require Import Reals List Bool Arith Lia Lra.
From Verif Require Import Prelude FunModel QuadModel.
Import ListNotations.
Local Open Scope R_scope.

(** The class of lines 30-41: one variable, multiplied with the point. *)
Definition A (v : nat) : fn :=
  Leaf [v] (1, 1)%nat (fun vars x => match vars with [t] => op2 Rmult (Tensor t) (Tensor x) | _ => Err ValueError end).
Definition number (x : R) : tensor := {| rows := 1; cols := 1; entry := fun _ _ => x |}.
(** Variable 0 is 3 and variable 1 is 2. *)
Definition vars01 : store := fun v => number (match v with O => 3 | _ => 2 end).
Definition gives (r : res value) (x : R) : Prop :=
  exists t, r = Ok (Tensor t) /\ rows t = 1%nat /\ cols t = 1%nat /\ entry t 0 0 = x.

(** Lines 46-57. *)
Example test_class : gives (call vars01 (A 1) [number 1]) (2 * 1).
Proof. eexists. split; [reflexivity|]. cbn. repeat split; ring. Qed.

(** Lines 59-74. *)
Example test_add : exists a, py_add (PF (A 0)) (PF (A 1)) = Ok (PF a) /\
  gives (call vars01 a [number 1]) (5 * 1) /\ In 0%nat (parameters a) /\ In 1%nat (parameters a).
Proof.
  eexists. split; [reflexivity|]. split; [|cbn; auto].
  eexists. split; [reflexivity|]. cbn. repeat split; ring.
Qed.

(** Lines 76-96. *)
Example test_mult : exists a, py_mul (PF (A 0)) (PF (A 1)) = Ok (PF a) /\
  gives (call vars01 a [number 1]) (6 * 1) /\ In 0%nat (parameters a) /\ In 1%nat (parameters a) /\
  exists b, py_mul (PF (A 0)) (PN 2) = Ok (PF b) /\ gives (call vars01 b [number 1]) (6 * 1).
Proof.
  eexists. split; [reflexivity|]. split; [|split; [cbn; auto|split; [cbn; auto|]]].
  - eexists. split; [reflexivity|]. cbn. repeat split; ring.
  - eexists. split; [reflexivity|]. eexists. split; [reflexivity|]. cbn. repeat split; ring.
Qed.

(** Lines 98-111. *)
Example test_neg : exists b, py_neg (PF (A 0)) = PF b /\
  gives (call vars01 b [number 2]) (-3 * 2) /\ parameters b = parameters (A 0).
Proof.
  eexists. split; [reflexivity|]. split; [|reflexivity].
  eexists. split; [reflexivity|]. cbn. repeat split; ring.
Qed.

(** Lines 113-125: [b.copy_parameters(a)] where a has variable 1 and b variable 0. *)
Example test_copy : exists s', copy_parameters vars01 (A 0) (A 1) = (s', Ok None) /\
  s' 0%nat = s' 1%nat /\ s' 1%nat = vars01 1%nat /\ parameters (A 0) <> parameters (A 1).
Proof.
  eexists. split; [reflexivity|]. split; [reflexivity|]. split; [reflexivity|]. discriminate.
Qed.
