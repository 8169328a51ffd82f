(** Vocabulary for Gaussian process regression. *)
From mathcomp Require Import all_ssreflect all_algebra.
From Verif Require Import Prelude LqrSpec GPModel.
Set Implicit Arguments.
Unset Strict Implicit.
Unset Printing Implicit Defensive.
Import GRing.Theory Num.Theory.
Local Open Scope ring_scope.

Section Spec.
Variable F : realFieldType.
Variable T : Type.
Variable D : nat.
Variable g : gp_params F T D.

(** The covariance of the measurements. *)
Definition data_cov n (X : 'I_n -> T) : 'M[F]_n :=
  \matrix_(i, j) (kern g (X i) (X j) + (noise g) *+ (i == j)).

(** The textbook posterior; S is the inverse of [data_cov]. *)
Definition posterior_mean n (S : 'M[F]_n) (X : 'I_n -> T) (Y : 'M[F]_(n, D)) (x : T) : 'rV[F]_D :=
  mean g x + \row_d \sum_i \sum_j kern g (X i) x * S i j * (Y j d - mean g (X j) 0 d).
Definition posterior_cov n (S : 'M[F]_n) (X : 'I_n -> T) (x z : T) : F :=
  kern g x z - \sum_i \sum_j kern g (X i) x * S i j * kern g (X j) z.

(** The contract of the Cholesky decomposition: a lower triangular factor (any
    one will do), ... *)
Definition factors n (cholesky : 'M[F]_n -> res 'M[F]_n) : Prop :=
  forall M L, cholesky M = Ok L -> L *m L^T = M /\ forall i j : 'I_n, (i < j)%N -> L i j = 0.
(** ... and success on symmetric positive definite matrices. *)
Definition factors_all n (cholesky : 'M[F]_n -> res 'M[F]_n) : Prop :=
  factors cholesky /\ forall M, symmetric M -> posdef M -> exists L, cholesky M = Ok L.

(** The same model with another internal scale. *)
Definition rescaled (s : F) : gp_params F T D :=
  {| kern := kern g; kdiag := kdiag g; mean := mean g; noise := noise g; scale := s |}.

(** The kernel is symmetric and positive semi-definite. *)
Definition psd_kernel : Prop :=
  (forall x z, kern g x z = kern g z x) /\
  forall n (X : 'I_n -> T) (w : 'I_n -> F), 0 <= \sum_i \sum_j w i * kern g (X i) (X j) * w j.

(** Data sets one after the other. *)
Definition join n m (X : 'I_n -> T) (Z : 'I_m -> T) : 'I_(n + m) -> T :=
  fun i => match split i with inl j => X j | inr j => Z j end.
End Spec.
