(** What [ellipse_bounds] is meant to return. *)
From Coq Require Import Reals List ZArith.
From Verif Require Import Prelude EllipseModel.
Import ListNotations.
Local Open Scope R_scope.

(** The point lies on the level set x' P x = level. *)
Definition on_level (P : mat2) (level : R) (p : R * R) : Prop :=
  fst p * (m00 P * fst p + m01 P * snd p) + snd p * (m10 P * fst p + m11 P * snd p) = level.

(** What [np.linalg.eig] guarantees: eigenvectors of length one ... *)
Record eigen (P : mat2) (e : eig) : Prop := {
  ei_0x : m00 P * m00 (eigvec e) + m01 P * m10 (eigvec e) = eigval0 e * m00 (eigvec e);
  ei_0y : m10 P * m00 (eigvec e) + m11 P * m10 (eigvec e) = eigval0 e * m10 (eigvec e);
  ei_1x : m00 P * m01 (eigvec e) + m01 P * m11 (eigvec e) = eigval1 e * m01 (eigvec e);
  ei_1y : m10 P * m01 (eigvec e) + m11 P * m11 (eigvec e) = eigval1 e * m11 (eigvec e);
  ei_0 : m00 (eigvec e) ^ 2 + m10 (eigvec e) ^ 2 = 1;
  ei_1 : m01 (eigvec e) ^ 2 + m11 (eigvec e) ^ 2 = 1
}.
(** ... and what it does in addition if the two eigenvalues are equal (for the
    multiple of the identity it returns the identity). *)
Definition orthogonal_if_equal (e : eig) : Prop :=
  eigval0 e = eigval1 e ->
  m00 (eigvec e) * m01 (eigvec e) + m10 (eigvec e) * m11 (eigvec e) = 0.

(** A positive definite symmetric matrix. *)
Definition positive_definite (P : mat2) : Prop :=
  m01 P = m10 P /\ forall p, p <> (0, 0) -> exists l, 0 < l /\ on_level P l p.

Definition det2 (v : mat2) : R := m00 v * m11 v - m01 v * m10 v.
