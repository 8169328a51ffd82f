(** Vocabulary for the confidence intervals of Gaussian processes. *)
From mathcomp Require Import all_ssreflect all_algebra.
From Verif Require Import Prelude GPModel.
Set Implicit Arguments.
Unset Strict Implicit.
Unset Printing Implicit Defensive.
Import GRing.Theory Num.Theory.
Local Open Scope ring_scope.

Section Spec.
Variable F : realFieldType.
Variable T : Type.
Variable D : nat.

(** The function [h] has norm at most [B] in the space of functions that belongs to
    the kernel: B^2 k(x, z) - h(x) h(z) is a positive semi-definite kernel. *)
Definition norm_at_most (k : T -> T -> F) (B : F) (h : T -> F) : Prop :=
  forall n (X : 'I_n -> T) (w : 'I_n -> F),
    (\sum_i w i * h (X i)) ^+ 2 <= B ^+ 2 * \sum_i \sum_j w i * k (X i) (X j) * w j.

(** The intervals [mean - error, mean + error] contain output [d] of [f]. *)
Definition contains m (out : 'M[F]_(m, D) * 'M[F]_(m, D)) (Z : 'I_m -> T) (f : T -> 'rV[F]_D) (d : 'I_D) : Prop :=
  forall i, `|f (Z i) 0 d - out.1 i d| <= out.2 i d.
End Spec.
