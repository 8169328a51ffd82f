(** Vocabulary for linear quadratic control. *)
From mathcomp Require Import all_ssreflect all_algebra.
From Verif Require Import Prelude.
Set Implicit Arguments.
Unset Strict Implicit.
Unset Printing Implicit Defensive.
Import GRing.Theory Num.Theory.
Local Open Scope ring_scope.

Section Spec.
Variable F : realFieldType.

(** x' M x *)
Definition quad n (M : 'M[F]_n) (x : 'cV[F]_n) : F := (x^T *m M *m x) 0 0.
Definition symmetric n (M : 'M[F]_n) : Prop := M^T = M.
Definition psd n (M : 'M[F]_n) : Prop := forall x, 0 <= quad M x.
Definition posdef n (M : 'M[F]_n) : Prop := forall x, x != 0 -> 0 < quad M x.

Variables n m : nat.
Variables (a : 'M[F]_n) (b : 'M[F]_(n, m)) (q : 'M[F]_n) (r : 'M[F]_m).

(** The algebraic Riccati equations, as in the documentation of scipy.  The
    inverse only has to exist. *)
Definition discrete_riccati (p : 'M[F]_n) : Prop :=
  exists s, s *m (r + b^T *m p *m b) = 1%:M /\
    a^T *m p *m a - p - (a^T *m p *m b) *m s *m (b^T *m p *m a) + q = 0.
Definition continuous_riccati (p : 'M[F]_n) : Prop :=
  exists s, s *m r = 1%:M /\ p *m a + a^T *m p - p *m b *m s *m b^T *m p + q = 0.

(** The system x+ = a x + b u, the stage cost, and the states and costs of a
    sequence of inputs. *)
Definition next (x : 'cV[F]_n) (u : 'cV[F]_m) : 'cV[F]_n := a *m x + b *m u.
Definition stage (x : 'cV[F]_n) (u : 'cV[F]_m) : F := quad q x + quad r u.
Fixpoint state_at (x : 'cV[F]_n) (us : nat -> 'cV[F]_m) (k : nat) : 'cV[F]_n :=
  match k with O => x | S k' => next (state_at x us k') (us k') end.
Fixpoint cost (x : 'cV[F]_n) (us : nat -> 'cV[F]_m) (k : nat) : F :=
  match k with O => 0 | S k' => cost x us k' + stage (state_at x us k') (us k') end.
(** The inputs u = -k x. *)
Fixpoint loop (k : 'M[F]_(m, n)) (x : 'cV[F]_n) (i : nat) : 'cV[F]_n :=
  match i with O => x | S i' => next (loop k x i') (- (k *m loop k x i')) end.
Definition feedback (k : 'M[F]_(m, n)) (x : 'cV[F]_n) (i : nat) : 'cV[F]_m :=
  - (k *m loop k x i).
End Spec.
