(** Model of [lqr] and [dlqr] (safe_learning/utilities.py, lines 299-357), over an
    arbitrary real field (exact arithmetic).

    Simplifications: the arguments are matrices of fitting shapes ([np.atleast_2d]
    makes 1x1 matrices of numbers); the Riccati solvers of scipy are arguments
    which may fail; [np.linalg.solve] is exact and fails on singular matrices. *)
From mathcomp Require Import all_ssreflect all_algebra.
From Verif Require Import Prelude.
Set Implicit Arguments.
Unset Strict Implicit.
Unset Printing Implicit Defensive.
Import GRing.Theory Num.Theory.
Local Open Scope ring_scope.

Section Model.
Variable F : realFieldType.

(** [np.linalg.solve] *)
Definition np_solve m n (M : 'M[F]_m) (N : 'M[F]_(m, n)) : res 'M[F]_(m, n) :=
  if M \in unitmx then Ok (invmx M *m N) else Err OtherError.

Variables n m : nat.
Definition riccati := 'M[F]_n -> 'M[F]_(n, m) -> 'M[F]_n -> 'M[F]_m -> res 'M[F]_n.

(** Lines 299-324. *)
Definition lqr (solve_continuous_are : riccati) a b q r : res ('M[F]_(m, n) * 'M[F]_n) :=
  do p <- solve_continuous_are a b q r;
  do k <- np_solve r (b^T *m p);
  Ok (k, p).

(** Lines 327-357. *)
Definition dlqr (solve_discrete_are : riccati) a b q r : res ('M[F]_(m, n) * 'M[F]_n) :=
  do p <- solve_discrete_are a b q r;
  let bp := b^T *m p in
  let tmp1 := bp *m b + r in
  let tmp2 := bp *m a in
  do k <- np_solve tmp1 tmp2;
  Ok (k, p).
End Model.
