(** Double precision version of the decrease check of [Lyapunov]
    (safe_learning/lyapunov.py, lines 265-288, 324-376 and 431-441) for a
    [QuadraticFunction], a linear policy and a [LinearSystem]
    (safe_learning/functions.py, lines 1513-1583).

    Every operation is the exact one followed by [rnd].  TensorFlow does not say in
    which order [tf.matmul] and [tf.reduce_sum] add, nor whether a product and
    the following addition are rounded once or twice: [fdot] relates a list of
    pairs to every number that some order can give.  Simplifications: overflow,
    NaN and signed zeros are not modelled; Lipschitz constants are numbers. *)
From Coq Require Import List ZArith Reals Bool Permutation.
From Verif Require Import Prelude FunModel QuadModel F64Model.
Import ListNotations.
Local Open Scope R_scope.

(** The sum of the products of some pairs, in any order, with any bracketing, with
    or without fused multiplication and addition. *)
Inductive fdot : list (R * R) -> R -> Prop :=
| fdot_one a b : fdot [(a, b)] (rnd (a * b))
| fdot_fma a b l r : fdot l r -> fdot ((a, b) :: l) (rnd (a * b + r))
| fdot_add l1 l2 r1 r2 : fdot l1 r1 -> fdot l2 r2 -> fdot (l1 ++ l2) (rnd (r1 + r2))
| fdot_perm l l' r : Permutation l l' -> fdot l r -> fdot l' r.

Definition pairs (n : nat) (f g : nat -> R) : list (R * R) := map (fun k => (f k, g k)) (seq 0 n).

(** [tf.matmul] *)
Definition f_matmul (a b c : tensor) : Prop :=
  cols a = rows b /\ rows c = rows a /\ cols c = cols b /\
  forall i j, (i < rows a)%nat -> (j < cols b)%nat ->
    fdot (pairs (cols a) (entry a i) (fun k => entry b k j)) (entry c i j).

(** [QuadraticFunction.build_evaluation], functions.py:1534-1539 *)
Definition f_quadratic (P points v : tensor) : Prop :=
  exists linear_form, f_matmul points P linear_form /\
    cols P = cols points /\ rows v = rows points /\ cols v = 1%nat /\
    forall i, (i < rows points)%nat ->
      fdot (pairs (cols points) (entry linear_form i) (entry points i)) (entry v i 0%nat).

(** [LinearSystem.build_evaluation], functions.py:1567-1583 *)
Definition f_linear (M points y : tensor) : Prop := f_matmul points (transpose M) y.

(** [update_safe_set], lyapunov.py:436-439, and [v_decrease_bound], lines 349-354 and
    373-376, with deterministic dynamics (the bound is zero): the actions, the next
    states and the decrease. *)
Definition f_decrease (P policy dynamics states actions next dec : tensor) : Prop :=
  f_linear policy states actions /\
  (exists points, hcat [states; actions] = Ok points /\ f_linear dynamics points next) /\
  exists v v', f_quadratic P next v' /\ f_quadratic P states v /\
    rows dec = rows states /\ cols dec = 1%nat /\
    forall i, (i < rows states)%nat ->
      entry dec i 0%nat = rnd (rnd (entry v' i 0%nat - entry v i 0%nat) + 0).

(** [threshold], lyapunov.py:288 *)
Definition f_threshold (lv lf tau : R) : R := rnd (rnd (- lv * rnd (1 + lf)) * tau).
