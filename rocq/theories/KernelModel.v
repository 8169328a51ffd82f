(** Model of the kernels with which the examples create their Gaussian processes:
    1d_example.ipynb lines 89-90, 1d_region_of_attraction_estimate.ipynb lines 81-82,
    adaptive_safety_verification.ipynb lines 198-206, inverted_pendulum.ipynb lines
    152-158, and safe_learning/tests/test_functions.py lines 159 and 212 ([RBF]).
    They are objects of gpflow; what [K] (called in functions.py lines 401, 438, 445
    and 1644) and [Kdiag] (line 450) return is stated here, from the documentation
    of gpflow.

    Simplifications.  Exact arithmetic.  A kernel is a function of two points (rows),
    where missing columns count as zero.  Parameters that are single numbers are
    given for every active column; without [active_dims] the active columns are the
    first ones.  [jitter] is the number that [euclid_dist] of gpflow adds before
    taking the root (1e-12). *)
From Coq Require Import Reals List.
From Verif Require Import Prelude CertModel.
Import ListNotations.
Local Open Scope R_scope.

Inductive kernel_object :=
| Linear (variances : list R) (active : list nat)
| RBF (variance : R) (lengthscales : list R) (active : list nat)
| Matern32 (variance : R) (lengthscales : list R) (active : list nat)
| Add (k k' : kernel_object)          (* [k + k'] *)
| Prod (k k' : kernel_object).        (* [k * k'] *)

Definition column (x : list R) (j : nat) : R := nth j x 0.

(** The sum over the active columns of the squared distances in lengthscales. *)
Definition square_dist (lengthscales : list R) (active : list nat) (x z : list R) : R :=
  sum (map (fun p => (column x (snd p) / fst p - column z (snd p) / fst p) ^ 2) (combine lengthscales active)).

(** [K(X, Z)], one entry. *)
Fixpoint K (jitter : R) (k : kernel_object) (x z : list R) : R :=
  match k with
  | Linear variances active =>
    sum (map (fun p => column x (snd p) * fst p * column z (snd p)) (combine variances active))
  | RBF variance lengthscales active => variance * exp (- square_dist lengthscales active x z / 2)
  | Matern32 variance lengthscales active =>
    let r := sqrt (square_dist lengthscales active x z + jitter) in
    variance * (1 + sqrt 3 * r) * exp (- sqrt 3 * r)
  | Add k k' => K jitter k x z + K jitter k' x z
  | Prod k k' => K jitter k x z * K jitter k' x z
  end.

(** [Kdiag(X)], one entry. *)
Fixpoint Kdiag (k : kernel_object) (x : list R) : R :=
  match k with
  | Linear variances active =>
    sum (map (fun p => column x (snd p) ^ 2 * fst p) (combine variances active))
  | RBF variance _ _ => variance
  | Matern32 variance _ _ => variance
  | Add k k' => Kdiag k x + Kdiag k' x
  | Prod k k' => Kdiag k x * Kdiag k' x
  end.

(** The variances of the linear kernels in inverted_pendulum.ipynb lines 143-149 and
    adaptive_safety_verification.ipynb lines 188-191, one row: the squared differences
    of the linearizations of the true system and of the model, at least [floor]. *)
Definition prior_variances (floor : R) (m_true m : list R) : list R :=
  map2 (fun a b => Rmax ((a - b) ^ 2) floor) m_true m.
(** Their kernels: lines 152-158 and 198-206, with any second part, or none. *)
Definition all_columns (n : nat) : list nat := seq 0 n.
Definition prior_kernel (floor : R) (m_true m : list R) (second : option kernel_object) : kernel_object :=
  let linear := Linear (prior_variances floor m_true m) (all_columns (length m)) in
  match second with None => linear | Some k => Add linear k end.
