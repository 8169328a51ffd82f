(** Model of how the example notebooks choose the constants they pass to
    [Lyapunov]: the discretization constant [tau], the Lipschitz constant of the
    closed loop and the Lipschitz constants of the Lyapunov function.

    Simplifications.  One state at a time, as in [CertModel]; the function objects
    are those of [QuadModel]; a call that fails gives an empty row.  [np.max] and
    [np.min] of an empty array are 0 (numpy raises an error). *)
From Coq Require Import Reals List Bool Arith ZArith.
From Verif Require Import Prelude FunModel QuadModel GridModel CertModel.
Import ListNotations.
Local Open Scope R_scope.

(** Evaluating a function object at single states. *)
Definition row_of (x : list R) : tensor :=
  {| rows := 1; cols := length x; entry := fun _ j => nth j x 0 |}.
Definition first_row (t : tensor) : list R := map (entry t 0) (seq 0 (cols t)).
Definition at_state (f : list tensor -> res tensor) (args : list (list R)) : list R :=
  match f (map row_of args) with Ok t => first_row t | Err _ => [] end.

(** [c * t] and [-t] for arrays. *)
Definition scaled (c : R) (t : tensor) : tensor :=
  {| rows := rows t; cols := cols t; entry := fun i j => c * entry t i j |}.

(** [np.max(l)] and [np.min(l)]. *)
Definition np_max (l : list R) : R :=
  match l with [] => 0 | x :: l' => fold_left Rmax l' x end.
Definition np_min (l : list R) : R :=
  match l with [] => 0 | x :: l' => fold_left Rmin l' x end.
(** [np.linalg.norm(t, 1)]: the largest column sum, and [np.max(np.abs(t))]. *)
Definition np_norm1 (t : tensor) : R :=
  np_max (map (fun j => rsum (rows t) (fun i => Rabs (entry t i j))) (seq 0 (cols t))).
Definition np_max_abs (t : tensor) : R :=
  np_max (map Rabs (concat (map (fun i => map (entry t i) (seq 0 (cols t))) (seq 0 (rows t))))).

(** The discretization constant: adaptive_safety_verification.ipynb:267 and
    lyapunov_function_learning.ipynb:174, 1d_example.ipynb:67,
    inverted_pendulum.ipynb:118, 1d_region_of_attraction_estimate.ipynb:53. *)
Definition tau_sum (g : grid) : R := sum (unit_maxes g) / 2.
Definition tau_max (g : grid) : R := np_max (unit_maxes g).
Definition tau_min (g : grid) : R := np_min (unit_maxes g).
Definition tau_inverse (g : grid) : R := 1 / IZR (nindex g).

(** [LinearSystem((A, B))] and the policy [LinearSystem((-K,))] (for one action the
    same as [LinearSystem(-K)]),
    adaptive_safety_verification.ipynb:297-299; [Saturation(policy, lower, upper)],
    functions.py:349-354, for numbers. *)
Definition linear_dynamics (A B : tensor) (x u : list R) : list R :=
  at_state (fun a => do M <- linear_system [Matrix A; Matrix B]; linear_eval M a) [x; u].
Definition linear_policy (K : tensor) (x : list R) : list R :=
  at_state (fun a => do M <- linear_system [Matrix (scaled (-1) K)]; linear_eval M a) [x].
Definition saturated (lower upper : R) (policy : list R -> list R) (x : list R) : list R :=
  map (fun v => Rmin (Rmax v lower) upper) (policy x).

(** [L_pol] and [L_dyn], adaptive_safety_verification.ipynb:334-337,
    lyapunov_function_learning.ipynb:222-225; the constant of
    inverted_pendulum.ipynb:300. *)
Definition policy_constant (K : tensor) : R := np_norm1 (scaled (-1) K).
Definition loop_constant (A B : tensor) (l_pol : R) : R := np_norm1 A + np_norm1 B * l_pol.
Definition loop_constant_entries (A B : tensor) (l_pol : R) : R :=
  np_max_abs A + np_max_abs B * l_pol.

(** [lyapunov_function], [grad_lyapunov_function] and [L_v],
    adaptive_safety_verification.ipynb:356-363 (with and without
    [use_lipschitz_scaling]), lyapunov_function_learning.ipynb:244-248. *)
Definition quadratic_lyapunov (P : tensor) (x : list R) : R :=
  nth 0 (at_state (quadratic_eval (quadratic_function (Matrix P))) [x]) 0.
Definition grad_lyapunov (P : tensor) (x : list R) : list R :=
  at_state (fun a => do M <- linear_system [Matrix (scaled 2 P)]; linear_eval M a) [x].
Definition gradient_constants (scaling : bool) (P : tensor) : lip_lyapunov :=
  LvFun (fun x => if scaling then map Rabs (grad_lyapunov P x) else [norm1 (grad_lyapunov P x)]).
