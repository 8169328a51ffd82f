(** Vocabulary for the decrease check in double precision: the exact values, and
    bounds on what rounding adds to them. *)
From Coq Require Import List ZArith Reals.
From Flocq Require Import Core.
From Verif Require Import Prelude FunModel QuadModel.
Import ListNotations.
Local Open Scope R_scope.

(** x^T P x *)
Definition quad (P : tensor) (d : nat) (x : nat -> R) : R :=
  rsum d (fun j => rsum d (fun k => x k * entry P k j) * x j).
(** M x, where x has n entries *)
Definition apply (M : tensor) (n : nat) (x : nat -> R) (i : nat) : R :=
  rsum n (fun k => entry M i k * x k).
(** The vector of the first d entries of x followed by u. *)
Definition join (d : nat) (x u : nat -> R) (j : nat) : R := if Nat.ltb j d then x j else u (j - d)%nat.
(** The closed loop x -> (A B) (x, K x). *)
Definition loop (policy dynamics : tensor) (d m : nat) (x : nat -> R) : nat -> R :=
  apply dynamics (d + m) (join d x (apply policy d x)).

(** The error of a sum of n products whose absolute values add up to s. *)
Definition dot_slack (n : nat) (s : R) : R := INR n * (bpow radix2 (-52) * s + bpow radix2 (-1073)).

(** The error of the values of a quadratic function at z. *)
Definition quad_slack (P : tensor) (d : nat) (z : nat -> R) : R :=
  let s j := rsum d (fun k => Rabs (z k * entry P k j)) in
  dot_slack d (rsum d (fun j => (s j + dot_slack d (s j)) * Rabs (z j))) +
  rsum d (fun j => dot_slack d (s j) * Rabs (z j)).

(** The error of the actions and of the next states, given the computed actions u. *)
Definition action_slack (policy : tensor) (d : nat) (x : nat -> R) (k : nat) : R :=
  dot_slack d (rsum d (fun l => Rabs (x l * entry policy k l))).
Definition next_slack (policy dynamics : tensor) (d m : nat) (x u : nat -> R) (j : nat) : R :=
  dot_slack (d + m) (rsum (d + m) (fun k => Rabs (join d x u k * entry dynamics j k))) +
  rsum m (fun k => Rabs (entry dynamics j (d + k)) * action_slack policy d x k).

(** What an error e of the point z makes of the value of a quadratic function. *)
Definition move_slack (P : tensor) (d : nat) (z e : nat -> R) : R :=
  rsum d (fun j => rsum d (fun k =>
    Rabs (entry P k j) * (e k * Rabs (z j) + (Rabs (z k) + e k) * e j))).

(** The error of the decrease [dec], given the computed actions and next states, and
    of the threshold. *)
Definition decrease_slack (P policy dynamics : tensor) (d m : nat) (x u y : nat -> R) (dec : R) : R :=
  quad_slack P d y + quad_slack P d x +
  move_slack P d y (next_slack policy dynamics d m x u) +
  (bpow radix2 (-52) * Rabs dec + bpow radix2 (-1073)).
Definition threshold_slack (lv lf tau : R) : R :=
  bpow radix2 (-51) * (lv * (1 + lf) * tau) + bpow radix2 (-1073) * (1 + tau + lv * tau).
