(** Vocabulary for the predictions of Gaussian processes away from the data. *)
From Coq Require Import Reals List.
From Verif Require Import Prelude CertModel GPLoopModel GPLoopSpec.
Import ListNotations.
Local Open Scope R_scope.

(** The distance of two points that belongs to a kernel. *)
Definition kernel_distance (k : list R -> list R -> R) (x z : list R) : R :=
  sqrt (k x x + k z z - 2 * k x z).
(** ... weighted with the factors of the error bounds, summed over the stack. *)
Definition stack_distance (ms : list member) (x z : list R) : R :=
  sum (map (fun me => me_beta me * kernel_distance (me_kern me) x z) ms).

(** The part of [Kdiag] that is not in [K] is the same everywhere. *)
Definition even_white_noise (ms : list member) : Prop :=
  forall me x z, In me ms -> me_kdiag me x - me_kern me x x = me_kdiag me z - me_kern me z z.
