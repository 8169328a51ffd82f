(** Vocabulary for how steep the kernels of the examples are. *)
From Coq Require Import Reals List.
From Verif Require Import Prelude CertModel GPLoopModel KernelModel.
Import ListNotations.
Local Open Scope R_scope.

(** Points in a box, and points that are close to each other. *)
Definition in_box (M : R) (x : list R) : Prop := forall j, Rabs (nth j x 0) <= M.
Definition close (delta : R) (x z : list R) : Prop := forall j, Rabs (nth j x 0 - nth j z 0) <= delta.

Definition inverse_squares (lengthscales : list R) : R := sum (map (fun l => / l ^ 2) lengthscales).

(** A bound on the kernel in the box, and one on the square of its slope, from the
    parameters alone. *)
Fixpoint height (M : R) (k : kernel_object) : R :=
  match k with
  | Linear variances _ => M ^ 2 * sum variances
  | RBF variance _ _ | Matern32 variance _ _ => variance
  | Add k k' => height M k + height M k'
  | Prod k k' => height M k * height M k'
  end.
Fixpoint steepness (M : R) (k : kernel_object) : R :=
  match k with
  | Linear variances _ => sum variances
  | RBF variance lengthscales _ => variance * inverse_squares lengthscales
  | Matern32 variance lengthscales _ => 3 * variance * inverse_squares lengthscales
  | Add k k' => steepness M k + steepness M k'
  | Prod k k' => 2 * (height M k * steepness M k' + height M k' * steepness M k)
  end.

(** What the number that is added under the root can make of the difference of [Kdiag]
    and [K] in the box. *)
Fixpoint excess (jitter M : R) (k : kernel_object) : R :=
  match k with
  | Linear _ _ | RBF _ _ _ => 0
  | Matern32 variance _ _ => 3 / 2 * variance * jitter
  | Add k k' => excess jitter M k + excess jitter M k'
  | Prod k k' => height M k * excess jitter M k' + height M k' * excess jitter M k
  end.

Fixpoint without_products (k : kernel_object) : Prop :=
  match k with
  | Linear _ _ | RBF _ _ _ | Matern32 _ _ _ => True
  | Add k k' => without_products k /\ without_products k'
  | Prod _ _ => False
  end.

(** The members of the stack have these kernels. *)
Definition have_kernels (jitter : R) (ms : list member) (ks : list kernel_object) : Prop :=
  Forall2 (fun me k => me_kern me = K jitter k /\ me_kdiag me = Kdiag k) ms ks.
Definition stack_slope (M : R) (ms : list member) (ks : list kernel_object) : R :=
  sum (map (fun p => me_beta (fst p) * sqrt (steepness M (snd p))) (combine ms ks)).
Definition stack_excess (jitter M : R) (ms : list member) (ks : list kernel_object) : R :=
  sum (map (fun p => me_beta (fst p) * sqrt (excess jitter M (snd p))) (combine ms ks)).
