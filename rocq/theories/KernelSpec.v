(** Vocabulary for the kernels. *)
From Coq Require Import Reals List.
From mathcomp Require Import matrix.
From Verif Require Import Prelude CertModel RField GPLoopModel KernelModel.
Import ListNotations.
Local Open Scope R_scope.

(** Variances are not negative and lengthscales are positive (gpflow keeps both
    positive), and there is one for every active column. *)
Fixpoint proper (k : kernel_object) : Prop :=
  match k with
  | Linear variances active => Forall (Rle 0) variances /\ length variances = length active
  | RBF variance lengthscales active | Matern32 variance lengthscales active =>
    0 <= variance /\ Forall (Rlt 0) lengthscales /\ length lengthscales = length active
  | Add k k' | Prod k k' => proper k /\ proper k'
  end.

(** A [GaussianProcess] with such a kernel. *)
Definition with_kernel (jitter : R) (k : kernel_object) (mean : list R -> R) (noise scale beta : R)
    (chol : forall n, 'M[R]_n -> res 'M[R]_n) : member :=
  {| me_kern := K jitter k; me_kdiag := Kdiag k; me_mean := mean; me_noise := noise;
     me_scale := scale; me_beta := beta; me_chol := chol |}.

(** One output of a linear system, from the row [m] of its matrix. *)
Definition linear_output (m x : list R) : R :=
  sum (map (fun p => fst p * nth (snd p) x 0) (combine m (seq 0 (length m)))).

(** The second part of a [prior_kernel]. *)
Definition second_kernel (jitter : R) (second : option kernel_object) : list R -> list R -> R :=
  match second with Some k => K jitter k | None => fun _ _ => 0 end.
