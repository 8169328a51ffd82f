(** Vocabulary for Lipschitz constants that follow from the kernels. *)
From Coq Require Import Reals List.
From Verif Require Import Prelude CertModel CertSpec GPLoopModel KernelModel SteepSpec.
Import ListNotations.
Local Open Scope R_scope.

(** Lipschitz constants of the mean functions, in the box. *)
Definition means_lipschitz (M : R) (mu : member -> R) (ms : list member) : Prop :=
  forall me x z, In me ms -> length x = length z -> in_box M x -> in_box M z ->
    Rabs (me_mean me x - me_mean me z) <= mu me * dist1 x z.
(** The constant for the dynamics. *)
Definition dynamics_slope (M : R) (mu : member -> R) (ms : list member) (ks : list kernel_object) : R :=
  sum (map mu ms) + stack_slope M ms ks.
