(** C102, matrix functions: how wrong arguments are reported. *)
From mathcomp Require Import all_ssreflect all_algebra.
From Verif Require Import Prelude LqrModel GPModel SampleGPModel.
Set Implicit Arguments.
Unset Strict Implicit.
Unset Printing Implicit Defensive.
Import Order.Theory GRing.Theory Num.Theory.
Local Open Scope ring_scope.

(** [lqr] with a singular weight of the actions, [dlqr] with a singular
    [B^T P B + R]: the linear solver raises (LinAlgError of numpy). *)
Theorem C102_lqr_singular : forall (F : realFieldType) n m (are : riccati F n m) a b q r p,
  are a b q r = Ok p ->
  (r \notin unitmx -> lqr are a b q r = Err OtherError) /\
  (b^T *m p *m b + r \notin unitmx -> dlqr are a b q r = Err OtherError).
Proof.
move=> F n m are a b q r p E; rewrite /lqr /dlqr E /= /np_solve.
by split=> /negbTE ->.
Qed.
Print Assumptions C102_lqr_singular.

(** Functions are sampled for one output only. *)
Theorem C102_sample_gp_outputs : forall (F : realFieldType) T D (g : gp_params F T D) n
    (cache : 'M[F]_n * 'M[F]_(n, D)) X m (discretization : 'I_m -> T) draw cho mean cov,
  predict_mean g cache X discretization = Ok mean -> predict_full g cache X discretization = Ok cov ->
  D != 1%N -> sample_gp g cache X discretization draw cho = Err ValueError.
Proof.
move=> F T D g n cache X m discretization draw cho mean cov E1 E2 N.
by rewrite /sample_gp E1 /= E2 /= /squeeze (negbTE N).
Qed.
Print Assumptions C102_sample_gp_outputs.

Example C102_mx_ex : lqr (F := [realFieldType of rat]) (n := 1) (m := 1) (fun _ _ _ _ => Ok 1%:M) 1%:M 1%:M 1%:M 0
  = Err OtherError.
Proof.
apply: (C102_lqr_singular (p := 1%:M) _).1 => //.
by rewrite unitmxE det0 // unitr0.
Qed.
