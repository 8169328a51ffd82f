(** Property C49 in terms of linear equations. *)
From Coq Require Import Reals List Lra Lia.
From mathcomp Require Import all_ssreflect all_algebra.
From Verif Require Import Prelude CertModel CertSpec GPModel GPSpec LqrSpec GPProofs RField GPLoopModel GPLoopSpec ConfSpec.
From Verif Require Import GPLoopProofs.
From Verif Require Import Properties.GPProps Properties.ConfProps.
Set Implicit Arguments.
Unset Strict Implicit.
Unset Printing Implicit Defensive.
Import Order.Theory GRing.Theory Num.Theory.
Local Open Scope ring_scope.

(** The numbers [a] solve the equations whose matrix is the covariance of the
    measurements. *)
Definition solves (me : member) (w : dataset) (rhs : nat -> R) (a : list R) : Prop :=
  forall i, (i < length w)%coq_nat ->
  sum (List.map (fun j => ((me_kern me (measurement w i).1 (measurement w j).1
                            + (if Nat.eqb i j then me_noise me else 0)) * List.nth j a 0)%coqR)
                (List.seq 0 (length w))) = rhs i.
(** A sum over the measurements. *)
Definition over (w : dataset) (f : nat -> R) : R := sum (List.map f (List.seq 0 (length w))).

Lemma over_big w f : over w f = \sum_(i < length w) f i.
Proof.
  rewrite /over (sum_index _ 0%N) List.seq_length; apply: eq_bigr => i _.
  by rewrite List.seq_nth //; apply/ssrnat.ltP; case: i.
Qed.

(** The prediction solves these equations once for the measured values and once for
    the kernel at the point. *)
Theorem C49_normal_equations : forall k me w x a b, sensible me ->
  solves me w (fun i => (List.nth k (measurement w i).2 0 - me_mean me (measurement w i).1)%coqR) a ->
  solves me w (fun i => me_kern me (measurement w i).1 x) b ->
  member_eval k me w x =
    ((me_mean me x + over w (fun i => me_kern me (measurement w i).1 x * List.nth i a 0))%coqR,
     (me_beta me * R_sqrt.sqrt (me_kdiag me x -
        over w (fun i => me_kern me (measurement w i).1 x * List.nth i b 0)))%coqR).
Proof.
  move=> k me w x a b [ker kd np sc bp ch] sa sb.
  have pk := kernel_psd ker.
  have scn : scale (params me) != 0 by apply/eqP.
  have np' : 0 < noise (params me) by apply/RltP.
  have [cache ok] := C49_cache_succeeds (@inputs w) (outputs k w) (ch _) scn pk np'.
  have [S inv] := C49_posterior_exists (proj1 (ch _)) scn ok.
  have [M [C [V [ME [CE [VE e]]]]]] := C49_posterior (fun _ : 'I_1 => x) (proj1 (ch _)) scn ok inv.
  have inS c rhs : solves me w rhs c ->
    S *m (\col_i rhs (nat_of_ord i)) = \col_i List.nth (nat_of_ord i) c 0 :> 'cV[R]_(length w).
    move=> sl; rewrite -[RHS]mul1mx -inv -mulmxA; congr (S *m _); apply/colP => i.
    rewrite !mxE -sl; last by apply/ssrnat.ltP; case: i.
    rewrite (sum_index _ 0%N) List.seq_length; apply: eq_bigr => j _.
    rewrite !mxE List.seq_nth; last by apply/ssrnat.ltP; case: j.
    rewrite /=; congr (_ * _); congr (_ + _).
    have -> : (i == j) = Nat.eqb i j by apply/eqP/idP => [->|/PeanoNat.Nat.eqb_eq /val_inj //]; apply/PeanoNat.Nat.eqb_eq.
    by case: Nat.eqb.
  have [Em [_ Ev]] := e 0 0 0.
  rewrite /member_eval ok /evaluate ME VE /= !mxE Em Ev; congr pair.
  - rewrite !mxE over_big; congr (_ + _); apply: eq_bigr => i _.
    move/colP/(_ i): (inS _ _ sa); rewrite !mxE => <-.
    apply: etrans (esym (mulr_sumr _ _ _ _)); apply: eq_bigr => j _; by rewrite !mxE mulrA.
  - congr (_ * R_sqrt.sqrt _); rewrite /posterior_cov over_big /= addrC addrA subrK; congr (_ - _).
    apply: eq_bigr => i _; move/colP/(_ i): (inS _ _ sb); rewrite !mxE => <-.
    apply: etrans (esym (mulr_sumr _ _ _ _)); apply: eq_bigr => j _; by rewrite !mxE mulrA.
Qed.
Print Assumptions C49_normal_equations.
