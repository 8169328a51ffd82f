(** The real numbers of the standard library as a real field of mathcomp.  The
    choice operator comes from [Coq.Logic.Epsilon]. *)
From Coq Require Import Reals Lra Epsilon FunctionalExtensionality.
From mathcomp Require Import all_ssreflect all_algebra.
Set Implicit Arguments.
Unset Strict Implicit.
Unset Printing Implicit Defensive.
Import Order.Theory GRing.Theory Num.Theory.
Delimit Scope R_scope with coqR.

Definition eqr (x y : R) : bool := if Req_EM_T x y is left _ then true else false.
Lemma eqrP : Equality.axiom eqr.
Proof. by move=> x y; rewrite /eqr; case: Req_EM_T => h; constructor. Qed.
Canonical R_eqMixin := EqMixin eqrP.
Canonical R_eqType := Eval hnf in EqType R R_eqMixin.

Definition inhR : inhabited R := inhabits 0%coqR.
Definition pickR (P : pred R) (n : nat) : option R :=
  let x := epsilon inhR (fun x => P x) in if P x then Some x else None.
Lemma pickR_some P n x : pickR P n = Some x -> P x.
Proof. by rewrite /pickR; case: (boolP (P _)) => // Px [<-]. Qed.
Lemma pickR_ex (P : pred R) : (exists x : R, P x) -> exists n, pickR P n.
Proof. by rewrite /pickR => /(epsilon_spec inhR (fun x => P x)) h; exists 0%N; rewrite h. Qed.
Lemma pickR_ext (P Q : pred R) : P =1 Q -> pickR P =1 pickR Q.
Proof.
  move=> PEQ n; rewrite /pickR.
  have -> : (fun x => is_true (P x)) = (fun x => is_true (Q x)) by apply: functional_extensionality => x; rewrite PEQ.
  by rewrite PEQ.
Qed.
Definition R_choiceMixin : choiceMixin R := Choice.Mixin pickR_some pickR_ex pickR_ext.
Canonical R_choiceType := Eval hnf in ChoiceType R R_choiceMixin.

Lemma RplusA : associative Rplus.
Proof. by move=> x y z; rewrite Rplus_assoc. Qed.
Definition R_zmodMixin := ZmodMixin RplusA Rplus_comm Rplus_0_l Rplus_opp_l.
Canonical R_zmodType := Eval hnf in ZmodType R R_zmodMixin.

Lemma RmultA : associative Rmult.
Proof. by move=> x y z; rewrite Rmult_assoc. Qed.
Lemma R1_neq_0 : R1 != R0.
Proof. by apply/eqP; apply: R1_neq_R0. Qed.
Definition R_ringMixin := RingMixin RmultA Rmult_1_l Rmult_1_r Rmult_plus_distr_r Rmult_plus_distr_l R1_neq_0.
Canonical R_ringType := Eval hnf in RingType R R_ringMixin.
Canonical R_comRingType := Eval hnf in ComRingType R Rmult_comm.

Definition Rinvx (r : R) : R := if r != 0%coqR :> R then (/ r)%coqR else r.
Definition unit_R : pred R := fun r : R => r != 0%coqR :> R.
Lemma RmultRinvx : {in unit_R, left_inverse 1%coqR Rinvx Rmult}.
Proof.
  move=> r; rewrite -topredE /unit_R /= /Rinvx => h; rewrite h Rinv_l //; exact/eqP.
Qed.
Lemma RinvxRmult : {in unit_R, right_inverse 1%coqR Rinvx Rmult}.
Proof.
  move=> r; rewrite -topredE /unit_R /= /Rinvx => h; rewrite h Rinv_r //; exact/eqP.
Qed.
Lemma intro_unit_R (x y : R) : (y * x)%coqR = 1%coqR /\ (x * y)%coqR = 1%coqR -> unit_R x.
Proof.
  move=> [yx _]; apply/eqP => x0; move: yx; rewrite x0 Rmult_0_r => /esym; exact: R1_neq_R0.
Qed.
Lemma Rinvx_out : {in predC unit_R, Rinvx =1 id}.
Proof. by move=> x; rewrite inE /= /unit_R negbK => /eqP ->; rewrite /Rinvx eqxx. Qed.
Definition R_unitRingMixin := UnitRingMixin RmultRinvx RinvxRmult intro_unit_R Rinvx_out.
Canonical R_unitRingType := Eval hnf in UnitRingType R R_unitRingMixin.
Canonical R_comUnitRingType := Eval hnf in [comUnitRingType of R].

Lemma R_idomainMixin (x y : R) : (x * y)%coqR = 0%coqR -> (x == 0%coqR) || (y == 0%coqR).
Proof. by move=> /Rmult_integral [] ->; rewrite eqxx ?orbT. Qed.
Canonical R_idomainType := Eval hnf in IdomainType R R_idomainMixin.
Lemma R_fieldMixin : GRing.Field.mixin_of [unitRingType of R].
Proof. by []. Qed.
Definition R_fieldIdomainMixin := FieldIdomainMixin R_fieldMixin.
Canonical R_fieldType := FieldType R R_fieldMixin.

Definition Rleb (x y : R) : bool := if Rle_dec x y is left _ then true else false.
Definition Rltb (x y : R) : bool := Rleb x y && (x != y).
Lemma RlebP x y : reflect (Rle x y) (Rleb x y).
Proof. by rewrite /Rleb; case: Rle_dec => h; constructor. Qed.
Lemma RltbP x y : reflect (Rlt x y) (Rltb x y).
Proof.
  apply: (iffP andP) => [[/RlebP h /eqP n]|h]; first by case: h => // e; case: n.
  by split; [apply/RlebP; left|apply/eqP => e; move: h; rewrite e; exact: Rlt_irrefl].
Qed.
Lemma Rleb_norm_add (x y : R) : Rleb (Rabs (Rplus x y)) (Rplus (Rabs x) (Rabs y)).
Proof. by apply/RlebP; apply: Rabs_triang. Qed.
Lemma addRgt0 (x y : R) : Rltb R0 x -> Rltb R0 y -> Rltb R0 (Rplus x y).
Proof. by move=> /RltbP hx /RltbP hy; apply/RltbP; apply: Rplus_lt_0_compat. Qed.
Lemma Rnorm0_eq0 (x : R) : Rabs x = 0%coqR -> x = 0%coqR.
Proof. by move=> H; case: (Req_EM_T x R0) => // n; case: (Rabs_no_R0 x n). Qed.
Lemma Rleb_leVge (x y : R) : Rleb R0 x -> Rleb R0 y -> (Rleb x y) || (Rleb y x).
Proof.
  by move=> _ _; case: (Rle_or_lt x y) => h; apply/orP; [left|right]; apply/RlebP => //; left.
Qed.
Lemma RnormM : {morph Rabs : x y / (x * y)%coqR}.
Proof. exact: Rabs_mult. Qed.
Lemma Rleb_def (x y : R) : (Rleb x y) = (Rabs (y - x)%coqR == (y - x)%coqR).
Proof.
  apply/RlebP/eqP => [h|e]; first by apply: Rabs_pos_eq; Lra.lra.
  by move: (Rabs_pos (y - x)%coqR); rewrite e; Lra.lra.
Qed.
Lemma Rltb_def (x y : R) : (Rltb x y) = (y != x) && (Rleb x y).
Proof. by rewrite /Rltb andbC eq_sym. Qed.
Definition R_numMixin := NumMixin Rleb_norm_add addRgt0 Rnorm0_eq0 Rleb_leVge RnormM Rleb_def Rltb_def.
Canonical R_porderType := POrderType ring_display R R_numMixin.
Canonical R_numDomainType := NumDomainType R R_numMixin.
Canonical R_normedZmodType := NormedZmodType R R R_numMixin.
Lemma R_total : totalPOrderMixin R_porderType.
Proof.
  move=> x y; case: (Rle_or_lt x y) => h; apply/orP; [left|right]; apply/RlebP => //; by left.
Qed.
Canonical R_latticeType := LatticeType R R_total.
Canonical R_distrLatticeType := DistrLatticeType R R_total.
Canonical R_orderType := OrderType R R_total.
Canonical R_numFieldType := [numFieldType of R].
Canonical R_realDomainType := [realDomainType of R].
Canonical R_realFieldType := [realFieldType of R].

Lemma RleP (x y : R) : reflect (Rle x y) (x <= y)%O.
Proof. exact: RlebP. Qed.
Lemma RltP (x y : R) : reflect (Rlt x y) (x < y)%O.
Proof. exact: RltbP. Qed.
