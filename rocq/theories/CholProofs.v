(** The Cholesky decomposition exists: the contract [factors_all] can be met. *)
From mathcomp Require Import all_ssreflect all_algebra.
From Verif Require Import Prelude MxRing LqrSpec LqrProofs GPModel GPSpec GPProofs ConfSpec Properties.ConfProps.
Set Implicit Arguments.
Unset Strict Implicit.
Unset Printing Implicit Defensive.
Import Order.Theory GRing.Theory Num.Theory.
Local Open Scope ring_scope.

Section Chol.
Variable F : realFieldType.
Variable sqrt : F -> F.
Hypothesis sq : square_root sqrt.
Add Ring Fr : (F_ring F).
Ltac fring := fold_ring F; ring.

(** The usual recursion over the columns. *)
Fixpoint factor n : 'M[F]_n -> 'M[F]_n :=
  match n with
  | 0 => fun M => M
  | k.+1 => fun M : 'M[F]_(1 + k) =>
    let a := M 0 0 in
    let b := dlsubmx M in
    block_mx (sqrt a)%:M 0 ((sqrt a)^-1 *: b) (factor (drsubmx M - a^-1 *: (b *m b^T)))
  end.
(** The decomposition: an error if there is none. *)
Definition cholesky n (M : 'M[F]_n) : res 'M[F]_n :=
  let L := factor M in if L *m L^T == M then Ok L else Err OtherError.

Lemma factor_lower n (M : 'M[F]_n) (i j : 'I_n) : (i < j)%N -> factor M i j = 0.
Proof.
  elim: n M i j => [|n IH] M i j; first by case: i.
  rewrite -[n.+1]/(1 + n)%N in M i j *; move=> ij /=.
  case: (splitP i) => i' Ei; case: (splitP j) => j' Ej.
  - by move: ij; rewrite Ei Ej !ord1.
  - have -> : i = lshift n i' by apply: val_inj.
    have -> : j = rshift 1 j' by apply: val_inj.
    by rewrite block_mxEur mxE.
  - by move: ij; rewrite Ei Ej !ord1.
  - have -> : i = rshift 1 i' by apply: val_inj.
    have -> : j = rshift 1 j' by apply: val_inj.
    by rewrite block_mxEdr; apply: IH; move: ij; rewrite Ei Ej ltn_add2l.
Qed.

Lemma factor_ok n (M : 'M[F]_n) : symmetric M -> posdef M -> factor M *m (factor M)^T = M.
Proof.
  elim: n M => [|n IH] M; first by move=> _ _; rewrite [LHS]flatmx0 [RHS]flatmx0.
  rewrite -[n.+1]/(1 + n)%N in M *; move=> sM pM.
  set a := M 0 0; set b : 'cV_n := dlsubmx M; set C := drsubmx M.
  have ulE : ulsubmx M = a%:M :> 'M_1.
    apply/matrixP => i j; rewrite !ord1 !mxE eqxx mulr1n /a; congr (M _ _); exact: val_inj.
  have urE : ursubmx M = b^T by rewrite /b trmx_dlsub sM.
  have sC : C^T = C by rewrite /C trmx_drsub sM.
  have ME : M = block_mx a%:M b^T b C by rewrite -[LHS]submxK ulE urE.
  have ap : 0 < a.
    have := pM (delta_mx 0 0); rewrite quad_delta; apply.
    apply/negP => /eqP /matrixP /(_ 0 0); rewrite !mxE !eqxx => /eqP; by rewrite oner_eq0.
  have [s0 sE] := sq (ltW ap).
  have sn0 : sqrt a != 0 by apply/negP => /eqP E; move: ap; rewrite -sE E expr0n ltxx.
  have an0 : a != 0 by rewrite lt0r_neq0.
  have pC : posdef (C - a^-1 *: (b *m b^T)).
    move=> x xn0.
    have := pM (col_mx (- (a^-1 *: (b^T *m x))) x).
    have -> : quad M (col_mx (- (a^-1 *: (b^T *m x))) x) = quad (C - a^-1 *: (b *m b^T)) x.
      set t : F := (b^T *m x) 0 0.
      have tE : b^T *m x = t%:M by rewrite [LHS]mx11_scalar.
      have tE' : x^T *m b = t%:M by rewrite -tE -[LHS]trmxK trmx_mul trmxK tE tr_scalar_mx.
      have uE : - (a^-1 *: (b^T *m x)) = (- (a^-1 * t))%:M :> 'M_1.
        by rewrite tE scale_scalar_mx raddfN.
      have e1 : quad a%:M (- (a^-1 * t))%:M = a^-1 * t ^+ 2.
        rewrite /quad tr_scalar_mx -!scalar_mxM mxE eqxx mulr1n.
        have -> : - (a^-1 * t) * a * - (a^-1 * t) = (a * a^-1) * (a^-1 * t ^+ 2) by rewrite expr2; fring.
        by rewrite divff // mul1r.
      have e2 : bil b x (- (a^-1 * t))%:M = - (a^-1 * t ^+ 2).
        by rewrite /bil tE' -scalar_mxM mxE eqxx mulr1n mulrN mulrCA expr2.
      have e3 : bil b^T (- (a^-1 * t))%:M x = - (a^-1 * t ^+ 2).
        by rewrite /bil -mulmxA tE tr_scalar_mx -scalar_mxM mxE eqxx mulr1n mulNr expr2 mulrA.
      have e4 : quad (C - a^-1 *: (b *m b^T)) x = quad C x - a^-1 * t ^+ 2.
        rewrite quad_D -scaleNr quad_Z mulNr; congr (_ - _ * _).
        by rewrite /quad mulmxA tE' -mulmxA tE -scalar_mxM mxE eqxx mulr1n expr2.
      rewrite uE ME quad_block e1 e2 e3 e4 subrr add0r; exact: addrC.
    apply; apply/negP => /eqP E; move: xn0; have := col_mxKd (- (a^-1 *: (b^T *m x))) x.
    by rewrite E linear0 => <-; rewrite eqxx.
  have sC' : symmetric (C - a^-1 *: (b *m b^T)).
    by rewrite /symmetric linearB linearZ /= trmx_mul trmxK sC.
  rewrite [in RHS]ME /= -/a -/b -/C tr_block_mx mulmx_block.
  rewrite tr_scalar_mx trmx0 mul0mx mulmx0 !addr0 IH //.
  congr block_mx.
  - by rewrite -scalar_mxM -expr2 sE.
  - rewrite mul0mx addr0 mul_scalar_mx linearZ /= scalerA divff //; exact: scale1r.
  - by rewrite mul_mx_scalar scalerA divff // scale1r.
  - rewrite linearZ /= -scalemxAr -scalemxAl scalerA -invfM -expr2 sE; by rewrite addrC subrK.
Qed.

Theorem cholesky_factors n : factors_all (@cholesky n).
Proof.
  split.
  - move=> M L; rewrite /cholesky; case: eqP => // E [<-]; split=> // i j; exact: factor_lower.
  - move=> M sM pM; exists (factor M); by rewrite /cholesky factor_ok // eqxx.
Qed.
End Chol.
