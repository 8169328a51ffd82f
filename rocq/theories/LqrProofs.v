(** Linear quadratic control: proofs. *)
From mathcomp Require Import all_ssreflect all_algebra.
From Verif Require Import Prelude MxRing LqrModel LqrSpec.
Set Implicit Arguments.
Unset Strict Implicit.
Unset Printing Implicit Defensive.
Import Order.Theory GRing.Theory Num.Theory.
Local Open Scope ring_scope.

Lemma zmod_solve (V : zmodType) (X p Y q : V) : X - p - Y + q = 0 -> q + X - Y = p.
Proof.
  move=> e; apply/eqP; rewrite -subr_eq0 -e; apply/eqP.
  by rewrite [q + X]addrC (addrAC _ (- Y)) (addrAC X) (addrAC _ q).
Qed.

Section Proofs.
Variable F : realFieldType.
Add Ring Fr : (F_ring F).
Ltac fring := fold_ring F; ring.
Definition bil n k (A : 'M[F]_(n, k)) (x : 'cV[F]_n) (y : 'cV[F]_k) : F := (x^T *m A *m y) 0 0.

Lemma bil_Dl n k (A : 'M_(n, k)) x x' y : bil A (x + x') y = bil A x y + bil A x' y.
Proof. by rewrite /bil linearD /= !mulmxDl mxE. Qed.
Lemma bil_Dr n k (A : 'M_(n, k)) x y y' : bil A x (y + y') = bil A x y + bil A x y'.
Proof. by rewrite /bil mulmxDr mxE. Qed.
Lemma bil_DA n k (A B : 'M_(n, k)) x y : bil (A + B) x y = bil A x y + bil B x y.
Proof. by rewrite /bil mulmxDr mulmxDl mxE. Qed.
Lemma bil_NA n k (A : 'M_(n, k)) x y : bil (- A) x y = - bil A x y.
Proof. by rewrite /bil mulmxN mulNmx mxE. Qed.
Lemma bil_Nl n k (A : 'M_(n, k)) x y : bil A (- x) y = - bil A x y.
Proof. by rewrite /bil linearN /= !mulNmx mxE. Qed.
Lemma bil_Nr n k (A : 'M_(n, k)) x y : bil A x (- y) = - bil A x y.
Proof. by rewrite /bil mulmxN mxE. Qed.
Lemma bil_T n k (A : 'M_(n, k)) x y : bil A x y = bil A^T y x.
Proof.
  rewrite /bil; transitivity ((x^T *m A *m y)^T 0 0); first by rewrite [RHS]mxE.
  by rewrite !trmx_mul trmxK mulmxA.
Qed.
Lemma bil_mulr n k l (A : 'M_(n, k)) (B : 'M_(k, l)) x y : bil A x (B *m y) = bil (A *m B) x y.
Proof. by rewrite /bil !mulmxA. Qed.
Lemma bil_mull n k l (A : 'M_(n, k)) (B : 'M_(n, l)) x y : bil A (B *m x) y = bil (B^T *m A) x y.
Proof. by rewrite /bil trmx_mul !mulmxA. Qed.
Lemma quadE n (A : 'M_n) x : quad A x = bil A x x.
Proof. by []. Qed.

Lemma quad0 n (A : 'M[F]_n) : quad A 0 = 0.
Proof. by rewrite /quad mulmx0 mxE. Qed.

Section Discrete.
Variables n m : nat.
Variables (a : 'M[F]_n) (b : 'M[F]_(n, m)) (q p : 'M[F]_n) (r : 'M[F]_m) (k : 'M[F]_(m, n)).
Hypothesis (sp : symmetric p) (sr : symmetric r).
Hypothesis gain : (b^T *m p *m b + r) *m k = b^T *m p *m a.
Hypothesis are : q + a^T *m p *m a - (a^T *m p *m b) *m k = p.

Lemma complete_squares x u :
  stage q r x u + quad p (next a b x u) =
  quad p x + quad (b^T *m p *m b + r) (u + k *m x).
Proof.
  set M := b^T *m p *m b + r.
  have sM : M^T = M by rewrite /M linearD /= !trmx_mul trmxK sp sr mulmxA.
  have kM : k^T *m M = a^T *m p *m b.
    by rewrite -[M]sM -trmx_mul gain !trmx_mul trmxK sp mulmxA.
  have -> : quad p x = quad q x + bil (a^T *m p *m a) x x - bil (a^T *m p *m b *m k) x x.
    by rewrite -{1}are /quad -!/(bil _ _ _) !bil_DA bil_NA.
  rewrite /stage /next !quadE !(bil_Dl, bil_Dr) !bil_mull !bil_mulr kM gain.
  rewrite /M !bil_DA.
  rewrite (bil_T (b^T *m p *m a)) !trmx_mul trmxK sp mulmxA.
  set c1 := bil (a^T *m p *m a) x x; set c2 := bil (a^T *m p *m b) x u.
  set c3 := bil (b^T *m p *m b) u u; set c4 := bil (a^T *m p *m b *m k) x x.
  fring.
Qed.

Lemma greedy_step x : stage q r x (- (k *m x)) + quad p (next a b x (- (k *m x))) = quad p x.
Proof. by rewrite complete_squares addNr quad0 addr0. Qed.

Hypothesis pM : psd (b^T *m p *m b + r).

Lemma any_step x u : quad p x <= stage q r x u + quad p (next a b x u).
Proof. by rewrite complete_squares ler_addl; apply: pM. Qed.

Lemma any_sequence x us N : quad p x <= cost a b q r x us N + quad p (state_at a b x us N).
Proof.
  elim: N => [|N IH] /=; first by rewrite add0r.
  apply: (le_trans IH); rewrite -addrA ler_add2l; exact: any_step.
Qed.
End Discrete.

Lemma loop_is_feedback n m (a : 'M[F]_n) (b : 'M[F]_(n, m)) (k : 'M[F]_(m, n)) x N :
  state_at a b x (feedback a b k x) N = loop a b k x N.
Proof. by elim: N => //= N ->. Qed.

Lemma feedback_sequence n m (a : 'M[F]_n) (b : 'M[F]_(n, m)) q p r k x N :
  symmetric p -> symmetric r ->
  (b^T *m p *m b + r) *m k = b^T *m p *m a ->
  q + a^T *m p *m a - (a^T *m p *m b) *m k = p ->
  cost a b q r x (feedback a b k x) N + quad p (loop a b k x N) = quad p x.
Proof.
  move=> sp sr g e; elim: N => [|N IH] /=; first by rewrite add0r.
  rewrite -addrA loop_is_feedback greedy_step //.
Qed.

Lemma posdef_psd n (M : 'M[F]_n) : posdef M -> psd M.
Proof.
  move=> h x; case: (eqVneq x 0) => [->|/h /ltW //].
  by rewrite quad0.
Qed.

Lemma quad_D n (A B : 'M[F]_n) x : quad (A + B) x = quad A x + quad B x.
Proof. by rewrite !quadE bil_DA. Qed.
Lemma quad_conj n m (A : 'M[F]_n) (b : 'M[F]_(n, m)) x : quad (b^T *m A *m b) x = quad A (b *m x).
Proof. by rewrite /quad trmx_mul !mulmxA. Qed.

Lemma posdef_unit n (M : 'M[F]_n) : posdef M -> M \in unitmx.
Proof.
  move=> h; rewrite -row_free_unit -kermx_eq0; apply/negPn/negP => /rowV0Pn [v].
  move=> /sub_kermxP vM v0; have: 0 < quad M v^T.
    by apply: h; apply: contraNneq v0 => e; rewrite -[v]trmxK e linear0.
  by rewrite /quad trmxK vM mul0mx mxE ltxx.
Qed.

Lemma left_unit n (s M : 'M[F]_n) : s *m M = 1%:M -> M \in unitmx /\ s = invmx M.
Proof.
  move=> h; have u : M \in unitmx by case: (mulmx1_unit h).
  by split=> //; rewrite -[s]mulmx1 -(mulmxV u) mulmxA h mul1mx.
Qed.

Lemma dlqr_inv n m (dare : riccati F n m) a b q r k p : symmetric p -> discrete_riccati a b q r p ->
  dlqr dare a b q r = Ok (k, p) ->
  (b^T *m p *m b + r) *m k = b^T *m p *m a /\ q + a^T *m p *m a - (a^T *m p *m b) *m k = p.
Proof.
  move=> sp [s [hs e]]; rewrite /dlqr /bind; case: (dare a b q r) => // p'.
  rewrite /np_solve; case: ifP => // u [kE pE]; subst p'.
  have [_ sE] := left_unit hs.
  rewrite -kE; split; first by rewrite mulmxA mulmxV // mul1mx.
  rewrite mulmxA; move: e; rewrite sE [r + _]addrC => /zmod_solve; exact.
Qed.

Lemma lqr_inv n m (care : riccati F n m) a b q r k p : symmetric p -> continuous_riccati a b q r p ->
  lqr care a b q r = Ok (k, p) ->
  r *m k = b^T *m p /\ q + (p *m a + a^T *m p) - p *m b *m k = 0.
Proof.
  move=> sp [s [hs e]]; rewrite /lqr /bind; case: (care a b q r) => // p'.
  rewrite /np_solve; case: ifP => // u [kE pE]; subst p'.
  have [_ sE] := left_unit hs.
  rewrite -kE; split; first by rewrite mulmxA mulmxV // mul1mx.
  by move: e; rewrite sE -!mulmxA [_ + q]addrC addrA.
Qed.

Lemma hjb n m (a : 'M[F]_n) (b : 'M[F]_(n, m)) q p r k x u : symmetric p -> symmetric r ->
  r *m k = b^T *m p -> q + (p *m a + a^T *m p) - p *m b *m k = 0 ->
  stage q r x u + ((next a b x u)^T *m p *m x + x^T *m p *m next a b x u) 0 0 =
  quad r (u + k *m x).
Proof.
  move=> sp sr g e.
  have kr : k^T *m r = p *m b by rewrite -[r]sr -trmx_mul g trmx_mul trmxK sp.
  have E : bil q x x + (bil (p *m a) x x + bil (a^T *m p) x x) - bil (p *m b *m k) x x = 0.
    by rewrite -bil_NA -!bil_DA e /bil mulmx0 mul0mx mxE.
  rewrite mxE -!/(bil _ _ _) /stage /next !quadE !(bil_Dl, bil_Dr) !bil_mull !bil_mulr kr g.
  rewrite (bil_T (b^T *m p)) trmx_mul trmxK sp.
  move: E; set c1 := bil q x x; set c2 := bil (p *m a) x x; set c3 := bil (a^T *m p) x x.
  set c4 := bil (p *m b *m k) x x; set c5 := bil (p *m b) x u => E.
  rewrite -[RHS]addr0 -E; fring.
Qed.
End Proofs.
