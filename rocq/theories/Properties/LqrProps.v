(** C43: linear quadratic control (utilities.py: lqr, dlqr).  Real numbers are
    the elements of any real field. *)
From mathcomp Require Import all_ssreflect all_algebra.
From Verif Require Import Prelude LqrModel LqrSpec LqrProofs.
Set Implicit Arguments.
Unset Strict Implicit.
Unset Printing Implicit Defensive.
Import Order.Theory GRing.Theory Num.Theory.
Local Open Scope ring_scope.

Section Statements.
Variable F : realFieldType.
Variables n m : nat.
Implicit Types (a q p : 'M[F]_n) (b : 'M[F]_(n, m)) (r : 'M[F]_m) (k : 'M[F]_(m, n)).

(** With u = -k x the cost to go of a state is the stage cost plus the cost to go
    of the next state. *)
Theorem C43_dlqr_cost_to_go (dare : riccati F n m) a b q r k p :
  dlqr dare a b q r = Ok (k, p) -> symmetric r -> symmetric p -> discrete_riccati a b q r p ->
  forall x, quad p x = stage q r x (- (k *m x)) + quad p (next a b x (- (k *m x))).
Proof. by move=> h sr sp e x; have [g e'] := dlqr_inv sp e h; rewrite greedy_step. Qed.

(** No input does better, and when r is positive definite every other input
    does worse. *)
Theorem C43_dlqr_optimal (dare : riccati F n m) a b q r k p :
  dlqr dare a b q r = Ok (k, p) -> symmetric r -> symmetric p -> psd r -> psd p ->
  discrete_riccati a b q r p ->
  (forall x u, quad p x <= stage q r x u + quad p (next a b x u)) /\
  (posdef r -> forall x u, u <> - (k *m x) ->
     quad p x < stage q r x u + quad p (next a b x u)).
Proof.
  move=> h sr sp pr pp e; have [g e'] := dlqr_inv sp e h; split.
    move=> x u; apply: (any_step sp sr g e') => y.
    by rewrite quad_D quad_conj addr_ge0.
  move=> rr x u ne; rewrite (complete_squares sp sr g e') ltr_addl quad_D quad_conj.
  apply: ltr_paddl => //; apply: rr; apply/eqP => z; apply: ne.
  by apply/eqP; rewrite -addr_eq0; apply/eqP.
Qed.

(** Over every horizon: the feedback costs the cost to go of the start minus the
    one of the final state; every input sequence costs at least this difference
    for its own final state. *)
Theorem C43_dlqr_every_horizon (dare : riccati F n m) a b q r k p :
  dlqr dare a b q r = Ok (k, p) -> symmetric r -> symmetric p -> psd r -> psd p ->
  discrete_riccati a b q r p ->
  forall x N,
    cost a b q r x (feedback a b k x) N + quad p (state_at a b x (feedback a b k x) N) = quad p x
    /\ forall us, quad p x <= cost a b q r x us N + quad p (state_at a b x us N).
Proof.
  move=> h sr sp pr pp e x N; have [g e'] := dlqr_inv sp e h; split.
    by rewrite loop_is_feedback; apply: (feedback_sequence _ _ sp sr g e').
  by move=> us; apply: (any_sequence sp sr g e') => y; rewrite quad_D quad_conj addr_ge0.
Qed.

(** So the feedback never costs more than x' p x in total, which no input sequence
    reaching the origin undercuts. *)
Theorem C43_dlqr_total_cost (dare : riccati F n m) a b q r k p :
  dlqr dare a b q r = Ok (k, p) -> symmetric r -> symmetric p -> psd r -> psd p ->
  discrete_riccati a b q r p ->
  forall x N,
    cost a b q r x (feedback a b k x) N <= quad p x /\
    forall us, state_at a b x us N = 0 -> quad p x <= cost a b q r x us N.
Proof.
  move=> h sr sp pr pp e x N.
  have [E O] := C43_dlqr_every_horizon h sr sp pr pp e x N; split.
    by rewrite -E ler_addl.
  by move=> us z; have := O us; rewrite z quad0 addr0.
Qed.

(** x' p x is a Lyapunov function of the closed loop: it decreases by at least
    x' q x per step, and strictly, down to 0 at the origin only, if q is positive
    definite. *)
Theorem C43_dlqr_lyapunov (dare : riccati F n m) a b q r k p :
  dlqr dare a b q r = Ok (k, p) -> symmetric r -> symmetric p -> psd r -> psd p ->
  discrete_riccati a b q r p ->
  (forall x, quad p ((a - b *m k) *m x) <= quad p x - quad q x) /\
  (posdef q -> posdef p /\ forall x, x <> 0 -> quad p ((a - b *m k) *m x) < quad p x).
Proof.
  move=> h sr sp pr pp e.
  have D x : quad p ((a - b *m k) *m x) <= quad p x - quad q x.
    rewrite (C43_dlqr_cost_to_go h sr sp e x) /stage addrAC [quad q x + _]addrC addrK.
    have -> : next a b x (- (k *m x)) = (a - b *m k) *m x.
      by rewrite /next mulmxBl mulmxN mulmxA.
    by rewrite ler_addr.
  split=> // pq; split=> [x x0|x /eqP x0].
    apply: lt_le_trans (pq _ x0) _; rewrite -subr_ge0; exact: le_trans (D x).
  by apply: le_lt_trans (D x) _; rewrite ltr_subl_addl ltr_addr; apply: pq.
Qed.

(** The call succeeds with the matrix of the Riccati solver whenever that is
    positive semi-definite and r is positive definite; errors are passed on. *)
Theorem C43_dlqr_result (dare : riccati F n m) a b q r :
  (forall p, dare a b q r = Ok p -> psd p -> posdef r -> exists k, dlqr dare a b q r = Ok (k, p)) /\
  (forall k p, dlqr dare a b q r = Ok (k, p) -> dare a b q r = Ok p) /\
  (forall err, dare a b q r = Err err -> dlqr dare a b q r = Err err) /\
  (forall p, dare a b q r = Ok p -> b^T *m p *m b + r \notin unitmx ->
     exists err, dlqr dare a b q r = Err err).
Proof.
  split; [|split; [|split]].
  - move=> p h pp pr; rewrite /dlqr h /= /np_solve posdef_unit; first by eexists.
    move=> x x0; rewrite quad_D quad_conj; exact: ltr_paddl (pr _ x0).
  - by move=> k p; rewrite /dlqr; case: (dare _ _ _ _) => //= p'; case: np_solve => //= k' [_ ->].
  - by move=> err h; rewrite /dlqr h.
  - by move=> p h s; rewrite /dlqr h /= /np_solve (negbTE s); eexists.
Qed.

(** Continuous time: along dx/dt = a x + b u the derivative of x' p x plus the
    stage cost is never negative, and zero exactly at u = -k x when r is positive
    definite. *)
Theorem C43_lqr_optimal (care : riccati F n m) a b q r k p :
  lqr care a b q r = Ok (k, p) -> symmetric r -> symmetric p -> psd r ->
  continuous_riccati a b q r p ->
  let rate x u := ((next a b x u)^T *m p *m x + x^T *m p *m next a b x u) 0 0 in
  (forall x, rate x (- (k *m x)) = - stage q r x (- (k *m x))) /\
  (forall x u, - stage q r x u <= rate x u) /\
  (posdef r -> forall x u, u <> - (k *m x) -> - stage q r x u < rate x u).
Proof.
  move=> h sr sp pr e rate; have [g e'] := lqr_inv sp e h.
  have H x u : stage q r x u + rate x u = quad r (u + k *m x) by apply: hjb.
  split; [|split].
  - move=> x; have := H x (- (k *m x)); rewrite addNr quad0 => z.
    by apply/eqP; rewrite -addr_eq0 addrC z.
  - by move=> x u; rewrite -subr_ge0 opprK addrC H.
  - move=> rr x u ne; rewrite -subr_gt0 opprK addrC H; apply: rr.
    by apply/eqP => z; apply: ne; apply/eqP; rewrite -addr_eq0; apply/eqP.
Qed.

Theorem C43_lqr_result (care : riccati F n m) a b q r :
  (forall p, care a b q r = Ok p -> posdef r -> exists k, lqr care a b q r = Ok (k, p)) /\
  (forall k p, lqr care a b q r = Ok (k, p) -> care a b q r = Ok p) /\
  (forall err, care a b q r = Err err -> lqr care a b q r = Err err).
Proof.
  split; [|split].
  - by move=> p h pr; rewrite /lqr h /= /np_solve posdef_unit //; eexists.
  - by move=> k p; rewrite /lqr; case: (care _ _ _ _) => //= p'; case: np_solve => //= k' [_ ->].
  - by move=> err h; rewrite /lqr h.
Qed.
End Statements.

(** The system x+ = x + u with q = 1, r = 2: p = 2, k = 1/2. *)
Definition c (x : rat) : 'M[rat]_1 := x%:M.
Definition solver (x : rat) : riccati [realFieldType of rat] 1 1 := fun _ _ _ _ => Ok (c x).

Lemma quad_c (x : rat) (v : 'cV[rat]_1) : quad (F := [realFieldType of rat]) (c x) v = x * (v 0 0) ^+ 2.
Proof. by rewrite /quad /c mul_mx_scalar -scalemxAl !mxE big_ord1 mxE expr2. Qed.
Lemma posdef_c (x : rat) : 0 < x -> posdef (F := [realFieldType of rat]) (c x).
Proof.
  move=> h v v0; rewrite quad_c mulr_gt0 // lt_def sqr_ge0 sqrf_eq0 andbT.
  by apply: contraNneq v0 => e; apply/eqP/matrixP => i j; rewrite !ord1 e mxE.
Qed.
Lemma tr_c x : (c x)^T = c x.
Proof. exact: tr_scalar_mx. Qed.
Lemma c_mul x y : c x *m c y = c (x * y).
Proof. by rewrite /c -scalar_mxM. Qed.
Lemma c_add x y : c x + c y = c (x + y).
Proof. by rewrite /c -raddfD. Qed.
Lemma c_opp x : - c x = c (- x).
Proof. by rewrite /c -raddfN. Qed.

Lemma c0 : c 0 = 0.
Proof. exact: raddf0. Qed.

Example C43_dlqr_ex : exists k,
  dlqr (solver 2%:R) (c 1) (c 1) (c 1) (c 2%:R) = Ok (k, c 2%:R) /\ k = c (1 / 2%:R) /\
  symmetric (F := [realFieldType of rat]) (c 2%:R) /\
  psd (F := [realFieldType of rat]) (c 2%:R) /\ posdef (F := [realFieldType of rat]) (c 1) /\
  discrete_riccati (F := [realFieldType of rat]) (c 1) (c 1) (c 1) (c 2%:R) (c 2%:R).
Proof.
  have U : c 4%:R \in unitmx by apply: (posdef_unit (F := [realFieldType of rat])); apply: posdef_c.
  have I : invmx (c 4%:R) = c (1 / 4%:R).
    by rewrite -[LHS]mulmx1 -(_ : c 4%:R *m c (1 / 4%:R) = 1%:M) ?mulmxA ?mulVmx ?mul1mx // c_mul.
  exists (c (1 / 2%:R)); split.
    rewrite /dlqr /solver /= tr_c !c_mul c_add.
    rewrite /np_solve (_ : 1 * 2%:R * 1 + 2%:R = 4%:R :> rat) // U I c_mul.
    by do 3 f_equal.
  split=> //; split; first exact: tr_c.
  split; first by apply: posdef_psd; apply: posdef_c.
  split; first exact: posdef_c.
  exists (c (1 / 4%:R)); split.
    by rewrite tr_c !c_mul c_add c_mul /c; f_equal.
  rewrite tr_c !c_mul !c_opp !c_add.
  by rewrite -c0; congr c.
Qed.

(** dx/dt = u with q = 4, r = 1: p = 2, k = 2. *)
Example C43_lqr_ex : exists k,
  lqr (solver 2%:R) (c 0) (c 1) (c 4%:R) (c 1) = Ok (k, c 2%:R) /\ k = c 2%:R /\
  symmetric (F := [realFieldType of rat]) (c 1) /\ symmetric (F := [realFieldType of rat]) (c 2%:R) /\
  posdef (F := [realFieldType of rat]) (c 1) /\
  continuous_riccati (F := [realFieldType of rat]) (c 0) (c 1) (c 4%:R) (c 1) (c 2%:R).
Proof.
  exists (c 2%:R); split.
    rewrite /lqr /solver /= tr_c c_mul /np_solve.
    rewrite (posdef_unit (F := [realFieldType of rat])) ?invmx1 ?mul1mx //; exact: posdef_c.
  split=> //; split; first exact: tr_c.
  split; first exact: tr_c.
  split; first exact: posdef_c.
  exists 1%:M; split; first by rewrite mul1mx.
  rewrite !tr_c -[1%:M]/(c 1) !c_mul !c_opp !c_add.
  by rewrite -c0; congr c.
Qed.

Print Assumptions C43_dlqr_cost_to_go.
Print Assumptions C43_dlqr_optimal.
Print Assumptions C43_dlqr_every_horizon.
Print Assumptions C43_dlqr_total_cost.
Print Assumptions C43_dlqr_lyapunov.
Print Assumptions C43_dlqr_result.
Print Assumptions C43_lqr_optimal.
Print Assumptions C43_lqr_result.
