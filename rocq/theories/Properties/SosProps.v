(** C95: the polynomial Lyapunov candidate of the learning example. *)
From Coq Require Import Reals List Bool Arith Lia Lra Psatz Sorting.Permutation Sorting.Sorted.
From Coquelicot Require Import Coquelicot.
From Verif Require Import Prelude DynModel ExUtilModel SosModel.
Import List ListNotations.
Local Open Scope R_scope.

(** A symmetric matrix with nine rows and columns. *)
Definition symmetric9 (Q : list (list R)) : Prop :=
  length Q = 9%nat /\ (forall r, In r Q -> length r = 9%nat) /\
  forall i j, nth j (nth i Q []) 0 = nth i (nth j Q []) 0.

Lemma monomials2 a b : monomials [a; b] 3 = Ok [a; b; a ^ 2; a * b; b ^ 2; a ^ 3; a ^ 2 * b; a * b ^ 2; b ^ 3].
Proof. reflexivity. Qed.

Lemma rows9 (r : list R) : length r = 9%nat -> exists a b c d e f g h i, r = [a; b; c; d; e; f; g; h; i].
Proof. intros H. do 9 (destruct r as [|? r]; [discriminate|]). destruct r; [|discriminate]. repeat eexists. Qed.

Definition sos_poly (q : nat -> nat -> R) (x y : R) : R :=
  let m := [x; y; x ^ 2; x * y; y ^ 2; x ^ 3; x ^ 2 * y; x * y ^ 2; y ^ 3] in
  dot (map (fun j => dot m (map (fun i => q i j) (seq 0 9))) (seq 0 9)) m.

Lemma sos_value Q a b sn : length Q = 9%nat -> (forall r, In r Q -> length r = 9%nat) ->
  lyapunov_sos sn [a; b] Q None = Ok (sos_poly (fun i j => nth j (nth i Q []) 0) a b).
Proof.
  intros L R. unfold lyapunov_sos. cbn [sos_denormalize bind]. rewrite monomials2. cbn [bind].
  unfold sos_linear_form. cbn [length]. rewrite L. cbn [Nat.eqb andb].
  replace (forallb _ Q) with true by (symmetry; apply forallb_forall; intros r Hr; apply Nat.eqb_eq, R; auto).
  cbn [bind]. f_equal. unfold sos_poly. do 9 (destruct Q as [|? Q]; [discriminate|]). destruct Q; [|discriminate].
  reflexivity.
Qed.

(** The derivative of the polynomial. *)
Definition sos_half (q : nat -> nat -> R) (a b : R) : R * R :=
  let m := [a; b; a ^ 2; a * b; b ^ 2; a ^ 3; a ^ 2 * b; a * b ^ 2; b ^ 3] in
  let lf := map (fun j => dot m (map (fun i => q i j) (seq 0 9))) (seq 0 9) in
  (dot lf [1; 0; 2 * a; b; 0; 3 * a ^ 2; 2 * a * b; b ^ 2; 0],
   dot lf [0; 1; 0; a; 2 * b; 0; a ^ 2; 2 * a * b; 3 * b ^ 2]).

Lemma sos_poly_derive q a b : (forall i j, q i j = q j i) ->
  is_derive (fun x => sos_poly q x b) a (2 * fst (sos_half q a b)) /\
  is_derive (fun y => sos_poly q a y) b (2 * snd (sos_half q a b)) /\
  forall s1 s2 t d1 d2, is_derive s1 t d1 -> is_derive s2 t d2 -> s1 t = a -> s2 t = b ->
    is_derive (fun t => sos_poly q (s1 t) (s2 t)) t (2 * (fst (sos_half q a b) * d1 + snd (sos_half q a b) * d2)).
Proof.
  intros SQ. unfold sos_poly, sos_half. cbn [seq map fst snd]. unfold dot. cbn [map2 fold_right].
  rewrite (SQ 1%nat 0%nat). rewrite (SQ 2%nat 0%nat). rewrite (SQ 2%nat 1%nat). rewrite (SQ 3%nat 0%nat). rewrite (SQ 3%nat 1%nat). rewrite (SQ 3%nat 2%nat). rewrite (SQ 4%nat 0%nat). rewrite (SQ 4%nat 1%nat). rewrite (SQ 4%nat 2%nat). rewrite (SQ 4%nat 3%nat). rewrite (SQ 5%nat 0%nat). rewrite (SQ 5%nat 1%nat). rewrite (SQ 5%nat 2%nat). rewrite (SQ 5%nat 3%nat). rewrite (SQ 5%nat 4%nat). rewrite (SQ 6%nat 0%nat). rewrite (SQ 6%nat 1%nat). rewrite (SQ 6%nat 2%nat). rewrite (SQ 6%nat 3%nat). rewrite (SQ 6%nat 4%nat). rewrite (SQ 6%nat 5%nat). rewrite (SQ 7%nat 0%nat). rewrite (SQ 7%nat 1%nat). rewrite (SQ 7%nat 2%nat). rewrite (SQ 7%nat 3%nat). rewrite (SQ 7%nat 4%nat). rewrite (SQ 7%nat 5%nat). rewrite (SQ 7%nat 6%nat). rewrite (SQ 8%nat 0%nat). rewrite (SQ 8%nat 1%nat). rewrite (SQ 8%nat 2%nat). rewrite (SQ 8%nat 3%nat). rewrite (SQ 8%nat 4%nat). rewrite (SQ 8%nat 5%nat). rewrite (SQ 8%nat 6%nat). rewrite (SQ 8%nat 7%nat).
  split; [|split].
  - auto_derive; auto; ring.
  - auto_derive; auto; ring.
  - intros s1 s2 t d1 d2 H1 H2 E1 E2.
    assert (ex_derive s1 t) by (now exists d1). assert (ex_derive s2 t) by (now exists d2).
    auto_derive; [repeat split; auto|]. 
    assert (D1 : Derive (fun x : R => s1 x) t = d1) by exact (is_derive_unique _ _ _ H1).
    assert (D2 : Derive (fun x : R => s2 x) t = d2) by exact (is_derive_unique _ _ _ H2).
    rewrite D1, D2, E1, E2. ring.
Qed.

Lemma sos_derivative_value Q a b sn : length Q = 9%nat -> (forall r, In r Q -> length r = 9%nat) ->
  let h := sos_half (fun i j => nth j (nth i Q []) 0) a b in
  lyapunov_sos_derivative sn [a; b] Q None = Ok [fst h; snd h].
Proof.
  intros L RW h. unfold h. unfold lyapunov_sos_derivative. cbn [sos_denormalize bind]. rewrite monomials2. cbn [bind].
  change (derivative_monomials [a; b] 3) with (Ok [[1; 0]; [0; 1]; [2 * a; 0]; [b; a]; [0; 2 * b];
    [3 * a ^ 2; 0]; [2 * a * b; a ^ 2]; [b ^ 2; 2 * a * b]; [0; 3 * b ^ 2]]). cbn [bind].
  unfold sos_linear_form. cbn [length]. rewrite L. cbn [Nat.eqb andb].
  replace (forallb _ Q) with true by (symmetry; apply forallb_forall; intros r Hr; apply Nat.eqb_eq, RW; auto).
  cbn [bind]. do 9 (destruct Q as [|? Q]; [discriminate|]). destruct Q; [|discriminate]. reflexivity.
Qed.

Lemma sos_derivative_norm sn x Q n : lyapunov_sos_derivative sn x Q (Some n) =
  do x' <- matmul_diag x sn; lyapunov_sos_derivative sn x' Q None.
Proof. reflexivity. Qed.

(** ** C95 *)

(** [lyapunov_sos_derivative] returns half the gradient of [lyapunov_sos]. *)
Theorem C95_half_gradient Q sn a b : symmetric9 Q ->
  exists v d0 d1, (forall x y, lyapunov_sos sn [x; y] Q None = Ok (v x y)) /\
    lyapunov_sos_derivative sn [a; b] Q None = Ok [d0; d1] /\
    is_derive (fun x => v x b) a (2 * d0) /\ is_derive (fun y => v a y) b (2 * d1).
Proof.
  intros (L & RW & SY). set (q := fun i j => nth j (nth i Q []) 0).
  exists (sos_poly q), (fst (sos_half q a b)), (snd (sos_half q a b)).
  split; [intros; now apply sos_value|]. split; [now apply sos_derivative_value|].
  split; apply (sos_poly_derive q a b SY).
Qed.

(** [dvdt] has the sign of the derivative along solutions of the differential
    equation: it is half of it. *)
Theorem C95_rate_along_solutions p Tx Tu Q x u d : pendulum_norm p = Some (Tx, Tu) -> symmetric9 Q ->
  sos_dvdt p x u Q = Ok d ->
  exists x' u' f v,
    denormalize (pendulum_norm p) x (Some u) = Ok (x', Some u') /\ pendulum_ode p x' u' = Ok f /\
    (forall y, length y = 2%nat -> lyapunov_sos Tx y Q None = Ok (v y)) /\
    forall (s1 s2 : R -> R) (t : R), [s1 t; s2 t] = x' -> is_derive s1 t (nth 0 f 0) -> is_derive s2 t (nth 1 f 0) ->
      is_derive (fun t => v [s1 t; s2 t]) t (2 * d).
Proof.
  intros EN (L & RW & SY) E. unfold sos_dvdt in E. rewrite EN in E.
  set (q := fun i j => nth j (nth i Q []) 0).
  rewrite sos_derivative_norm in E. unfold denormalize, rescale in *. cbn [fst snd] in *.
  destruct (matmul_diag x Tx) as [x'|] eqn:EX; [|discriminate]. cbn [bind] in *.
  destruct (lyapunov_sos_derivative Tx x' Q None) as [dv|] eqn:ED; [|discriminate]. cbn [bind] in E.
  destruct (matmul_diag u Tu) as [u'|] eqn:EU; [|discriminate]. cbn [bind fst snd] in *.
  destruct (pendulum_ode p x' u') as [f|] eqn:EF; [|discriminate]. cbn [bind] in E. injection E as <-.
  exists x', u', f, (fun y => sos_poly q (nth 0 y 0) (nth 1 y 0)).
  split; [rewrite EN; cbn [fst snd]; rewrite EX; cbn [bind]; rewrite EU; reflexivity|]. split; [exact EF|]. split.
  - intros [|y0 [|y1 [|]]] Hy; try discriminate. now apply sos_value.
  - intros s1 s2 t Ex H1 H2. cbn [nth]. subst x'.
    pose proof (sos_derivative_value Q (s1 t) (s2 t) Tx L RW) as DV. cbv zeta in DV. fold q in DV.
    assert (EV : dv = [fst (sos_half q (s1 t) (s2 t)); snd (sos_half q (s1 t) (s2 t))]) by congruence. rewrite EV.
    assert (LF : length f = 2%nat).
    { cbn [pendulum_ode] in EF. destruct u' as [|? [|]]; try discriminate. injection EF as <-. reflexivity. }
    destruct f as [|f0 [|f1 [|]]]; try discriminate. cbn [nth] in H1, H2.
    destruct (sos_poly_derive q (s1 t) (s2 t) SY) as (_ & _ & D).
    replace (dot _ [f0; f1]) with (fst (sos_half q (s1 t) (s2 t)) * f0 + snd (sos_half q (s1 t) (s2 t)) * f1)
      by (cbn [dot map2 fold_right]; unfold dot; cbn [map2 fold_right]; ring).
    now apply D.
Qed.

(** It is not the gradient. *)
Lemma sos_symmetric : symmetric9 sos_Q.
Proof.
  split; [reflexivity|]. split.
  - intros r Hr. cbn in Hr. repeat destruct Hr as [<-|Hr]; try reflexivity. destruct Hr.
  - intros i j. do 9 (destruct i as [|i]; [do 9 (destruct j as [|j]; [reflexivity|]); cbn; destruct j; reflexivity|]).
    do 9 (destruct j as [|j]; [cbn; destruct i; reflexivity|]). cbn. destruct i, j; reflexivity.
Qed.
Theorem C95_gradient_refuted sn : exists v d0 d1,
  (forall x y, lyapunov_sos sn [x; y] sos_Q None = Ok (v x y)) /\
  lyapunov_sos_derivative sn [1; 0] sos_Q None = Ok [d0; d1] /\
  ~ is_derive (fun x => v x 0) 1 d0.
Proof.
  destruct (C95_half_gradient sos_Q sn 1 0 sos_symmetric) as (v & d0 & d1 & V & D & H & _).
  exists v, d0, d1. split; [exact V|]. split; [exact D|]. intros H'.
  pose proof (is_derive_unique _ _ _ H) as U. pose proof (is_derive_unique _ _ _ H') as U'.
  assert (Z : d0 = 0) by lra. rewrite (sos_derivative_value sos_Q 1 0 sn) in D by apply sos_symmetric.
  injection D as E _. revert E. rewrite Z. unfold sos_half, dot, sos_Q. cbn [seq map fst map2 fold_right nth]. lra.
Qed.

(** The argument [norm] is only tested for [None]. *)
Theorem C95_norm_refuted sn x Q n1 n2 : lyapunov_sos sn x Q (Some n1) = lyapunov_sos sn x Q (Some n2) /\
  lyapunov_sos_derivative sn x Q (Some n1) = lyapunov_sos_derivative sn x Q (Some n2).
Proof. split; reflexivity. Qed.

(** The matrix of the example is not positive semidefinite ... *)
Theorem C95_matrix_refuted : exists z, length z = 9%nat /\
  dot (map (fun j => dot z (column_of sos_Q j)) (seq 0 9)) z < 0.
Proof.
  exists [1; -12; 0; 0; 0; 1; 7; -52; 10]. split; [reflexivity|].
  unfold dot, sos_Q. cbn [seq map column_of nth map2 fold_right]. lra.
Qed.

(** ... but the polynomial is positive definite. *)
Lemma sos_bound a b :
  let p2 := 4.09 * a ^ 2 + 0.1845 * (a * b) + 0.2055 * b ^ 2 in
  let p4 := 6.33 * a ^ 4 + 0.041082 * (a ^ 3 * b) + 0.6559 * (a ^ 2 * b ^ 2) - 0.1626 * (a * b ^ 3) + 0.11307 * b ^ 4 in
  let p6 := 5.913 * a ^ 6 + 0.427 * (a ^ 5 * b) + 0.5472 * (a ^ 4 * b ^ 2) + 0.036804 * (a ^ 3 * b ^ 3)
            + 0.05052 * (a ^ 2 * b ^ 4) + 0.04122 * (a * b ^ 5) + 0.01081 * b ^ 6 in
  / 5 * (a ^ 2 + b ^ 2) + 1e-3 * (a ^ 2 + b ^ 2) <= p2 /\
  1e-3 * (a ^ 4 + a ^ 2 * b ^ 2 + b ^ 4) <= p4 /\
  1e-4 * (a ^ 6 + a ^ 4 * b ^ 2 + a ^ 2 * b ^ 4 + b ^ 6) <= p6.
Proof.
  intros p2 p4 p6. unfold p2, p4, p6. split; [|split].
  - nra.
  - set (x := a ^ 2). set (y := a * b). set (z := b ^ 2).
    replace (a ^ 4) with (x * x) by (unfold x; ring). replace (a ^ 3 * b) with (x * y) by (unfold x, y; ring).
    replace (a * b ^ 3) with (y * z) by (unfold y, z; ring).
    replace (a ^ 2 * b ^ 2) with (y * y) by (unfold y; ring). replace (b ^ 4) with (z * z) by (unfold z; ring).
    assert (x * z = y * y) by (unfold x, y, z; ring). nra.
  - assert (G : forall x y z w : R, 1e-4 * (x ^ 2 + y ^ 2 + z ^ 2 + w ^ 2) <= 5.913 * x ^ 2 + 0.427 * (x * y)
      + 0.5472 * y ^ 2 + 0.036804 * (y * z) + 0.05052 * z ^ 2 + 0.04122 * (z * w) + 0.01081 * w ^ 2).
    { intros x y z w. pose proof (pow2_ge_0 (w + 1.93 * z)). pose proof (pow2_ge_0 (y + 0.05 * z)).
      pose proof (pow2_ge_0 (x + 0.04 * y)). pose proof (pow2_ge_0 x). pose proof (pow2_ge_0 y).
      pose proof (pow2_ge_0 z). pose proof (pow2_ge_0 w). lra. }
    specialize (G (a ^ 3) (a ^ 2 * b) (a * b ^ 2) (b ^ 3)). lra.
Qed.
Theorem C95_positive sn a b : exists v, lyapunov_sos sn [a; b] sos_Q None = Ok v /\ / 5 * (a ^ 2 + b ^ 2) <= v.
Proof.
  eexists. split; [apply sos_value; apply sos_symmetric|].
  destruct (sos_bound a b) as (H2 & H4 & H6). cbv zeta in *.
  unfold sos_poly, dot, sos_Q. cbn [seq map map2 fold_right nth].
  assert (O : forall s t, - (s ^ 2 + t ^ 2) <= 2 * (s * t) <= s ^ 2 + t ^ 2).
  { intros s t. pose proof (pow2_ge_0 (s + t)). pose proof (pow2_ge_0 (s - t)). lra. }
  pose proof (O a (a ^ 2)) as P1. pose proof (O a (a * b)) as P2. pose proof (O a (b ^ 2)) as P3. pose proof (O b (b ^ 2)) as P4.
  pose proof (O (a ^ 2) (a ^ 3)) as R1. pose proof (O (a ^ 2) (a ^ 2 * b)) as R2. pose proof (O (a ^ 2) (a * b ^ 2)) as R3.
  pose proof (O (a ^ 2) (b ^ 3)) as R4. pose proof (O (a * b) (b ^ 3)) as R5. pose proof (O (b ^ 2) (b ^ 3)) as R6.
  pose proof (pow2_ge_0 a). pose proof (pow2_ge_0 b). pose proof (pow2_ge_0 (a ^ 2)). pose proof (pow2_ge_0 (a * b)).
  pose proof (pow2_ge_0 (b ^ 2)). pose proof (pow2_ge_0 (a ^ 3)). pose proof (pow2_ge_0 (a ^ 2 * b)).
  pose proof (pow2_ge_0 (a * b ^ 2)). pose proof (pow2_ge_0 (b ^ 3)). clear O.
  lra.
Qed.

(** The level [cmax_sos].  [order] sorts the values. *)
Definition sorts (order : list nat) (values : list R) : Prop :=
  Permutation (seq 0 (length values)) order /\
  forall i j, (i <= j < length values)%nat -> nth (nth i order 0%nat) values 0 <= nth (nth j order 0%nat) values 0.

Lemma first_false_spec l : let k := if forallb (fun b => b) l then length l else first_false l in
  (k <= length l)%nat /\ (forall i, (i < k)%nat -> nth i l false = true) /\ (k = length l \/ nth k l true = false).
Proof.
  induction l as [|[] l IH]; cbn.
  - split; [lia|]. split; [intros; lia|auto].
  - destruct (forallb (fun b => b) l); destruct IH as (A & B & C).
    + split; [lia|]. split; [|auto]. intros [|i] Hi; [reflexivity|]. apply B. lia.
    + split; [lia|]. split; [intros [|i] Hi; [reflexivity|]; apply B; lia|]. destruct C as [C|C]; [left; lia|right; exact C].
  - split; [lia|]. split; [intros; lia|auto].
Qed.

Theorem C95_level order values dvdt : values <> [] -> length dvdt = length values -> sorts order values ->
  exists c k s, sos_level order values dvdt = Ok c /\
    (* the smallest value *)
    (s < length values)%nat /\ (forall i, (i < length values)%nat -> nth s values 0 <= nth i values 0) /\
    (* c is reached at the smallest value or at a state with negative rate *)
    (k < length values)%nat /\ c = nth k values 0 /\ (k = s \/ nth k dvdt 0 < 0) /\
    (* below c all rates are negative *)
    (forall i, (i < length values)%nat -> nth i values 0 < c -> i = s \/ nth i dvdt 0 < 0) /\
    (* and it is the largest such level *)
    ((forall i, (i < length values)%nat -> (i = s \/ nth i dvdt 0 < 0) /\ nth i values 0 <= c) \/
     exists j, (j < length values)%nat /\ j <> s /\ 0 <= nth j dvdt 0 /\ c <= nth j values 0 /\
       forall i, (i < length values)%nat -> c < nth i values 0 -> nth j values 0 <= nth i values 0).
Proof.
  intros NE LD (P & SO). set (n := length values) in *.
  assert (LN : length order = n) by (rewrite <- (Permutation_length P); apply seq_length).
  assert (N0 : (0 < n)%nat) by (unfold n; destruct values; [congruence|cbn; lia]).
  assert (ND : NoDup order) by (apply (Permutation_NoDup P), seq_NoDup).
  assert (IN : forall i, (i < n)%nat -> (nth i order 0 < n)%nat).
  { intros i Hi. assert (In (nth i order 0%nat) (seq 0 n)) by (apply (Permutation_in _ (Permutation_sym P)), nth_In; lia).
    apply in_seq in H. lia. }
  assert (SUR : forall i, (i < n)%nat -> exists r, (r < n)%nat /\ nth r order 0%nat = i).
  { intros i Hi. assert (I : In i order) by (apply (Permutation_in _ P), in_seq; lia).
    destruct (In_nth _ _ 0%nat I) as (r & Hr & E). exists r. split; [lia|exact E]. }
  unfold sos_level. set (cert := map _ (tl order)).
  assert (LC : length cert = (n - 1)%nat) by (unfold cert; rewrite map_length; destruct order; cbn in *; lia).
  assert (NC : forall i, (i < n - 1)%nat -> forall b, nth i cert b = if Rlt_dec (nth (nth (S i) order 0%nat) dvdt 0) 0 then true else false).
  { intros i Hi b. unfold cert. destruct order as [|o0 order']; [cbn in LN; lia|]. cbn [tl nth].
    set (f := fun i => _). rewrite (nth_indep _ b (f 0%nat)) by (rewrite map_length; cbn in LN; lia). rewrite map_nth. reflexivity. }
  destruct (first_false_spec cert) as (K1 & K2 & K3). cbv zeta in K1, K2, K3.
  set (K := if forallb (fun b => b) cert then length cert else first_false cert) in *.
  replace ((if forallb (fun b => b) cert then length cert + 1 else first_false cert + 1) - 1)%nat with K
    by (unfold K; destruct (forallb _ cert); lia).
  rewrite (nth_error_nth' order 0%nat) by lia.
  exists (nth (nth K order 0%nat) values 0), (nth K order 0%nat), (nth 0 order 0%nat).
  assert (CERT : forall r, (1 <= r <= K)%nat -> nth (nth r order 0%nat) dvdt 0 < 0).
  { intros [|r] Hr; [lia|]. specialize (K2 r ltac:(lia)). rewrite NC in K2 by lia.
    destruct (Rlt_dec _ 0); [auto|discriminate]. }
  split; [reflexivity|]. split; [apply IN; lia|]. split.
  { intros i Hi. destruct (SUR i Hi) as (r & Hr & <-). apply SO. lia. }
  split; [apply IN; lia|]. split; [reflexivity|]. split.
  { destruct K as [|k]; [now left|right]. apply CERT. lia. }
  split.
  { intros i Hi Hlt. destruct (SUR i Hi) as (r & Hr & <-).
    destruct (le_lt_dec r K) as [H|H].
    - destruct r; [now left|right]. apply CERT. lia.
    - exfalso. pose proof (SO K r ltac:(lia)). lra. }
  destruct K3 as [K3|K3].
  - left. intros i Hi. destruct (SUR i Hi) as (r & Hr & <-). split.
    + destruct r; [now left|right]. apply CERT. lia.
    + apply SO. lia.
  - destruct (Nat.eq_dec K (length cert)) as [E|E].
    + left. intros i Hi. destruct (SUR i Hi) as (r & Hr & <-). split.
      * destruct r; [now left|right]. apply CERT. lia.
      * apply SO. lia.
    + right. assert (HK : (K < n - 1)%nat) by lia. rewrite NC in K3 by lia.
      destruct (Rlt_dec (nth (nth (S K) order 0%nat) dvdt 0) 0) as [|NG]; [discriminate|].
      exists (nth (S K) order 0%nat). split; [apply IN; lia|]. split.
      { intros X. apply (proj1 (NoDup_nth order 0%nat) ND) in X; lia. }
      split; [lra|]. split; [apply SO; lia|].
      intros i Hi Hlt. destruct (SUR i Hi) as (r & Hr & <-). apply SO. split; [|lia].
      destruct (le_lt_dec r K) as [H|H]; [|lia]. pose proof (SO r K ltac:(lia)). lra.
Qed.

(** The region of the plot, [values_sos <= cmax_sos], can contain a state at which
    the function does not decrease. *)
Theorem C95_region_refuted : exists order values dvdt c i,
  values <> [] /\ length dvdt = length values /\ sorts order values /\
  sos_level order values dvdt = Ok c /\ (i < length values)%nat /\
  nth i values 0 <= c /\ 0 < nth i values 0 /\ 0 < nth i dvdt 0.
Proof.
  exists [0; 1; 2]%nat, [0; 1; 1], [0; -1; 1], 1, 2%nat. split; [discriminate|]. split; [reflexivity|]. split.
  { split; [apply Permutation_refl|]. intros [|[|[|i]]] [|[|[|j]]] H; cbn in H |- *; try lia; lra. }
  split.
  { unfold sos_level. cbn [tl map nth]. destruct (Rlt_dec (-1) 0); [|lra]. destruct (Rlt_dec 1 0); [lra|]. reflexivity. }
  cbn [nth length]. repeat split; try lia; lra.
Qed.

Example C95_ex : sos_level [1; 0; 2; 3]%nat [1; 0; 2; 3] [-1; 0; -2; 5] = Ok 2 /\ sorts [1; 0; 2; 3]%nat [1; 0; 2; 3].
Proof.
  split.
  - unfold sos_level. cbn [tl map nth]. destruct (Rlt_dec (-1) 0); [|lra]. destruct (Rlt_dec (-2) 0); [|lra].
    destruct (Rlt_dec 5 0); [lra|]. reflexivity.
  - split; [apply perm_swap|]. intros [|[|[|[|i]]]] [|[|[|[|j]]]] H; cbn in H |- *; try lia; lra.
Qed.

(** The hypotheses of [C95_rate_along_solutions] hold for a pendulum and the matrix of
    the example. *)
Example C95_rate_ex : symmetric9 sos_Q /\
  exists d, sos_dvdt {| mass := 1; arm := 1; friction := 0; pendulum_dt := 1; pendulum_norm := Some ([2; 3], [4]) |}
                     [1; 0] [0] sos_Q = Ok d.
Proof. split; [exact sos_symmetric|]. eexists. reflexivity. Qed.
