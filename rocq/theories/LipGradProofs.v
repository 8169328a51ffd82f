(** The gradient of the Lipschitz constant of networks: proofs. *)
From Coq Require Import Reals List Bool Arith Lia Lra Psatz.
From Coquelicot Require Import Coquelicot.
From Verif Require Import Prelude FunModel QuadModel QuadProofs NNModel NNSpec NNProofs AutoNetSpec AutoNetProofs2 LipGradModel LipGradSpec.
Import ListNotations.
Local Open Scope R_scope.

Definition dot (n : nat) (x y : nat -> R) : R := rsum n (fun i => x i * y i).
(** x' A y *)
Definition bil (A : tensor) (x y : nat -> R) : R := rsum (rows A) (fun i => rsum (cols A) (fun j => x i * entry A i j * y j)).
Definition column (U : tensor) (k : nat) : nat -> R := fun i => entry U i k.

Lemma bil_moved A B z x y : same_shape A B -> bil (moved z A B) x y = bil A x y + z * bil B x y.
Proof.
  intros [r c]. unfold bil. cbn [moved rows cols entry]. rewrite <- r, <- c, <- rsum_scal, <- rsum_plus. apply rsum_ext. intros i _.
  rewrite <- rsum_scal, <- rsum_plus. apply rsum_ext. intros j _. ring.
Qed.
Lemma bil_opp A x y : bil A (fun i => - x i) (fun j => - y j) = bil A x y.
Proof. unfold bil. apply rsum_ext. intros i _. apply rsum_ext. intros j _. ring. Qed.
Lemma bil_diff_l A x u y : bil A (fun i => x i - u i) y = bil A x y - bil A u y.
Proof.
  replace (bil A x y - bil A u y) with (bil A x y + -1 * bil A u y) by ring. unfold bil. rewrite <- rsum_scal, <- rsum_plus. apply rsum_ext. intros i _.
  rewrite <- rsum_scal, <- rsum_plus. apply rsum_ext. intros j _. ring.
Qed.
Lemma bil_diff_r A x y v : bil A x (fun j => y j - v j) = bil A x y - bil A x v.
Proof.
  replace (bil A x y - bil A x v) with (bil A x y + -1 * bil A x v) by ring. unfold bil. rewrite <- rsum_scal, <- rsum_plus. apply rsum_ext. intros i _.
  rewrite <- rsum_scal, <- rsum_plus. apply rsum_ext. intros j _. ring.
Qed.
Lemma dot_diff n x u : dot n (fun i => x i - u i) (fun i => x i - u i) = dot n x x + dot n u u - 2 * dot n x u.
Proof.
  replace (dot n x x + dot n u u - 2 * dot n x u) with (dot n x x + (dot n u u + -2 * dot n x u)) by ring.
  unfold dot. rewrite <- rsum_scal, <- !rsum_plus. apply rsum_ext. intros; ring.
Qed.
Lemma dot_opp n x y : dot n (fun i => - x i) y = - dot n x y.
Proof. unfold dot. replace (- rsum n (fun i => x i * y i)) with (-1 * rsum n (fun i => x i * y i)) by ring. rewrite <- rsum_scal. apply rsum_ext. intros; ring. Qed.
Lemma dot_opp2 n x : dot n (fun i => - x i) (fun i => - x i) = dot n x x.
Proof. unfold dot. apply rsum_ext. intros; ring. Qed.
Lemma dot_pos n x : 0 <= dot n x x.
Proof. apply rsum_nonneg. intros. nra. Qed.

(** z d'By is at most c |d|^2 |y|^2 + z^2 F / (4 c). *)
Definition frob (B : tensor) : R := rsum (rows B) (fun i => rsum (cols B) (fun j => entry B i j * entry B i j)).
Lemma bil_amgm B z c x y : 0 < c -> z * bil B x y <= c * (dot (rows B) x x * dot (cols B) y y) + z * z * frob B / (4 * c).
Proof.
  intros Hc. unfold bil, dot, frob. rewrite rsum_mul.
  replace (z * z * rsum (rows B) (fun i => rsum (cols B) (fun j => entry B i j * entry B i j)) / (4 * c))
    with (z * z / (4 * c) * rsum (rows B) (fun i => rsum (cols B) (fun j => entry B i j * entry B i j))) by (field; lra).
  rewrite <- !rsum_scal, <- rsum_plus. apply rsum_le. intros i _. rewrite <- !rsum_scal, <- rsum_plus. apply rsum_le. intros j _.
  assert (Q : 0 <= c * Rsqr (x i * y j - z * entry B i j / (2 * c))) by (apply Rmult_le_pos; [lra|apply Rle_0_sqr]).
  unfold Rsqr in Q. replace (c * ((x i * y j - z * entry B i j / (2 * c)) * (x i * y j - z * entry B i j / (2 * c))))
    with (c * (x i * x i * (y j * y j)) + z * z / (4 * c) * (entry B i j * entry B i j) - z * (x i * entry B i j * y j)) in Q by (field; lra). lra.
Qed.

Lemma term_le c M a b : 0 <= c -> c <= M -> c * a * b <= M / 2 * (Rsqr a + Rsqr b).
Proof.
  intros H1 H2. unfold Rsqr. assert (0 <= (a - b) * (a - b)) by apply Rle_0_sqr. assert (0 <= a * a) by apply Rle_0_sqr. assert (0 <= b * b) by apply Rle_0_sqr.
  apply Rle_trans with (c / 2 * (a * a + b * b)); [|apply Rmult_le_compat_r; lra].
  assert (0 <= c / 2 * ((a - b) * (a - b))) by (apply Rmult_le_pos; lra). lra.
Qed.

Lemma gap_arith S m a b : 0 < m -> m <= S -> 0 <= a -> a * a <= 1 -> b * b <= 1 ->
  S * a * b - (S - m) / 2 * (a * a + b * b) + (S - m) <= S - m / 6 * (1 + 1 - 2 * a + (1 + 1 - 2 * b)).
Proof.
  intros Hm Hs Ha A2 B2. assert (A1 : a <= 1) by nra. assert (B1 : -1 <= b <= 1) by (split; nra). destruct (Rle_dec 0 b) as [Hb|Hb].
  - assert (0 <= (1 - a) * (1 + 3 * a)) by (apply Rmult_le_pos; lra). assert (0 <= (1 - b) * (1 + 3 * b)) by (apply Rmult_le_pos; lra).
    assert (0 <= m * ((1 - a) * (1 + 3 * a) + (1 - b) * (1 + 3 * b))) by (apply Rmult_le_pos; lra).
    assert (0 <= S / 2 * ((a - b) * (a - b))) by (apply Rmult_le_pos; [lra|apply Rle_0_sqr]). lra.
  - assert (0 <= S * (a * - b)) by (apply Rmult_le_pos; [lra|apply Rmult_le_pos; lra]).
    assert (0 <= (S - m) / 2 * (a * a + b * b)) by (apply Rmult_le_pos; [lra|nra]).
    assert (0 <= m * (2 + 2 * a + 2 * b)) by (apply Rmult_le_pos; lra). lra.
Qed.

(** ** One decomposition *)
Section Decomposition.
Variables (A U V : tensor) (s : nat -> R).
Hypothesis SV : is_svd A (s, U, V).
Let r := Nat.min (rows A) (cols A).

Lemma bil_svd x y : bil A x y = rsum r (fun l => s l * dot (rows A) x (column U l) * dot (cols A) y (column V l)).
Proof using SV.
  destruct SV as (oU & oV & nn & e). fold r in e. unfold bil.
  rewrite (rsum_ext (rows A) _ (fun i => rsum r (fun l => s l * (x i * entry U i l) * dot (cols A) y (column V l)))).
  - rewrite rsum_swap. apply rsum_ext. intros l _. unfold dot, column. rewrite !(Rmult_comm (s l)), !Rmult_assoc.
    rewrite (Rmult_comm (rsum (rows A) _)), <- rsum_scal. apply rsum_ext. intros; ring.
  - intros i Hi. rewrite (rsum_ext (cols A) _ (fun j => rsum r (fun l => (s l * (x i * entry U i l)) * (y j * entry V j l)))).
    + rewrite rsum_swap. apply rsum_ext. intros l _. rewrite rsum_scal. reflexivity.
    + intros j Hj. rewrite e by auto. replace (x i * rsum r (fun k => entry U i k * s k * entry V j k) * y j) with (x i * y j * rsum r (fun k => entry U i k * s k * entry V j k)) by ring.
      rewrite <- rsum_scal. apply rsum_ext. intros; ring.
Qed.
Lemma unit_u k : (k < r)%nat -> dot (rows A) (column U k) (column U k) = 1.
Proof using SV. destruct SV as (oU & _). intros Hk. unfold dot, column. rewrite oU by auto. now rewrite Nat.eqb_refl. Qed.
Lemma unit_v k : (k < r)%nat -> dot (cols A) (column V k) (column V k) = 1.
Proof using SV. destruct SV as (_ & oV & _). intros Hk. unfold dot, column. rewrite oV by auto. now rewrite Nat.eqb_refl. Qed.
Lemma bil_top k : (k < r)%nat -> bil A (column U k) (column V k) = s k.
Proof using SV.
  intros Hk. rewrite bil_svd. destruct SV as (oU & oV & _).
  rewrite (rsum_ext r _ (fun l => s l * (if Nat.eqb k l then 1 else 0))).
  - now apply (rsum_delta r s).
  - intros l Hl. unfold dot, column. rewrite oU, oV by auto. destruct (Nat.eqb k l); ring.
Qed.
Lemma bessel_u x : rsum r (fun l => Rsqr (dot (rows A) x (column U l))) <= dot (rows A) x x.
Proof using SV. destruct SV as (oU & _). apply (bessel r (rows A) U x oU). Qed.
Lemma bessel_v y : rsum r (fun l => Rsqr (dot (cols A) y (column V l))) <= dot (cols A) y y.
Proof using SV. destruct SV as (_ & oV & _). apply (bessel r (cols A) V y oV). Qed.

(** The largest stretch *)
Lemma bil_le M x y : (forall l, (l < r)%nat -> s l <= M) -> dot (rows A) x x = 1 -> dot (cols A) y y = 1 -> 0 <= M -> bil A x y <= M.
Proof using SV.
  intros top Hx Hy HM. rewrite bil_svd. pose proof (bessel_u x) as B1. pose proof (bessel_v y) as B2. rewrite Hx in B1. rewrite Hy in B2.
  apply Rle_trans with (rsum r (fun l => M / 2 * (Rsqr (dot (rows A) x (column U l)) + Rsqr (dot (cols A) y (column V l))))).
  - apply rsum_le. intros l Hl. destruct SV as (_ & _ & nn & _). fold r in nn. specialize (nn l Hl). specialize (top l Hl). now apply term_le.
  - rewrite rsum_scal, rsum_plus. nra.
Qed.
(** Away from the top singular vectors the stretch is smaller. *)
Lemma bil_gap k m x y : (k < r)%nat -> 0 < m -> m <= s k -> (forall l, (l < r)%nat -> l <> k -> s l <= s k - m) ->
  dot (rows A) x x = 1 -> dot (cols A) y y = 1 -> 0 <= dot (rows A) x (column U k) ->
  bil A x y <= s k - m / 6 * (dot (rows A) (fun i => x i - column U k i) (fun i => x i - column U k i) + dot (cols A) (fun j => y j - column V k j) (fun j => y j - column V k j)).
Proof using SV.
  intros Hk Hm Hs gap Hx Hy Ha. rewrite !dot_diff, Hx, Hy, (unit_u k), (unit_v k) by auto.
  pose proof (bessel_u x) as B1. pose proof (bessel_v y) as B2. rewrite Hx in B1. rewrite Hy in B2. rewrite bil_svd.
  set (a := dot (rows A) x (column U k)) in *. set (b := dot (cols A) y (column V k)).
  assert (S : rsum r (fun l => s l * dot (rows A) x (column U l) * dot (cols A) y (column V l)) <=
     rsum r (fun l => (s k - m) / 2 * (Rsqr (dot (rows A) x (column U l)) + Rsqr (dot (cols A) y (column V l))) +
       (s k * a * b - (s k - m) / 2 * (Rsqr a + Rsqr b)) * (if Nat.eqb k l then 1 else 0))).
  { apply rsum_le. intros l Hl. destruct (Nat.eqb_spec k l) as [<-|ne].
    - fold a b. lra.
    - rewrite Rmult_0_r, Rplus_0_r. destruct SV as (_ & _ & nn & _). fold r in nn. specialize (nn l Hl). specialize (gap l Hl ltac:(auto)). now apply term_le. }
  rewrite rsum_plus, rsum_scal, rsum_plus, (rsum_delta r (fun _ => _)) in S by auto.
  assert (A2 : Rsqr a <= 1).
  { eapply Rle_trans; [|exact B1]. unfold a. rewrite <- (rsum_delta r (fun l => Rsqr (dot (rows A) x (column U l))) k Hk). apply rsum_le. intros l _.
    pose proof (Rle_0_sqr (dot (rows A) x (column U l))). destruct (Nat.eqb k l); lra. }
  assert (A3 : Rsqr b <= 1).
  { eapply Rle_trans; [|exact B2]. unfold b. rewrite <- (rsum_delta r (fun l => Rsqr (dot (cols A) y (column V l))) k Hk). apply rsum_le. intros l _.
    pose proof (Rle_0_sqr (dot (cols A) y (column V l))). destruct (Nat.eqb k l); lra. }
  assert (K : (s k - m) / 2 * (rsum r (fun l => Rsqr (dot (rows A) x (column U l))) + rsum r (fun l => Rsqr (dot (cols A) y (column V l)))) <= (s k - m) / 2 * 2).
  { apply Rmult_le_compat_l; lra. }
  clearbody a b. unfold Rsqr in *. eapply Rle_trans; [exact S|]. clear S B1 B2.
  enough (s k * a * b - (s k - m) / 2 * (a * a + b * b) + (s k - m) <= s k - m / 6 * (1 + 1 - 2 * a + (1 + 1 - 2 * b))) by lra.
  apply gap_arith; auto.
Qed.
End Decomposition.

(** ** The factor of one matrix *)
Lemma fold_max_in l x : In (fold_left Rmax l x) (x :: l).
Proof.
  revert x. induction l as [|a l IH]; intros x; [now left|]. cbn [fold_left]. destruct (IH (Rmax x a)) as [E|E].
  - rewrite <- E. unfold Rmax. destruct Rle_dec; [right; now left|now left].
  - right. right. exact E.
Qed.
Lemma factor_top tf A s U V : tf A = (s, U, V) -> is_svd A (s, U, V) -> (0 < Nat.min (rows A) (cols A))%nat ->
  exists k, (k < Nat.min (rows A) (cols A))%nat /\ factor tf A = s k /\ forall l, (l < Nat.min (rows A) (cols A))%nat -> s l <= s k.
Proof.
  intros E SV Hr. unfold factor. rewrite (svd_values tf A s U V E SV).
  assert (I : In (reduce_max (map s (seq 0 (Nat.min (rows A) (cols A))))) (map s (seq 0 (Nat.min (rows A) (cols A))))).
  { destruct (Nat.min (rows A) (cols A)); [lia|]. cbn [seq map reduce_max]. apply fold_max_in. }
  apply in_map_iff in I as (k & Ek & Hk). apply in_seq in Hk. exists k. split; [lia|]. split; [now symmetry|].
  intros l Hl. rewrite Ek. apply reduce_max_ge, in_map, in_seq. lia.
Qed.
Lemma factor_ge tf A x y : is_svd A (tf A) -> (0 < Nat.min (rows A) (cols A))%nat -> dot (rows A) x x = 1 -> dot (cols A) y y = 1 -> bil A x y <= factor tf A.
Proof.
  destruct (tf A) as [[s U] V] eqn:E. intros SV Hr Hx Hy. destruct (factor_top tf A s U V E SV Hr) as (k & Hk & -> & top).
  apply (bil_le A U V s); auto. destruct SV as (_ & _ & nn & _). auto.
Qed.
(** A gap below the largest singular value *)
Lemma gap_exists n k (s : nat -> R) : 0 < s k -> (forall l, (l < n)%nat -> l <> k -> s l < s k) ->
  exists m, 0 < m /\ m <= s k /\ forall l, (l < n)%nat -> l <> k -> s l <= s k - m.
Proof.
  intros Hs. induction n as [|n IH]; intros H; [exists (s k); repeat split; [lra|lra|intros; lia]|].
  destruct IH as (m & H1 & H2 & H3); [intros; apply H; lia|]. destruct (Nat.eq_dec n k) as [->|ne].
  - exists m. repeat split; auto. intros l Hl Hn. apply H3; lia.
  - specialize (H n ltac:(lia) ne). exists (Rmin m (s k - s n)). split; [apply Rmin_glb_lt; lra|]. split; [eapply Rle_trans; [apply Rmin_l|lra]|].
    intros l Hl Hn. destruct (Nat.eq_dec l n) as [->|]; [pose proof (Rmin_r m (s k - s n)); lra|]. specialize (H3 l ltac:(lia) Hn). pose proof (Rmin_l m (s k - s n)). lra.
Qed.
Lemma quadratic_derive (f : R -> R) a b K : (forall z, Rabs (f z - a - z * b) <= K * (z * z)) -> is_derive f 0 b.
Proof.
  intros H. assert (F0 : f 0 = a).
  { specialize (H 0). replace (K * (0 * 0)) with 0 in H by ring. replace (f 0 - a - 0 * b) with (f 0 - a) in H by ring.
    pose proof (Rabs_pos (f 0 - a)). assert (Rabs (f 0 - a) = 0) by lra. destruct (Req_dec (f 0 - a) 0); [lra|]. now apply Rabs_no_R0 in H2. }
  apply is_derive_Reals. intros eps He. assert (HK : 0 < Rabs K + 1) by (pose proof (Rabs_pos K); lra).
  assert (Hd : 0 < eps / (Rabs K + 1)) by (apply Rdiv_lt_0_compat; lra). exists (mkposreal _ Hd). intros h Hh Hl. cbn in Hl. rewrite Rplus_0_l, F0.
  replace ((f h - a) / h - b) with ((f h - a - h * b) / h) by (now field). unfold Rdiv at 1. rewrite Rabs_mult, Rabs_inv.
  assert (P : 0 < Rabs h) by (now apply Rabs_pos_lt). apply Rmult_lt_reg_r with (Rabs h); [exact P|]. rewrite Rmult_assoc, Rinv_l, Rmult_1_r by lra.
  eapply Rle_lt_trans; [apply H|]. replace (h * h) with (Rabs h * Rabs h) by (rewrite <- Rabs_mult; apply Rabs_right; nra).
  assert (Q : Rabs h * (Rabs K + 1) < eps).
  { apply Rmult_lt_compat_r with (r := Rabs K + 1) in Hl; [|exact HK]. unfold Rdiv in Hl. rewrite Rmult_assoc, Rinv_l, Rmult_1_r in Hl by lra. exact Hl. }
  pose proof (Rle_abs K). assert (K * (Rabs h * Rabs h) <= (Rabs K + 1) * (Rabs h * Rabs h)) by (apply Rmult_le_compat_r; nra). nra.
Qed.
Lemma shape_moved z A B : same_shape A (moved z A B).
Proof. split; reflexivity. Qed.

(** The derivative of the largest singular value *)
Lemma factor_derive tf A B s U V k : decomposes tf A -> same_shape A B -> tf A = (s, U, V) ->
  (k < Nat.min (rows A) (cols A))%nat -> 0 < s k -> (forall l, (l < Nat.min (rows A) (cols A))%nat -> l <> k -> s l < s k) ->
  factor tf A = s k /\ is_derive (fun z => factor tf (moved z A B)) 0 (bil B (column U k) (column V k)).
Proof.
  intros DE SH E Hk Hs Hg. assert (SV : is_svd A (s, U, V)) by (rewrite <- E; apply DE; split; reflexivity).
  assert (Hr : (0 < Nat.min (rows A) (cols A))%nat) by lia.
  assert (FA : factor tf A = s k).
  { destruct (factor_top tf A s U V E SV Hr) as (k' & Hk' & -> & top). destruct (Nat.eq_dec k' k) as [->|ne]; [reflexivity|].
    specialize (Hg k' Hk' ne). specialize (top k Hk). lra. }
  split; [exact FA|]. destruct (gap_exists _ k s Hs Hg) as (m & M1 & M2 & M3). set (c := m / 6). assert (Hc : 0 < c) by (unfold c; lra).
  apply (quadratic_derive _ (s k) _ (frob B / (2 * c))). intros z.
  assert (SM := shape_moved z A B). destruct SH as [shr shc].
  destruct (tf (moved z A B)) as [[s' U'] V'] eqn:E'.
  assert (SV' : is_svd (moved z A B) (s', U', V')) by (rewrite <- E'; now apply DE).
  destruct (factor_top tf _ s' U' V' E' SV' Hr) as (k' & Hk' & F' & _).
  assert (LO : s k + z * bil B (column U k) (column V k) <= factor tf (moved z A B)).
  { eapply Rle_trans; [|apply (factor_ge tf _ (column U k) (column V k)); [now apply DE|exact Hr|exact (unit_u _ _ _ _ SV k Hk)|exact (unit_v _ _ _ _ SV k Hk)]].
    rewrite bil_moved by (split; auto). rewrite (bil_top _ _ _ _ SV k Hk). lra. }
  assert (UP : forall x y, dot (rows A) x x = 1 -> dot (cols A) y y = 1 -> 0 <= dot (rows A) x (column U k) ->
     bil (moved z A B) x y <= s k + z * bil B (column U k) (column V k) + frob B / (2 * c) * (z * z)).
  { intros x y Hx Hy Ha. rewrite bil_moved by (split; auto). pose proof (bil_gap _ _ _ _ SV k m x y Hk M1 M2 M3 Hx Hy Ha) as G. fold c in G.
    pose proof (bil_amgm B z c (fun i => x i - column U k i) y Hc) as G1. pose proof (bil_amgm B z c (column U k) (fun j => y j - column V k j) Hc) as G2.
    rewrite <- shr, <- shc in G1, G2. rewrite Hy, bil_diff_l in G1. rewrite (unit_u _ _ _ _ SV k Hk), bil_diff_r in G2.
    replace (frob B / (2 * c) * (z * z)) with (z * z * frob B / (4 * c) + z * z * frob B / (4 * c)) by (field; lra). lra. }
  rewrite Rabs_right; [|lra]. enough (factor tf (moved z A B) <= s k + z * bil B (column U k) (column V k) + frob B / (2 * c) * (z * z)) by lra.
  rewrite F', <- (bil_top _ _ _ _ SV' k' Hk').
  pose proof (unit_u _ _ _ _ SV' k' Hk') as X1. pose proof (unit_v _ _ _ _ SV' k' Hk') as Y1. cbn [moved rows cols] in X1, Y1.
  destruct (Rle_dec 0 (dot (rows A) (column U' k') (column U k))) as [Ha|Ha]; [now apply UP|].
  rewrite <- bil_opp. apply UP; [now rewrite dot_opp2|now rewrite dot_opp2|rewrite dot_opp; lra].
Qed.
