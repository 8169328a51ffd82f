(** Proofs about the constants of the examples. *)
From Coq Require Import Reals List Bool Arith ZArith Lia Lra Psatz.
From Verif Require Import Prelude ListFacts NumModel FunModel QuadModel QuadSpec QuadProofs GridModel
  GridSpec GridProofs SafeModel CertModel CertSpec CertProofs LipModel LipSpec.
From Verif.Properties Require Import QuadProps.
Import ListNotations.
Local Open Scope R_scope.

(** ** Sums *)
Lemma rsum_le n f g : (forall i, (i < n)%nat -> f i <= g i) -> rsum n f <= rsum n g.
Proof.
  induction n as [|n IH]; intros H; [unfold rsum; simpl; lra|].
  rewrite !rsum_S. pose proof (H n ltac:(lia)). assert (rsum n f <= rsum n g) by (apply IH; intros; apply H; lia). lra.
Qed.
Lemma rsum_nonneg n f : (forall i, (i < n)%nat -> 0 <= f i) -> 0 <= rsum n f.
Proof. intros H. rewrite <- (rsum_zero n). now apply rsum_le. Qed.
Lemma rsum_abs n f : Rabs (rsum n f) <= rsum n (fun i => Rabs (f i)).
Proof.
  induction n as [|n IH]; [unfold rsum; simpl; rewrite Rabs_R0; lra|].
  rewrite !rsum_S. eapply Rle_trans; [apply Rabs_triang|]. lra.
Qed.
Lemma rsum_term n f k : (k < n)%nat -> (forall i, (i < n)%nat -> 0 <= f i) -> f k <= rsum n f.
Proof.
  induction n as [|n IH]; intros Hk H; [lia|]. rewrite rsum_S.
  destruct (Nat.eq_dec k n) as [->|].
  - assert (0 <= rsum n f) by (apply rsum_nonneg; intros; apply H; lia). lra.
  - pose proof (IH ltac:(lia) ltac:(intros; apply H; lia)). pose proof (H n ltac:(lia)). lra.
Qed.
Lemma rsum_cons n f : rsum (S n) f = f 0%nat + rsum n (fun i => f (S i)).
Proof. unfold rsum. simpl. rewrite <- seq_shift, map_map. reflexivity. Qed.

Lemma sum_rsum (l : list R) : sum l = rsum (length l) (fun i => nth i l 0).
Proof.
  induction l as [|a l IH]; [reflexivity|]. cbn [length]. rewrite rsum_cons.
  change (sum (a :: l)) with (a + sum l). rewrite IH. reflexivity.
Qed.
Lemma sum_map_rsum (f : R -> R) (l : list R) :
  sum (map f l) = rsum (length l) (fun i => f (nth i l 0)).
Proof.
  induction l as [|a l IH]; [reflexivity|]. cbn [length map]. rewrite rsum_cons.
  change (sum (f a :: map f l)) with (f a + sum (map f l)). rewrite IH. reflexivity.
Qed.
Lemma sum_map2_rsum (f : R -> R -> R) : forall x y : list R, length x = length y ->
  sum (map2 f x y) = rsum (length x) (fun i => f (nth i x 0) (nth i y 0)).
Proof.
  induction x as [|a x IH]; intros [|b y] L; try discriminate; [reflexivity|].
  cbn [length map2]. rewrite rsum_cons. cbn [nth]. simpl in L. rewrite <- (IH y) by lia. reflexivity.
Qed.
Lemma dist1_rsum x y : length x = length y ->
  dist1 x y = rsum (length x) (fun i => Rabs (nth i x 0 - nth i y 0)).
Proof. intros L. unfold dist1. now apply (sum_map2_rsum (fun a b => Rabs (a - b))). Qed.
Lemma norm1_rsum l : norm1 l = rsum (length l) (fun i => Rabs (nth i l 0)).
Proof. unfold norm1. apply sum_map_rsum. Qed.

(** ** Largest elements *)
Lemma fold_Rmax_ge : forall l a x, In x (a :: l) -> x <= fold_left Rmax l a.
Proof.
  induction l as [|b l IH]; intros a x H; simpl in *.
  - destruct H as [->|[]]. lra.
  - destruct H as [->|[->|H]].
    + apply Rle_trans with (Rmax x b); [apply Rmax_l|]. apply IH. now left.
    + apply Rle_trans with (Rmax a x); [apply Rmax_r|]. apply IH. now left.
    + apply IH. now right.
Qed.
Lemma fold_Rmax_in : forall l a, In (fold_left Rmax l a) (a :: l).
Proof.
  induction l as [|b l IH]; intros a; simpl; [now left|].
  destruct (IH (Rmax a b)) as [E|H]; [|now right; right].
  rewrite <- E. unfold Rmax. destruct (Rle_dec a b); [right; now left|now left].
Qed.
Lemma fold_Rmin_le : forall l a x, In x (a :: l) -> fold_left Rmin l a <= x.
Proof.
  induction l as [|b l IH]; intros a x H; simpl in *.
  - destruct H as [->|[]]. lra.
  - destruct H as [->|[->|H]].
    + apply Rle_trans with (Rmin x b); [|apply Rmin_l]. apply IH. now left.
    + apply Rle_trans with (Rmin a x); [|apply Rmin_r]. apply IH. now left.
    + apply IH. now right.
Qed.
Lemma np_max_ge l x : In x l -> x <= np_max l.
Proof. destruct l as [|a l]; [intros []|]. apply fold_Rmax_ge. Qed.
Lemma np_min_le l x : In x l -> np_min l <= x.
Proof. destruct l as [|a l]; [intros []|]. apply fold_Rmin_le. Qed.
Lemma np_max_in l : l <> [] -> In (np_max l) l.
Proof. destruct l as [|a l]; [easy|]. intros _. apply fold_Rmax_in. Qed.

Lemma norm1_column t j : (j < cols t)%nat -> rsum (rows t) (fun i => Rabs (entry t i j)) <= np_norm1 t.
Proof.
  intros H. unfold np_norm1. apply np_max_ge. apply in_map_iff. exists j. split; [reflexivity|].
  apply in_seq. lia.
Qed.
Lemma np_norm1_nonneg t : 0 <= np_norm1 t.
Proof.
  destruct (cols t) as [|c] eqn:E.
  - unfold np_norm1. rewrite E. simpl. lra.
  - eapply Rle_trans; [|apply (norm1_column t 0)]; [|lia]. apply rsum_nonneg. intros. apply Rabs_pos.
Qed.

(** ** Evaluation at single states *)
Lemma first_row_nth t j : (j < cols t)%nat -> nth j (first_row t) 0 = entry t 0 j.
Proof.
  intros H. unfold first_row. rewrite (nth_indep _ 0 (entry t 0 0)) by (rewrite map_length, seq_length; lia).
  rewrite map_nth, seq_nth by lia. reflexivity.
Qed.
Lemma first_row_len t : length (first_row t) = cols t.
Proof. unfold first_row. now rewrite map_length, seq_length. Qed.

Definition vec (x : list R) : nat -> R := fun j => nth j x 0.

Lemma linear_at m As xs : As <> [] -> Forall2 (fun A x => cols A = length x) As xs ->
  Forall (fun A => rows A = m) As ->
  let y := at_state (fun a => do M <- linear_system (map Matrix As); linear_eval M a) xs in
  length y = m /\ forall i, (i < m)%nat -> nth i y 0 = linear_sum As (map row_of xs) 0 i.
Proof.
  intros HA HF HR. unfold at_state.
  assert (F2 : Forall2 (fun A X => cols A = cols X) As (map row_of xs)).
  { induction HF as [|A x As' xs' E HF' IH]; [constructor|]. simpl. constructor; [exact E|].
    destruct As' as [|A' As'']; [inversion HF'; subst; constructor|].
    apply IH; [discriminate|inversion HR; auto]. }
  assert (R1 : Forall (fun X => rows X = 1%nat) (map row_of xs)).
  { apply Forall_forall. intros X HX. apply in_map_iff in HX. destruct HX as (x & <- & _). reflexivity. }
  destruct (C51_linear m 1 As (map row_of xs) HA F2 HR R1) as (M & Y & EM & EY & RY & CY & H).
  rewrite EM. cbn [bind]. rewrite EY. cbv zeta. rewrite first_row_len. split; [exact CY|].
  intros i Hi. rewrite first_row_nth by lia. apply H; lia.
Qed.

Lemma dynamics_at n m A B x u : shape n n A -> shape n m B -> length x = n -> length u = m ->
  length (linear_dynamics A B x u) = n /\
  forall i, (i < n)%nat -> nth i (linear_dynamics A B x u) 0 =
    dot n (entry A i) (vec x) + dot m (entry B i) (vec u).
Proof.
  intros [RA CA] [RB CB] Lx Lu.
  destruct (linear_at n [A; B] [x; u]) as [L H]; [discriminate| | |].
  - repeat constructor; congruence.
  - repeat constructor; auto.
  - split; [exact L|]. intros i Hi. unfold linear_dynamics. simpl map in H.
    rewrite (H i Hi). cbn [linear_sum]. rewrite CA, CB, Rplus_0_r. reflexivity.
Qed.
Lemma single_at n m K x : shape m n K -> length x = n ->
  let y := at_state (fun a => do M <- linear_system [Matrix K]; linear_eval M a) [x] in
  length y = m /\ forall i, (i < m)%nat -> nth i y 0 = dot n (entry K i) (vec x).
Proof.
  intros [RK CK] Lx. destruct (linear_at m [K] [x]) as [L H]; [discriminate| | |].
  - repeat constructor; congruence.
  - repeat constructor; auto.
  - split; [exact L|]. intros i Hi. simpl map in H. rewrite (H i Hi). cbn [linear_sum].
    rewrite CK, Rplus_0_r. reflexivity.
Qed.
Lemma policy_at n m K x : shape m n K -> length x = n ->
  length (linear_policy K x) = m /\
  forall i, (i < m)%nat -> nth i (linear_policy K x) 0 = - dot n (entry K i) (vec x).
Proof.
  intros SK Lx. destruct (single_at n m (scaled (-1) K) x) as [L H]; auto.
  split; [exact L|]. intros i Hi. unfold linear_policy. rewrite (H i Hi). unfold dot. cbn [entry scaled].
  replace (- rsum n (fun i0 => entry K i i0 * vec x i0)) with (-1 * rsum n (fun i0 => entry K i i0 * vec x i0)) by ring.
  rewrite <- rsum_scal. apply rsum_ext. intros. ring.
Qed.
Lemma gradient_at n P x : shape n n P -> length x = n ->
  length (grad_lyapunov P x) = n /\
  forall i, (i < n)%nat -> nth i (grad_lyapunov P x) 0 = 2 * dot n (entry P i) (vec x).
Proof.
  intros SP Lx. destruct (single_at n n (scaled 2 P) x) as [L H]; auto.
  split; [exact L|]. intros i Hi. unfold grad_lyapunov. rewrite (H i Hi). unfold dot. cbn [entry scaled].
  rewrite <- rsum_scal. apply rsum_ext. intros. ring.
Qed.
Lemma lyapunov_at n P x : shape n n P -> length x = n ->
  quadratic_lyapunov P x = form n (entry P) (vec x).
Proof.
  intros [RP CP] Lx.
  destruct (C51_quadratic_value n 1 P [row_of x]) as (X & v & EX & Ev & Rv & Cv & H); auto.
  - discriminate.
  - unfold total_cols. simpl. rewrite Lx. lia.
  - unfold quadratic_lyapunov, at_state. cbn [map]. rewrite Ev. rewrite first_row_nth by lia.
    rewrite H by lia. simpl in EX. injection EX as <-. reflexivity.
Qed.

(** ** Closed loops *)
Lemma column_bound n m (K : tensor) (v : nat -> R) : shape m n K ->
  rsum m (fun i => Rabs (dot n (entry K i) v)) <= np_norm1 K * rsum n (fun j => Rabs (v j)).
Proof.
  intros [RK CK].
  apply Rle_trans with (rsum m (fun i => rsum n (fun j => Rabs (entry K i j) * Rabs (v j)))).
  - apply rsum_le. intros i Hi. unfold dot. eapply Rle_trans; [apply rsum_abs|].
    right. apply rsum_ext. intros. apply Rabs_mult.
  - rewrite rsum_swap. rewrite <- rsum_scal. apply rsum_le. intros j Hj.
    apply Rle_trans with (Rabs (v j) * rsum m (fun i => Rabs (entry K i j))).
    + right. rewrite <- rsum_scal. apply rsum_ext. intros. ring.
    + rewrite Rmult_comm. apply Rmult_le_compat_r; [apply Rabs_pos|]. rewrite <- RK. apply norm1_column. lia.
Qed.
Lemma dot_minus n a u v : dot n a u - dot n a v = dot n a (fun j => u j - v j).
Proof.
  unfold dot. replace (rsum n (fun i => a i * u i) - rsum n (fun i => a i * v i))
    with (rsum n (fun i => a i * u i) + -1 * rsum n (fun i => a i * v i)) by ring.
  rewrite <- rsum_scal, <- rsum_plus. apply rsum_ext. intros. ring.
Qed.

Lemma closed_loop n m A B p lp : shape n n A -> shape n m B -> lipschitz dist1 n m lp p ->
  lipschitz dist1 n n (loop_constant A B lp) (fun x => linear_dynamics A B x (p x)).
Proof.
  intros SA SB [Lp Hp]. split.
  - intros x Lx. apply (dynamics_at n m); auto.
  - intros x y Lx Ly.
    destruct (dynamics_at n m A B x (p x)) as [L1 E1]; auto.
    destruct (dynamics_at n m A B y (p y)) as [L2 E2]; auto.
    rewrite (dist1_rsum (linear_dynamics A B x (p x))), L1 by lia.
    apply Rle_trans with (rsum n (fun i => Rabs (dot n (entry A i) (fun j => vec x j - vec y j))
       + Rabs (dot m (entry B i) (fun j => vec (p x) j - vec (p y) j)))).
    + apply rsum_le. intros i Hi. rewrite E1, E2 by auto. rewrite <- !dot_minus.
      eapply Rle_trans; [|apply Rabs_triang]. right. f_equal. ring.
    + rewrite rsum_plus. pose proof (column_bound n n A (fun j => vec x j - vec y j) SA) as H1.
      pose proof (column_bound m n B (fun j => vec (p x) j - vec (p y) j) SB) as H2.
      pose proof (Hp x y Lx Ly) as H3. rewrite (dist1_rsum (p x) (p y)), Lp in H3 by (rewrite ?Lp; auto).
      rewrite (dist1_rsum x y), Lx in * by lia. unfold loop_constant.
      pose proof (np_norm1_nonneg B) as PB.
      assert (H4 : np_norm1 B * rsum m (fun i => Rabs (nth i (p x) 0 - nth i (p y) 0)) <=
                   np_norm1 B * (lp * rsum n (fun i => Rabs (nth i x 0 - nth i y 0)))) by (apply Rmult_le_compat_l; auto).
      unfold vec in H1, H2. unfold vec. lra.
Qed.
Lemma policy_lipschitz n m K : shape m n K -> lipschitz dist1 n m (policy_constant K) (linear_policy K).
Proof.
  intros SK. split; [intros; apply (policy_at n m); auto|]. intros x y Lx Ly.
  destruct (single_at n m (scaled (-1) K) x) as [L1 E1]; auto.
  destruct (single_at n m (scaled (-1) K) y) as [L2 E2]; auto.
  fold (linear_policy K x) in L1, E1. fold (linear_policy K y) in L2, E2.
  rewrite !dist1_rsum by lia. rewrite L1, Lx.
  eapply Rle_trans; [|apply (column_bound n m (scaled (-1) K) (fun j => vec x j - vec y j) SK)].
  apply rsum_le. intros i Hi. rewrite E1, E2 by auto. rewrite <- dot_minus. lra.
Qed.
Lemma clip_contracts lo hi a b :
  Rabs (Rmin (Rmax a lo) hi - Rmin (Rmax b lo) hi) <= Rabs (a - b).
Proof. unfold Rmin, Rmax. repeat destruct Rle_dec; unfold Rabs; repeat destruct Rcase_abs; lra. Qed.
Lemma saturated_lipschitz n m l lo hi p : lipschitz dist1 n m l p -> lipschitz dist1 n m l (saturated lo hi p).
Proof.
  intros [L H]. split; [intros; unfold saturated; rewrite map_length; auto|]. intros x y Lx Ly.
  eapply Rle_trans; [|apply H; auto]. unfold saturated.
  rewrite !dist1_rsum by (rewrite ?map_length, !L; auto). rewrite map_length, L by auto.
  apply rsum_le. intros i Hi.
  assert (N : forall z, length z = n -> nth i (map (fun v => Rmin (Rmax v lo) hi) (p z)) 0 = Rmin (Rmax (nth i (p z) 0) lo) hi).
  { intros z Lz. rewrite (nth_indep _ 0 (Rmin (Rmax 0 lo) hi)) by (rewrite map_length, L; auto).
    now rewrite (map_nth (fun v => Rmin (Rmax v lo) hi)). }
  rewrite !N by auto. apply clip_contracts.
Qed.

(** ** Quadratic Lyapunov functions *)
Definition bil (n : nat) (P : nat -> nat -> R) (u v : nat -> R) : R :=
  rsum n (fun i => rsum n (fun j => u i * P i j * v j)).
Lemma bil_form n P v : bil n P v v = form n P v.
Proof. reflexivity. Qed.
Lemma form_ext n P u v : (forall i, (i < n)%nat -> u i = v i) -> form n P u = form n P v.
Proof. intros H. unfold form. apply rsum_ext. intros i Hi. apply rsum_ext. intros j Hj. rewrite !H; auto. Qed.
Lemma bil_left n P u v : bil n P u v = dot n u (fun i => dot n (P i) v).
Proof.
  unfold bil, dot. apply rsum_ext. intros i Hi. rewrite <- rsum_scal. apply rsum_ext. intros. ring.
Qed.
Lemma bil_plus n P t u v : (forall i j, (i < n)%nat -> (j < n)%nat -> P i j = P j i) ->
  form n P (fun i => u i + t * v i) = form n P u + 2 * t * bil n P u v + t * t * form n P v.
Proof.
  intros S.
  assert (E : bil n P v u = bil n P u v).
  { unfold bil. rewrite rsum_swap. apply rsum_ext. intros i Hi. apply rsum_ext. intros j Hj. rewrite (S j i) by auto. ring. }
  replace (2 * t * bil n P u v) with (t * bil n P u v + t * bil n P v u) by (rewrite E; ring).
  unfold form, bil. rewrite <- !rsum_scal, <- !rsum_plus. apply rsum_ext. intros i Hi.
  rewrite <- !rsum_scal, <- !rsum_plus. apply rsum_ext. intros j Hj. ring.
Qed.

Section PSD.
Variables (n : nat) (P : nat -> nat -> R).
Hypothesis SYM : forall i j, (i < n)%nat -> (j < n)%nat -> P i j = P j i.
Hypothesis PSD : forall v, 0 <= form n P v.

Lemma cauchy u v : bil n P u v * bil n P u v <= form n P u * form n P v.
Proof.
  pose proof (PSD u) as HU. pose proof (PSD v) as HV.
  destruct (Rle_lt_or_eq_dec _ _ HV) as [p|z].
  - pose proof (PSD (fun i => u i + (- bil n P u v / form n P v) * v i)) as H.
    rewrite bil_plus in H by auto.
    assert (E : form n P v * (form n P u + 2 * (- bil n P u v / form n P v) * bil n P u v
       + - bil n P u v / form n P v * (- bil n P u v / form n P v) * form n P v)
       = form n P u * form n P v - bil n P u v * bil n P u v) by (field; lra).
    assert (0 <= form n P v * (form n P u + 2 * (- bil n P u v / form n P v) * bil n P u v
       + - bil n P u v / form n P v * (- bil n P u v / form n P v) * form n P v)) by (apply Rmult_le_pos; lra).
    lra.
  - rewrite <- z. assert (B : bil n P u v = 0).
    { destruct (Req_dec (bil n P u v) 0) as [|nz]; [auto|exfalso].
      pose proof (PSD (fun i => u i + (- (form n P u + 1) / (2 * bil n P u v)) * v i)) as H.
      rewrite bil_plus, <- z in H by auto.
      replace (2 * (- (form n P u + 1) / (2 * bil n P u v)) * bil n P u v) with (- (form n P u + 1)) in H by (field; lra).
      lra. }
    rewrite B. lra.
Qed.

(** The norm of the form. *)
Definition nrm (v : nat -> R) : R := sqrt (form n P v).
Lemma nrm_pos v : 0 <= nrm v. Proof. apply sqrt_pos. Qed.
Lemma nrm_sq v : nrm v * nrm v = form n P v. Proof. apply sqrt_sqrt. apply PSD. Qed.
Lemma bil_nrm u v : bil n P u v <= nrm u * nrm v.
Proof.
  pose proof (cauchy u v) as C. rewrite <- !nrm_sq in C.
  pose proof (nrm_pos u). pose proof (nrm_pos v).
  assert (0 <= nrm u * nrm v) by (apply Rmult_le_pos; auto).
  destruct (Rle_lt_dec (bil n P u v) (nrm u * nrm v)); [auto|]. nra.
Qed.
Lemma nrm_triangle u v : nrm (fun i => u i + v i) <= nrm u + nrm v.
Proof.
  apply Rsqr_incr_0_var; [|pose proof (nrm_pos u); pose proof (nrm_pos v); lra].
  unfold Rsqr. rewrite nrm_sq.
  rewrite (form_ext n P (fun i => u i + v i) (fun i => u i + 1 * v i)) by (intros; ring).
  rewrite bil_plus by auto. rewrite <- (nrm_sq u), <- (nrm_sq v). pose proof (bil_nrm u v). lra.
Qed.
Lemma nrm_ext u v : (forall i, (i < n)%nat -> u i = v i) -> nrm u = nrm v.
Proof. intros H. unfold nrm. f_equal. now apply form_ext. Qed.
Lemma nrm_scal c v : nrm (fun i => c * v i) = Rabs c * nrm v.
Proof.
  unfold nrm. rewrite form_scal. rewrite sqrt_mult_alt by apply Rle_0_sqr.
  f_equal. apply sqrt_Rsqr_abs.
Qed.

Definition unit (k : nat) : nat -> R := fun i => if Nat.eqb i k then 1 else 0.
Lemma rsum_unit m k f : (k < m)%nat -> rsum m (fun i => unit k i * f i) = f k.
Proof.
  induction m as [|m IH]; intros H; [lia|]. rewrite rsum_S. destruct (Nat.eq_dec k m) as [->|].
  - unfold unit at 2. rewrite Nat.eqb_refl.
    rewrite (rsum_ext m _ (fun _ => 0)).
    + rewrite rsum_zero. ring.
    + intros i Hi. unfold unit. destruct (Nat.eqb_spec i m); [lia|ring].
  - rewrite IH by lia. unfold unit. destruct (Nat.eqb_spec m k); [lia|ring].
Qed.
Lemma form_unit k : (k < n)%nat -> form n P (unit k) = P k k.
Proof.
  intros H. unfold form.
  rewrite (rsum_ext n _ (fun i => unit k i * P i k)).
  - now rewrite (rsum_unit n k (fun i => P i k)).
  - intros i Hi. rewrite (rsum_ext n _ (fun j => unit k j * (unit k i * P i j))) by (intros; ring).
    now rewrite (rsum_unit n k (fun j => unit k i * P i j)).
Qed.
Lemma nrm_coords v : nrm v <= rsum n (fun j => sqrt (P j j) * Rabs (v j)).
Proof.
  assert (G : forall m, (m <= n)%nat ->
     nrm (fun i => if (i <? m)%nat then v i else 0) <= rsum m (fun j => sqrt (P j j) * Rabs (v j))).
  { induction m as [|m IH]; intros H.
    - unfold nrm. rewrite (form_ext n P _ (fun i => 0 * v i)) by (intros; simpl; ring).
      rewrite form_scal. replace (0 * 0 * form n P v) with 0 by ring. rewrite sqrt_0. unfold rsum; simpl; lra.
    - rewrite rsum_S.
      rewrite (nrm_ext _ (fun i => (if (i <? m)%nat then v i else 0) + v m * unit m i)).
      + eapply Rle_trans; [apply nrm_triangle|]. rewrite nrm_scal.
        unfold nrm at 2. rewrite form_unit by lia. pose proof (IH ltac:(lia)). lra.
      + intros i Hi. unfold unit. destruct (Nat.eqb_spec i m) as [->|].
        * rewrite (proj2 (Nat.ltb_lt m (S m))) by lia. rewrite (proj2 (Nat.ltb_ge m m)) by lia. ring.
        * destruct (Nat.ltb_spec i m), (Nat.ltb_spec i (S m)); try lia; ring. }
  eapply Rle_trans; [|apply (G n); lia]. right. apply nrm_ext. intros i Hi.
  now rewrite (proj2 (Nat.ltb_lt i n)) by lia.
Qed.
Lemma diag_nonneg j : (j < n)%nat -> 0 <= P j j.
Proof. intros H. rewrite <- (form_unit j H). apply PSD. Qed.
Lemma nrm_l1 l v : (forall j, (j < n)%nat -> P j j <= l * l) -> 0 <= l ->
  nrm v <= l * rsum n (fun j => Rabs (v j)).
Proof.
  intros H Hl. eapply Rle_trans; [apply nrm_coords|]. rewrite <- rsum_scal. apply rsum_le.
  intros j Hj. apply Rmult_le_compat_r; [apply Rabs_pos|].
  rewrite <- (sqrt_square l) by auto. apply sqrt_le_1_alt. auto.
Qed.
Lemma nrm_diff l u v : (forall j, (j < n)%nat -> P j j <= l * l) -> 0 <= l ->
  nrm u <= nrm v + l * rsum n (fun j => Rabs (u j - v j)).
Proof.
  intros H Hl. rewrite (nrm_ext u (fun i => v i + (u i - v i))) by (intros; ring).
  eapply Rle_trans; [apply nrm_triangle|]. pose proof (nrm_l1 l (fun i => u i - v i) H Hl). simpl in *. lra.
Qed.

End PSD.

Definition ident (i j : nat) : R := if Nat.eqb i j then 1 else 0.
Lemma bil_ident n u v : bil n ident u v = dot n u v.
Proof.
  rewrite bil_left. unfold dot. apply rsum_ext. intros i Hi. f_equal.
  rewrite (rsum_ext n _ (fun j => unit i j * v j)).
  - now rewrite rsum_unit.
  - intros j Hj. unfold ident, unit. rewrite Nat.eqb_sym. reflexivity.
Qed.
Lemma dot_pos n v : 0 <= dot n v v.
Proof. apply rsum_nonneg. intros. nra. Qed.
Lemma dot_cauchy n u v : dot n u v * dot n u v <= dot n u u * dot n v v.
Proof.
  rewrite <- !bil_ident. rewrite !(bil_form n ident). apply cauchy.
  - intros. unfold ident. now rewrite Nat.eqb_sym.
  - intros w. rewrite <- bil_form, bil_ident. apply dot_pos.
Qed.
Lemma dot_abs n v : dot n v v <= rsum n (fun i => Rabs (v i)) * rsum n (fun i => Rabs (v i)).
Proof.
  induction n as [|n IH]; [unfold dot, rsum; simpl; lra|].
  unfold dot in *. rewrite !rsum_S.
  assert (0 <= rsum n (fun i => Rabs (v i))) by (apply rsum_nonneg; intros; apply Rabs_pos).
  pose proof (Rabs_pos (v n)). assert (E : v n * v n = Rabs (v n) * Rabs (v n)) by (rewrite <- Rabs_mult, Rabs_pos_eq; nra).
  nra.
Qed.

Section Certificate.
Variables (n : nat) (P : tensor) (mu k : R).
Hypothesis SP : shape n n P.
Hypothesis SYM : symmetric n P.
Hypothesis MU : 0 < mu.
Hypothesis PD : form_at_least n mu P.
Hypothesis K0 : 0 <= k.
Hypothesis DIAG : forall j, (j < n)%nat -> entry P j j <= k ^ 2 * mu.

Lemma psd v : 0 <= form n (entry P) v.
Proof using MU PD. eapply Rle_trans; [|apply PD]. apply Rmult_le_pos; [lra|apply dot_pos]. Qed.

Lemma gradient_long v : mu * form n (entry P) v <=
  rsum n (fun i => Rabs (dot n (entry P i) v)) * rsum n (fun i => Rabs (dot n (entry P i) v)).
Proof using MU PD.
  eapply Rle_trans; [|apply dot_abs]. set (q := fun i => dot n (entry P i) v).
  pose proof (dot_cauchy n v q) as C. assert (E : dot n v q = form n (entry P) v) by (unfold q; rewrite <- bil_left; reflexivity). rewrite E in C.
  pose proof (psd v) as F. pose proof (PD v) as M. pose proof (dot_pos n q) as D.
  destruct (Rle_lt_or_eq_dec _ _ F) as [p|z]; [|rewrite <- z; lra].
  apply (Rmult_le_reg_l (form n (entry P) v)); [auto|].
  apply Rle_trans with (mu * (dot n v v * dot n q q)); [nra|].
  rewrite <- Rmult_assoc. apply Rmult_le_compat_r; auto.
Qed.

Lemma gradient_norm x : length x = n ->
  2 * sqrt mu * nrm n (entry P) (vec x) <= norm1 (grad_lyapunov P x).
Proof using SP MU PD.
  intros L. destruct (gradient_at n P x SP L) as [LG G].
  rewrite norm1_rsum, LG.
  rewrite (rsum_ext n _ (fun i => 2 * Rabs (dot n (entry P i) (vec x)))).
  2:{ intros i Hi. rewrite G by auto. rewrite Rabs_mult, (Rabs_pos_eq 2) by lra. reflexivity. }
  rewrite rsum_scal. rewrite Rmult_assoc. apply Rmult_le_compat_l; [lra|].
  apply Rsqr_incr_0_var; [|apply rsum_nonneg; intros; apply Rabs_pos].
  unfold Rsqr. eapply Rle_trans; [|apply gradient_long].
  right. rewrite <- (nrm_sq n (entry P) psd (vec x)). rewrite <- (sqrt_sqrt mu) at 3 by lra. ring.
Qed.

Lemma quadratic_neighbourhood (F : list R -> list R) c x lv lf t decr :
  length c = n -> length x = n -> length (F c) = n -> length (F x) = n ->
  k * norm1 (grad_lyapunov P c) <= lv -> 0 <= lf ->
  quadratic_lyapunov P (F c) - quadratic_lyapunov P c <= decr ->
  dist1 (F x) (F c) <= lf * dist1 x c ->
  decr < - lv * (1 + lf) * t -> dist1 x c <= t ->
  quadratic_lyapunov P (F x) < quadratic_lyapunov P x.
Proof using SP SYM MU PD K0 DIAG.
  intros Lc Lx LFc LFx Hlv Hlf Hd HF Hdec Ht.
  rewrite !(lyapunov_at n P) in * by auto.
  set (N := nrm n (entry P)).
  assert (Q : forall z, form n (entry P) (vec z) = N (vec z) * N (vec z))
    by (intros; symmetry; apply nrm_sq; exact psd).
  rewrite !Q in *.
  set (l := k * sqrt mu).
  assert (l0 : 0 <= l) by (apply Rmult_le_pos; [auto|apply sqrt_pos]).
  assert (DL : forall j, (j < n)%nat -> entry P j j <= l * l).
  { intros j Hj. unfold l. replace (k * sqrt mu * (k * sqrt mu)) with (k ^ 2 * (sqrt mu * sqrt mu)) by ring.
    rewrite sqrt_sqrt by lra. auto. }
  pose proof (gradient_norm c Lc) as G. fold N in G.
  pose proof (dist1_nonneg x c) as D0.
  assert (A1 : N (vec (F x)) <= N (vec (F c)) + l * (lf * t)).
  { pose proof (nrm_diff n (entry P) SYM psd l (vec (F x)) (vec (F c)) DL l0) as T.
    pose proof (dist1_rsum (F x) (F c) ltac:(lia)) as E. rewrite LFx in E. unfold vec in T at 3 4.
    rewrite <- E in T. fold N in T. eapply Rle_trans; [exact T|]. apply Rplus_le_compat_l, Rmult_le_compat_l; [auto|].
    eapply Rle_trans; [exact HF|]. apply Rmult_le_compat_l; auto. }
  assert (A2 : N (vec c) <= N (vec x) + l * t).
  { pose proof (nrm_diff n (entry P) SYM psd l (vec c) (vec x) DL l0) as T.
    rewrite (rsum_ext n (fun j => Rabs (vec c j - vec x j)) (fun i => Rabs (vec x i - vec c i))) in T by (intros; apply Rabs_minus_sym).
    pose proof (dist1_rsum x c ltac:(lia)) as E. rewrite Lx in E. unfold vec in T at 3 4.
    rewrite <- E in T. fold N in T. eapply Rle_trans; [exact T|]. apply Rplus_le_compat_l, Rmult_le_compat_l; auto. }
  pose proof (nrm_pos n (entry P) (vec c)) as Nc. pose proof (nrm_pos n (entry P) (vec (F c))) as NFc.
  pose proof (nrm_pos n (entry P) (vec (F x))) as NFx. fold N in Nc, NFc, NFx.
  set (s := l * (1 + lf) * t).
  assert (s0 : 0 <= s) by (unfold s; apply Rmult_le_pos; [apply Rmult_le_pos; lra|lra]).
  assert (B1 : 2 * l * N (vec c) <= lv) by (unfold l; nra).
  assert (B2 : N (vec (F c)) * N (vec (F c)) < N (vec c) * N (vec c) - 2 * N (vec c) * s).
  { assert (2 * N (vec c) * s <= lv * (1 + lf) * t).
    { unfold s. replace (2 * N (vec c) * (l * (1 + lf) * t)) with (2 * l * N (vec c) * ((1 + lf) * t)) by ring.
      rewrite (Rmult_assoc lv). apply Rmult_le_compat_r; [apply Rmult_le_pos; lra|auto]. }
    lra. }
  assert (B3 : s < N (vec c)) by nra.
  assert (B4 : N (vec (F c)) < N (vec c) - s) by nra.
  assert (E : s = l * t + l * (lf * t)) by (unfold s; ring).
  assert (N (vec (F x)) < N (vec x)) by lra. nra.
Qed.
End Certificate.

(** ** Error bounds *)
Definition sgn (a : R) : R := if Rle_dec 0 a then 1 else -1.
Lemma sgn_abs a : a * sgn a = Rabs a.
Proof. unfold sgn, Rabs. destruct Rle_dec, Rcase_abs; lra. Qed.
Lemma sgn_one a : Rabs (sgn a) = 1.
Proof. unfold sgn, Rabs. destruct Rle_dec, Rcase_abs; lra. Qed.
Lemma dot_comm n u v : dot n u v = dot n v u.
Proof. unfold dot. apply rsum_ext. intros. ring. Qed.
Lemma dot_2 n u v w : (forall i, (i < n)%nat -> u i = 2 * v i) -> dot n u w = 2 * dot n v w.
Proof. intros H. unfold dot. rewrite <- rsum_scal. apply rsum_ext. intros. rewrite H by auto. ring. Qed.

Lemma step_expand n P m y : shape n n P -> symmetric n P -> length m = n -> length y = n ->
  quadratic_lyapunov P y = quadratic_lyapunov P m +
    dot n (vec (grad_lyapunov P m)) (fun i => vec y i - vec m i) +
    form n (entry P) (fun i => vec y i - vec m i).
Proof.
  intros SP SYM Lm Ly. rewrite !(lyapunov_at n P) by auto.
  rewrite (form_ext n (entry P) (vec y) (fun i => vec m i + 1 * (vec y i - vec m i))) by (intros; ring).
  rewrite (bil_plus n (entry P) 1) by exact SYM.
  destruct (gradient_at n P m SP Lm) as [LG G].
  rewrite (dot_2 n (vec (grad_lyapunov P m)) (fun i => dot n (entry P i) (vec m))) by (intros; apply G; auto).
  assert (E : bil n (entry P) (vec m) (fun i => vec y i - vec m i) =
              dot n (fun i => dot n (entry P i) (vec m)) (fun i => vec y i - vec m i)).
  { rewrite dot_comm. rewrite <- (bil_left n (entry P) (fun i => vec y i - vec m i) (vec m)).
    unfold bil. rewrite rsum_swap. apply rsum_ext. intros i Hi. apply rsum_ext. intros j Hj.
    rewrite (SYM i j) by auto. ring. }
  rewrite E. ring.
Qed.

Lemma weighted_gradient S scaling P m err n : lip_v S = gradient_constants scaling P ->
  shape n n P -> length m = n -> length err = n ->
  scaling = true ->
  weighted_error S m err = rsum n (fun i => Rabs (vec (grad_lyapunov P m) i) * nth i err 0).
Proof.
  intros E SP Lm Le ->. unfold weighted_error. rewrite E. unfold gradient_constants.
  destruct (gradient_at n P m SP Lm) as [LG _].
  assert (M : map Rabs (grad_lyapunov P m) <> [] -> True) by auto. clear M.
  assert (A : sum (map2 Rmult (map Rabs (grad_lyapunov P m)) err) =
     rsum n (fun i => Rabs (vec (grad_lyapunov P m) i) * nth i err 0)).
  { rewrite sum_map2_rsum by (rewrite map_length; lia). rewrite map_length, LG. apply rsum_ext. intros i Hi.
    f_equal. rewrite (nth_indep _ 0 (Rabs 0)) by (rewrite map_length; lia). now rewrite map_nth. }
  destruct (map Rabs (grad_lyapunov P m)) as [|a [|b r]] eqn:EM; [exact A| |exact A].
  rewrite <- A. destruct err as [|e [|e' err']].
  - apply (f_equal (@length R)) in EM. rewrite map_length in EM. simpl in *. lia.
  - reflexivity.
  - apply (f_equal (@length R)) in EM. rewrite map_length in EM. simpl in *. lia.
Qed.

Lemma error_bound_violated n P S x mean err : shape n n P -> symmetric n P ->
  (forall v, (exists i, (i < n)%nat /\ v i <> 0) -> 0 < form n (entry P) v) ->
  (forall z, length z = n -> lyapunov_function S z = quadratic_lyapunov P z) ->
  lip_v S = gradient_constants true P ->
  length x = n -> length mean = n -> length err = n -> Forall (Rle 0) err -> (exists i, nth i err 0 <> 0) ->
  exists y, within y mean err /\
    v_decrease_bound S x (Uncertain mean err) < lyapunov_function S y - lyapunov_function S x.
Proof.
  intros SP SYM PD HV HL Lx Lm Le HE [i0 Hi0].
  set (g := vec (grad_lyapunov P mean)).
  set (y := map (fun i => nth i mean 0 + sgn (g i) * nth i err 0) (seq 0 n)).
  assert (Ly : length y = n) by (unfold y; rewrite map_length, seq_length; auto).
  assert (Ny : forall i, (i < n)%nat -> nth i y 0 = nth i mean 0 + sgn (g i) * nth i err 0).
  { intros i Hi. unfold y. rewrite (nth_indep _ 0 ((fun i => nth i mean 0 + sgn (g i) * nth i err 0) 0%nat)) by (rewrite map_length, seq_length; auto).
    rewrite (map_nth (fun i => nth i mean 0 + sgn (g i) * nth i err 0)), seq_nth by auto. reflexivity. }
  assert (E0 : forall i, 0 <= nth i err 0).
  { intros i. destruct (Nat.lt_ge_cases i (length err)).
    - rewrite Forall_forall in HE. apply HE. now apply nth_In.
    - rewrite nth_overflow by auto. lra. }
  exists y. split.
  - split; [lia|]. split; [lia|]. intros j Hj. rewrite Ny by lia.
    replace (nth j mean 0 + sgn (g j) * nth j err 0 - nth j mean 0) with (sgn (g j) * nth j err 0) by ring.
    rewrite Rabs_mult, sgn_one, Rmult_1_l. right. apply Rabs_pos_eq. auto.
  - unfold v_decrease_bound, v_decrease_confidence. rewrite (weighted_gradient S true P mean err n) by auto.
    rewrite !HV by auto. rewrite (step_expand n P mean y) by auto. fold g.
    assert (B : dot n g (fun i => vec y i - vec mean i) = rsum n (fun i => Rabs (g i) * nth i err 0)).
    { unfold dot. apply rsum_ext. intros i Hi. unfold vec. rewrite Ny by auto.
      rewrite <- sgn_abs. ring. }
    rewrite B.
    assert (0 < form n (entry P) (fun i => vec y i - vec mean i)).
    { apply PD. assert (Hn : (i0 < n)%nat).
      { destruct (Nat.lt_ge_cases i0 n); [auto|]. exfalso. apply Hi0. apply nth_overflow. lia. }
      exists i0. split; [exact Hn|]. unfold vec. rewrite Ny by auto.
      unfold sgn. destruct Rle_dec; lra. }
    lra.
Qed.

Lemma error_bound_slack n P S x mean err y : shape n n P -> symmetric n P ->
  (forall v, 0 <= form n (entry P) v) ->
  (forall z, length z = n -> lyapunov_function S z = quadratic_lyapunov P z) ->
  lip_v S = gradient_constants true P ->
  length x = n -> length mean = n -> within y mean err ->
  lyapunov_function S y - lyapunov_function S x <=
    v_decrease_bound S x (Uncertain mean err) +
    (rsum n (fun j => sqrt (entry P j j) * nth j err 0)) ^ 2.
Proof.
  intros SP SYM PSD HV HL Lx Lm (Ly & Le & W).
  unfold v_decrease_bound, v_decrease_confidence. rewrite (weighted_gradient S true P mean err n) by (auto; lia).
  rewrite !HV by (auto; lia). rewrite (step_expand n P mean y) by (auto; lia).
  set (g := vec (grad_lyapunov P mean)). set (d := fun i => vec y i - vec mean i).
  assert (D : forall i, (i < n)%nat -> Rabs (d i) <= nth i err 0) by (intros; apply W; lia).
  assert (B : dot n g d <= rsum n (fun i => Rabs (g i) * nth i err 0)).
  { unfold dot. apply rsum_le. intros i Hi. eapply Rle_trans; [apply Rle_abs|]. rewrite Rabs_mult.
    apply Rmult_le_compat_l; [apply Rabs_pos|auto]. }
  assert (C : form n (entry P) d <= (rsum n (fun j => sqrt (entry P j j) * nth j err 0)) ^ 2).
  { rewrite <- (nrm_sq n (entry P) PSD d).
    pose proof (nrm_coords n (entry P) SYM PSD d) as N. pose proof (nrm_pos n (entry P) d).
    assert (rsum n (fun j => sqrt (entry P j j) * Rabs (d j)) <= rsum n (fun j => sqrt (entry P j j) * nth j err 0)).
    { apply rsum_le. intros j Hj. apply Rmult_le_compat_l; [apply sqrt_pos|auto]. }
    nra. }
  fold d. lra.
Qed.

(** ** Discretization constants *)
Lemma half_sum g : valid_grid g ->
  tau_sum g = rsum (GridSpec.dims g) (fun j => spacing g j / 2).
Proof.
  intros V. unfold tau_sum. rewrite sum_rsum, (unit_len g V).
  unfold Rdiv. rewrite Rmult_comm, <- rsum_scal. apply rsum_ext. intros j Hj.
  rewrite unit_nth by auto. ring.
Qed.
Lemma covers_iff g t : valid_grid g -> (covers g t <-> tau_sum g <= t).
Proof.
  intros V. split.
  - intros H. set (x := map (fun j => lower g j + spacing g j / 2) (seq 0 (GridSpec.dims g))).
    assert (Lx : length x = GridSpec.dims g) by (unfold x; rewrite map_length, seq_length; auto).
    assert (Nx : forall j, (j < GridSpec.dims g)%nat -> nth j x 0 = lower g j + spacing g j / 2).
    { intros j Hj. unfold x.
      rewrite (nth_indep _ 0 ((fun j => lower g j + spacing g j / 2) 0%nat)) by (rewrite map_length, seq_length; auto).
      rewrite (map_nth (fun j => lower g j + spacing g j / 2)), seq_nth by auto. reflexivity. }
    assert (Ix : inside g x).
    { intros j Hj. unfold coordinate. rewrite Nx by auto. pose proof (spacing_pos g V j Hj) as S.
      pose proof (proj2 (proj1 (Forall2_nth _ _ _ (0, 0) 0%Z) V) j Hj) as [A B]. fold (lower g j) in A. fold (upper g j) in A. fold (npts g j) in B.
      assert (E : upper g j = lower g j + IZR (npts g j - 1) * spacing g j).
      { unfold spacing. field. apply not_0_IZR. lia. }
      assert (1 <= IZR (npts g j - 1)) by (apply (IZR_le 1); lia). split; [lra|]. rewrite E. nra. }
    destruct (H x Lx Ix) as (p & [Lp Hp] & D). eapply Rle_trans; [|exact D].
    rewrite half_sum, dist1_rsum by (auto; lia). rewrite Lx. apply rsum_le. intros j Hj.
    rewrite Nx by auto. destruct (Hp j Hj) as (k & _ & E). unfold coordinate in E. rewrite E.
    pose proof (spacing_pos g V j Hj) as S.
    replace (lower g j + spacing g j / 2 - (lower g j + IZR k * spacing g j)) with ((1 / 2 - IZR k) * spacing g j) by field.
    rewrite Rabs_mult, (Rabs_pos_eq (spacing g j)) by lra.
    assert (1 / 2 <= Rabs (1 / 2 - IZR k)).
    { destruct (Z_le_gt_dec k 0) as [L|G].
      - apply IZR_le in L. rewrite Rabs_pos_eq; lra.
      - assert (1 <= IZR k) by (apply (IZR_le 1); lia). rewrite Rabs_left1; lra. }
    nra.
  - intros H x Lx Ix. destruct (nearest_cell g x V Lx Ix) as (k & _ & Hk & D).
    exists (grid_point g k). split; [apply (grid_point_vertex g k V Hk)|].
    eapply Rle_trans; [exact D|]. eapply Rle_trans; [|exact H].
    right. unfold tau_sum. rewrite sum_map_rsum, sum_rsum. unfold Rdiv at 2. rewrite Rmult_comm, <- rsum_scal.
    apply rsum_ext. intros. field.
Qed.

Lemma spacing_le_max g j : valid_grid g -> (j < GridSpec.dims g)%nat -> spacing g j <= tau_max g.
Proof. intros V Hj. rewrite <- unit_nth by auto. apply np_max_ge, nth_In. now rewrite unit_len. Qed.
Lemma min_le_spacing g j : valid_grid g -> (j < GridSpec.dims g)%nat -> tau_min g <= spacing g j.
Proof. intros V Hj. rewrite <- unit_nth by auto. apply np_min_le, nth_In. now rewrite unit_len. Qed.
