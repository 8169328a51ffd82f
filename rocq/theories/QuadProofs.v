(** Quadratic and linear functions: proofs. *)
From Coq Require Import Reals List Bool Arith Lia Lra Psatz.
From Verif Require Import Prelude FunModel QuadModel QuadSpec.
Import ListNotations.
Local Open Scope R_scope.

Lemma rsum_0 f : rsum 0 f = 0.
Proof. reflexivity. Qed.
Lemma fold_plus_app (a b : list R) :
  fold_right Rplus 0 (a ++ b) = fold_right Rplus 0 a + fold_right Rplus 0 b.
Proof. induction a as [|x a IH]; simpl; [lra | rewrite IH; lra]. Qed.
Lemma rsum_S n f : rsum (S n) f = rsum n f + f n.
Proof.
  unfold rsum. replace (seq 0 (S n)) with (seq 0 n ++ [n]).
  - rewrite map_app, fold_plus_app. simpl. lra.
  - symmetry. apply seq_S.
Qed.
Lemma rsum_ext n f g : (forall i, (i < n)%nat -> f i = g i) -> rsum n f = rsum n g.
Proof.
  induction n as [|n IH]; intros H; [reflexivity|].
  rewrite !rsum_S, IH, H; [reflexivity | lia | intros; apply H; lia].
Qed.
Lemma rsum_plus n f g : rsum n (fun i => f i + g i) = rsum n f + rsum n g.
Proof. induction n as [|n IH]; [unfold rsum; simpl; lra | rewrite !rsum_S, IH; lra]. Qed.
Lemma rsum_scal n c f : rsum n (fun i => c * f i) = c * rsum n f.
Proof. induction n as [|n IH]; [unfold rsum; simpl; lra | rewrite !rsum_S, IH; lra]. Qed.
Lemma rsum_zero n : rsum n (fun _ => 0) = 0.
Proof. induction n as [|n IH]; [reflexivity | rewrite rsum_S, IH; lra]. Qed.
Lemma rsum_app n m f : rsum (n + m) f = rsum n f + rsum m (fun k => f (n + k)%nat).
Proof.
  induction m as [|m IH].
  - rewrite Nat.add_0_r, rsum_0. lra.
  - replace (n + S m)%nat with (S (n + m)) by lia. rewrite !rsum_S, IH. lra.
Qed.
Lemma rsum_swap n m f :
  rsum n (fun i => rsum m (fun j => f i j)) = rsum m (fun j => rsum n (fun i => f i j)).
Proof.
  induction n as [|n IH].
  - rewrite rsum_0. symmetry. etransitivity; [|apply (rsum_zero m)]. apply rsum_ext. reflexivity.
  - rewrite rsum_S, IH, <- rsum_plus. apply rsum_ext. intros j _. rewrite rsum_S. reflexivity.
Qed.

(** Concatenation *)
Lemma hcat_ok N l : l <> [] -> Forall (fun t => rows t = N) l ->
  exists t, hcat l = Ok t /\ rows t = N /\ cols t = total_cols l.
Proof.
  induction l as [|t l IH]; intros ne H; [congruence|].
  inversion H as [|? ? Ht Hl]; subst. destruct l as [|u l].
  - exists t. unfold total_cols; simpl. rewrite Nat.add_0_r. auto.
  - destruct IH as (v & E & rv & cv); [discriminate | auto |].
    change (hcat (t :: u :: l)) with (bind (hcat (u :: l)) (hcat2 t)).
    rewrite E. simpl. unfold hcat2. rewrite rv, Nat.eqb_refl.
    eexists; split; [reflexivity|]; simpl; split; [auto|].
    rewrite cv. unfold total_cols. reflexivity.
Qed.

Lemma hcat_cons t u l v : hcat (u :: l) = Ok v -> rows t = rows v ->
  hcat (t :: u :: l) = Ok {| rows := rows t; cols := cols t + cols v;
    entry := fun i j => if Nat.ltb j (cols t) then entry t i j else entry v i (j - cols t) |}.
Proof.
  intros E r. change (hcat (t :: u :: l)) with (bind (hcat (u :: l)) (hcat2 t)).
  rewrite E. simpl. unfold hcat2. rewrite r, Nat.eqb_refl. reflexivity.
Qed.

Lemma hcat_dot m N As Xs : Forall2 (fun A X => cols A = cols X) As Xs -> As <> [] ->
  Forall (fun A => rows A = m) As -> Forall (fun X => rows X = N) Xs ->
  forall M X, hcat As = Ok M -> hcat Xs = Ok X -> forall r o,
  dot (cols M) (entry M o) (entry X r) = linear_sum As Xs r o.
Proof.
  induction 1 as [|A Y As Xs c F2 IH]; intros ne FA FX M X EA EX r o; [congruence|].
  inversion FA as [|? ? rA FA']; inversion FX as [|? ? rX FX']; subst.
  destruct F2 as [|A2 Y2 As' Xs' c2 F2].
  - simpl in EA, EX. injection EA as <-; injection EX as <-. simpl. lra.
  - destruct (hcat_ok (rows A) (A2 :: As')) as (M' & EM & rM & cM); [discriminate | auto |].
    destruct (hcat_ok (rows Y) (Y2 :: Xs')) as (X' & EX' & rX' & cX'); [discriminate | auto |].
    rewrite (hcat_cons A A2 As' M' EM) in EA by congruence.
    rewrite (hcat_cons Y Y2 Xs' X' EX') in EX by congruence.
    injection EA as <-; injection EX as <-.
    specialize (IH ltac:(discriminate) FA' FX' M' X' EM EX' r o).
    change (linear_sum (A :: A2 :: As') (Y :: Y2 :: Xs') r o) with
      (dot (cols A) (entry A o) (entry Y r) + linear_sum (A2 :: As') (Y2 :: Xs') r o).
    rewrite <- IH. unfold dot. cbn [cols entry]. rewrite rsum_app. f_equal.
    + apply rsum_ext. intros i Hi. rewrite <- c.
      destruct (Nat.ltb_spec i (cols A)); [reflexivity | lia].
    + apply rsum_ext. intros i Hi. rewrite <- c.
      destruct (Nat.ltb_spec (cols A + i) (cols A)); [lia|].
      replace (cols A + i - cols A)%nat with i by lia. reflexivity.
Qed.

Lemma total_eq As Xs : Forall2 (fun A X => cols A = cols X) As Xs -> total_cols As = total_cols Xs.
Proof. unfold total_cols. induction 1; simpl; auto. Qed.

(** Quadratic forms *)
Lemma form_expand n P x h :
  form n P (fun i => x i + h i) =
  form n P x + dot n (fun k => rsum n (fun j => x j * (P j k + P k j))) h + form n P h.
Proof.
  unfold form, dot.
  assert (C : rsum n (fun i => rsum n (fun j => x j * (P j i + P i j)) * h i) =
     rsum n (fun i => rsum n (fun j => x i * P i j * h j)) + rsum n (fun i => rsum n (fun j => h i * P i j * x j))).
  { rewrite (rsum_swap n n (fun i j => x i * P i j * h j)), <- rsum_plus. apply rsum_ext. intros i _.
    rewrite <- rsum_plus, Rmult_comm, <- rsum_scal. apply rsum_ext. intros j _. ring. }
  rewrite C, Rplus_assoc, Rplus_assoc, <- !rsum_plus. apply rsum_ext. intros i _.
  rewrite <- !rsum_plus. apply rsum_ext. intros j _. ring.
Qed.

Lemma form_scal n P c x : form n P (fun i => c * x i) = c * c * form n P x.
Proof.
  unfold form. rewrite <- rsum_scal. apply rsum_ext. intros i _.
  rewrite <- rsum_scal. apply rsum_ext. intros j _. ring.
Qed.
Lemma dot_scal n g c h : dot n g (fun i => c * h i) = c * dot n g h.
Proof. unfold dot. rewrite <- rsum_scal. apply rsum_ext. intros; ring. Qed.

Lemma form_derivative n P x h :
  derivable_pt_lim (fun t => form n P (fun i => x i + t * h i)) 0
    (dot n (fun k => rsum n (fun j => x j * (P j k + P k j))) h).
Proof.
  set (g := fun k => rsum n (fun j => x j * (P j k + P k j))).
  assert (E : forall t, form n P (fun i => x i + t * h i) = form n P x + t * dot n g h + t * t * form n P h).
  { intros t. rewrite (form_expand n P x (fun i => t * h i)), dot_scal, form_scal. reflexivity. }
  intros eps He. set (q := form n P h) in *.
  assert (Hd : 0 < eps / (Rabs q + 1)).
  { apply Rdiv_lt_0_compat; [auto|]. pose proof (Rabs_pos q). lra. }
  exists (mkposreal _ Hd). intros t nt Ht. cbn [pos] in Ht.
  rewrite (E (0 + t)), (E 0).
  replace ((form n P x + (0 + t) * dot n g h + (0 + t) * (0 + t) * q -
     (form n P x + 0 * dot n g h + 0 * 0 * q)) / t - dot n g h) with (t * q) by (field; auto).
  rewrite Rabs_mult. pose proof (Rabs_pos q).
  apply Rle_lt_trans with (Rabs t * (Rabs q + 1)).
  - apply Rmult_le_compat_l; [apply Rabs_pos | lra].
  - apply Rmult_lt_reg_r with (/ (Rabs q + 1)); [apply Rinv_0_lt_compat; lra|].
    rewrite Rmult_assoc, Rinv_r, Rmult_1_r by lra. exact Ht.
Qed.

Lemma quadratic_square n N P args :
  rows P = n -> cols P = n -> args <> [] -> Forall (fun t => rows t = N) args -> total_cols args = n ->
  exists X v, hcat args = Ok X /\ quadratic_eval P args = Ok v /\ rows v = N /\ cols v = 1%nat /\
  forall r c, (r < N)%nat -> entry v r c = form n (entry P) (entry X r).
Proof.
  intros rP cP ne FN tc. destruct (hcat_ok N args ne FN) as (X & EX & rX & cX).
  assert (cX' : cols X = n) by congruence.
  unfold quadratic_eval. rewrite EX. cbn [bind]. unfold matmul. rewrite cX', rP, Nat.eqb_refl. cbn [bind].
  unfold op2, bdim. cbn [rows cols]. rewrite Nat.eqb_refl, cP, cX', Nat.eqb_refl. cbn [bind as_tensor rows cols entry].
  exists X. eexists. repeat split; auto.
  intros r c Hr. cbn [entry]. unfold form.
  rewrite (rsum_swap n n). apply rsum_ext. intros j Hj.
  assert (B : bidx (rows X) r = r).
  { unfold bidx. destruct (Nat.eqb_spec (rows X) 1); lia. }
  assert (B2 : bidx n j = j).
  { unfold bidx. destruct (Nat.eqb_spec n 1); lia. }
  rewrite B, B2, Rmult_comm, <- rsum_scal. apply rsum_ext. intros i _. ring.
Qed.

Lemma gradient_square n P X : rows P = n -> cols P = n -> cols X = n ->
  exists g, quadratic_gradient P X = Ok g /\ rows g = rows X /\ cols g = n /\
  forall r k, (k < n)%nat -> entry g r k = rsum n (fun j => entry X r j * (entry P j k + entry P k j)).
Proof.
  intros rP cP cX. unfold quadratic_gradient, op2, bdim, transpose. cbn [rows cols].
  rewrite rP, cP, Nat.eqb_refl. cbn [bind as_tensor]. unfold matmul. cbn [rows cols entry].
  rewrite cX, Nat.eqb_refl. eexists; repeat split. intros r k Hk. cbn [entry].
  apply rsum_ext. intros j Hj.
  assert (B : forall m i, m = n -> (i < n)%nat -> bidx m i = i).
  { intros m i -> Hi. unfold bidx. destruct (Nat.eqb_spec n 1); lia. }
  rewrite !B; auto.
Qed.
