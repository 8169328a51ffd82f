(** Lipschitz constants of networks: proofs. *)
From Coq Require Import Reals List Bool Arith Lia Lra Psatz.
From Verif Require Import Prelude FunModel QuadModel QuadSpec QuadProofs NNModel NNSpec.
Import ListNotations.
Local Open Scope R_scope.

Lemma rsum_nonneg n f : (forall i, (i < n)%nat -> 0 <= f i) -> 0 <= rsum n f.
Proof.
  induction n as [|n IH]; intros H; [unfold rsum; simpl; lra|].
  rewrite rsum_S. pose proof (H n ltac:(lia)). assert (0 <= rsum n f) by (apply IH; intros; apply H; lia). lra.
Qed.
Lemma rsum_le n f g : (forall i, (i < n)%nat -> f i <= g i) -> rsum n f <= rsum n g.
Proof.
  induction n as [|n IH]; intros H; [unfold rsum; simpl; lra|].
  rewrite !rsum_S. pose proof (H n ltac:(lia)). assert (rsum n f <= rsum n g) by (apply IH; intros; apply H; lia). lra.
Qed.
Lemma rsum_delta n f k : (k < n)%nat -> rsum n (fun l => f l * (if Nat.eqb k l then 1 else 0)) = f k.
Proof.
  induction n as [|n IH]; intros H; [lia|]. rewrite rsum_S.
  destruct (Nat.eq_dec k n) as [->|ne].
  - rewrite Nat.eqb_refl. rewrite (rsum_ext n _ (fun _ => 0)), rsum_zero; [lra|].
    intros i Hi. destruct (Nat.eqb_spec n i); [lia | lra].
  - rewrite IH by lia. destruct (Nat.eqb_spec k n); [lia | lra].
Qed.
Lemma rsum_mul n m f g : rsum n f * rsum m g = rsum n (fun k => rsum m (fun l => f k * g l)).
Proof.
  rewrite Rmult_comm, <- rsum_scal. apply rsum_ext. intros k _. rewrite rsum_scal. ring.
Qed.

(** Orthonormal columns keep the length of coordinate vectors. *)
Lemma norm_orth r n U c : orthonormal r n U ->
  rsum n (fun j => Rsqr (rsum r (fun k => c k * entry U j k))) = rsum r (fun k => Rsqr (c k)).
Proof.
  intros o. unfold Rsqr.
  rewrite (rsum_ext n _ (fun j => rsum r (fun k => rsum r (fun l => (c k * c l) * (entry U j k * entry U j l))))).
  2:{ intros j _. rewrite rsum_mul. apply rsum_ext; intros k _. apply rsum_ext; intros l _. ring. }
  rewrite rsum_swap. apply rsum_ext; intros k Hk.
  rewrite rsum_swap.
  rewrite (rsum_ext r _ (fun l => (c k * c l) * (if Nat.eqb k l then 1 else 0))).
  2:{ intros l Hl. rewrite rsum_scal, o by auto. reflexivity. }
  rewrite (rsum_delta r (fun l => c k * c l)) by auto. reflexivity.
Qed.

Lemma bessel r n U x : orthonormal r n U ->
  rsum r (fun k => Rsqr (rsum n (fun i => x i * entry U i k))) <= rsum n (fun i => Rsqr (x i)).
Proof.
  intros o. set (c := fun k => rsum n (fun i => x i * entry U i k)).
  pose proof (norm_orth r n U c o) as No.
  assert (P : 0 <= rsum n (fun i => Rsqr (x i - rsum r (fun k => c k * entry U i k)))).
  { apply rsum_nonneg. intros; apply Rle_0_sqr. }
  assert (X : rsum n (fun i => x i * rsum r (fun k => c k * entry U i k)) = rsum r (fun k => Rsqr (c k))).
  { rewrite (rsum_ext n _ (fun i => rsum r (fun k => c k * (x i * entry U i k)))).
    - rewrite rsum_swap. apply rsum_ext; intros k _. rewrite rsum_scal. reflexivity.
    - intros i _. rewrite <- rsum_scal. apply rsum_ext; intros; ring. }
  rewrite (rsum_ext n _ (fun i => Rsqr (x i) + (-2 * (x i * rsum r (fun k => c k * entry U i k))
     + Rsqr (rsum r (fun k => c k * entry U i k))))) in P by (intros; unfold Rsqr; ring).
  rewrite rsum_plus, rsum_plus, rsum_scal, No, X in P.
  change (rsum r (fun k => Rsqr (c k)) <= rsum n (fun i => Rsqr (x i))). lra.
Qed.

(** The diagonal recovered by [svd] consists of the singular values. *)
Lemma svd_values tf A s U V : tf A = (s, U, V) -> is_svd A (s, U, V) ->
  svd tf A = map s (seq 0 (Nat.min (rows A) (cols A))).
Proof.
  intros E (oU & oV & _ & e). unfold svd. rewrite E. apply map_ext_in. intros k Hk.
  apply in_seq in Hk. set (r := Nat.min (rows A) (cols A)) in *.
  transitivity (rsum (rows A) (fun i => s k * (entry U i k * entry U i k))).
  - apply rsum_ext; intros i Hi.
    assert (X : rsum (cols A) (fun j => entry A i j * entry V j k) = entry U i k * s k).
    { rewrite (rsum_ext (cols A) _ (fun j => rsum r (fun l => (entry U i l * s l) * (entry V j l * entry V j k)))).
      - rewrite rsum_swap.
        rewrite (rsum_ext r _ (fun l => (entry U i l * s l) * (if Nat.eqb k l then 1 else 0))).
        + apply (rsum_delta r (fun l => entry U i l * s l)). lia.
        + intros l Hl. rewrite rsum_scal, oV by lia. rewrite (Nat.eqb_sym l k). reflexivity.
      - intros j Hj. rewrite e by auto. fold r.
        rewrite Rmult_comm, <- rsum_scal. apply rsum_ext; intros; ring. }
    rewrite X. ring.
  - rewrite rsum_scal, oU by lia. rewrite Nat.eqb_refl. ring.
Qed.

Lemma fold_max_ge l x : x <= fold_left Rmax l x /\ forall y, In y l -> y <= fold_left Rmax l x.
Proof.
  revert x. induction l as [|a l IH]; intros x; simpl; [split; [lra | tauto]|].
  destruct (IH (Rmax x a)) as [H1 H2]. pose proof (Rmax_l x a). pose proof (Rmax_r x a). split; [lra|].
  intros y [<-|Hy]; [lra | auto].
Qed.
Lemma reduce_max_ge l y : In y l -> y <= reduce_max l.
Proof.
  destruct l as [|x l]; [intros []|]. simpl. destruct (fold_max_ge l x) as [H1 H2]. intros [<-|H]; auto.
Qed.

(** One linear map. *)
Lemma linear_bound tf A x : is_svd A (tf A) ->
  let sigma := reduce_max (svd tf A) in
  0 <= sigma /\
  rsum (cols A) (fun j => Rsqr (rsum (rows A) (fun i => x i * entry A i j))) <=
  sigma * sigma * rsum (rows A) (fun i => Rsqr (x i)).
Proof.
  destruct (tf A) as [[s U] V] eqn:E. intros H sigma.
  pose proof (svd_values tf A s U V E H) as SV. destruct H as (oU & oV & nn & e).
  set (r := Nat.min (rows A) (cols A)) in *.
  assert (top : forall k, (k < r)%nat -> 0 <= s k <= sigma).
  { intros k Hk. split; [auto|]. unfold sigma. rewrite SV. apply reduce_max_ge.
    apply in_map. apply in_seq. lia. }
  assert (sp : 0 <= sigma).
  { destruct r as [|r'] eqn:Er.
    - unfold sigma. rewrite SV. simpl. lra.
    - destruct (top 0%nat); [lia | lra]. }
  split; [auto|].
  set (c := fun k => rsum (rows A) (fun i => x i * entry U i k)).
  rewrite (rsum_ext (cols A) _ (fun j => Rsqr (rsum r (fun k => (c k * s k) * entry V j k)))).
  - rewrite (norm_orth r (cols A) V (fun k => c k * s k) oV).
    apply Rle_trans with (rsum r (fun k => (sigma * sigma) * Rsqr (c k))).
    + apply rsum_le. intros k Hk. destruct (top k Hk). unfold Rsqr.
      replace (c k * s k * (c k * s k)) with ((s k * s k) * (c k * c k)) by ring.
      apply Rmult_le_compat_r; [apply Rle_0_sqr | nra].
    + rewrite rsum_scal. apply Rmult_le_compat_l; [nra|]. apply (bessel r (rows A) U x oU).
  - intros j Hj. f_equal. unfold c.
    rewrite (rsum_ext (rows A) _ (fun i => rsum r (fun k => s k * entry V j k * (x i * entry U i k)))).
    + rewrite rsum_swap. apply rsum_ext; intros k _. rewrite rsum_scal. ring.
    + intros i Hi. rewrite e by auto. fold r. rewrite <- rsum_scal. apply rsum_ext; intros; ring.
Qed.

Definition sq (n : nat) (x y : nat -> R) : R := rsum n (fun i => Rsqr (x i - y i)).
Lemma sq_nonneg n x y : 0 <= sq n x y.
Proof. apply rsum_nonneg. intros; apply Rle_0_sqr. Qed.

(** One layer. *)
Lemma dense_inv net units W b a t : dense net units W b a = Ok t ->
  rows t = rows net /\ cols t = cols W /\ cols W = units /\ rows W = cols net /\
  forall i j, (i < rows net)%nat -> (j < cols W)%nat -> exists c,
   entry t i j = activate a (rsum (cols net) (fun k => entry net i k * entry W k j) + c) /\
   c = match b with Some b => entry b 0%nat j | None => 0 end.
Proof.
  unfold dense, matmul. destruct (Nat.eqb_spec (cols W) units) as [cu|]; [|discriminate].
  destruct (Nat.eqb_spec (cols net) (rows W)) as [cr|]; [|discriminate]. cbn [bind].
  destruct b as [b|].
  - destruct (Nat.eqb_spec (rows b) 1) as [rb|]; [|discriminate].
    destruct (Nat.eqb_spec (cols b) units) as [cb|]; [|discriminate]. cbn [andb].
    unfold op2, bdim. cbn [rows cols entry].
    assert (C : (cols W =? cols b)%nat = true) by (apply Nat.eqb_eq; lia). rewrite C, rb.
    destruct (Nat.eqb_spec (rows net) 1) as [rn|rn]; cbn [bind as_tensor];
      intros H; injection H as <-; cbn [rows cols entry]; repeat split; auto;
      intros i j Hi Hj; (eexists; split; [|reflexivity]); f_equal; f_equal.
    1,3: apply rsum_ext; intros k _; unfold bidx; f_equal; f_equal.
    + destruct (rows net =? 1)%nat; lia.
    + destruct (Nat.eqb_spec (cols W) 1); lia.
    + destruct (Nat.eqb_spec (rows net) 1); lia.
    + destruct (Nat.eqb_spec (cols W) 1); lia.
    + unfold bidx. simpl. f_equal. destruct (Nat.eqb_spec (cols b) 1); lia.
    + unfold bidx. simpl. f_equal. destruct (Nat.eqb_spec (cols b) 1); lia.
  - cbn [bind as_tensor]. intros H; injection H as <-. cbn [rows cols entry]. repeat split; auto.
    intros i j Hi Hj. exists 0. split; [f_equal; ring | reflexivity].
Qed.

Lemma dense_contracts tf net net' units W b a t t' r :
  contractive a -> is_svd W (tf W) ->
  dense net units W b a = Ok t -> dense net' units W b a = Ok t' ->
  rows net' = rows net -> (r < rows net)%nat ->
  cols net' = cols net /\
  sq (cols t) (entry t r) (entry t' r) <=
  reduce_max (svd tf W) * reduce_max (svd tf W) * sq (cols net) (entry net r) (entry net' r).
Proof.
  intros ca sv E E' rr Hr.
  destruct (dense_inv _ _ _ _ _ _ E) as (r1 & c1 & u1 & w1 & e1).
  destruct (dense_inv _ _ _ _ _ _ E') as (r2 & c2 & u2 & w2 & e2).
  split; [lia|].
  destruct (linear_bound tf W (fun i => entry net r i - entry net' r i) sv) as [sp lb].
  eapply Rle_trans; [|rewrite <- w1; exact lb].
  unfold sq. rewrite c1. apply rsum_le. intros j Hj.
  destruct (e1 r j Hr Hj) as (c & -> & Hc). destruct (e2 r j ltac:(lia) Hj) as (c' & -> & Hc').
  replace c' with c by congruence.
  eapply Rle_trans; [apply Rsqr_le_abs_1, ca|].
  apply Req_le. f_equal. replace (cols net') with (rows W) by lia. replace (cols net) with (rows W) by lia.
  match goal with |- ?a + c - (?b + c) = _ => replace (a + c - (b + c)) with (a + -1 * b) by ring end.
  rewrite <- rsum_scal, <- rsum_plus. apply rsum_ext; intros; ring.
Qed.

Definition weight_product tf (Ws : list tensor) : R :=
  fold_right (fun W acc => reduce_max (svd tf W) * acc) 1 Ws.
Lemma fold_left_product tf Ws a :
  fold_left (fun lip W => lip * reduce_max (svd tf W)) Ws a = a * weight_product tf Ws.
Proof. revert a. induction Ws as [|W Ws IH]; intros a; simpl; [ring | rewrite IH; ring]. Qed.

(** The weights used by the hidden layers. *)
Fixpoint used (bias : bool) (n : nat) (ps : list tensor) : list tensor :=
  match n with
  | 0%nat => []
  | S n' => match bias, ps with
            | true, W :: b :: ps' => W :: used bias n' ps'
            | false, W :: ps' => W :: used bias n' ps'
            | _, _ => []
            end
  end.

Lemma hidden_contracts tf bias r : forall ls ps net net' h h',
  Forall (fun l => contractive (snd l)) ls -> (forall W, In W (used bias (length ls) ps) -> is_svd W (tf W)) ->
  hidden bias ls ps net = Ok h -> hidden bias ls ps net' = Ok h' ->
  rows net' = rows net -> cols net' = cols net -> (r < rows net)%nat ->
  rows (fst h) = rows net /\ rows (fst h') = rows net /\ cols (fst h') = cols (fst h) /\ snd h = snd h' /\
  0 <= weight_product tf (used bias (length ls) ps) /\
  sq (cols (fst h)) (entry (fst h) r) (entry (fst h') r) <=
  Rsqr (weight_product tf (used bias (length ls) ps)) * sq (cols net) (entry net r) (entry net' r).
Proof.
  induction ls as [|[u a] ls IH]; intros ps net net' h h' F sv E E' rr cc Hr.
  - simpl in E, E'. injection E as <-; injection E' as <-. simpl.
    repeat split; auto; [lra | unfold Rsqr; lra].
  - inversion F as [|? ? ca F']; subst. simpl in ca.
    assert (step : forall W b ps', used bias (length ((u, a) :: ls)) ps = W :: used bias (length ls) ps' ->
       bind (dense net u W b a) (hidden bias ls ps') = Ok h ->
       bind (dense net' u W b a) (hidden bias ls ps') = Ok h' ->
       rows (fst h) = rows net /\ rows (fst h') = rows net /\ cols (fst h') = cols (fst h) /\ snd h = snd h' /\
       0 <= weight_product tf (used bias (length ((u, a) :: ls)) ps) /\
       sq (cols (fst h)) (entry (fst h) r) (entry (fst h') r) <=
       Rsqr (weight_product tf (used bias (length ((u, a) :: ls)) ps)) * sq (cols net) (entry net r) (entry net' r)).
    { intros W b ps' U B B'. rewrite U in *.
      destruct (dense net u W b a) as [t|] eqn:D; [|discriminate].
      destruct (dense net' u W b a) as [t'|] eqn:D'; [|discriminate]. cbn [bind] in B, B'.
      assert (svW : is_svd W (tf W)) by (apply sv; simpl; auto).
      destruct (dense_contracts tf net net' u W b a t t' r ca svW D D' rr Hr) as (_ & dc).
      destruct (dense_inv _ _ _ _ _ _ D) as (r1 & c1 & _).
      destruct (dense_inv _ _ _ _ _ _ D') as (r2 & c2 & _).
      destruct (linear_bound tf W (fun _ => 0) svW) as [sp _].
      destruct (IH ps' t t' h h' F') as (i1 & i2 & i3 & i4 & i5 & i6); auto;
        [intros; apply sv; simpl; auto | lia | lia | lia |].
      split; [lia|]. split; [lia|]. split; [auto|]. split; [auto|].
      change (weight_product tf (W :: used bias (length ls) ps')) with
        (reduce_max (svd tf W) * weight_product tf (used bias (length ls) ps')).
      split; [apply Rmult_le_pos; auto|].
      eapply Rle_trans; [exact i6|].
      eapply Rle_trans; [apply Rmult_le_compat_l; [apply Rle_0_sqr | exact dc]|].
      apply Req_le. unfold Rsqr. ring. }
    destruct bias.
    + destruct ps as [|W [|b ps']]; try discriminate. apply (step W (Some b) ps'); auto.
    + destruct ps as [|W ps']; try discriminate. apply (step W None ps'); auto.
Qed.

(** The iteration over the parameters finds all weights if there are biases, or at
    most one hidden layer. *)
Lemma hidden_rest_true : forall ls ps net h, hidden true ls ps net = Ok h -> forall W, snd h = [W] ->
  exists p, ps <> [] /\ in_pairs ps ++ [last ps p] = used true (length ls) ps ++ [W].
Proof.
  induction ls as [|[u a] ls IH]; intros ps net h E W SW.
  - simpl in E. injection E as <-. simpl in SW. subst. exists W. split; [discriminate | reflexivity].
  - destruct ps as [|V [|b ps']]; try discriminate. simpl in E.
    destruct (dense net u V (Some b) a) as [t|] eqn:D; [|discriminate]. cbn [bind] in E.
    destruct (IH ps' t h E W SW) as (p & ne & e).
    exists p. split; [discriminate|].
    replace (last (V :: b :: ps') p) with (last ps' p) by (destruct ps'; [congruence | reflexivity]).
    simpl. rewrite e. reflexivity.
Qed.
Lemma last_default {A} (l : list A) p q : l <> [] -> last l p = last l q.
Proof.
  induction l as [|a l IH]; [congruence|]. intros _. destruct l; [reflexivity|].
  simpl in *. apply IH. discriminate.
Qed.

Lemma nn_inv nn ps x y : nn_eval nn ps x = Ok y ->
  exists h W net, hidden (use_bias nn) (zip (but_last (layers nn)) (but_last (nonlinearities nn))) ps x = Ok h /\
    snd h = [W] /\ nonlinearities nn <> [] /\
    dense (fst h) (last (layers nn) 0%nat) W None (last (nonlinearities nn) None) = Ok net /\
    rows y = rows net /\ cols y = cols net /\ forall i j, entry y i j = entry net i j * output_scale nn.
Proof.
  unfold nn_eval. destruct (hidden _ _ ps x) as [h|] eqn:E; [|discriminate]. cbn [bind].
  destruct (snd h) as [|W [|? ?]] eqn:S; try discriminate.
  - destruct (nonlinearities nn) as [|a l] eqn:N; [discriminate|].
    destruct (dense _ _ W None _) as [net|] eqn:D; [|discriminate]. cbn [bind]. intros H; injection H as <-.
    exists h, W, net. rewrite <- N in *. repeat split; auto. congruence.
  - destruct (nonlinearities nn); discriminate.
Qed.

Lemma zip_contractive {A} (l : list A) m : Forall contractive m -> Forall (fun p => contractive (snd p)) (zip l m).
Proof.
  intros H. revert l. induction H as [|a m Ha Hm IH]; intros [|x l]; simpl; constructor; auto.
Qed.
Lemma removelast_forall {A} (P : A -> Prop) l : Forall P l -> Forall P (but_last l).
Proof.
  unfold but_last. induction 1 as [|a l Ha Hl IH]; simpl; [constructor|].
  destruct l; constructor; auto.
Qed.
Lemma last_forall {A} (P : A -> Prop) l d : l <> [] -> Forall P l -> P (last l d).
Proof.
  induction 2 as [|a l Ha Hl IH]; [congruence|]. destruct l; [auto|]. apply IH. discriminate.
Qed.

Definition all_weights (nn : network) (W : tensor) (ps : list tensor) : list tensor :=
  used (use_bias nn) (depth nn) ps ++ [W].

Lemma nn_contracts tf nn ps x x' y y' r :
  Forall contractive (nonlinearities nn) -> 
  (forall h W, hidden (use_bias nn) (zip (but_last (layers nn)) (but_last (nonlinearities nn))) ps x = Ok h ->
     snd h = [W] -> forall V, In V (all_weights nn W ps) -> is_svd V (tf V)) ->
  nn_eval nn ps x = Ok y -> nn_eval nn ps x' = Ok y' ->
  rows x' = rows x -> cols x' = cols x -> (r < rows x)%nat ->
  exists h W, hidden (use_bias nn) (zip (but_last (layers nn)) (but_last (nonlinearities nn))) ps x = Ok h /\
    snd h = [W] /\
    0 <= weight_product tf (all_weights nn W ps) /\
    rows y = rows x /\ cols y' = cols y /\
    sq (cols y) (entry y r) (entry y' r) <=
    Rsqr (output_scale nn * weight_product tf (all_weights nn W ps)) * sq (cols x) (entry x r) (entry x' r).
Proof.
  intros C sv E E' rr cc Hr.
  destruct (nn_inv _ _ _ _ E) as (h & W & net & H1 & H2 & H3 & H4 & H5 & H6 & H7).
  destruct (nn_inv _ _ _ _ E') as (h' & W' & net' & G1 & G2 & G3 & G4 & G5 & G6 & G7).
  specialize (sv h W H1 H2).
  destruct (hidden_contracts tf (use_bias nn) r _ ps x x' h h'
    (zip_contractive _ _ (removelast_forall _ _ C)) (fun V HV => sv V (in_or_app _ _ _ (or_introl HV))) H1 G1 rr cc Hr)
    as (r1 & r2 & c1 & s1 & wp & hc).
  rewrite H2 in s1. rewrite G2 in s1. injection s1 as <-.
  assert (svW : is_svd W (tf W)) by (apply sv, in_or_app; right; simpl; auto).
  assert (ca : contractive (last (nonlinearities nn) None)) by (apply last_forall; auto).
  destruct (dense_contracts tf (fst h) (fst h') _ W None _ net net' r ca svW H4 G4 ltac:(lia) ltac:(lia)) as (_ & dc).
  destruct (dense_inv _ _ _ _ _ _ H4) as (d1 & d2 & _).
  destruct (dense_inv _ _ _ _ _ _ G4) as (d3 & d4 & _).
  destruct (linear_bound tf W (fun _ => 0) svW) as [sp _].
  exists h, W. split; [auto|]. split; [auto|].
  assert (WP : weight_product tf (all_weights nn W ps) =
    reduce_max (svd tf W) * weight_product tf (used (use_bias nn) (depth nn) ps)).
  { unfold all_weights. generalize (used (use_bias nn) (depth nn) ps).
    induction l as [|V l IH]; simpl; [ring | rewrite IH; ring]. }
  fold (depth nn) in wp, hc. rewrite WP.
  split; [apply Rmult_le_pos; auto|]. split; [lia|]. split; [lia|].
  unfold sq at 1. rewrite (rsum_ext (cols y) _ (fun i => Rsqr (output_scale nn) * Rsqr (entry net r i - entry net' r i))).
  2:{ intros i _. rewrite H7, G7. unfold Rsqr. ring. }
  rewrite rsum_scal, H6. fold (sq (cols net) (entry net r) (entry net' r)).
  set (w := weight_product _ _) in *. set (sg := reduce_max _) in *.
  eapply Rle_trans; [apply Rmult_le_compat_l; [apply Rle_0_sqr | exact dc]|].
  eapply Rle_trans; [apply Rmult_le_compat_l; [apply Rle_0_sqr | apply Rmult_le_compat_l; [nra | exact hc]]|].
  apply Req_le. unfold Rsqr. ring.
Qed.

Lemma sq_to_distance n m x x' y y' L : 0 <= L ->
  sq n y y' <= Rsqr L * sq m x x' -> distance n y y' <= L * distance m x x'.
Proof.
  intros HL H. unfold distance. fold (sq n y y'). fold (sq m x x').
  rewrite <- (sqrt_Rsqr L HL), <- sqrt_mult_alt by apply Rle_0_sqr.
  apply sqrt_le_1_alt. exact H.
Qed.
