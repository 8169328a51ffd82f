(** Lemmas about the actor-critic examples. *)
From Coq Require Import Reals List Bool Arith Lia Lra Psatz.
From Verif Require Import Prelude FunModel QuadModel QuadSpec QuadProofs NNModel NNSpec NNProofs
  RolloutModel RolloutSpec RolloutProofs ActorModel ActorSpec.
Import ListNotations.
Local Open Scope R_scope.

Lemma row_of_length t i : length (row_of t i) = cols t.
Proof. unfold row_of. now rewrite map_length, seq_length. Qed.
Lemma row_of_nth t i j : (j < cols t)%nat -> nth j (row_of t i) 0 = entry t i j.
Proof.
  intros H. unfold row_of. rewrite (nth_indep _ 0 (entry t i 0%nat)) by (rewrite map_length, seq_length; auto).
  rewrite map_nth, seq_nth by auto. reflexivity.
Qed.
Lemma row_of_single x : row_of (single x) 0 = x.
Proof.
  unfold row_of, single. cbn [entry cols]. apply nth_ext with 0 0; [now rewrite map_length, seq_length|].
  intros i Hi. rewrite map_length, seq_length in Hi.
  rewrite (nth_indep _ 0 (nth 0 x 0)) by (rewrite map_length, seq_length; auto).
  rewrite (map_nth (fun j => nth j x 0)), seq_nth by auto. reflexivity.
Qed.
Lemma row_of_one t i x : cols t = 1%nat -> row_of t i = [x] -> entry t i 0%nat = x.
Proof. intros H E. unfold row_of in E. rewrite H in E. cbn in E. now injection E. Qed.

Lemma bidx_id n i : (i < n)%nat -> bidx n i = i.
Proof. intros H. unfold bidx. destruct (Nat.eqb_spec n 1); lia. Qed.
Lemma op2_same f t u : rows u = rows t -> cols u = cols t ->
  exists w, op2 f (Tensor t) (Tensor u) = Ok (Tensor w) /\ rows w = rows t /\ cols w = cols t /\
    forall i j, (i < rows t)%nat -> (j < cols t)%nat -> entry w i j = f (entry t i j) (entry u i j).
Proof.
  intros H1 H2. unfold op2, bdim. rewrite H1, H2, !Nat.eqb_refl. cbn [bind].
  eexists. split; [reflexivity|]. split; [reflexivity|]. split; [reflexivity|].
  intros i j Hi Hj. cbn [entry]. now rewrite !bidx_id.
Qed.

Lemma form_ext n P P' x x' : (forall i j, (i < n)%nat -> (j < n)%nat -> P i j = P' i j) ->
  (forall i, (i < n)%nat -> x i = x' i) -> form n P x = form n P' x'.
Proof.
  intros H1 H2. unfold form. apply rsum_ext. intros i Hi. apply rsum_ext. intros j Hj.
  now rewrite H1, !H2.
Qed.
Lemma form_opp n P x : form n (fun i j => - P i j) x = - form n P x.
Proof.
  unfold form. rewrite <- (Rmult_1_l (rsum n (fun i => rsum n (fun j => x i * P i j * x j)))).
  rewrite Ropp_mult_distr_l, <- rsum_scal. apply rsum_ext. intros i _.
  rewrite <- rsum_scal. apply rsum_ext. intros j _. ring.
Qed.
Lemma form_blocks n m P x : (forall i j, (i < n)%nat -> P i (n + j)%nat = 0) ->
  (forall i j, (j < n)%nat -> P (n + i)%nat j = 0) ->
  form (n + m) P x = form n P x + form m (fun i j => P (n + i)%nat (n + j)%nat) (fun i => x (n + i)%nat).
Proof.
  intros H1 H2. unfold form. rewrite rsum_app. f_equal.
  - apply rsum_ext. intros i Hi. rewrite rsum_app.
    rewrite (rsum_ext m _ (fun _ => 0)), rsum_zero; [ring|]. intros j Hj. rewrite H1 by auto. ring.
  - apply rsum_ext. intros i Hi. rewrite rsum_app.
    rewrite (rsum_ext n _ (fun _ => 0)), rsum_zero; [ring|]. intros j Hj. rewrite H2 by auto. ring.
Qed.

Section Dims.
  Variables Q Rc : tensor.
  Variables n m : nat.
  Hypothesis HQ : square n Q.
  Hypothesis HR : square m Rc.

  Lemma reward_ok X U : cols X = n -> cols U = m -> rows U = rows X ->
    exists v, reward_function Q Rc X U = Ok v /\ rows v = rows X /\ cols v = 1%nat /\
      forall i c, (i < rows X)%nat -> entry v i c = reward Q Rc (row_of X i) (row_of U i).
  Proof.
    intros cX cU rU. destruct HQ as [q1 q2]. destruct HR as [r1 r2].
    set (P := block_diag (neg Q) (neg Rc)).
    assert (E : hcat [X; U] = Ok {| rows := rows X; cols := cols X + cols U;
       entry := fun i j => if Nat.ltb j (cols X) then entry X i j else entry U i (j - cols X) |}).
    { apply hcat_cons; auto. }
    destruct (quadratic_square (n + m) (rows X) P [X; U]) as (Z & v & EZ & Ev & rv & cv & ev).
    - unfold P. cbn. lia.
    - unfold P. cbn. lia.
    - discriminate.
    - repeat constructor; auto.
    - unfold total_cols. cbn. lia.
    - rewrite E in EZ. injection EZ as <-. cbn [entry] in ev.
      exists v. split; [exact Ev|]. split; [auto|]. split; [auto|]. intros i c Hi. rewrite ev by auto.
      rewrite form_blocks.
      + unfold reward, quad. rewrite q1, r1, <- !form_opp. unfold Rminus. rewrite <- form_opp. f_equal.
        * apply form_ext.
          -- intros a b Ha Hb. unfold P, block_diag, neg. cbn [rows cols entry]. rewrite q1, q2.
             destruct (Nat.ltb_spec a n); [|lia]. destruct (Nat.ltb_spec b n); [reflexivity|lia].
          -- intros a Ha. rewrite row_of_nth by lia. rewrite cX. destruct (Nat.ltb_spec a n); [reflexivity|lia].
        * apply form_ext.
          -- intros a b Ha Hb. unfold P, block_diag, neg. cbn [rows cols entry]. rewrite q1, q2.
             destruct (Nat.ltb_spec (n + a) n); [lia|]. destruct (Nat.ltb_spec (n + b) n); [lia|]. cbn [andb orb].
             do 2 f_equal; lia.
          -- intros a Ha. rewrite row_of_nth by lia. rewrite cX. destruct (Nat.ltb_spec (n + a) n); [lia|].
             f_equal. lia.
      + intros a b Ha. unfold P, block_diag, neg. cbn [rows cols entry]. rewrite q1, q2.
        destruct (Nat.ltb_spec a n); [|lia]. destruct (Nat.ltb_spec (n + b) n); [lia|reflexivity].
      + intros a b Hb. unfold P, block_diag, neg. cbn [rows cols entry]. rewrite q1, q2.
        destruct (Nat.ltb_spec (n + a) n); [lia|]. destruct (Nat.ltb_spec b n); [reflexivity|lia].
  Qed.

  Lemma ones_dot k P : square k P ->
    exists t, multi_dot (ones k) P (transpose (ones k)) = Ok t /\ rows t = 1%nat /\ cols t = 1%nat /\ entry t 0%nat 0%nat = total P.
  Proof.
    intros [p1 p2]. unfold multi_dot, matmul, transpose, ones. cbn [rows cols entry]. rewrite p1, Nat.eqb_refl.
    cbn [bind rows cols entry]. rewrite p2, Nat.eqb_refl. eexists. split; [reflexivity|]. cbn [rows cols entry].
    split; [auto|]. split; [auto|]. unfold total. rewrite p1, p2, rsum_swap. apply rsum_ext. intros j _.
    rewrite Rmult_1_r. apply rsum_ext. intros i _. ring.
  Qed.
  Lemma r_max_ok : r_max Q Rc n m = Ok (total Q + total Rc).
  Proof.
    unfold r_max. destruct (ones_dot n Q HQ) as (a & Ea & ra & ca & ea).
    destruct (ones_dot m Rc HR) as (b & Eb & rb & cb & eb). rewrite Ea, Eb. cbn [bind].
    destruct (op2_same Rplus a b) as (w & Ew & _ & _ & ew); [lia|lia|]. rewrite Ew. cbn [bind as_tensor].
    rewrite ew by lia. now rewrite ea, eb.
  Qed.

  Variable f : list R -> list R -> list R.
  Variable dynamics : tensor -> tensor -> res tensor.
  Hypothesis Hf : rowwise2 n m n f dynamics.
  Variable gamma : R.

  Lemma lookahead_ok pi policy v V X : rowwise n m pi policy -> rowwise n 1 (fun x => [v x]) V -> cols X = n ->
    exists t, lookahead Q Rc dynamics gamma policy V X = Ok (Tensor t) /\ rows t = rows X /\ cols t = 1%nat /\
      forall i, (i < rows X)%nat -> entry t i 0%nat = one_step Q Rc gamma f pi v (row_of X i).
  Proof.
    intros Hp Hv cX. unfold lookahead. destruct (Hp X cX) as (U & EU & rU & cU & eU). rewrite EU. cbn [bind].
    destruct (reward_ok X U cX cU rU) as (r & Er & rr & cr & er). rewrite Er. cbn [bind].
    destruct (Hf X U cX cU rU) as (Y & EY & rY & cY & eY). rewrite EY. cbn [bind].
    destruct (Hv Y cY) as (W & EW & rW & cW & eW). rewrite EW. cbn [bind].
    change (op2 Rmult (Number gamma) (Tensor W)) with
      (Ok (Tensor {| rows := rows W; cols := cols W; entry := fun i j => gamma * entry W i j |})). cbn [bind].
    destruct (op2_same Rplus r {| rows := rows W; cols := cols W; entry := fun i j => gamma * entry W i j |})
      as (t & Et & rt & ct & et); [cbn; lia|cbn; lia|].
    exists t. split; [exact Et|]. split; [lia|]. split; [lia|]. intros i Hi. rewrite et by lia. cbn [entry].
    rewrite er by auto. rewrite (row_of_one W i (v (row_of Y i))) by (auto; apply eW; lia).
    rewrite eY, eU by auto. reflexivity.
  Qed.

  Lemma mean_column t : cols t = 1%nat -> reduce_mean t = rsum (rows t) (fun i => entry t i 0%nat) / INR (rows t).
  Proof.
    intros H. unfold reduce_mean. rewrite H. cbn [INR]. rewrite Rmult_1_r. f_equal. apply rsum_ext. intros i _.
    rewrite rsum_S, rsum_0. ring.
  Qed.

  Lemma value_objective_ok scaling pi policy v' V' v V X :
    rowwise n m pi policy -> rowwise n 1 (fun x => [v' x]) V' -> rowwise n 1 (fun x => [v x]) V -> cols X = n ->
    value_objective Q Rc n m dynamics gamma scaling policy V' V X =
      Ok (scaling gamma (total Q + total Rc) *
          (rsum (rows X) (fun i => Rabs (v (row_of X i) - one_step Q Rc gamma f pi v' (row_of X i))) / INR (rows X))).
  Proof.
    intros Hp Hv' Hv cX. unfold value_objective.
    destruct (lookahead_ok pi policy v' V' X Hp Hv' cX) as (t & Et & rt & ct & et). rewrite Et. cbn [bind].
    destruct (Hv X cX) as (W & EW & rW & cW & eW). rewrite EW. cbn [bind].
    destruct (op2_same Rminus W t) as (d & Ed & rd & cd & ed); [lia|lia|]. rewrite Ed. cbn [bind].
    rewrite r_max_ok. cbn [bind]. do 2 f_equal. unfold tf_abs. cbn [as_tensor].
    rewrite mean_column by (cbn; lia). cbn [rows entry]. rewrite rd, rW. f_equal. apply rsum_ext. intros i Hi.
    rewrite ed by lia. rewrite et by auto. rewrite (row_of_one W i (v (row_of X i))) by (auto; apply eW; auto).
    reflexivity.
  Qed.
  Lemma policy_objective_ok pi policy v V X :
    rowwise n m pi policy -> rowwise n 1 (fun x => [v x]) V -> cols X = n ->
    policy_objective Q Rc n m dynamics gamma policy V X =
      Ok (- ((1 - gamma) / (total Q + total Rc)) *
          (rsum (rows X) (fun i => one_step Q Rc gamma f pi v (row_of X i)) / INR (rows X))).
  Proof.
    intros Hp Hv cX. unfold policy_objective.
    destruct (lookahead_ok pi policy v V X Hp Hv cX) as (t & Et & rt & ct & et). rewrite Et. cbn [bind].
    rewrite r_max_ok. cbn [bind as_tensor]. do 2 f_equal.
    rewrite mean_column by (cbn; lia). rewrite rt. f_equal. apply rsum_ext. intros i Hi. now rewrite et.
  Qed.
End Dims.

Lemma supervised_ok n v V X T : rowwise n 1 (fun x => [v x]) V -> cols X = n -> rows T = rows X -> cols T = 1%nat ->
  supervised_objective V X T =
    Ok (rsum (rows X) (fun i => Rabs (v (row_of X i) - entry T i 0%nat)) / INR (rows X)).
Proof.
  intros Hv cX rT cT. unfold supervised_objective.
  destruct (Hv X cX) as (W & EW & rW & cW & eW). rewrite EW. cbn [bind].
  destruct (op2_same Rminus W T) as (d & Ed & rd & cd & ed); [lia|lia|]. rewrite Ed. cbn [bind].
  f_equal. unfold tf_abs. cbn [as_tensor].
  rewrite mean_column by (cbn; lia). cbn [rows entry]. rewrite rd, rW. f_equal. apply rsum_ext. intros i Hi.
  rewrite ed by lia. rewrite (row_of_one W i (v (row_of X i))) by (auto; apply eW; auto). reflexivity.
Qed.

(** Sums of non-negative numbers. *)
Lemma rsum_term_le k g : (forall i, (i < k)%nat -> 0 <= g i) -> forall i, (i < k)%nat -> g i <= rsum k g.
Proof.
  induction k as [|k IH]; intros H i Hi; [lia|]. rewrite rsum_S.
  assert (0 <= rsum k g) by (apply rsum_nonneg; auto). pose proof (H k ltac:(lia)).
  destruct (Nat.eq_dec i k) as [->|]; [lra|]. pose proof (IH ltac:(auto) i ltac:(lia)). lra.
Qed.

(** Returns of closed loops. *)
Lemma return_S g step (r : list R -> R) T x :
  return_of g step r (S T) x = r x + g * return_of g step r T (step x).
Proof.
  unfold return_of. replace (S T) with (1 + T)%nat by lia. rewrite rsum_app, rsum_S, rsum_0. cbn [iterate pow].
  rewrite <- rsum_scal. f_equal; [ring|]. apply rsum_ext. intros t _. cbn [Nat.add iterate pow].
  rewrite iterate_comm. ring.
Qed.
Lemma residual_bound (A : list R -> Prop) g step (r v : list R -> R) e b :
  0 <= g < 1 -> 0 <= e -> (forall x, A x -> A (step x)) -> (forall x, A x -> Rabs (v x) <= b) ->
  (forall x, A x -> Rabs (v x - (r x + g * v (step x))) <= e) ->
  forall T x, A x -> Rabs (v x - return_of g step r T x) <= e / (1 - g) + g ^ T * b.
Proof.
  intros Hg He Hs Hb Hr. induction T as [|T IH]; intros x Hx.
  - unfold return_of. rewrite rsum_0. cbn [pow]. rewrite Rminus_0_r, Rmult_1_l. pose proof (Hb x Hx).
    assert (0 <= e / (1 - g)) by (apply Rmult_le_pos; [auto|left; apply Rinv_0_lt_compat; lra]). lra.
  - rewrite return_S. pose proof (Hr x Hx) as H1. pose proof (IH (step x) (Hs x Hx)) as H2.
    replace (v x - (r x + g * return_of g step r T (step x))) with
      ((v x - (r x + g * v (step x))) + g * (v (step x) - return_of g step r T (step x))) by ring.
    eapply Rle_trans; [apply Rabs_triang|]. rewrite Rabs_mult, (Rabs_right g) by lra.
    replace (e / (1 - g) + g ^ S T * b) with (e + g * (e / (1 - g) + g ^ T * b)) by (cbn [pow]; field; lra).
    apply Rplus_le_compat; [auto|]. apply Rmult_le_compat_l; [lra|auto].
Qed.
Lemma residual_lower (A : list R -> Prop) g step (r v : list R -> R) b :
  0 <= g < 1 -> (forall x, A x -> A (step x)) -> (forall x, A x -> Rabs (v x) <= b) ->
  (forall x, A x -> v x <= r x + g * v (step x)) ->
  forall T x, A x -> v x <= return_of g step r T x + g ^ T * b.
Proof.
  intros Hg Hs Hb Hr. induction T as [|T IH]; intros x Hx.
  - unfold return_of. rewrite rsum_0. cbn [pow]. pose proof (Hb x Hx). pose proof (Rle_abs (v x)). lra.
  - rewrite return_S. pose proof (Hr x Hx) as H1. pose proof (IH (step x) (Hs x Hx)) as H2.
    assert (g * v (step x) <= g * (return_of g step r T (step x) + g ^ T * b)) by (apply Rmult_le_compat_l; lra).
    cbn [pow]. lra.
Qed.
Lemma return_scaled g step (r : list R -> R) (A : list R -> Prop) c : 0 <= g < 1 -> 0 <= c ->
  (forall x, A x -> A (step x)) -> (forall x, A x -> - c <= r x <= 0) ->
  forall T x, A x -> - (c / (1 - g)) <= return_of g step r T x <= 0.
Proof.
  intros Hg Hc Hs Hr. induction T as [|T IH]; intros x Hx.
  - unfold return_of. rewrite rsum_0. assert (0 <= c / (1 - g)) by (apply Rmult_le_pos; [auto|left; apply Rinv_0_lt_compat; lra]). lra.
  - rewrite return_S. pose proof (Hr x Hx). pose proof (IH (step x) (Hs x Hx)) as [H1 H2].
    replace (- (c / (1 - g))) with (- c + g * - (c / (1 - g))) by (field; lra).
    split.
    + apply Rplus_le_compat; [lra|]. apply Rmult_le_compat_l; lra.
    + assert (g * return_of g step r T (step x) <= 0) by nra. lra.
Qed.

(** Quadratic forms with non-negative entries on the box. *)
Lemma quad_box n P x : square n P -> (forall i j, (i < n)%nat -> (j < n)%nat -> 0 <= entry P i j) ->
  in_box x -> Rabs (quad P x) <= total P.
Proof.
  intros [p1 p2] H B. unfold quad, form, total. rewrite p1, p2.
  eapply Rle_trans; [apply rsum_abs|]. apply rsum_le. intros i Hi.
  eapply Rle_trans; [apply rsum_abs|]. apply rsum_le. intros j Hj.
  assert (N : forall k, Rabs (nth k x 0) <= 1).
  { intros k. destruct (Nat.lt_ge_cases k (length x)).
    - unfold in_box in B. rewrite Forall_forall in B. apply B, nth_In; auto.
    - rewrite nth_overflow, Rabs_R0 by auto. lra. }
  rewrite !Rabs_mult, (Rabs_right (entry P i j)) by (apply Rle_ge, H; auto).
  pose proof (N i). pose proof (N j). pose proof (Rabs_pos (nth i x 0)). pose proof (Rabs_pos (nth j x 0)).
  pose proof (H i j Hi Hj).
  assert (Rabs (nth i x 0) * entry P i j <= 1 * entry P i j) by (apply Rmult_le_compat_r; auto).
  assert (0 <= Rabs (nth i x 0) * entry P i j) by (apply Rmult_le_pos; auto).
  nra.
Qed.
Lemma quad_ones n P : square n P -> quad P (repeat 1 n) = total P.
Proof.
  intros [p1 p2]. unfold quad, form, total. rewrite p1, p2. apply rsum_ext. intros i Hi. apply rsum_ext. intros j Hj.
  rewrite !(nth_indep _ 0 1), !nth_repeat by (rewrite repeat_length; auto). ring.
Qed.

(** Networks without biases. *)
Lemma dense_zero net units W a t i : fixes_zero a -> dense net units W None a = Ok t -> (i < rows net)%nat ->
  (forall j, (j < cols net)%nat -> entry net i j = 0) ->
  forall j, (j < cols t)%nat -> entry t i j = 0.
Proof.
  intros Ha E Hi Z j Hj. destruct (dense_inv _ _ _ _ _ _ E) as (e1 & e2 & e3 & e4 & e5).
  destruct (e5 i j Hi ltac:(lia)) as (c & -> & ->).
  rewrite (rsum_ext _ _ (fun _ => 0)), rsum_zero.
  - rewrite Rplus_0_r. exact Ha.
  - intros k Hk. rewrite Z by auto. ring.
Qed.
Lemma hidden_zero i : forall ls ps net h, Forall (fun p => fixes_zero (snd p)) ls ->
  hidden false ls ps net = Ok h -> (i < rows net)%nat ->
  (forall j, (j < cols net)%nat -> entry net i j = 0) ->
  rows (fst h) = rows net /\ forall j, (j < cols (fst h))%nat -> entry (fst h) i j = 0.
Proof.
  induction ls as [|[u a] ls IH]; intros ps net h Ha E Hi Z; cbn [hidden] in E.
  - injection E as <-. auto.
  - destruct ps as [|W ps]; [discriminate|]. destruct (dense net u W None a) as [t|] eqn:D; [|discriminate].
    cbn [bind] in E. inversion Ha as [|? ? Ha1 Ha2]; subst. cbn [snd] in Ha1.
    destruct (dense_inv _ _ _ _ _ _ D) as (e1 & _).
    destruct (IH ps t h Ha2 E ltac:(lia)) as (r1 & r2).
    + apply (dense_zero net u W a t i); auto.
    + split; [lia|auto].
Qed.
Lemma zip_snd {A B} (P : B -> Prop) (l : list A) (k : list B) : Forall P k -> Forall (fun p => P (snd p)) (zip l k).
Proof. intros H. revert l. induction H as [|b k Hb Hk IH]; intros [|a l]; cbn; constructor; auto. Qed.
Lemma nn_zero nn ps x y i : use_bias nn = false -> Forall fixes_zero (nonlinearities nn) ->
  nn_eval nn ps x = Ok y -> (i < rows x)%nat -> (forall j, (j < cols x)%nat -> entry x i j = 0) ->
  rows y = rows x /\ forall j, (j < cols y)%nat -> entry y i j = 0.
Proof.
  intros Hb Ha E Hi Z. destruct (nn_inv _ _ _ _ E) as (h & W & net & H1 & H2 & H3 & H4 & H5 & H6 & H7).
  rewrite Hb in H1.
  destruct (hidden_zero i _ _ _ _ (zip_snd _ _ _ (removelast_forall _ _ Ha)) H1 Hi Z) as (r1 & r2).
  destruct (dense_inv _ _ _ _ _ _ H4) as (e1 & _).
  split; [lia|]. intros j Hj. rewrite H7, (dense_zero _ _ _ _ _ i (last_forall _ _ None H3 Ha) H4) by (auto; lia). ring.
Qed.
Lemma nn_bounded nn ps x y : nonlinearities nn <> [] ->
  (forall u, Rabs (activate (last (nonlinearities nn) None) u) <= 1) ->
  nn_eval nn ps x = Ok y -> rows y = rows x ->
  forall i j, (i < rows y)%nat -> (j < cols y)%nat -> Rabs (entry y i j) <= Rabs (output_scale nn).
Proof.
  intros Hn Ha E Hr i j Hi Hj. destruct (nn_inv _ _ _ _ E) as (h & W & net & H1 & H2 & H3 & H4 & H5 & H6 & H7).
  destruct (dense_inv _ _ _ _ _ _ H4) as (e1 & e2 & e3 & e4 & e5).
  destruct (e5 i j ltac:(lia) ltac:(lia)) as (c & Ec & _). rewrite H7, Ec, Rabs_mult.
  pose proof (Ha (rsum (cols (fst h)) (fun k => entry (fst h) i k * entry W k j) + c)).
  pose proof (Rabs_pos (output_scale nn)).
  rewrite <- (Rmult_1_l (Rabs (output_scale nn))) at 2. apply Rmult_le_compat_r; auto.
Qed.

Lemma hidden_rows bias : forall ls ps net h, hidden bias ls ps net = Ok h -> rows (fst h) = rows net.
Proof.
  induction ls as [|[u a] ls IH]; intros ps net h E; cbn [hidden] in E.
  - injection E as <-. auto.
  - destruct bias.
    + destruct ps as [|W [|b ps]]; try discriminate. destruct (dense net u W (Some b) a) as [t|] eqn:D; [|discriminate].
      cbn [bind] in E. destruct (dense_inv _ _ _ _ _ _ D) as (e1 & _). rewrite (IH _ _ _ E). auto.
    + destruct ps as [|W ps]; try discriminate. destruct (dense net u W None a) as [t|] eqn:D; [|discriminate].
      cbn [bind] in E. destruct (dense_inv _ _ _ _ _ _ D) as (e1 & _). rewrite (IH _ _ _ E). auto.
Qed.
Lemma nn_rows nn ps x y : nn_eval nn ps x = Ok y -> rows y = rows x /\ nonlinearities nn <> [].
Proof.
  intros E. destruct (nn_inv _ _ _ _ E) as (h & W & net & H1 & H2 & H3 & H4 & H5 & H6 & H7).
  destruct (dense_inv _ _ _ _ _ _ H4) as (e1 & _). rewrite H5, e1, (hidden_rows _ _ _ _ _ H1). auto.
Qed.
