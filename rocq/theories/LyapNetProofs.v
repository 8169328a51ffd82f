(** Proofs about [LyapunovNetwork]. *)
From Coq Require Import Reals List Bool Arith Lia Lra Psatz Sorting.Sorted.
From Verif Require Import Prelude FunModel QuadModel QuadProofs NNProofs LyapNetModel LyapNetSpec.
Import ListNotations.
Local Open Scope R_scope.

Lemma norm2_nonneg n x : 0 <= norm2 n x.
Proof. apply rsum_nonneg; intros; apply Rle_0_sqr. Qed.
Lemma norm2_zero n x : norm2 n x = 0 <-> forall k, (k < n)%nat -> x k = 0.
Proof.
  induction n as [|n IH].
  - split; [lia|]. reflexivity.
  - unfold norm2 in *. rewrite rsum_S. pose proof (norm2_nonneg n x) as N. unfold norm2 in N.
    pose proof (Rle_0_sqr (x n)) as S. split.
    + intros E k Hk. assert (k < n \/ k = n)%nat as [H| ->] by lia.
      * apply IH; [lra|auto].
      * apply Rsqr_0_uniq; lra.
    + intros H. rewrite (H n), (proj2 IH) by auto. rewrite Rsqr_0. ring.
Qed.
Lemma norm2_ext n x y : (forall k, (k < n)%nat -> x k = y k) -> norm2 n x = norm2 n y.
Proof. intros H. apply rsum_ext. intros i Hi. rewrite H; auto. Qed.

(** The gram matrix plus e I stretches by at least e. *)
Lemma kernel_stretch h d W e (x : nat -> R) : 0 <= e ->
  e * e * norm2 d x <=
  norm2 d (fun i => rsum d (fun k => x k * (rsum h (fun l => entry W l i * entry W l k) + e * (if Nat.eqb i k then 1 else 0)))).
Proof.
  intros He. set (y := fun i => rsum d _).
  assert (xy : rsum d (fun i => x i * y i) = rsum h (fun l => Rsqr (rsum d (fun i => entry W l i * x i))) + e * norm2 d x).
  { unfold y, norm2.
    rewrite (rsum_ext d _ (fun i => rsum h (fun l => (entry W l i * x i) * rsum d (fun k => entry W l k * x k)) + e * Rsqr (x i))).
    2:{ intros i Hi.
        rewrite (rsum_ext d _ (fun k => rsum h (fun l => entry W l i * (entry W l k * x k)) + e * x k * (if Nat.eqb i k then 1 else 0))).
        2:{ intros k _. rewrite Rmult_plus_distr_l, <- rsum_scal. f_equal; [|ring]. apply rsum_ext; intros; ring. }
        rewrite rsum_plus, rsum_delta by auto. rewrite rsum_swap.
        rewrite Rmult_plus_distr_l. f_equal; [|unfold Rsqr; ring].
        rewrite <- rsum_scal. apply rsum_ext. intros l _.
        rewrite rsum_scal. ring. }
    rewrite rsum_plus, rsum_scal, rsum_swap. f_equal. apply rsum_ext. intros l _.
    unfold Rsqr.
    rewrite (rsum_ext d _ (fun i => rsum d (fun k => entry W l k * x k) * (entry W l i * x i))) by (intros; ring).
    rewrite rsum_scal. reflexivity. }
  assert (dd : norm2 d (fun i => y i - e * x i) = norm2 d y + - 2 * e * rsum d (fun i => x i * y i) + e * e * norm2 d x).
  { unfold norm2. rewrite <- !rsum_scal, <- !rsum_plus. apply rsum_ext. intros i _. unfold Rsqr. ring. }
  pose proof (norm2_nonneg d (fun i => y i - e * x i)) as N1. rewrite dd, xy in N1.
  assert (N2 : 0 <= rsum h (fun l => Rsqr (rsum d (fun i => entry W l i * x i)))) by (apply rsum_nonneg; intros; apply Rle_0_sqr).
  assert (0 <= e * rsum h (fun l => Rsqr (rsum d (fun i => entry W l i * x i)))) by (apply Rmult_le_pos; auto).
  unfold y in *. nra.
Qed.

(** One turn of the loop. *)
Definition layer_of e d h (W : tensor) (V : option tensor) (x : nat -> R) (j : nat) : R :=
  if Nat.ltb j d then rsum d (fun k => x k * (rsum h (fun l => entry W l j * entry W l k) + e * (if Nat.eqb j k then 1 else 0)))
  else match V with Some V => rsum d (fun k => x k * entry V (j - d)%nat k) | None => 0 end.

Lemma get_variable_inv r c ps p : get_variable r c ps = Ok p -> ps = fst p :: snd p /\ rows (fst p) = r /\ cols (fst p) = c.
Proof.
  destruct ps as [|W ps]; [discriminate|]. simpl.
  destruct (Nat.eqb_spec (rows W) r); [|discriminate]. destruct (Nat.eqb_spec (cols W) c); [|discriminate].
  simpl. intros E; injection E as <-. auto.
Qed.

Lemma layers_cons e d d' dims h hid acts ps net out : (d <= d')%nat ->
  lyapunov_layers e d (d' :: dims) (h :: hid) acts ps net = Ok out ->
  cols net = d /\ exists f acts' W V ps' net',
    acts = f :: acts' /\ rows W = h /\ cols W = d /\ rows net' = rows net /\ cols net' = d' /\
    ((d = d' /\ V = None /\ ps = W :: ps') \/ exists V', (d < d')%nat /\ V = Some V' /\ ps = W :: V' :: ps') /\
    (forall i j, (j < d')%nat -> entry net' i j = f (layer_of e d h W V (entry net i) j)) /\
    lyapunov_layers e d' dims hid acts' ps' net' = Ok out.
Proof.
  intros Hd. cbn [lyapunov_layers].
  destruct (get_variable h d ps) as [[W ps1]|] eqn:E1; [|discriminate].
  apply get_variable_inv in E1. cbn [fst snd] in E1. destruct E1 as (-> & rW & cW).
  cbn [bind fst snd]. unfold matmul at 1. cbn [rows cols transpose]. rewrite Nat.eqb_refl. cbn [bind].
  unfold op2 at 1. cbn [bind]. unfold op2, bdim. cbn [rows cols entry eye]. rewrite cW, Nat.eqb_refl. cbn [bind as_tensor].
  assert (gram : forall j k, (j < d)%nat -> (k < d)%nat ->
    rsum (cols (transpose W)) (fun l => entry (transpose W) (bidx d j) l * entry W l (bidx d k)) +
    e * (if Nat.eqb (bidx d j) (bidx d k) then 1 else 0)
    = rsum h (fun l => entry W l j * entry W l k) + e * (if Nat.eqb j k then 1 else 0)).
  { intros j k Hj Hk. cbn [transpose cols rows entry]. rewrite rW.
    assert (B : forall q, (q < d)%nat -> bidx d q = q) by (intros q Hq; unfold bidx; destruct (Nat.eqb_spec d 1); lia).
    rewrite !B by auto. reflexivity. }
  destruct (Nat.ltb_spec d d') as [lt|ge].
  - destruct (get_variable (d' - d) d ps1) as [[V ps2]|] eqn:E2; [|discriminate].
    apply get_variable_inv in E2. cbn [fst snd] in E2. destruct E2 as (-> & rV & cV).
    cbn [bind fst snd]. unfold vcat2. cbn [rows cols]. rewrite cV, Nat.eqb_refl. cbn [bind fst snd].
    unfold matmul. cbn [rows cols transpose]. destruct (Nat.eqb_spec (cols net) d) as [cn|]; [|discriminate].
    cbn [bind rows cols entry]. destruct acts as [|f acts]; [discriminate|]. intros E.
    split; [auto|]. exists f, acts, W, (Some V), ps2.
    eexists. split; [reflexivity|]. split; [auto|]. split; [auto|].
    split; [|split; [|split; [right; exists V; auto|split; [|exact E]]]]; cbn [rows cols entry]; [reflexivity|lia|].
    intros i j Hj. f_equal. unfold layer_of. rewrite cn. destruct (Nat.ltb_spec j d) as [Hjd|Hjd].
    + apply rsum_ext. intros k Hk. f_equal. cbn [transpose entry]. apply Nat.ltb_lt in Hjd. rewrite Hjd.
      apply Nat.ltb_lt in Hjd. apply gram; auto.
    + apply rsum_ext. intros k Hk. cbn [transpose entry]. apply Nat.ltb_ge in Hjd. rewrite Hjd. reflexivity.
  - cbn [bind fst snd]. unfold matmul. cbn [rows cols transpose]. destruct (Nat.eqb_spec (cols net) d) as [cn|]; [|discriminate].
    cbn [bind rows cols entry]. destruct acts as [|f acts]; [discriminate|]. intros E.
    split; [auto|]. exists f, acts, W, None, ps1.
    eexists. split; [reflexivity|]. split; [auto|]. split; [auto|].
    split; [|split; [|split; [left; split; [lia|auto]|split; [|exact E]]]]; cbn [rows cols entry]; [reflexivity|lia|].
    intros i j Hj. f_equal. unfold layer_of. rewrite cn. destruct (Nat.ltb_spec j d); [|lia].
    apply rsum_ext. intros k Hk. f_equal. apply gram; auto.
Qed.

Lemma layer_stretch e d d' h W V x : 0 <= e -> (d <= d')%nat ->
  e * e * norm2 d x <= norm2 d' (layer_of e d h W V x).
Proof.
  intros He Hd. eapply Rle_trans; [apply (kernel_stretch h d W e x He)|].
  replace d' with (d + (d' - d))%nat by lia. unfold norm2. rewrite rsum_app.
  match goal with |- ?a <= ?b + ?c => assert (E : a = b); [|assert (0 <= c) by (apply rsum_nonneg; intros; apply Rle_0_sqr); lra] end.
  apply rsum_ext. intros i Hi. unfold layer_of. destruct (Nat.ltb_spec i d); [reflexivity|lia].
Qed.
Lemma layer_zero e d h W V x j : (forall k, (k < d)%nat -> x k = 0) -> layer_of e d h W V x j = 0.
Proof.
  intros H. unfold layer_of. destruct (Nat.ltb j d); [|destruct V; [|reflexivity]];
  (rewrite (rsum_ext d _ (fun _ => 0)); [apply rsum_zero|intros k Hk; rewrite H by auto; ring]).
Qed.

Fixpoint increasing (d : nat) (dims : list nat) : Prop :=
  match dims with [] => True | d' :: dims' => (d <= d')%nat /\ increasing d' dims' end.

Lemma layers_definite e : 0 < e -> forall dims d hid acts ps net out,
  length hid = length dims -> increasing d dims -> cols net = d ->
  Forall (fun f => forall u, f u = 0 <-> u = 0) acts ->
  lyapunov_layers e d dims hid acts ps net = Ok out ->
  rows out = rows net /\
  forall i, norm2 (cols out) (entry out i) = 0 <-> forall k, (k < d)%nat -> entry net i k = 0.
Proof.
  intros He. induction dims as [|d' dims IH]; intros d hid acts ps net out Hl Hi Hc Ha E.
  - destruct hid; [|discriminate]. simpl in E. injection E as <-. split; [reflexivity|].
    intros i. rewrite Hc. apply norm2_zero.
  - destruct hid as [|h hid]; [discriminate|]. destruct Hi as [Hd Hi]. injection Hl as Hl.
    destruct (layers_cons _ _ _ _ _ _ _ _ _ _ Hd E) as (_ & f & acts' & W & V & ps' & net' & -> & _ & _ & r' & c' & _ & en & E').
    inversion Ha as [|? ? hf Ha']; subst.
    destruct (IH _ _ _ _ _ _ Hl Hi eq_refl Ha' E') as [ro IH']. split; [congruence|].
    intros i. rewrite IH'. split.
    + intros Z. assert (N : norm2 (cols net') (layer_of e (cols net) h W V (entry net i)) = 0).
      { apply norm2_zero. intros k Hk. apply hf. rewrite <- en by auto. auto. }
      pose proof (layer_stretch e _ _ h W V (entry net i) (Rlt_le _ _ He) Hd) as S. rewrite N in S.
      apply norm2_zero. pose proof (norm2_nonneg (cols net) (entry net i)).
      destruct (Rle_lt_dec (norm2 (cols net) (entry net i)) 0) as [|P]; [lra|].
      assert (0 < e * e * norm2 (cols net) (entry net i)) by (apply Rmult_lt_0_compat; [nra|auto]). lra.
    + intros Z k Hk. rewrite en by auto. apply hf. apply layer_zero. exact Z.
Qed.

Lemma layers_stretch e c : 0 <= e -> 0 <= c -> forall dims d hid acts ps net out,
  length hid = length dims -> increasing d dims -> cols net = d ->
  Forall (fun f => forall u, c * Rabs u <= Rabs (f u)) acts ->
  lyapunov_layers e d dims hid acts ps net = Ok out ->
  forall i, (c * c * (e * e)) ^ length dims * norm2 d (entry net i) <= norm2 (cols out) (entry out i).
Proof.
  intros He Hcc. induction dims as [|d' dims IH]; intros d hid acts ps net out Hl Hi Hc Ha E i.
  - destruct hid; [|discriminate]. simpl in E. injection E as <-. rewrite Hc. simpl. lra.
  - destruct hid as [|h hid]; [discriminate|]. destruct Hi as [Hd Hi]. injection Hl as Hl.
    destruct (layers_cons _ _ _ _ _ _ _ _ _ _ Hd E) as (_ & f & acts' & W & V & ps' & net' & -> & _ & _ & r' & c' & _ & en & E').
    inversion Ha as [|? ? hf Ha']; subst.
    eapply Rle_trans; [|apply (IH _ _ _ _ _ _ Hl Hi eq_refl Ha' E')].
    cbn [length pow]. rewrite (Rmult_comm _ (_ ^ _)), Rmult_assoc.
    apply Rmult_le_compat_l; [apply pow_le; nra|].
    pose proof (layer_stretch e _ _ h W V (entry net i) He Hd) as S.
    apply Rle_trans with (c * c * norm2 (cols net') (layer_of e (cols net) h W V (entry net i))).
    + rewrite Rmult_assoc. apply Rmult_le_compat_l; [nra|exact S].
    + unfold norm2. rewrite <- rsum_scal. apply rsum_le. intros k Hk. rewrite en by auto.
      specialize (hf (layer_of e (cols net) h W V (entry net i) k)).
      rewrite (Rsqr_abs (f _)), (Rsqr_abs (layer_of _ _ _ _ _ _ _)).
      set (a := Rabs _) in *. set (b := Rabs _) in *. assert (0 <= a) by apply Rabs_pos.
      unfold Rsqr. assert (0 <= c * a) by nra. nra.
Qed.

(** Evaluation succeeds for variables of the right shapes. *)
Lemma get_variable_ok r c W ps : shaped r c W -> get_variable r c (W :: ps) = Ok (W, ps).
Proof. intros [<- <-]. simpl. rewrite !Nat.eqb_refl. reflexivity. Qed.

Lemma layers_total e : forall dims d acts ps net,
  increasing d dims -> cols net = d -> (length dims <= length acts)%nat ->
  Forall2 (fun s W => shaped (fst s) (snd s) W) (variable_shapes d dims) ps ->
  exists out, lyapunov_layers e d dims (map (fun d => Nat.div (d + 1 + 1) 2) (removelast (d :: dims))) acts ps net = Ok out.
Proof.
  induction dims as [|d' dims IH]; intros d acts ps net Hi Hc Hl F.
  - exists net. reflexivity.
  - destruct Hi as [Hd Hi]. destruct acts as [|f acts]; [simpl in Hl; lia|].
    inversion F as [|? W ? ps1 [rW cW] F1]; subst. cbn [fst snd] in rW, cW.
    change (removelast (cols net :: d' :: dims)) with (cols net :: removelast (d' :: dims)).
    cbn [map lyapunov_layers].
    rewrite (get_variable_ok _ _ W ps1) by (split; [rewrite <- Nat.add_assoc; exact rW | exact cW]).
    cbn [bind fst snd]. unfold matmul at 1. cbn [rows cols transpose]. rewrite Nat.eqb_refl. cbn [bind].
    unfold op2 at 1. cbn [bind]. unfold op2, bdim. cbn [rows cols entry eye]. rewrite cW, Nat.eqb_refl. cbn [bind as_tensor].
    destruct (Nat.ltb_spec (cols net) d') as [lt|ge].
    + cbn [app] in F1. inversion F1 as [|? V ? ps2 [rV cV] F2]; subst. cbn [fst snd] in rV, cV.
      rewrite (get_variable_ok _ _ V ps2) by (split; auto).
      cbn [bind fst snd]. unfold vcat2. cbn [rows cols]. rewrite cV, Nat.eqb_refl. cbn [bind fst snd].
      unfold matmul. cbn [rows cols transpose]. rewrite Nat.eqb_refl. cbn [bind].
      apply IH; cbn [rows cols]; auto; [lia|simpl in Hl; lia].
    + cbn [bind fst snd]. unfold matmul. cbn [rows cols transpose]. rewrite Nat.eqb_refl. cbn [bind].
      apply IH; cbn [rows cols]; auto; [lia|simpl in Hl; lia].
Qed.

Lemma non_decreasing_spec l d : non_decreasing (d :: l) = true <-> increasing d l.
Proof.
  revert d. induction l as [|a l IH]; intros d; [simpl; tauto|].
  change (non_decreasing (d :: a :: l)) with (andb (Nat.leb d a) (non_decreasing (a :: l))).
  cbn [increasing]. rewrite andb_true_iff, Nat.leb_le, IH. reflexivity.
Qed.
Lemma make_inv n dims acts e v : make_lyapunov_network n dims acts e = Ok v ->
  v = {| input_dim := n; output_dims := dims; hidden_dims := map (fun d => Nat.div (d + 1 + 1) 2) (removelast (n :: dims));
         activations := acts; eps := e |} /\ dims <> [] /\ increasing n dims.
Proof.
  unfold make_lyapunov_network. destruct dims as [|d0 dims]; [discriminate|].
  destruct (Nat.ltb_spec d0 n); [discriminate|]. destruct (non_decreasing _) eqn:N; [|discriminate].
  intros E. injection E as <-. split; [reflexivity|]. split; [discriminate|].
  split; [lia|]. apply non_decreasing_spec. exact N.
Qed.
Lemma make_ok n dims acts e : dims <> [] -> increasing n dims -> exists v, make_lyapunov_network n dims acts e = Ok v.
Proof.
  intros D I. destruct dims as [|d0 dims]; [congruence|]. destruct I as [I1 I2]. unfold make_lyapunov_network.
  destruct (Nat.ltb_spec d0 n); [lia|]. apply non_decreasing_spec in I2. rewrite I2. eexists; reflexivity.
Qed.
Lemma hid_length (n : nat) dims : length (map (fun d => Nat.div (d + 1 + 1) 2) (removelast (n :: dims))) = length dims.
Proof.
  rewrite map_length. revert n. induction dims as [|a l IH]; intros n; [reflexivity|].
  change (removelast (n :: a :: l)) with (n :: removelast (a :: l)). cbn [length]. f_equal. apply IH.
Qed.

Lemma increasing_sorted n dims : increasing n dims <-> Sorted le (n :: dims).
Proof.
  revert n. induction dims as [|a l IH]; intros n.
  - split; [intros _; repeat constructor|intros _; exact I].
  - cbn [increasing]. rewrite IH. split.
    + intros [H S]. constructor; [exact S|constructor; exact H].
    + intros S. inversion S as [|? ? S' H]; subst. inversion H; subst. auto.
Qed.
