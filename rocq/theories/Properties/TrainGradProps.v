(** Property C114: gradient steps in the training of Lyapunov networks. *)
From Coq Require Import Reals List Bool Arith ZArith Lia Lra FunctionalExtensionality.
From Coquelicot Require Import Coquelicot.
From Verif Require Import Prelude FunModel QuadModel QuadProofs NNModel NNProofs LyapNetModel LyapNetSpec AutoNetModel AutoNetSpec AutoNetProofs2 AutoNNModel AutoNNSpec AutoNNProofs.
From Verif.Properties Require Import AutoNetProps AutoNNProps AutoNNProps2.
From Verif Require Import NumModel ListFacts GridModel TriModel AutoTriModel SafeModel CertModel LoopModel ExUtilModel RoaTrainModel PolGradModel TrainGradModel TrainGradSpec Properties.PolGradProps.
Import ListNotations.
Local Open Scope R_scope.

Definition entry0 (t : tensor) (i : nat) : R := FunModel.entry t i 0%nat.

Section Train.
Variables (n : nat) (dims : list nat) (acts dacts : list (R -> R)) (e : R) (v : lyapunov_network) (ps : list tensor).
Hypothesis M : make_lyapunov_network n dims acts e = Ok v.
Hypothesis La : length acts = length dims.
Hypothesis Ld : length dacts = length dims.
Hypothesis Da : forall a, In a (combine acts dacts) -> forall u : R, is_derive (fst a) u (snd a u).
Hypothesis F : List.Forall2 (fun s W => shaped (fst s) (snd s) W) (variable_shapes n dims) ps.

(** The values along a line of weights *)
Lemma lyapunov_line dps X : List.Forall2 same_shape ps dps -> cols X = n ->
  exists Vt (rate : nat -> R), (forall z, lyapunov_eval v (moved_all z ps dps) X = Ok (Vt z)) /\
    (forall i, (i < rows X)%nat -> is_derive (fun z => entry0 (Vt z) i) 0 (rate i)) /\
    forall dys, exists gX gps, lyapunov_gradients v dacts ps X dys = Ok (gX, gps) /\ List.Forall2 same_shape gps ps /\
      tdots gps dps = rsum (rows X) (fun i => entry0 dys i * rate i).
Proof using M La Ld Da F.
  intros S Hc. set (Vt := fun z => match lyapunov_eval v (moved_all z ps dps) X with Ok V => V | Err _ => X end).
  assert (G : forall dys, exists gX gps, lyapunov_gradients v dacts ps X dys = Ok (gX, gps) /\ List.Forall2 same_shape gps ps /\
     (forall z, lyapunov_eval v (moved_all z ps dps) X = Ok (Vt z)) /\
     is_derive (fun z => rsum (rows X) (fun i => entry0 dys i * entry0 (Vt z) i)) 0 (tdots gps dps)).
  { intros dys. destruct (C111_gradients n dims acts dacts e v ps dps X (zero_like X) dys M La Ld Da F S Hc (conj eq_refl eq_refl))
      as (gX & gps & Wt & EG & _ & SG & EW & D). exists gX, gps. split; [exact EG|]. split; [exact SG|].
    assert (EQ : forall z, lyapunov_eval v (moved_all z ps dps) X = Ok (Wt z)).
    { intros z. specialize (EW z). rewrite moved_zero1 in EW. exact EW. }
    assert (VW : forall z, Vt z = Wt z) by (intros z; unfold Vt; now rewrite EQ).
    split; [intros z; rewrite VW; apply EQ|].
    eapply is_derive_ext; [|eapply dconv; [exact D|rewrite tdot_zero1; ring]]. intros z. cbn beta. rewrite VW. reflexivity. }
  assert (DE : forall i, (i < rows X)%nat -> ex_derive (fun z => entry0 (Vt z) i) 0).
  { intros i Hi. destruct (G (column (rows X) (fun k => if Nat.eqb i k then 1 else 0))) as (gX & gps & _ & _ & _ & D).
    exists (tdots gps dps). eapply is_derive_ext; [|exact D]. intros z. cbn beta.
    etransitivity; [|exact (rsum_delta (rows X) (fun k => entry0 (Vt z) k) i Hi)]. apply rsum_ext. intros k _.
    unfold column, entry0. cbn. ring. }
  exists Vt, (fun i => Derive (fun z => entry0 (Vt z) i) 0). split; [|split].
  - destruct (G X) as (_ & _ & _ & _ & H & _). exact H.
  - intros i Hi. apply Derive_correct. now apply DE.
  - intros dys. destruct (G dys) as (gX & gps & EG & SG & _ & D). exists gX, gps. split; [exact EG|]. split; [exact SG|].
    rewrite <- (is_derive_unique _ _ _ D). apply is_derive_unique.
    apply (dsum (rows X) (fun i z => entry0 dys i * entry0 (Vt z) i)). intros i Hi. apply dscal.
    apply Derive_correct. now apply DE.
Qed.
End Train.

Lemma moved_all_0 ps dps : List.Forall2 same_shape ps dps -> moved_all 0 ps dps = ps.
Proof. induction 1 as [|a b qs rs S F IH]; [reflexivity|]. now rewrite moved_all_cons, moved_0, IH. Qed.
Lemma dmax (h : R -> R) dh : is_derive h 0 dh -> h 0 <> 0 -> is_derive (fun z => Rmax (h z) 0) 0 (maximum_grad (h 0) 0 dh).
Proof.
  intros D N. eapply dconv; [exact (dcomp h relu 0 dh (relu_grad (h 0)) D (relu_derive _ N))|].
  unfold relu_grad, maximum_grad. destruct (Rlt_dec 0 (h 0)), (Rle_dec 0 (h 0)); try ring; lra.
Qed.
Lemma is_derive_Rabs_at x : x <> 0 -> is_derive Rabs x (tf_sign x).
Proof.
  intros H. eapply dconv; [apply (is_derive_Rabs (fun x => x) x 1 (is_derive_id x) H)|]. rewrite Rmult_1_r. unfold tf_sign. destruct (Rlt_dec 0 x); [now apply sign_eq_1|]. destruct (Rlt_dec x 0); [now apply sign_eq_m1|lra].
Qed.
Lemma maximum_scal z c d : maximum_grad z 0 d * c = maximum_grad z 0 (d * c).
Proof. unfold maximum_grad. destruct (Rle_dec 0 z); ring. Qed.
Lemma tdots_sum : forall a b d, List.Forall2 same_shape a d -> List.Forall2 same_shape b d ->
  tdots (map2 (fun g g' => {| rows := rows g; cols := cols g; FunModel.entry := fun i j => FunModel.entry g i j + FunModel.entry g' i j |}) a b) d =
  tdots a d + tdots b d.
Proof.
  intros a b d Fa. revert b. induction Fa as [|x y a d [r c] Fa IH]; intros b Fb; inversion Fb as [|x' y' b' d' [r' c'] Fb']; subst.
  - unfold tdots. cbn. ring.
  - cbn [map2]. rewrite !tdots_cons, IH by auto. unfold tdot. cbn [rows cols FunModel.entry]. rewrite r', c', <- r, <- c.
    match goal with |- ?A + _ = ?B + _ + (?C + _) => assert (Q : A = B + C) end.
    { rewrite <- rsum_plus. apply rsum_ext. intros i _. rewrite <- rsum_plus. apply rsum_ext. intros j _. ring. }
    rewrite Q. ring.
Qed.
Lemma same_sum : forall a b d, List.Forall2 same_shape a d -> List.Forall2 same_shape b d ->
  List.Forall2 same_shape (map2 (fun g g' => {| rows := rows g; cols := cols g; FunModel.entry := fun i j => FunModel.entry g i j + FunModel.entry g' i j |}) a b) d.
Proof.
  intros a b d Fa. revert b. induction Fa as [|x y a d [r c] Fa IH]; intros b Fb; inversion Fb as [|x' y' b' d' [r' c'] Fb']; subst; cbn [map2]; constructor; auto.
  split; auto.
Qed.
Lemma same_trans a b c : List.Forall2 same_shape a b -> List.Forall2 same_shape b c -> List.Forall2 same_shape a c.
Proof.
  intros H. revert c. induction H as [|x y a b [r s] H IH]; intros c Hc; inversion Hc as [|y' z b' c' [r' s'] Hc']; subst; constructor; auto.
  split; congruence.
Qed.

(** One row of the objective *)
Lemma row_derive (V V' : R -> R) dV dV' s l eps den label w :
  is_derive V 0 dV -> is_derive V' 0 dV' -> V 0 <> s -> (label = true -> V' 0 <> V 0) ->
  let class_label := 2 * to_float label - 1 in
  is_derive (fun z => classifier_loss s w (to_float label) (V z) + l * (to_float label * Rmax (V' z - V z) 0 / (den + eps))) 0
    (- (- class_label * maximum_grad (- class_label * (s - V 0)) 0 w) * dV +
     maximum_grad (V' 0 - V 0) 0 (to_float label * (l / (den + eps))) * (dV' - dV)).
Proof.
  intros D D' N N' cl. unfold classifier_loss. fold cl.
  assert (Hc : cl <> 0) by (unfold cl, to_float; destruct label; lra).
  set (z1 := fun z => - cl * (s - V z)). assert (D1 : is_derive z1 0 (cl * dV)).
  { apply (is_derive_ext (fun z => - cl * s + cl * V z)); [intros z; unfold z1; change (- cl * s + cl * V z = - cl * (s - V z)); ring|].
    eapply dconv; [apply (dplus (fun _ => - cl * s) (fun z => cl * V z)); [apply dconst|apply dscal; exact D]|ring]. }
  assert (Z1 : z1 0 <> 0). { unfold z1. intros Q. apply Rmult_integral in Q as [Q|Q]; lra. }
  pose proof (dscal w _ _ _ (dmax z1 _ D1 Z1)) as P1.
  set (z2 := fun z => V' z - V z). assert (D2 : is_derive z2 0 (dV' - dV)).
  { apply (is_derive_ext (fun z => V' z + -1 * V z)); [intros z; unfold z2; change (V' z + -1 * V z = V' z - V z); ring|].
    eapply dconv; [apply (dplus V' (fun z => -1 * V z)); [exact D'|apply dscal; exact D]|ring]. }
  assert (P2 : is_derive (fun z => l * (to_float label * Rmax (z2 z) 0 / (den + eps))) 0 (maximum_grad (z2 0) 0 (to_float label * (l / (den + eps))) * (dV' - dV))).
  { destruct label.
    - apply (is_derive_ext (fun z => l / (den + eps) * Rmax (z2 z) 0)).
      { intros z. change (l / (den + eps) * Rmax (z2 z) 0 = l * (to_float true * Rmax (z2 z) 0 / (den + eps))). unfold to_float, Rdiv. ring. }
      eapply dconv; [apply dscal; apply (dmax z2 _ D2); unfold z2; pose proof (N' eq_refl); lra|].
      rewrite maximum_scal. unfold maximum_grad, to_float. destruct (Rle_dec 0 (z2 0)); ring.
    - apply (is_derive_ext (fun z => 0)).
      { intros z. change (0 = l * (to_float false * Rmax (z2 z) 0 / (den + eps))). unfold to_float, Rdiv. ring. }
      eapply dconv; [apply dconst|]. unfold maximum_grad, to_float. destruct (Rle_dec 0 (z2 0)); ring. }
  eapply dconv; [exact (dplus _ _ _ _ _ P1 P2)|].
  fold (z1 0). fold (z2 0). f_equal. unfold maximum_grad. destruct (Rle_dec 0 (z1 0)); ring.
Qed.

(** The gradients of the optimizer are those of the objective with the normalization of
    the decrease kept. *)
Theorem C114_gradients : forall n dims acts dacts e v ps safe_level lagrange eps b V V',
  make_lyapunov_network n dims acts e = Ok v -> length acts = length dims -> length dacts = length dims ->
  (forall a, In a (combine acts dacts) -> forall u : R, is_derive (fst a) u (snd a u)) ->
  List.Forall2 (fun s W => shaped (fst s) (snd s) W) (variable_shapes n dims) ps ->
  cols (b_states b) = n -> cols (b_next b) = n -> rows (b_next b) = rows (b_states b) ->
  lyapunov_eval v ps (b_states b) = Ok V -> lyapunov_eval v ps (b_next b) = Ok V' -> no_ties safe_level b V V' ->
  exists gs, training_gradients v dacts safe_level lagrange eps b ps = Ok gs /\ List.Forall2 same_shape gs ps /\
    forall dps, List.Forall2 same_shape ps dps ->
    exists L, (forall z, frozen_objective v safe_level lagrange eps b V (moved_all z ps dps) = Ok (L z)) /\
      is_derive L 0 (tdots gs dps).
Proof.
  intros n dims acts dacts e v ps s l eps b V V' M La Ld Da F cX cX' rX EV EV' NT.
  assert (K : forall dps, List.Forall2 same_shape ps dps -> exists gs L,
    training_gradients v dacts s l eps b ps = Ok gs /\ List.Forall2 same_shape gs ps /\
    (forall z, frozen_objective v s l eps b V (moved_all z ps dps) = Ok (L z)) /\ is_derive L 0 (tdots gs dps)).
  { intros dps S.
    destruct (lyapunov_line n dims acts dacts e v ps M La Ld Da F dps _ S cX) as (Vt & dV & EVt & DV & GV).
    destruct (lyapunov_line n dims acts dacts e v ps M La Ld Da F dps _ S cX') as (Vt' & dV' & EVt' & DV' & GV'). rewrite rX in *.
    assert (V0 : Vt 0 = V) by (specialize (EVt 0); rewrite moved_all_0, EV in EVt by auto; now injection EVt).
    assert (V0' : Vt' 0 = V') by (specialize (EVt' 0); rewrite moved_all_0, EV' in EVt' by auto; now injection EVt').
    set (k := rows (b_states b)) in *.
    set (dd := fun i => let cl := 2 * to_float (b_labels b i) - 1 in - cl * maximum_grad (- cl * (s - entry0 V i)) 0 (b_weights b i * (1 / INR k))).
    set (ddv := fun i => maximum_grad (entry0 V' i - entry0 V i) 0 (to_float (b_labels b i) * (l * (1 / INR k) / (entry0 V i + eps)))).
    destruct (GV (column k (fun i => - dd i + - ddv i))) as (gX & g1 & E1 & S1 & T1).
    destruct (GV' (column k ddv)) as (gX' & g2 & E2 & S2 & T2).
    eexists. exists (fun z => rsum k (fun i => classifier_loss s (b_weights b i) (to_float (b_labels b i)) (entry0 (Vt z) i) +
        l * (to_float (b_labels b i) * Rmax (entry0 (Vt' z) i - entry0 (Vt z) i) 0 / (entry0 V i + eps))) / INR k). split; [|split; [|split]].
    - unfold training_gradients. rewrite EV, EV'. cbn [bind]. fold k. unfold dd, ddv in E1. unfold ddv in E2. cbv zeta in E1. unfold entry0 in E1, E2.
      rewrite E1. cbn [bind]. rewrite E2. cbn [bind snd]. reflexivity.
    - now apply same_sum.
    - intros z. unfold frozen_objective. rewrite EVt, EVt'. reflexivity.
    - rewrite tdots_sum by (eapply same_trans; eauto). rewrite T1, T2.
      apply (is_derive_ext (fun z => 1 / INR k * rsum k (fun i => classifier_loss s (b_weights b i) (to_float (b_labels b i)) (entry0 (Vt z) i) +
        l * (to_float (b_labels b i) * Rmax (entry0 (Vt' z) i - entry0 (Vt z) i) 0 / (entry0 V i + eps))))).
      { intros z. match goal with |- 1 / INR k * ?A = _ => change (1 / INR k * A = A / INR k) end. unfold Rdiv. ring. }
      eapply dconv.
      + apply dscal. apply (dsum k (fun i z => classifier_loss s (b_weights b i) (to_float (b_labels b i)) (entry0 (Vt z) i) +
          l * (to_float (b_labels b i) * Rmax (entry0 (Vt' z) i - entry0 (Vt z) i) 0 / (entry0 V i + eps)))
          (fun i => let cl := 2 * to_float (b_labels b i) - 1 in - (- cl * maximum_grad (- cl * (s - entry0 V i)) 0 (b_weights b i)) * dV i +
             maximum_grad (entry0 V' i - entry0 V i) 0 (to_float (b_labels b i) * (l / (entry0 V i + eps))) * (dV' i - dV i))).
        intros i Hi. destruct (NT i Hi) as [N1 N2].
        pose proof (row_derive (fun z => entry0 (Vt z) i) (fun z => entry0 (Vt' z) i) (dV i) (dV' i) s l eps (entry0 V i) (b_labels b i) (b_weights b i)
          (DV i Hi) (DV' i Hi)) as RD. cbv beta in RD. rewrite V0, V0' in RD. exact (RD N1 N2).
      + rewrite <- rsum_plus, <- rsum_scal. apply rsum_ext. intros i Hi. cbv zeta. change (entry0 (column k (fun i0 => - dd i0 + - ddv i0)) i) with (- dd i + - ddv i). change (entry0 (column k ddv) i) with (ddv i). unfold dd, ddv. cbv zeta.
        unfold maximum_grad. destruct (Rle_dec 0 (- (2 * to_float (b_labels b i) - 1) * (s - entry0 V i))), (Rle_dec 0 (entry0 V' i - entry0 V i)); unfold Rdiv; ring. }
  destruct (K (map zero_like ps) (same_zero ps)) as (gs & _ & EG & SG & _). exists gs. split; [exact EG|]. split; [exact SG|].
  intros dps S. destruct (K dps S) as (gs' & L & EG' & _ & EL & DL). rewrite EG in EG'. injection EG' as <-. exists L. auto.
Qed.

(** Where the values of all labelled states decrease, they are those of the objective. *)
Theorem C114_objective_gradients : forall n dims acts dacts e v ps safe_level lagrange eps b V V',
  make_lyapunov_network n dims acts e = Ok v -> length acts = length dims -> length dacts = length dims ->
  (forall a, In a (combine acts dacts) -> forall u : R, is_derive (fst a) u (snd a u)) ->
  List.Forall2 (fun s W => shaped (fst s) (snd s) W) (variable_shapes n dims) ps ->
  cols (b_states b) = n -> cols (b_next b) = n -> rows (b_next b) = rows (b_states b) ->
  lyapunov_eval v ps (b_states b) = Ok V -> lyapunov_eval v ps (b_next b) = Ok V' ->
  (forall i, (i < rows (b_states b))%nat -> FunModel.entry V i 0%nat <> safe_level /\ FunModel.entry V i 0%nat + eps <> 0 /\
     (b_labels b i = true -> FunModel.entry V' i 0%nat < FunModel.entry V i 0%nat)) ->
  exists gs, training_gradients v dacts safe_level lagrange eps b ps = Ok gs /\
    forall dps, List.Forall2 same_shape ps dps ->
    exists L, (forall z, training_objective v safe_level lagrange eps b (moved_all z ps dps) = Ok (L z)) /\
      is_derive L 0 (tdots gs dps).
Proof.
  intros n dims acts dacts e v ps s l eps b V V' M La Ld Da F cX cX' rX EV EV' H.
  destruct (C114_gradients n dims acts dacts e v ps s l eps b V V' M La Ld Da F cX cX' rX EV EV') as (gs & EG & SG & K).
  { intros i Hi. destruct (H i Hi) as (N1 & _ & N2). split; [exact N1|]. intros Q. specialize (N2 Q). lra. }
  exists gs. split; [exact EG|]. intros dps S. destruct (K dps S) as (L & EL & DL).
  destruct (lyapunov_line n dims acts dacts e v ps M La Ld Da F dps _ S cX) as (Vt & dV & EVt & DV & _).
  destruct (lyapunov_line n dims acts dacts e v ps M La Ld Da F dps _ S cX') as (Vt' & dV' & EVt' & DV' & _). rewrite rX in *.
  assert (V0 : Vt 0 = V) by (specialize (EVt 0); rewrite moved_all_0, EV in EVt by auto; now injection EVt).
  assert (V0' : Vt' 0 = V') by (specialize (EVt' 0); rewrite moved_all_0, EV' in EVt' by auto; now injection EVt').
  set (k := rows (b_states b)) in *.
  (* the two objectives differ by quotients *)
  set (u := fun i z => to_float (b_labels b i) * Rmax (entry0 (Vt' z) i - entry0 (Vt z) i) 0).
  assert (Du : forall i, (i < k)%nat -> u i 0 = 0 /\ is_derive (u i) 0 0).
  { intros i Hi. destruct (H i Hi) as (_ & _ & N). unfold u. fold (entry0 V i) (entry0 V' i) in N. rewrite V0, V0'. destruct (b_labels b i); cbn [to_float].
    - specialize (N eq_refl). split; [rewrite Rmax_right by lra; ring|]. eapply dconv; [apply dscal; apply (dmax (fun z => entry0 (Vt' z) i - entry0 (Vt z) i) (dV' i + -1 * dV i))|].
      + apply (is_derive_ext (fun z => entry0 (Vt' z) i + -1 * entry0 (Vt z) i)).
        { intros z. change (entry0 (Vt' z) i + -1 * entry0 (Vt z) i = entry0 (Vt' z) i - entry0 (Vt z) i). ring. }
        apply (dplus (fun z => entry0 (Vt' z) i) (fun z => -1 * entry0 (Vt z) i)); [apply DV'; auto|apply dscal; apply DV; auto].
      + rewrite V0, V0'. lra.
      + rewrite V0, V0'. unfold maximum_grad. destruct (Rle_dec 0 (entry0 V' i - entry0 V i)); lra.
    - split; [ring|]. apply (is_derive_ext (fun _ => 0)); [intros z; change (0 = 0 * Rmax (entry0 (Vt' z) i - entry0 (Vt z) i) 0); ring|apply dconst]. }
  exists (fun z => L z + 1 / INR k * rsum k (fun i => l * (u i z * (/ (entry0 (Vt z) i + eps) - / (entry0 V i + eps))))). split.
  - intros z. specialize (EL z). unfold frozen_objective in EL. rewrite EVt, EVt' in EL. cbn [bind] in EL. fold k in EL. injection EL as EL.
    unfold training_objective. rewrite EVt, EVt'. cbn [bind]. fold k. f_equal. rewrite <- EL. unfold Rdiv. rewrite Rmult_1_l, (Rmult_comm (/ INR k) (rsum k _)).
    rewrite <- Rmult_plus_distr_r. f_equal. rewrite <- rsum_plus. apply rsum_ext. intros i _. unfold decrease_loss, u, entry0, Rdiv. ring.
  - assert (DR : is_derive (fun z => rsum k (fun i => l * (u i z * (/ (entry0 (Vt z) i + eps) - / (entry0 V i + eps))))) 0 (rsum k (fun _ => 0))).
    2:{ pose proof (dplus L _ 0 _ _ DL (dscal (1 / INR k) _ _ _ DR)) as DD. eapply dconv; [exact DD|]. rewrite rsum_zero. ring. }
    apply (dsum k (fun i z => l * (u i z * (/ (entry0 (Vt z) i + eps) - / (entry0 V i + eps)))) (fun _ => 0)).
    intros i Hi. destruct (Du i Hi) as [u0 du]. destruct (H i Hi) as (_ & NZ & _). fold (entry0 V i) in NZ.
    assert (DI : is_derive (fun z => / (entry0 (Vt z) i + eps) - / (entry0 V i + eps)) 0 (- dV i / (entry0 V i + eps) ^ 2)).
    { eapply dconv; [apply (is_derive_minus (fun z => / (entry0 (Vt z) i + eps)) (fun _ => / (entry0 V i + eps))); [|apply dconst]|].
      - apply (is_derive_inv (fun z => entry0 (Vt z) i + eps)); [apply (dplus (fun z => entry0 (Vt z) i) (fun _ => eps)); [apply DV; auto|apply dconst]|].
        rewrite V0. exact NZ.
      - rewrite V0. unfold minus, plus, opp. cbn. field. exact NZ. }
    eapply dconv; [apply dscal; apply (dmult _ _ _ _ _ du DI)|]. rewrite u0, V0. ring.
Qed.

(** Small steps decrease the objective with the normalization kept. *)
Theorem C114_step : forall n dims acts dacts e v ps safe_level lagrange eps b V V' gs G i j,
  make_lyapunov_network n dims acts e = Ok v -> length acts = length dims -> length dacts = length dims ->
  (forall a, In a (combine acts dacts) -> forall u : R, is_derive (fst a) u (snd a u)) ->
  List.Forall2 (fun s W => shaped (fst s) (snd s) W) (variable_shapes n dims) ps ->
  cols (b_states b) = n -> cols (b_next b) = n -> rows (b_next b) = rows (b_states b) ->
  lyapunov_eval v ps (b_states b) = Ok V -> lyapunov_eval v ps (b_next b) = Ok V' -> no_ties safe_level b V V' ->
  training_gradients v dacts safe_level lagrange eps b ps = Ok gs ->
  In G gs -> (i < rows G)%nat -> (j < cols G)%nat -> FunModel.entry G i j <> 0 ->
  exists eta, 0 < eta /\ forall learning_rate, 0 < learning_rate < eta ->
    exists ps' before after, training_update v dacts safe_level lagrange eps learning_rate b ps = Ok ps' /\
      training_objective v safe_level lagrange eps b ps = Ok before /\
      frozen_objective v safe_level lagrange eps b V ps' = Ok after /\ after < before.
Proof.
  intros n dims acts dacts e v ps s l eps b V V' gs G i j M La Ld Da F cX cX' rX EV EV' NT EG I Hi Hj Hn.
  destruct (C114_gradients n dims acts dacts e v ps s l eps b V V' M La Ld Da F cX cX' rX EV EV' NT) as (gs' & EG' & SG & K).
  rewrite EG in EG'. injection EG' as <-.
  assert (FN : List.Forall2 same_shape ps (map negated gs)).
  { clear - SG. induction SG as [|a b gs ps [r c] SG IH]; constructor; auto. split; cbn; auto. }
  destruct (K _ FN) as (L & EL & DL). rewrite tdots_negated in DL.
  destruct (decrease L _ DL) as (eta & He & H). { pose proof (tdots_pos gs G i j I Hi Hj Hn). lra. }
  exists eta. split; [exact He|]. intros lr Hlr. exists (map2 (descend lr) ps gs), (L 0), (L lr). split; [|split; [|split]].
  - unfold training_update. rewrite EG. reflexivity.
  - specialize (EL 0). rewrite moved_all_0 in EL by auto. unfold frozen_objective in EL. unfold training_objective. rewrite EV, EV' in *. cbn [bind] in *.
    rewrite <- EL. reflexivity.
  - rewrite descend_moved by auto. apply EL.
  - now apply H.
Qed.

(** Pre-training *)
Theorem C114_pre_training : forall n dims acts dacts e v ps targets X V,
  make_lyapunov_network n dims acts e = Ok v -> length acts = length dims -> length dacts = length dims ->
  (forall a, In a (combine acts dacts) -> forall u : R, is_derive (fst a) u (snd a u)) ->
  List.Forall2 (fun s W => shaped (fst s) (snd s) W) (variable_shapes n dims) ps ->
  cols X = n -> lyapunov_eval v ps X = Ok V -> (forall i, (i < rows X)%nat -> FunModel.entry V i 0%nat <> targets i) ->
  exists gs, pre_gradients v dacts targets X ps = Ok gs /\ List.Forall2 same_shape gs ps /\
    (forall dps, List.Forall2 same_shape ps dps ->
     exists L, (forall z, pre_objective v targets X (moved_all z ps dps) = Ok (L z)) /\ is_derive L 0 (tdots gs dps)) /\
    ((exists G i j, In G gs /\ (i < rows G)%nat /\ (j < cols G)%nat /\ FunModel.entry G i j <> 0) ->
     exists eta, 0 < eta /\ forall learning_rate, 0 < learning_rate < eta ->
       exists ps' before after, pre_update v dacts targets learning_rate X ps = Ok ps' /\
         pre_objective v targets X ps = Ok before /\ pre_objective v targets X ps' = Ok after /\ after < before).
Proof.
  intros n dims acts dacts e v ps targets X V M La Ld Da F cX EV NT.
  assert (K : forall dps, List.Forall2 same_shape ps dps -> exists gs L, pre_gradients v dacts targets X ps = Ok gs /\ List.Forall2 same_shape gs ps /\
     (forall z, pre_objective v targets X (moved_all z ps dps) = Ok (L z)) /\ is_derive L 0 (tdots gs dps)).
  { intros dps S. destruct (lyapunov_line n dims acts dacts e v ps M La Ld Da F dps _ S cX) as (Vt & dV & EVt & DV & GV).
    assert (V0 : Vt 0 = V) by (specialize (EVt 0); rewrite moved_all_0, EV in EVt by auto; now injection EVt).
    destruct (GV (column (rows X) (fun i => 1 / INR (rows X) * tf_sign (entry0 V i - targets i)))) as (gX & g1 & E1 & S1 & T1).
    exists g1, (fun z => rsum (rows X) (fun i => Rabs (entry0 (Vt z) i - targets i)) / INR (rows X)). split; [|split; [exact S1|split]].
    - unfold pre_gradients. rewrite EV. cbn [bind]. unfold entry0 in E1. rewrite E1. reflexivity.
    - intros z. unfold pre_objective. rewrite EVt. reflexivity.
    - rewrite T1. apply (is_derive_ext (fun z => 1 / INR (rows X) * rsum (rows X) (fun i => Rabs (entry0 (Vt z) i - targets i)))).
      { intros z. match goal with |- 1 / ?k * ?A = _ => change (1 / k * A = A / k) end. unfold Rdiv. ring. }
      eapply dconv; [apply dscal; apply (dsum (rows X) (fun i z => Rabs (entry0 (Vt z) i - targets i)) (fun i => tf_sign (entry0 V i - targets i) * dV i))|].
      + intros i Hi. pose proof (NT i Hi) as N. fold (entry0 V i) in N.
        assert (DM : is_derive (fun z => entry0 (Vt z) i - targets i) 0 (dV i)).
        { eapply dconv; [apply (dplus (fun z => entry0 (Vt z) i) (fun _ => - targets i)); [apply DV; auto|apply dconst]|ring]. }
        assert (N0 : entry0 (Vt 0) i - targets i <> 0) by (rewrite V0; lra).
        eapply dconv; [exact (dcomp _ Rabs 0 _ _ DM (is_derive_Rabs_at _ N0))|]. rewrite V0. reflexivity.
      + rewrite <- rsum_scal. apply rsum_ext. intros i _. unfold column, entry0. cbn [FunModel.entry]. ring. }
  destruct (K (map zero_like ps) (same_zero ps)) as (gs & _ & EG & SG & _). exists gs. split; [exact EG|]. split; [exact SG|].
  assert (K' : forall dps, List.Forall2 same_shape ps dps ->
     exists L, (forall z, pre_objective v targets X (moved_all z ps dps) = Ok (L z)) /\ is_derive L 0 (tdots gs dps)).
  { intros dps S. destruct (K dps S) as (gs' & L & EG' & _ & EL & DL). rewrite EG in EG'. injection EG' as <-. exists L. auto. }
  split; [exact K'|]. intros (G & i & j & I & Hi & Hj & Hn).
  assert (FN : List.Forall2 same_shape ps (map negated gs)).
  { clear - SG. induction SG as [|a b gs ps [r c] SG IH]; constructor; auto. split; cbn; auto. }
  destruct (K' _ FN) as (L & EL & DL). rewrite tdots_negated in DL.
  destruct (decrease L _ DL) as (eta & He & H). { pose proof (tdots_pos gs G i j I Hi Hj Hn). lra. }
  exists eta. split; [exact He|]. intros lr Hlr. exists (map2 (descend lr) ps gs), (L 0), (L lr). split; [|split; [|split]].
  - unfold pre_update. rewrite EG. reflexivity.
  - specialize (EL 0). rewrite moved_all_0 in EL by auto. exact EL.
  - rewrite descend_moved by auto. apply EL.
  - now apply H.
Qed.
