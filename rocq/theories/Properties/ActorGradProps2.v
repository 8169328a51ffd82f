(** Property C115: gradient steps of the actor-critic examples, the actor. *)
From Coq Require Import Reals List Bool Arith ZArith Lia Lra FunctionalExtensionality.
From Coquelicot Require Import Coquelicot.
From Verif Require Import NumModel ListFacts GridModel TriModel AutoTriModel SafeModel CertModel RLModel LyapNetModel AutoNetModel LoopModel ExUtilModel RoaTrainModel.
From Verif Require Import Prelude FunModel QuadModel QuadProofs NNModel NNProofs AutoNetSpec AutoNetProofs2 AutoNNModel AutoNNSpec AutoNNProofs PolGradModel TrainGradModel ActorModel ActorSpec ActorProofs ActorGradModel ActorGradSpec.
From Verif.Properties Require Import AutoNetProps AutoNNProps AutoNNProps2 PolGradProps TrainGradProps ActorGradProps.
From Verif Require Import QuadSpec ActorModel ActorSpec.
Import ListNotations.
Local Open Scope R_scope.

Lemma forall2_same_refl ps : List.Forall2 same_shape ps ps.
Proof. induction ps; constructor; auto. split; reflexivity. Qed.
Lemma moved_all_zero z : forall ps, moved_all z ps (map zero_like ps) = ps.
Proof.
  induction ps as [|p ps IH]; [reflexivity|]. cbn [map]. rewrite moved_all_cons, IH. f_equal. apply moved_zero1.
Qed.
Lemma tdots_zero : forall gs ps, tdots gs (map zero_like ps) = 0.
Proof.
  induction gs as [|g gs IH]; intros [|p ps]; try reflexivity. cbn [map]. rewrite tdots_cons, IH, tdot_zero1. ring.
Qed.

(** The outputs along a curve of points *)
Lemma network_curve nn dacts ps X A (Xt : R -> tensor) dx : nn_eval nn ps X = Ok A -> length dacts = length (nonlinearities nn) ->
  smooth_at (nn_layers nn dacts) ps X -> Xt 0 = X -> (forall z, same_shape X (Xt z)) ->
  (forall i k, (i < rows X)%nat -> (k < cols X)%nat -> is_derive (fun z => entry (Xt z) i k) 0 (dx i k)) ->
  exists Vt, (forall z, nn_eval nn ps (Xt z) = Ok (Vt z) /\ same_shape A (Vt z)) /\
    forall dys, exists gX gps, nn_gradients nn dacts ps X dys = Ok (gX, gps) /\ same_shape gX X /\
      is_derive (fun z => rsum (rows A) (fun i => rsum (cols A) (fun j => entry dys i j * entry (Vt z) i j))) 0
        (rsum (rows X) (fun i => rsum (cols X) (fun k => entry gX i k * dx i k))).
Proof.
  intros E L SM X0 SX DX.
  assert (EV : forall z, exists V, nn_eval nn ps (Xt z) = Ok V /\ same_shape A V).
  { intros z. apply (eval_shapes nn ps ps X (Xt z) A); auto. apply forall2_same_refl. }
  exists (fun z => match nn_eval nn ps (Xt z) with Ok V => V | Err _ => A end). split.
  { intros z. destruct (EV z) as (V & EVz & S). rewrite EVz. auto. }
  intros dys. destruct (gradients_total nn dacts ps X A dys L E) as [[gX gps] EG]. exists gX, gps. split; [exact EG|].
  assert (EG' : dense_backprop (output_scale nn) (nn_layers nn dacts) ps X dys = Ok (gX, gps)).
  { unfold nn_gradients in EG. destruct (nonlinearities nn); [discriminate|exact EG]. }
  destruct (nn_derive (output_scale nn) (nn_layers nn dacts) ps (map zero_like ps) X dys gX gps (fun i k t => entry (Xt t) i k) dx (same_zero ps) SM EG')
    as (rg & cg & SG & D).
  { intros i k Hi Hk. split; [now rewrite X0|now apply DX]. }
  split; [split; auto|]. destruct (eval_fwd nn dacts ps X A L E) as (rV & cV & _).
  eapply is_derive_ext; [|eapply dconv; [exact D|rewrite tdots_zero, Rplus_0_r; reflexivity]].
  intros t. cbn beta. destruct (EV t) as (V' & EVt & [rV' cV']). rewrite EVt, moved_all_zero. rewrite rV, cV.
  destruct (eval_fwd nn dacts _ _ _ L EVt) as (_ & _ & eV). apply rsum_ext. intros i Hi. apply rsum_ext. intros j Hj.
  f_equal. rewrite eV by lia. reflexivity.
Qed.

(** Quadratic functions backwards *)
Lemma quadratic_backprop_ok d P points dys : rows P = d -> cols P = d -> cols points = d ->
  exists dp, quadratic_backprop P points dys = Ok dp /\ rows dp = rows points /\ cols dp = d /\
    forall i j, entry dp i j = entry dys i 0%nat * (rsum d (fun k => entry points i k * entry P j k) + rsum d (fun k => entry points i k * entry P k j)).
Proof.
  intros rP cP cp. unfold quadratic_backprop, matmul. cbn [transpose rows cols entry]. rewrite rP, cP, cp, !Nat.eqb_refl. cbn [bind].
  eexists. split; [reflexivity|]. cbn [rows cols entry]. split; [reflexivity|]. split; [reflexivity|].
  intros i j. rewrite Rmult_plus_distr_l. f_equal. rewrite <- rsum_scal. apply rsum_ext. intros k _. ring.
Qed.

(** The derivative of the rewards with respect to the actions *)
Lemma quad_derive m Rc (u : R -> list R) (v : nat -> R) : square m Rc ->
  (forall k, (k < m)%nat -> is_derive (fun z => nth k (u z) 0) 0 (v k)) ->
  is_derive (fun z => quad Rc (u z)) 0
    (rsum m (fun a => (rsum m (fun b => nth b (u 0) 0 * entry Rc a b) + rsum m (fun b => nth b (u 0) 0 * entry Rc b a)) * v a)).
Proof.
  intros [r c] D. unfold quad, form. rewrite r.
  eapply dconv; [apply (dsum m (fun i z => rsum m (fun j => nth i (u z) 0 * entry Rc i j * nth j (u z) 0))
     (fun i => rsum m (fun j => v i * entry Rc i j * nth j (u 0) 0 + nth i (u 0) 0 * entry Rc i j * v j)))|].
  - intros i Hi. apply (dsum m (fun j z => nth i (u z) 0 * entry Rc i j * nth j (u z) 0)). intros j Hj.
    apply (is_derive_ext (fun z => entry Rc i j * (nth i (u z) 0 * nth j (u z) 0))).
    { intros z. match goal with |- ?a * (?b * ?c) = _ => change (a * (b * c) = b * a * c) end. ring. }
    eapply dconv; [apply dscal; exact (dmult _ _ _ _ _ (D i Hi) (D j Hj))|]. cbn beta. ring.
  - rewrite (rsum_ext m _ (fun i => rsum m (fun j => v i * entry Rc i j * nth j (u 0) 0) + rsum m (fun j => nth i (u 0) 0 * entry Rc i j * v j)))
      by (intros; apply rsum_plus).
    rewrite rsum_plus. rewrite (rsum_swap m m (fun i j => nth i (u 0) 0 * entry Rc i j * v j)). rewrite <- rsum_plus. apply rsum_ext. intros a _.
    rewrite Rmult_plus_distr_r, (Rmult_comm _ (v a)), <- rsum_scal, (Rmult_comm _ (v a)), <- rsum_scal. f_equal; apply rsum_ext; intros; ring.
Qed.

Lemma rsum_opp1 m f : rsum m (fun i => - f i) = - rsum m f.
Proof. rewrite (rsum_ext m _ (fun i => -1 * f i)) by (intros; ring). rewrite rsum_scal. ring. Qed.

(** What the model computes for the rewards *)
Lemma reward_backprop n m Q Rc X U dys : square n Q -> square m Rc -> cols X = n -> cols U = m -> rows U = rows X ->
  exists points dp, hcat [X; U] = Ok points /\
    quadratic_backprop (quadratic_function (Matrix (block_diag (neg Q) (neg Rc)))) points dys = Ok dp /\
    forall i a, (i < rows X)%nat -> (a < m)%nat -> entry (col_slice (cols X) (cols U) dp) i a =
      - entry dys i 0%nat * (rsum m (fun b => entry U i b * entry Rc a b) + rsum m (fun b => entry U i b * entry Rc b a)).
Proof.
  intros [q1 q2] [r1 r2] cX cU rU. set (P := block_diag (neg Q) (neg Rc)).
  assert (E : hcat [X; U] = Ok {| rows := rows X; cols := cols X + cols U;
     entry := fun i j => if Nat.ltb j (cols X) then entry X i j else entry U i (j - cols X) |}) by (apply hcat_cons; auto).
  eexists. destruct (quadratic_backprop_ok (n + m) (quadratic_function (Matrix P)) {| rows := rows X; cols := cols X + cols U;
     entry := fun i j => if Nat.ltb j (cols X) then entry X i j else entry U i (j - cols X) |} dys) as (dp & Ed & _ & _ & ed).
  { unfold P. cbn. lia. } { unfold P. cbn. lia. } { cbn. lia. }
  exists dp. split; [exact E|]. split; [exact Ed|]. intros i a Hi Ha. unfold col_slice. cbn [entry]. rewrite ed. cbn [entry].
  change (quadratic_function (Matrix P)) with P. rewrite Ropp_mult_distr_l_reverse, Ropp_mult_distr_r. f_equal. rewrite Ropp_plus_distr, !rsum_app, cX. unfold P, block_diag, neg. cbn [rows cols entry]. rewrite q1, q2.
  assert (Z : forall f, (forall k, (k < n)%nat -> f k = 0) -> rsum n f = 0) by (intros f H; rewrite (rsum_ext n f (fun _ => 0)) by auto; apply rsum_zero).
  rewrite !Z.
  - rewrite !Rplus_0_l, <- !rsum_opp1. f_equal; apply rsum_ext; intros k Hk;
      destruct (Nat.ltb_spec (n + k) n); try lia; destruct (Nat.ltb_spec (n + a) n); try lia; cbn [andb orb];
      replace (n + k - n)%nat with k by lia; replace (n + a - n)%nat with a by lia; ring.
  - intros k Hk. destruct (Nat.ltb_spec k n); try lia. destruct (Nat.ltb_spec (n + a) n); try lia. cbn [andb orb]. ring.
  - intros k Hk. destruct (Nat.ltb_spec k n); try lia. destruct (Nat.ltb_spec (n + a) n); try lia. cbn [andb orb]. ring.
Qed.

(** The next states along a curve of actions *)
Lemma future_curve n dynamics d X U (Ut : R -> tensor) v : dynamics_gradient n dynamics d X U -> Ut 0 = U -> (forall z, same_shape U (Ut z)) ->
  (forall i k, (i < rows U)%nat -> (k < cols U)%nat -> is_derive (fun z => entry (Ut z) i k) 0 (v i k)) ->
  exists Yt w, (forall z, dynamics X (Ut z) = Ok (Yt z) /\ rows (Yt z) = rows X /\ cols (Yt z) = n) /\
    (forall i k, (i < rows X)%nat -> (k < n)%nat -> is_derive (fun z => entry (Yt z) i k) 0 (w i k)) /\
    forall dY, rows dY = rows X -> cols dY = n ->
      rsum (rows U) (fun i => rsum (cols U) (fun k => entry (d X U dY) i k * v i k)) = rsum (rows X) (fun i => rsum n (fun k => entry dY i k * w i k)).
Proof.
  intros [T G] U0 SU DU. set (Yt := fun z => match dynamics X (Ut z) with Ok Y => Y | Err _ => X end).
  assert (EY : forall z, dynamics X (Ut z) = Ok (Yt z) /\ rows (Yt z) = rows X /\ cols (Yt z) = n).
  { intros z. destruct (T (Ut z) (SU z)) as (Y & E & r & c). unfold Yt. rewrite E. auto. }
  exists Yt, (fun i k => Derive (fun z => entry (Yt z) i k) 0). split; [exact EY|].
  assert (DE : forall i k, (i < rows X)%nat -> (k < n)%nat -> is_derive (fun z => entry (Yt z) i k) 0 (Derive (fun z => entry (Yt z) i k) 0)).
  { intros i k Hi Hk. apply Derive_correct.
    set (e := {| rows := rows X; cols := n; entry := fun i' k' => if Nat.eqb i i' then (if Nat.eqb k k' then 1 else 0) else 0 |}).
    destruct (G e eq_refl eq_refl) as [_ D]. specialize (D Ut Yt v U0 SU (fun z => proj1 (EY z)) DU).
    eexists. eapply is_derive_ext; [|exact D]. intros z. unfold tdot, e. cbn [rows cols entry].
    transitivity (rsum (rows X) (fun i0 => entry (Yt z) i0 k * (if Nat.eqb i i0 then 1 else 0))).
    - apply rsum_ext. intros i0 _. destruct (Nat.eqb i i0).
      + rewrite Rmult_1_r. etransitivity; [|exact (rsum_delta n (fun k0 => entry (Yt z) i0 k0) k Hk)].
        apply rsum_ext. intros k0 _. ring.
      + rewrite (rsum_ext _ _ (fun _ => 0)); [rewrite rsum_zero; ring|intros; ring].
    - exact (rsum_delta (rows X) (fun i0 => entry (Yt z) i0 k) i Hi). }
  split; [exact DE|]. intros dY rd cd. destruct (G dY rd cd) as [_ D]. specialize (D Ut Yt v U0 SU (fun z => proj1 (EY z)) DU).
  rewrite <- (is_derive_unique _ _ _ D). apply is_derive_unique. unfold tdot. rewrite rd, cd.
  apply (dsum (rows X) (fun i z => rsum n (fun k => entry dY i k * entry (Yt z) i k))). intros i Hi.
  apply (dsum n (fun k z => entry dY i k * entry (Yt z) i k)). intros k Hk. apply dscal. now apply DE.
Qed.

Theorem C115_actor_gradients : forall Q Rc n m dynamics d_dynamics gamma vf dvacts vps nn dacts ps X A Y W,
  square n Q -> square m Rc -> cols X = n ->
  nn_eval nn ps X = Ok A -> cols A = m -> length dacts = length (nonlinearities nn) -> smooth_at (nn_layers nn dacts) ps X ->
  dynamics X A = Ok Y -> dynamics_gradient n dynamics d_dynamics X A ->
  nn_eval vf vps Y = Ok W -> cols W = 1%nat -> length dvacts = length (nonlinearities vf) -> smooth_at (nn_layers vf dvacts) vps Y ->
  exists gs, actor_gradients Q Rc n m dynamics d_dynamics gamma vf dvacts vps nn dacts X ps = Ok gs /\ List.Forall2 same_shape gs ps /\
    forall dps, List.Forall2 same_shape ps dps ->
    exists L, (forall z, policy_objective Q Rc n m dynamics gamma (nn_eval nn (moved_all z ps dps)) (nn_eval vf vps) X = Ok (L z)) /\
      is_derive L 0 (tdots gs dps).
Proof.
  intros Q Rc n m dynamics dd gamma vf dvacts vps nn dacts ps X A Y W HQ HR cX EA cA LD SM EY DG EW cW LV SV.
  destruct (eval_fwd nn dacts ps X A LD EA) as (rA & _ & _). destruct (eval_fwd vf dvacts vps Y W LV EW) as (rW & _ & _).
  pose proof (r_max_ok Q Rc n m HQ HR) as ER. set (r := total Q + total Rc) in *.
  set (d := dmean W (- discount_scaling gamma r)).
  assert (K : forall dps, List.Forall2 same_shape ps dps -> exists gs L,
    actor_gradients Q Rc n m dynamics dd gamma vf dvacts vps nn dacts X ps = Ok gs /\ List.Forall2 same_shape gs ps /\
    (forall z, policy_objective Q Rc n m dynamics gamma (nn_eval nn (moved_all z ps dps)) (nn_eval vf vps) X = Ok (L z)) /\ is_derive L 0 (tdots gs dps)).
  { intros dps F. destruct (network_line nn dacts ps dps X A EA LD SM F) as (At & v & EAt & A0 & DA & GA).
    assert (SA : forall z, same_shape A (At z)) by (intros z; destruct (EAt z) as (_ & a & b); split; auto).
    destruct (future_curve n dynamics dd X A At v DG A0 SA DA) as (Yt & w & EYt & DY & GY).
    assert (Y0 : Yt 0 = Y). { destruct (EYt 0) as (E & _). rewrite A0, EY in E. now injection E. }
    destruct (EYt 0) as (_ & rY & cY). rewrite Y0 in rY, cY.
    assert (SY : forall z, same_shape Y (Yt z)) by (intros z; destruct (EYt z) as (_ & a & b); split; congruence).
    destruct (network_curve vf dvacts vps Y W Yt w EW LV SV Y0 SY) as (Wt & EWt & GW). { intros i k Hi Hk. apply DY; lia. }
    destruct (GW {| rows := rows W; cols := cols W; entry := fun _ _ => gamma * d |}) as (gv & gvps & EGV & SGV & DW).
    destruct (reward_backprop n m Q Rc X A {| rows := rows W; cols := 1; entry := fun _ _ => d |} HQ HR cX cA rA) as (points & dp & EP & EDP & NP).
    cbn [entry] in NP. set (dr := col_slice (cols X) (cols A) dp) in *.
    destruct (GA {| rows := rows A; cols := cols A; entry := fun i j => entry dr i j + entry (dd X A gv) i j |}) as (gX & gs & EG & SG & TD).
    exists gs, (fun z => - discount_scaling gamma r * (rsum (rows X) (fun i => reward Q Rc (row_of X i) (row_of (At z) i) + gamma * entry (Wt z) i 0%nat) / INR (rows X))).
    split; [|split; [exact SG|split]].
    - unfold actor_gradients. rewrite EA. cbn [bind]. rewrite EY. cbn [bind]. rewrite EW, ER. cbn [bind]. fold d. rewrite EGV. cbn [bind fst].
      rewrite EP. cbn [bind]. rewrite EDP. cbn [bind]. fold dr. rewrite EG. reflexivity.
    - intros z. unfold policy_objective, lookahead. destruct (EAt z) as (-> & rz & cz). cbn [bind].
      destruct (reward_ok Q Rc n m HQ HR X (At z) cX) as (rw & -> & rr & cr & er); [congruence|congruence|]. cbn [bind].
      destruct (EYt z) as (-> & ry & cy). cbn [bind]. destruct (EWt z) as (-> & rwt & cwt). cbn [bind].
      change (op2 Rmult (Number gamma) (Tensor (Wt z))) with
        (Ok (Tensor {| rows := rows (Wt z); cols := cols (Wt z); entry := fun i j => gamma * entry (Wt z) i j |})). cbn [bind].
      destruct (op2_same Rplus rw {| rows := rows (Wt z); cols := cols (Wt z); entry := fun i j => gamma * entry (Wt z) i j |})
        as (t & Et & rt & ct & et); [cbn; congruence|cbn; congruence|]. rewrite Et. cbn [bind]. rewrite ER. cbn [bind as_tensor]. do 2 f_equal.
      rewrite mean_column by congruence. rewrite rt, rr. f_equal. apply rsum_ext. intros i Hi. rewrite et by lia. cbn [entry]. now rewrite er.
    - rewrite TD.
      assert (DQ : forall i, (i < rows X)%nat -> is_derive (fun z => reward Q Rc (row_of X i) (row_of (At z) i)) 0
         (- rsum m (fun a => (rsum m (fun b => entry A i b * entry Rc a b) + rsum m (fun b => entry A i b * entry Rc b a)) * v i a))).
      { intros i Hi. unfold reward. eapply dconv; [apply (dplus (fun _ => - quad Q (row_of X i)) (fun z => - quad Rc (row_of (At z) i))); [apply dconst|]|].
        - apply (is_derive_ext (fun z => -1 * quad Rc (row_of (At z) i))).
          { intros z. match goal with |- -1 * ?a = _ => change (-1 * a = - a) end. ring. }
          apply dscal. apply (quad_derive m Rc (fun z => row_of (At z) i) (v i) HR). intros k Hk.
          eapply is_derive_ext; [|apply (DA i k); lia]. intros z. cbn beta. rewrite row_of_nth; [reflexivity|]. destruct (SA z) as [_ Q1]. rewrite <- Q1. lia.
        - rewrite Rplus_0_l. rewrite <- (Rmult_1_l (rsum m (fun a => (rsum m (fun b => entry A i b * entry Rc a b) + rsum m (fun b => entry A i b * entry Rc b a)) * v i a))), Ropp_mult_distr_l.
          f_equal. apply rsum_ext. intros a _. f_equal. f_equal; apply rsum_ext; intros b Hb; f_equal; rewrite row_of_nth; rewrite ?A0; auto; lia. }
      set (c := - discount_scaling gamma r / INR (rows X)).
      assert (Ed : d = c). { unfold d, dmean, c. rewrite cW, rW, rY. cbn [INR]. now rewrite Rmult_1_r. }
      apply (is_derive_ext (fun z => c * rsum (rows X) (fun i => reward Q Rc (row_of X i) (row_of (At z) i)) +
         rsum (rows W) (fun i => rsum (cols W) (fun j => gamma * d * entry (Wt z) i j)))).
      { intros z. match goal with |- ?a + ?b = _ => change (a + b = - discount_scaling gamma r *
           (rsum (rows X) (fun i => reward Q Rc (row_of X i) (row_of (At z) i) + gamma * entry (Wt z) i 0%nat) / INR (rows X))) end.
        rewrite rsum_plus, cW, rW, rY, Ed.
        rewrite (rsum_ext (rows X) (fun i => rsum 1 (fun j => gamma * c * entry (Wt z) i j)) (fun i => c * (gamma * entry (Wt z) i 0%nat)))
          by (intros i _; rewrite rsum_S, rsum_0; ring).
        rewrite rsum_scal. unfold c, Rdiv. ring. }
      cbn [entry] in DW. rewrite <- (proj1 SGV), <- (proj2 SGV) in DW.
      assert (GQ := GY gv). rewrite (proj1 SGV), (proj2 SGV) in GQ. specialize (GQ rY cY).
      eapply dconv; [apply (dplus (fun z => c * rsum (rows X) (fun i => reward Q Rc (row_of X i) (row_of (At z) i)))
          (fun z => rsum (rows W) (fun i => rsum (cols W) (fun j => gamma * d * entry (Wt z) i j)))); [apply dscal; apply (dsum (rows X)
            (fun i z => reward Q Rc (row_of X i) (row_of (At z) i))); exact DQ|exact DW]|].
      rewrite (proj1 SGV), (proj2 SGV), rY, cY, <- GQ, rA, cA. rewrite <- rsum_scal, <- rsum_plus. apply rsum_ext. intros i Hi.
      rewrite Ropp_mult_distr_r_reverse, Ropp_mult_distr_l, <- rsum_scal, <- rsum_plus. apply rsum_ext. intros a Ha. cbn [entry].
      rewrite (NP i a Hi Ha), Ed. ring. }
  destruct (K (map zero_like ps) (same_zero ps)) as (gs & _ & EG & SG & _). exists gs. split; [exact EG|]. split; [exact SG|].
  intros dps F. destruct (K dps F) as (gs' & L & EG' & _ & EL & DL). rewrite EG in EG'. injection EG' as <-. exists L. auto.
Qed.

(** Unless all gradients vanish, small steps decrease the objective of the actor. *)
Theorem C115_actor_step : forall Q Rc n m dynamics d_dynamics gamma vf dvacts vps nn dacts ps X A Y W gs G i j,
  square n Q -> square m Rc -> cols X = n ->
  nn_eval nn ps X = Ok A -> cols A = m -> length dacts = length (nonlinearities nn) -> smooth_at (nn_layers nn dacts) ps X ->
  dynamics X A = Ok Y -> dynamics_gradient n dynamics d_dynamics X A ->
  nn_eval vf vps Y = Ok W -> cols W = 1%nat -> length dvacts = length (nonlinearities vf) -> smooth_at (nn_layers vf dvacts) vps Y ->
  actor_gradients Q Rc n m dynamics d_dynamics gamma vf dvacts vps nn dacts X ps = Ok gs ->
  In G gs -> (i < rows G)%nat -> (j < cols G)%nat -> entry G i j <> 0 ->
  exists eta, 0 < eta /\ forall learning_rate, 0 < learning_rate < eta ->
    exists ps' before after, actor_update Q Rc n m dynamics d_dynamics gamma vf dvacts vps nn dacts learning_rate X ps = Ok ps' /\
      policy_objective Q Rc n m dynamics gamma (nn_eval nn ps) (nn_eval vf vps) X = Ok before /\
      policy_objective Q Rc n m dynamics gamma (nn_eval nn ps') (nn_eval vf vps) X = Ok after /\ after < before.
Proof.
  intros Q Rc n m dynamics dd gamma vf dvacts vps nn dacts ps X A Y W gs G i j HQ HR cX EA cA LD SM EY DG EW cW LV SV EG I Hi Hj Hn.
  destruct (C115_actor_gradients Q Rc n m dynamics dd gamma vf dvacts vps nn dacts ps X A Y W HQ HR cX EA cA LD SM EY DG EW cW LV SV) as (gs' & EG' & SG & K).
  rewrite EG in EG'. injection EG' as <-.
  destruct (exact_step (fun qs => policy_objective Q Rc n m dynamics gamma (nn_eval nn qs) (nn_eval vf vps) X) ps gs G i j SG K I Hi Hj Hn) as (eta & He & S).
  exists eta. split; [exact He|]. intros lr Hlr. destruct (S lr Hlr) as (b & a & Eb & Ea & L). exists (map2 (descend lr) ps gs), b, a.
  split; [|auto]. unfold actor_update. rewrite EG. reflexivity.
Qed.
