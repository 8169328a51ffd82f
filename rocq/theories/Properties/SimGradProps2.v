(** Property C116: policies trained through the example systems, and a case. *)
From Coq Require Import Reals List Bool Arith Lia Lra.
From Coquelicot Require Import Coquelicot.
From Verif Require Import NumModel ListFacts GridModel TriModel AutoTriModel SafeModel CertModel RLModel LyapNetModel AutoNetModel LoopModel ExUtilModel RoaTrainModel.
From Verif Require Import Prelude FunModel QuadModel QuadProofs NNModel NNProofs AutoNetSpec AutoNetProofs2 AutoNNModel AutoNNSpec AutoNNProofs PolGradModel PolGradSpec TrainGradModel ActorModel ActorProofs ActorGradModel ActorGradSpec DynModel DynSpec SimGradModel SimGradSpec SimGradProofs.
From Verif.Properties Require Import AutoNNProps ActorGradProps2 ActorGradProps3 SimGradProps.
From Verif Require Import FunModel QuadSpec ActorModel ActorSpec AutoNetSpec.
Import ListNotations.
Local Open Scope R_scope.

Lemma actor_case n (f : row -> res row) df Q Rc gamma vf dvacts vps nn dacts ps X A :
  square n Q -> square 1 Rc -> cols X = n ->
  nn_eval nn ps X = Ok A -> cols A = 1%nat -> length dacts = length (nonlinearities nn) -> smooth_at (nn_layers nn dacts) ps X ->
  dynamics_gradient n (batched n f) (batched_backprop df) X A ->
  exists Y, batched n f X A = Ok Y /\ rows Y = rows X /\ cols Y = n /\
    forall W, nn_eval vf vps Y = Ok W -> cols W = 1%nat -> length dvacts = length (nonlinearities vf) -> smooth_at (nn_layers vf dvacts) vps Y ->
    exists gs, actor_gradients Q Rc n 1 (batched n f) (batched_backprop df) gamma vf dvacts vps nn dacts X ps = Ok gs /\ List.Forall2 same_shape gs ps /\
      forall G i j, In G gs -> (i < rows G)%nat -> (j < cols G)%nat -> entry G i j <> 0 ->
      exists eta, 0 < eta /\ forall learning_rate, 0 < learning_rate < eta ->
        exists ps' before after,
          actor_update Q Rc n 1 (batched n f) (batched_backprop df) gamma vf dvacts vps nn dacts learning_rate X ps = Ok ps' /\
          policy_objective Q Rc n 1 (batched n f) gamma (nn_eval nn ps) (nn_eval vf vps) X = Ok before /\
          policy_objective Q Rc n 1 (batched n f) gamma (nn_eval nn ps') (nn_eval vf vps) X = Ok after /\ after < before.
Proof.
  intros HQ HR cX EA cA LD SM DG. destruct (proj1 DG A) as (Y & EY & rY & cY); [split; reflexivity|].
  exists Y. split; [exact EY|]. split; [exact rY|]. split; [exact cY|]. intros W EW cW LV SV.
  destruct (C115_actor_gradients Q Rc n 1 _ _ gamma vf dvacts vps nn dacts ps X A Y W HQ HR cX EA cA LD SM EY DG EW cW LV SV) as (gs & EG & SG & _).
  exists gs. split; [exact EG|]. split; [exact SG|]. intros G i j I Hi Hj Hn.
  exact (C115_actor_step Q Rc n 1 _ _ gamma vf dvacts vps nn dacts ps X A Y W gs G i j HQ HR cX EA cA LD SM EY DG EW cW LV SV EG I Hi Hj Hn).
Qed.

Theorem C116_pendulum_actor : forall p Q Rc gamma vf dvacts vps nn dacts ps X A,
  mass p <> 0 -> arm p <> 0 -> fits 2 (pendulum_norm p) -> nonzero (pendulum_norm p) ->
  square 2 Q -> square 1 Rc -> cols X = 2%nat ->
  nn_eval nn ps X = Ok A -> cols A = 1%nat -> length dacts = length (nonlinearities nn) -> smooth_at (nn_layers nn dacts) ps X ->
  let system := batched 2 (pendulum_eval p) in let d_system := batched_backprop (pendulum_backprop p) in
  exists Y, system X A = Ok Y /\ rows Y = rows X /\ cols Y = 2%nat /\
    forall W, nn_eval vf vps Y = Ok W -> cols W = 1%nat -> length dvacts = length (nonlinearities vf) -> smooth_at (nn_layers vf dvacts) vps Y ->
    exists gs, actor_gradients Q Rc 2 1 system d_system gamma vf dvacts vps nn dacts X ps = Ok gs /\ List.Forall2 same_shape gs ps /\
      forall G i j, In G gs -> (i < rows G)%nat -> (j < cols G)%nat -> entry G i j <> 0 ->
      exists eta, 0 < eta /\ forall learning_rate, 0 < learning_rate < eta ->
        exists ps' before after,
          actor_update Q Rc 2 1 system d_system gamma vf dvacts vps nn dacts learning_rate X ps = Ok ps' /\
          policy_objective Q Rc 2 1 system gamma (nn_eval nn ps) (nn_eval vf vps) X = Ok before /\
          policy_objective Q Rc 2 1 system gamma (nn_eval nn ps') (nn_eval vf vps) X = Ok after /\ after < before.
Proof.
  intros p Q Rc gamma vf dvacts vps nn dacts ps X A Hm Ha F N HQ HR cX EA cA LD SM system d_system.
  destruct (eval_fwd nn dacts ps X A LD EA) as (rA & _ & _).
  apply (actor_case 2 _ _ Q Rc gamma vf dvacts vps nn dacts ps X A); auto. apply C116_pendulum_batch; auto.
Qed.
Theorem C116_cartpole_actor : forall p Q Rc gamma vf dvacts vps nn dacts ps X A,
  0 < pole_mass p -> 0 < cart_mass p -> pole_length p <> 0 -> fits 4 (cartpole_norm p) -> nonzero (cartpole_norm p) ->
  square 4 Q -> square 1 Rc -> cols X = 4%nat ->
  nn_eval nn ps X = Ok A -> cols A = 1%nat -> length dacts = length (nonlinearities nn) -> smooth_at (nn_layers nn dacts) ps X ->
  let system := batched 4 (cartpole_eval p) in let d_system := batched_backprop (cartpole_backprop p) in
  exists Y, system X A = Ok Y /\ rows Y = rows X /\ cols Y = 4%nat /\
    forall W, nn_eval vf vps Y = Ok W -> cols W = 1%nat -> length dvacts = length (nonlinearities vf) -> smooth_at (nn_layers vf dvacts) vps Y ->
    exists gs, actor_gradients Q Rc 4 1 system d_system gamma vf dvacts vps nn dacts X ps = Ok gs /\ List.Forall2 same_shape gs ps /\
      forall G i j, In G gs -> (i < rows G)%nat -> (j < cols G)%nat -> entry G i j <> 0 ->
      exists eta, 0 < eta /\ forall learning_rate, 0 < learning_rate < eta ->
        exists ps' before after,
          actor_update Q Rc 4 1 system d_system gamma vf dvacts vps nn dacts learning_rate X ps = Ok ps' /\
          policy_objective Q Rc 4 1 system gamma (nn_eval nn ps) (nn_eval vf vps) X = Ok before /\
          policy_objective Q Rc 4 1 system gamma (nn_eval nn ps') (nn_eval vf vps) X = Ok after /\ after < before.
Proof.
  intros p Q Rc gamma vf dvacts vps nn dacts ps X A Hm HM HL F N HQ HR cX EA cA LD SM system d_system.
  destruct (eval_fwd nn dacts ps X A LD EA) as (rA & _ & _).
  apply (actor_case 4 _ _ Q Rc gamma vf dvacts vps nn dacts ps X A); auto. apply C116_cartpole_batch; auto.
Qed.

(** A pendulum with gravity / arm = 1 and inertia 1, with ten steps of length one, and a
    cart-pole with the same linear behaviour of the pole. *)
Definition unit_pendulum (nm : normalization) : pendulum :=
  {| mass := 1 / (981 / 100 * (981 / 100)); arm := 981 / 100; friction := 0; pendulum_dt := 10; pendulum_norm := nm |}.
Definition unit_cartpole : cartpole :=
  {| pole_mass := 1; cart_mass := 1; pole_length := 981 / 50; rot_friction := 0; cartpole_dt := 10; cartpole_norm := None |}.
(** The policy s (w x + b) and the value function that is the angle. *)
Definition two_layers : network := {| layers := [1; 1]%nat; nonlinearities := [None; None]; output_scale := 1; use_bias := true |}.
Definition column (a b : R) : tensor := {| rows := 2; cols := 1; entry := fun i _ => if Nat.eqb i 0 then a else b |}.
Definition origin : tensor := {| rows := 1; cols := 2; entry := fun _ _ => 0 |}.
Definition identity2 : tensor := {| rows := 2; cols := 2; entry := fun i j => if Nat.eqb i j then 1 else 0 |}.

Lemma two_smooth ps X : smooth_at (nn_layers two_layers [fun _ => 1; fun _ => 1]) ps X.
Proof. cbn. intros W B ps' _. split; [intros; exact I|]. intros net _ W' B' ps'' _. split; [intros; exact I|auto]. Qed.
Lemma one_smooth ps X : smooth_at (nn_layers linear_net [fun _ => 1]) ps X.
Proof. cbn. intros W B ps' _. split; [intros; exact I|auto]. Qed.
Lemma pendulum_rest nm : pendulum_ode (unit_pendulum nm) [0; 0] [0] = Ok [0; 0].
Proof.
  unfold pendulum_ode. cbn [friction unit_pendulum]. destruct (Rlt_dec 0 0); [lra|]. rewrite sin_0. f_equal. f_equal. f_equal. unfold Rdiv. ring.
Qed.
Lemma euler_rest : euler (10 / 10) [0; 0] [0; 0] = [0; 0].
Proof. cbn. f_equal; [ring|]. f_equal. ring. Qed.
Lemma pendulum_unit_back nm k d a b c : euler_backprop k (10 / 10) (fun x => pendulum_ode (unit_pendulum nm) x [0]) (fun x => pendulum_ode_backprop (unit_pendulum nm) x [0]) [0; 0] d = Ok ([a; b], [c]) ->
  euler_backprop (S k) (10 / 10) (fun x => pendulum_ode (unit_pendulum nm) x [0]) (fun x => pendulum_ode_backprop (unit_pendulum nm) x [0]) [0; 0] d = Ok ([a + b; a + b], [c + b]).
Proof.
  intros E. cbn [euler_backprop]. rewrite pendulum_rest. cbn [bind]. rewrite euler_rest, E. cbn [bind fst snd map pendulum_ode_backprop].
  cbn [friction unit_pendulum]. destruct (Rlt_dec 0 0); [lra|]. rewrite cos_0. unfold inertia, gravity. cbn [mass arm add fst snd map2 unit_pendulum].
  f_equal. f_equal; repeat (f_equal; try field).
Qed.
Lemma pendulum_unit10 nm d : euler_backprop 10 (10 / 10) (fun x => pendulum_ode (unit_pendulum nm) x [0]) (fun x => pendulum_ode_backprop (unit_pendulum nm) x [0]) [0; 0] [d; 0] = Ok ([512 * d; 512 * d], [511 * d]).
Proof.
  assert (E : euler_backprop 0 (10 / 10) (fun x => pendulum_ode (unit_pendulum nm) x [0]) (fun x => pendulum_ode_backprop (unit_pendulum nm) x [0]) [0; 0] [d; 0] = Ok ([d; 0], [0])) by reflexivity.
  do 10 apply pendulum_unit_back in E. rewrite E. f_equal. f_equal; repeat (f_equal; try ring).
Qed.
Lemma pendulum_unit_rest k nm : repeat_euler k (10 / 10) (fun x => pendulum_ode (unit_pendulum nm) x [0]) [0; 0] = Ok [0; 0].
Proof. induction k as [|k IH]; cbn [repeat_euler]; auto. rewrite pendulum_rest. cbn [bind]. now rewrite euler_rest. Qed.
Lemma cartpole_rest : cartpole_ode unit_cartpole [0; 0; 0; 0] [0] = Ok [0; 0; 0; 0].
Proof. unfold cartpole_ode. replace (2 * 0) with 0 by ring. rewrite sin_0. cbn [pole_mass cart_mass pole_length rot_friction unit_cartpole]. unfold Rsqr. repeat (f_equal; try field). Qed.
Lemma cartpole_unit_back k d a b c :
  euler_backprop k (10 / 10) (fun x => cartpole_ode unit_cartpole x [0]) (fun x => cartpole_ode_backprop unit_cartpole x [0]) [0; 0; 0; 0] d = Ok ([0; a; 0; b], [c]) ->
  euler_backprop (S k) (10 / 10) (fun x => cartpole_ode unit_cartpole x [0]) (fun x => cartpole_ode_backprop unit_cartpole x [0]) [0; 0; 0; 0] d = Ok ([0; a + b; 0; a + b], [c + b * (50 / 981)]).
Proof.
  intros E. cbn [euler_backprop]. rewrite cartpole_rest. cbn [bind].
  replace (euler (10 / 10) [0; 0; 0; 0] [0; 0; 0; 0]) with [0; 0; 0; 0] by (cbn; repeat (f_equal; try field)).
  rewrite E. cbn [bind fst snd map cartpole_ode_backprop]. replace (2 * 0) with 0 by ring. rewrite sin_0, cos_0. cbn [pole_mass cart_mass pole_length rot_friction unit_cartpole bind fst snd add map2]. unfold gravity, Rsqr.
  f_equal. f_equal; repeat (f_equal; try field).
Qed.

Lemma cartpole_unit10 : euler_backprop 10 (10 / 10) (fun x => cartpole_ode unit_cartpole x [0]) (fun x => cartpole_ode_backprop unit_cartpole x [0]) [0; 0; 0; 0] [0; 1; 0; 0]
  = Ok ([0; 512; 0; 512], [511 * (50 / 981)]).
Proof.
  assert (E : euler_backprop 0 (10 / 10) (fun x => cartpole_ode unit_cartpole x [0]) (fun x => cartpole_ode_backprop unit_cartpole x [0]) [0; 0; 0; 0] [0; 1; 0; 0] = Ok ([0; 1; 0; 0], [0])) by reflexivity.
  do 10 apply cartpole_unit_back in E. rewrite E. set (q := 50 / 981). clearbody q. f_equal. f_equal; repeat (f_equal; try ring).
Qed.

Lemma run_none n dt ode dode xu dy r : length xu = (n + 1)%nat ->
  euler_backprop 10 (dt / 10) (fun x => ode x (skipn n xu)) (fun x => dode x (skipn n xu)) (firstn n xu) dy = Ok r ->
  run_backprop n None dt ode dode xu dy = Ok (fst r ++ snd r).
Proof. intros L E. unfold run_backprop, split1. rewrite L, Nat.eqb_refl. cbn [bind fst snd denormalize normalize]. rewrite E. reflexivity. Qed.
Lemma pendulum_case d : pendulum_backprop (unit_pendulum None) [0; 0; 0] [d; 0] = Ok [512 * d; 512 * d; 511 * d].
Proof. exact (run_none 2 10 _ _ [0; 0; 0] [d; 0] _ eq_refl (pendulum_unit10 None d)). Qed.
Lemma cartpole_case : cartpole_backprop unit_cartpole [0; 0; 0; 0; 0] [0; 1; 0; 0] = Ok [0; 512; 0; 512; 511 * (50 / 981)].
Proof. exact (run_none 4 10 _ _ [0; 0; 0; 0; 0] [0; 1; 0; 0] _ eq_refl cartpole_unit10). Qed.
Lemma run_some n Tx Tu dt ode dode xu dy r : length xu = (n + 1)%nat -> length Tx = n -> length Tu = 1%nat -> length dy = n -> length (fst r) = n -> length (snd r) = 1%nat ->
  euler_backprop 10 (dt / 10) (fun x => ode x (map2 Rmult (skipn n xu) Tu)) (fun x => dode x (map2 Rmult (skipn n xu) Tu)) (map2 Rmult (firstn n xu) Tx) (map2 Rmult dy (inverse Tx)) = Ok r ->
  run_backprop n (Some (Tx, Tu)) dt ode dode xu dy = Ok (map2 Rmult (fst r) Tx ++ map2 Rmult (snd r) Tu).
Proof.
  destruct r as [r1 r2]. cbn [fst snd]. intros L LT LU Ld L1 L2 E. unfold run_backprop, split1. rewrite L, Nat.eqb_refl. cbn [bind fst snd]. unfold denormalize, normalize, rescale, matmul_diag. cbn [fst snd].
  assert (La : length (firstn n xu) = n) by (rewrite firstn_length; lia). assert (Lb : length (skipn n xu) = 1%nat) by (rewrite skipn_length; lia).
  rewrite La, Lb, LT, LU, !Nat.eqb_refl. cbn [bind fst snd]. rewrite inverse_length, Ld, LT, Nat.eqb_refl. cbn [bind fst snd]. rewrite E. cbn [bind fst snd].
  unfold row in *. rewrite L1. cbn [bind fst snd]. rewrite ?Nat.eqb_refl. cbn [bind fst snd]. rewrite L2. reflexivity.
Qed.
Lemma pendulum_norm_case : pendulum_backprop (unit_pendulum (Some ([2; 1], [3]))) [0; 0; 0] [1; 0] = Ok [512; 256; 1533 / 2].
Proof.
  unfold pendulum_backprop.
  rewrite (run_some 2 [2; 1] [3] (pendulum_dt (unit_pendulum (Some ([2; 1], [3])))) _ _ [0; 0; 0] [1; 0] ([512 * / 2; 512 * / 2], [511 * / 2])); try reflexivity.
  - cbn [fst snd map2 app]. repeat (f_equal; try field).
  - cbn [firstn skipn map2 inverse map]. replace (0 * 2) with 0 by ring. replace (0 * 1) with 0 by ring. replace (0 * 3) with 0 by ring. replace (0 * / 1) with 0 by ring. replace (1 * / 2) with (/ 2) by ring.
    exact (pendulum_unit10 (Some ([2; 1], [3])) (/ 2)).
Qed.

Lemma two_grads f : exists g0 gW gb gs,
  nn_gradients two_layers [fun _ => 1; fun _ => 1] [column 0 0; one_number 0; one_number 1] origin {| rows := 1; cols := 1; entry := f |} = Ok (g0, [gW; gb; gs]) /\
  rows gb = 1%nat /\ cols gb = 1%nat /\ entry gb 0%nat 0%nat = f 0%nat 0%nat.
Proof. cbn. eexists. eexists. eexists. eexists. split; [reflexivity|]. cbn. split; [reflexivity|]. split; [reflexivity|]. ring. Qed.
Lemma rest_reward U d : rows U = 1%nat -> cols U = 1%nat -> entry U 0%nat 0%nat = 0 ->
  exists points dp, hcat [origin; U] = Ok points /\
    quadratic_backprop (quadratic_function (Matrix (block_diag (neg identity2) (neg (one_number 1))))) points {| rows := 1; cols := 1; entry := fun _ _ => d |} = Ok dp /\
    entry (col_slice 2 1 dp) 0%nat 0%nat = 0.
Proof.
  destruct U as [r c f]. cbn [rows cols entry]. intros -> -> H. cbn. eexists. eexists. split; [reflexivity|]. split; [reflexivity|]. cbn. rewrite H. ring.
Qed.

Lemma actor_value dyn ddyn A Y W gs :
  nn_eval two_layers [column 0 0; one_number 0; one_number 1] origin = Ok A -> rows A = 1%nat -> cols A = 1%nat -> entry A 0%nat 0%nat = 0 ->
  dyn origin A = Ok Y -> rows Y = 1%nat -> cols Y = 2%nat -> nn_eval linear_net [column 1 0] Y = Ok W -> rows W = 1%nat -> cols W = 1%nat ->
  (forall gv, rows gv = 1%nat -> cols gv = 2%nat -> entry gv 0%nat 0%nat = - (1 / 12) -> entry gv 0%nat 1%nat = 0 -> entry (ddyn origin A gv) 0%nat 0%nat = - (511 / 12)) ->
  actor_gradients identity2 (one_number 1) 2 1 dyn ddyn (1 / 2) linear_net [fun _ => 1] [column 1 0] two_layers [fun _ => 1; fun _ => 1] origin [column 0 0; one_number 0; one_number 1] = Ok gs ->
  exists gW gb gs', gs = [gW; gb; gs'] /\ rows gb = 1%nat /\ cols gb = 1%nat /\ entry gb 0%nat 0%nat = - (511 / 12).
Proof.
  intros EA rA cA a0 EY rY cY EW rW cW DD EG.
  assert (S1 : square 1 (one_number 1)) by (split; reflexivity). assert (S2 : square 2 identity2) by (split; reflexivity).
  unfold actor_gradients in EG. rewrite EA in EG. cbn [bind] in EG. rewrite EY in EG. cbn [bind] in EG. rewrite EW in EG. cbn [bind] in EG.
  rewrite (r_max_ok _ _ 2 1 S2 S1) in EG. cbn [bind] in EG. cbv zeta in EG.
  set (d := dmean W (- discount_scaling (1 / 2) (total identity2 + total (one_number 1)))) in *.
  assert (d0 : d = - (1 / 6)). { unfold d, dmean, discount_scaling, total. rewrite rW, cW. cbn. field. }
  destruct Y as [ry cy fy]. cbn [rows cols] in rY, cY. subst ry cy.
  match type of EG with bind ?e _ = _ => assert (EV : exists gv l, e = Ok (gv, l) /\ rows gv = 1%nat /\ cols gv = 2%nat /\ entry gv 0%nat 0%nat = - (1 / 12) /\ entry gv 0%nat 1%nat = 0) end.
  { rewrite rW, cW. cbn. eexists. eexists. split; [reflexivity|]. cbn. split; [reflexivity|]. split; [reflexivity|]. rewrite d0. split; field. }
  destruct EV as (gv & lv & EV & rg & cg & g0 & g1). rewrite EV in EG. cbn [bind fst] in EG.
  pose proof (DD gv rg cg g0 g1) as da0. set (da := ddyn origin A gv) in *.
  clearbody da.
  rewrite rW, rA, cA in EG. change (cols origin) with 2%nat in EG.
  destruct (rest_reward A d rA cA a0) as (points & dp & E1 & E2 & E3). rewrite E1 in EG. cbn [bind] in EG. rewrite E2 in EG. cbn [bind] in EG.
  match type of EG with bind (nn_gradients _ _ _ _ {| rows := _; cols := _; entry := ?h |}) _ = _ => destruct (two_grads h) as (h0 & gW & gb & gs' & E4 & rb & cb & b0) end.
  rewrite E4 in EG. cbn [bind snd] in EG. injection EG as <-. exists gW, gb, gs'. split; [reflexivity|]. split; [exact rb|]. split; [exact cb|].
  rewrite b0, E3, da0. ring.
Qed.

Example C116_ex :
  (** the derivatives of the angle of the pendulum after ten steps, also in normalised units *)
  pendulum_backprop (unit_pendulum None) [0; 0; 0] [1; 0] = Ok [512; 512; 511] /\
  pendulum_backprop (unit_pendulum (Some ([2; 1], [3]))) [0; 0; 0] [1; 0] = Ok [512; 256; 1533 / 2] /\
  is_gradient 3 (fun c => weighted [1; 0] (pendulum_eval (unit_pendulum None) c)) [0; 0; 0] [512; 512; 511] /\
  (** the angle of the pole *)
  cartpole_backprop unit_cartpole [0; 0; 0; 0; 0] [0; 1; 0; 0] = Ok [0; 512; 0; 512; 511 * (50 / 981)] /\
  is_gradient 5 (fun c => weighted [0; 1; 0; 0] (cartpole_eval unit_cartpole c)) [0; 0; 0; 0; 0] [0; 512; 0; 512; 511 * (50 / 981)] /\
  (** a policy *)
  let system := batched 2 (pendulum_eval (unit_pendulum None)) in let d_system := batched_backprop (pendulum_backprop (unit_pendulum None)) in
  let value := nn_eval linear_net [column 1 0] in let ps := [column 0 0; one_number 0; one_number 1] in
  (exists gW gb gs, actor_gradients identity2 (one_number 1) 2 1 system d_system (1 / 2) linear_net [fun _ => 1] [column 1 0]
     two_layers [fun _ => 1; fun _ => 1] origin ps = Ok [gW; gb; gs] /\ entry gb 0%nat 0%nat = - (511 / 12)) /\
  exists eta, 0 < eta /\ forall learning_rate, 0 < learning_rate < eta ->
    exists ps' before after,
      actor_update identity2 (one_number 1) 2 1 system d_system (1 / 2) linear_net [fun _ => 1] [column 1 0]
        two_layers [fun _ => 1; fun _ => 1] learning_rate origin ps = Ok ps' /\
      policy_objective identity2 (one_number 1) 2 1 system (1 / 2) (nn_eval two_layers ps) value origin = Ok before /\
      policy_objective identity2 (one_number 1) 2 1 system (1 / 2) (nn_eval two_layers ps') value origin = Ok after /\ after < before.
Proof.
  assert (EP : pendulum_backprop (unit_pendulum None) [0; 0; 0] [1; 0] = Ok [512; 512; 511]) by (rewrite pendulum_case; repeat (f_equal; try ring)).
  pose proof cartpole_case as EC.
  assert (NZ : 981 / 100 <> 0) by lra.
  assert (HM : mass (unit_pendulum None) <> 0) by (cbn; lra). assert (HA : arm (unit_pendulum None) <> 0) by exact NZ.
  split; [exact EP|]. split; [|split; [|split; [exact EC|split]]].
  - exact pendulum_norm_case.
  - destruct (C116_pendulum (unit_pendulum None) [0; 0; 0] [1; 0] HM HA I I eq_refl eq_refl) as (_ & g & E & G). rewrite EP in E. injection E as <-. exact G.
  - assert (H1 : 0 < pole_mass unit_cartpole) by (cbn; lra). assert (H2 : 0 < cart_mass unit_cartpole) by (cbn; lra). assert (H3 : pole_length unit_cartpole <> 0) by (cbn; lra).
    destruct (C116_cartpole unit_cartpole [0; 0; 0; 0; 0] [0; 1; 0; 0] H1 H2 H3 I I eq_refl eq_refl) as (_ & g & E & G). rewrite EC in E. injection E as <-. exact G.
  - cbv zeta.
    assert (S1 : square 1 (one_number 1)) by (split; reflexivity). assert (S2 : square 2 identity2) by (split; reflexivity).
    assert (EA : exists A, nn_eval two_layers [column 0 0; one_number 0; one_number 1] origin = Ok A /\ rows A = 1%nat /\ cols A = 1%nat /\ entry A 0%nat 0%nat = 0).
    { cbn. eexists. split; [reflexivity|]. cbn. split; [reflexivity|]. split; [reflexivity|]. ring. }
    destruct EA as (A & EA & rA & cA & a0).
    destruct (C116_pendulum_actor (unit_pendulum None) identity2 (one_number 1) (1 / 2) linear_net [fun _ => 1] [column 1 0] two_layers [fun _ => 1; fun _ => 1]
      [column 0 0; one_number 0; one_number 1] origin A HM HA I I S2 S1 eq_refl EA cA eq_refl (two_smooth _ _)) as (Y & EY & rY & cY & K).
    assert (EW : exists W, nn_eval linear_net [column 1 0] Y = Ok W /\ rows W = 1%nat /\ cols W = 1%nat).
    { destruct Y as [r c f]. cbn in rY, cY. subst r c. cbn. eexists. split; [reflexivity|]. split; reflexivity. }
    destruct EW as (W & EW & rW & cW). destruct (K W EW cW eq_refl (one_smooth _ _)) as (gs & EG & SG & ST).
    assert (G : exists gW gb gs', gs = [gW; gb; gs'] /\ rows gb = 1%nat /\ cols gb = 1%nat /\ entry gb 0%nat 0%nat = - (511 / 12)).
    { apply (actor_value (batched 2 (pendulum_eval (unit_pendulum None))) (batched_backprop (pendulum_backprop (unit_pendulum None))) A Y W gs EA rA cA a0 EY rY cY EW rW cW); [|exact EG].
      intros gv rg cg g0 g1. unfold batched_backprop. cbn [entry]. unfold row_list. rewrite cA, cg. cbn [cols origin seq map entry app]. rewrite a0, g0, g1.
      rewrite pendulum_case. cbn [nth Nat.add]. field. }
    destruct G as (gW & gb & gs' & -> & rb & cb & b0). split.
    + exists gW, gb, gs'. split; [exact EG|exact b0].
    + apply (ST gb 0%nat 0%nat); [right; now left|rewrite rb; lia|rewrite cb; lia|rewrite b0; lra].
Qed.
