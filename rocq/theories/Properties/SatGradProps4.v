(** Property C117: one step of the mountain car. *)
From Coq Require Import Reals List Bool Arith ZArith Lia Lra FunctionalExtensionality.
From Coquelicot Require Import Coquelicot.
From Verif Require Import Prelude FunModel QuadModel QuadProofs NNModel AutoNetProofs2.
From Verif Require Import NumModel NumProofs ListFacts GridModel GridSpec GridProofs TriModel TriSpec TriProofs TriProofs2 TriInstances SafeModel CertModel RLModel RLProofs
  TriLyapModel TriLyapSpec TriSlopeProofs AutoTriModel AutoTriSpec AutoTriProofs Properties.TriProps Properties.TriContProps Properties.TriLyapProps Properties.GridTests
  Properties.AutoTriProps Properties.AutoTriProps2 PolGradModel PolGradSpec PolGradProofs Properties.PolGradProps Properties.PolGradProps2 Properties.PolGradProps3
  CarModel SatGradModel SatGradSpec Properties.SatGradProps Properties.SatGradProps2.
Import ListNotations.
Local Open Scope R_scope.

Lemma square_setup values project : length values = 4%nat -> columns 1 values -> TriSpec.setup dl2 inv2 unit_square values 1 project (square_tri values project).
Proof.
  intros L C. pose proof EPS_small. assert (V : valid_grid unit_square) by (repeat (constructor; [simpl; split; [lra|lia]|]); constructor). constructor; auto.
  - intros [|[|j]] Hj; [| |cbv in Hj; lia]; unfold spacing, upper, lower, npts, unit_square; simpl; lra.
  - apply good_dl2; [exact V|reflexivity].
  - exact good_inv2.
  - apply make_square_tri. exact L.
Qed.
Lemma square_simplex values project x y : 1 / 4 < x < 1 / 2 -> 1 / 16 < y < 3 / 16 -> find_simplex (square_tri values project) [x; y] = Ok 0%Z.
Proof.
  intros Hx Hy. unfold find_simplex, state_to_rectangle, square_tri, unit_square. run. reflexivity.
Qed.

Lemma square_planes values project x y : 1 / 4 < x < 1 / 2 -> 1 / 16 < y < 3 / 16 ->
  tf_get_hyperplanes (square_tri values project) [x; y] = Ok ([0; 0], [[0; 1]; [1; 0]], [0; 1; 2]%Z).
Proof.
  intros Hx Hy. unfold tf_get_hyperplanes. rewrite (square_simplex _ _ _ _ Hx Hy). cbn [bind].
  unfold simplices, rectangle_corner_index, index_to_state, square_tri, unit_square. run. do 2 f_equal. eq_lists.
Qed.
Lemma square_eval a b c e x y : 1 / 4 < x < 1 / 2 -> 1 / 16 < y < 3 / 16 ->
  tf_eval (TfTri [[a]; [b]; [c]; [e]] (square_tri [[a]; [b]; [c]; [e]] false)) [[x; y]] = Ok [[a + (c - a) * x + (b - a) * y]].
Proof.
  intros Hx Hy. unfold tf_eval. cbn [mapM]. unfold tf_eval1. cbn [tf_inner tf_var]. rewrite square_planes by auto. cbn [bind].
  change (mapM (py_nth [[a]; [b]; [c]; [e]]) [0%Z; 1%Z; 2%Z]) with (Ok [[a]; [b]; [c]]). cbn. do 3 f_equal. ring.
Qed.
Lemma square_back a b c e x y d : 1 / 4 < x < 1 / 2 -> 1 / 16 < y < 3 / 16 ->
  tf_backprop1 (TfTri [[a]; [b]; [c]; [e]] (square_tri [[a]; [b]; [c]; [e]] false)) [x; y] [d] =
  Ok ([(c - a) * d; (b - a) * d], [(0%Z, [(1 - x - y) * d]); (1%Z, [y * d]); (2%Z, [x * d])]).
Proof.
  intros Hx Hy. unfold tf_backprop1. cbn [tf_inner tf_var]. rewrite square_planes by auto. cbn [bind].
  change (mapM (py_nth [[a]; [b]; [c]; [e]]) [0%Z; 1%Z; 2%Z]) with (Ok [[a]; [b]; [c]]). cbn.
  f_equal. f_equal; [f_equal; [ring|f_equal; ring]|]. f_equal; [do 3 f_equal; ring|]. f_equal; [do 3 f_equal; ring|]. f_equal. do 3 f_equal; ring.
Qed.

(** The value function is the velocity, the policy is 0 and the state is (5/16, 1/8):
    every small step increases the actions and decreases the loss. *)
Definition velocity : mat := [[0]; [1]; [0]; [1]].
Definition zeros4 : mat := [[0]; [0]; [0]; [0]].
Example C117_mountain_car_ex : let V := TfTri velocity (square_tri velocity false) in let T := TfTri zeros4 (square_tri zeros4 false) in
  exists s, saturated_gradients (car_learner (99 / 100) V) car_rates (-1) 1 T [[5 / 16; 1 / 8]] [-1] = Ok s /\
  vertex_derivative s 2 0 = - (99 / 100 * 0.001 * (5 / 16)) /\
  exists eta, 0 < eta /\ forall learning_rate, 0 < learning_rate < eta ->
    exists T' before after, saturated_step (car_learner (99 / 100) V) car_rates (-1) 1 learning_rate [[5 / 16; 1 / 8]] [-1] T = Ok T' /\
      saturated_loss (car_learner (99 / 100) V) (-1) 1 T [[5 / 16; 1 / 8]] [-1] = Ok before /\
      saturated_loss (car_learner (99 / 100) V) (-1) 1 T' [[5 / 16; 1 / 8]] [-1] = Ok after /\ after < before.
Proof.
  intros V T. pose proof (COS_bound (3 * (5 / 16))) as CB.
  assert (SU : TriSpec.setup dl2 inv2 unit_square velocity 1 false (square_tri velocity false)) by (apply square_setup; [reflexivity|repeat constructor]).
  assert (SU' : TriSpec.setup dl2 inv2 unit_square zeros4 1 false (square_tri zeros4 false)) by (apply square_setup; [reflexivity|repeat constructor]).
  assert (WR : wraps V (square_tri velocity false) velocity) by (split; [reflexivity|exists velocity; reflexivity]).
  assert (WR' : wraps T (square_tri zeros4 false) zeros4) by (split; [reflexivity|exists zeros4; reflexivity]).
  assert (EA : tf_eval T [[5 / 16; 1 / 8]] = Ok [[0]]).
  { unfold T, zeros4. rewrite square_eval by lra. do 3 f_equal. ring. }
  set (d := 99 / 100 * -1). set (y := 1 / 8 + 0.001 * 0 - 0.0025 * cos (3 * (5 / 16))).
  assert (S0 : saturate (-1) 1 0 = 0) by (unfold saturate; rewrite Rmax_left by lra; now rewrite Rmin_left by lra).
  assert (EB : loss_backprop (car_learner (99 / 100) V) car_rates [[5 / 16; 1 / 8]] [[0]] [-1] = Ok [[-1 * 0 + 0.001 * ((1 - 0) * d)]]).
  { unfold loss_backprop. cbn [combine mapM fst snd]. unfold future_backprop1. cbn [car_learner rl_dynamics rl_value rl_gamma nth]. unfold car_next. cbn [fst snd]. fold d. fold y.
    unfold V, velocity. rewrite square_back by (unfold y; lra). reflexivity. }
  set (u := -1 * 0 + 0.001 * ((1 - 0) * d)) in *.
  assert (EG : saturate_grad (-1) 1 0 u = u).
  { unfold saturate_grad, maximum_grad, minimum_grad. rewrite Rmax_left by lra. destruct Rle_dec; [|lra]. destruct Rle_dec; lra. }
  assert (ES : saturated_gradients (car_learner (99 / 100) V) car_rates (-1) 1 T [[5 / 16; 1 / 8]] [-1] =
    Ok [(0%Z, [(1 - 5 / 16 - 1 / 8) * u]); (1%Z, [1 / 8 * u]); (2%Z, [5 / 16 * u])]).
  { unfold saturated_gradients. rewrite EA. cbn [bind map]. rewrite S0, EB. cbn [bind map2]. rewrite EG. unfold tf_gradients. cbn [combine mapM fst snd].
    unfold T, zeros4. rewrite square_back by lra. reflexivity. }
  eexists. split; [exact ES|]. 
  assert (VD : vertex_derivative [(0%Z, [(1 - 5 / 16 - 1 / 8) * u]); (1%Z, [1 / 8 * u]); (2%Z, [5 / 16 * u])] 2 0 = - (99 / 100 * 0.001 * (5 / 16))).
  { unfold vertex_derivative, slices_dot, coordinate. cbn. change (Pos.to_nat 1) with 1%nat. change (Pos.to_nat 2) with 2%nat. cbn [Nat.eqb]. unfold u, d. lra. }
  split; [exact VD|].
  assert (FS : List.Forall (fun s : list R => length s = 2%nat) [[5 / 16; 1 / 8]]) by (repeat constructor).
  destruct (C117_mountain_car dl2 inv2 unit_square velocity false (square_tri velocity false) (99 / 100) V dl2 inv2 unit_square zeros4 false (square_tri zeros4 false) T
    (-1) 1 [[5 / 16; 1 / 8]] [-1] [[0]] [(0%Z, [(1 - 5 / 16 - 1 / 8) * u]); (1%Z, [1 / 8 * u]); (2%Z, [5 / 16 * u])] 2 SU WR eq_refl SU' WR' eq_refl FS eq_refl EA) as [_ H]; [| |exact ES| |apply H; rewrite VD; lra].
  - intros k o Hk Ho. cbn [length] in Hk. assert (k = 0)%nat by lia. assert (o = 0)%nat by lia. subst k o. unfold TriSpec.entry. cbn. lra.
  - intros k Hk. cbn [length] in Hk. assert (k = 0)%nat by lia. subst k. unfold TriSpec.entry, coordinate. cbn [nth]. rewrite S0. split; [|discriminate].
    exists 0%Z, (1 / 32). split; [lra|]. intros y0 y1 H0 H1. apply square_simplex; apply Rabs_def2 in H0; apply Rabs_def2 in H1; lra.
  - cbn. lia.
Qed.
