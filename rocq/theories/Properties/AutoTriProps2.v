(** Property C109: derivatives of triangulations computed by TensorFlow, examples and
    what happens on the faces of simplices. *)
From Coq Require Import List ZArith Reals Lia Lra Bool.
From Verif Require Import Prelude ListFacts NumModel NumProofs GridModel GridSpec GridProofs TriModel TriSpec TriProofs TriProofs2 TriInstances.
From Verif Require Import CertModel TriLyapModel TriLyapSpec TriSlopeProofs AutoTriModel AutoTriSpec AutoTriProofs Properties.TriProps Properties.TriContProps Properties.TriLyapProps Properties.GridTests Properties.AutoTriProps.
Import ListNotations.
Local Open Scope R_scope.

(** The triangulation of test_1d (safe_learning/tests/test_functions.py): values
    0, 1/2, 0 at 0, 1/2, 1. *)
Definition hat_values : mat := [[0]; [1 / 2]; [0]].
Lemma hat_setup project : exists t, TriSpec.setup dl2 inv1 grid3 hat_values 1 project t.
Proof. pose proof EPS_small. apply three_setup; lra. Qed.

Lemma hat_one project t T x c : TriSpec.setup dl2 inv1 grid3 hat_values 1 project t -> wraps T t hat_values ->
  exists d s M, tf_gradients T [[x]] [[c]] = Ok ([[d]], s) /\ gradient t [[x]] = Ok [[[M]]] /\
    ((project = true -> 0 <= x <= 1) -> d = c * M) /\ (project = true -> ~ (0 <= x <= 1) -> d = 0) /\
    slices_dot s (value_at hat_values 0) 0 = c * triangulated t [x].
Proof.
  intros SU WR.
  destruct (C109_points _ _ _ _ _ _ _ _ [[x]] [[c]] SU WR) as (dxs & s & Ms & EG & EM & LD & FD & K);
    try (repeat constructor; fail).
  destruct (C109_parameters _ _ _ _ _ _ _ _ [[x]] [[c]] SU WR) as (dxs1 & s1 & EG1 & _ & KP);
    try (repeat constructor; fail).
  rewrite EG in EG1. injection EG1 as <- <-.
  destruct (KP _ _ SU) as (out & EO & HO).
  assert (exists d, dxs = [[d]]) as (d & ->).
  { destruct dxs as [|r [|? ?]]; try discriminate. inversion FD as [|? ? W _]; subst.
    destruct r as [|d [|? ?]]; try discriminate. now exists d. }
  assert (exists M, Ms = [[[M]]]) as (M & ->).
  { assert (LM : length Ms = 1%nat).
    { destruct (C13_gradient_derivative_point_major _ _ _ _ _ _ _ [[x]] SU) as (_ & Ms' & _ & EM' & LM & _); [repeat constructor|].
      rewrite EM in EM'. injection EM' as ->. exact LM. }
    destruct Ms as [|M [|? ?]]; try discriminate.
    destruct (gradient_shape _ _ _ _ _ _ _ [x] M SU eq_refl EM) as [L1 F1].
    destruct M as [|r [|? ?]]; try discriminate. inversion F1 as [|? ? W _]; subst.
    destruct r as [|e [|? ?]]; try discriminate. now exists e. }
  exists d, s, M. split; auto. split; auto.
  destruct (K 0%nat 0%nat ltac:(simpl; lia) ltac:(cbv; lia)) as [K1 K2].
  unfold entry, coordinate, within_limits, lower, upper, coordinate in K1, K2. simpl in K1, K2.
  split; [|split].
  - intros P. rewrite K1 by auto. ring.
  - intros P O. now apply K2.
  - rewrite HO by lia. destruct (eval_value _ _ _ _ _ _ _ [x] SU eq_refl) as (o & EO' & _ & _).
    unfold triangulated. rewrite EO in *. injection EO' as ->. unfold entry, coordinate. simpl. ring.
Qed.

Example C109_ex : exists t T,
  TriSpec.setup dl2 inv1 grid3 hat_values 1 true t /\ wraps T t hat_values /\
  make_tf_tri dl2 inv1 grid3 hat_values true = Ok T /\
  (exists s, tf_gradients T [[1 / 4]] [[3]] = Ok ([[3]], s) /\
     slices_dot s (value_at hat_values 0) 0 = 3 * (1 / 4)) /\
  (exists s, tf_gradients T [[3 / 4]] [[1]] = Ok ([[-1]], s)) /\
  (exists s, tf_gradients T [[2]] [[1]] = Ok ([[0]], s)).
Proof.
  destruct (hat_setup true) as (t & SU). pose proof (su_made _ _ _ _ _ _ _ SU) as E.
  assert (WR : wraps (TfTri hat_values t) t hat_values).
  { split; [reflexivity|]. exists (t_params t). destruct t; reflexivity. }
  exists t, (TfTri hat_values t). split; auto. split; auto. split; [unfold make_tf_tri; now rewrite E|].
  split; [|split].
  - destruct (hat_one _ _ _ (1 / 4) 3 SU WR) as (d & s & M & EG & EM & Hd & _ & HS).
    destruct (three_value _ _ 0 1 0 (1 / 2) 0 true t (1 / 4) SU ltac:(intros; lra)) as (V & _ & M' & EM' & S1 & _).
    rewrite EM in EM'. injection EM' as <-. rewrite S1 in Hd by lra. rewrite Hd in EG by (intros; lra).
    exists s. split; [rewrite EG; repeat f_equal; lra|]. rewrite HS, V by lra. lra.
  - destruct (hat_one _ _ _ (3 / 4) 1 SU WR) as (d & s & M & EG & EM & Hd & _ & HS).
    destruct (three_value _ _ 0 1 0 (1 / 2) 0 true t (3 / 4) SU ltac:(intros; lra)) as (V & _ & M' & EM' & _ & S1).
    rewrite EM in EM'. injection EM' as <-. rewrite S1 in Hd by lra. rewrite Hd in EG by (intros; lra).
    exists s. rewrite EG; repeat f_equal; lra.
  - destruct (hat_one _ _ _ 2 1 SU WR) as (d & s & M & EG & EM & _ & Hd & HS).
    exists s. rewrite EG. rewrite Hd by (auto; lra). reflexivity.
Qed.

(** Around 1/4 there is one simplex, so that the number returned is the derivative. *)
Example C109_derivative_ex : exists t T,
  TriSpec.setup dl2 inv1 grid3 hat_values 1 true t /\ wraps T t hat_values /\
  (forall x', length x' = 1%nat -> (forall j, (j < 1)%nat -> Rabs (coordinate x' j - coordinate [1 / 4] j) < 1 / 8) ->
     find_simplex t x' = Ok 0%Z) /\
  derivable_pt_lim (fun z => objective t 1 [1] (replaced [1 / 4] 0 z)) (1 / 4) 1.
Proof.
  destruct (hat_setup true) as (t & SU). pose proof (su_made _ _ _ _ _ _ _ SU) as E.
  assert (WR : wraps (TfTri hat_values t) t hat_values).
  { split; [reflexivity|]. exists (t_params t). destruct t; reflexivity. }
  assert (FS : forall x, 1 / 8 < x < 3 / 8 -> find_simplex t [x] = Ok 0%Z).
  { intros x Hx.
    assert (exists t', make_tri dl2 inv1 grid3 hat_values true = Ok t' /\ find_simplex t' [x] = Ok 0%Z) as (t' & E' & F).
    { eexists. split.
      - unfold make_tri, delaunay1d, simplex_indices, hyperplane, state_to_index, index_to_state. run. reflexivity.
      - unfold find_simplex, state_to_rectangle. run. reflexivity. }
    rewrite E in E'. now injection E' as <-. }
  assert (N : forall x', length x' = 1%nat -> (forall j, (j < 1)%nat -> Rabs (coordinate x' j - coordinate [1 / 4] j) < 1 / 8) ->
     find_simplex t x' = Ok 0%Z).
  { intros [|x [|]] L H; try discriminate. apply FS. specialize (H 0%nat ltac:(lia)).
    unfold coordinate in H. simpl in H. apply Rabs_def2 in H. lra. }
  exists t, (TfTri hat_values t). split; auto. split; auto. split; auto.
  destruct (C109_derivative _ _ _ _ _ _ _ _ [1 / 4] 0%Z [1] (1 / 8) SU WR eq_refl eq_refl ltac:(lra) N) as (dx & s & EG & D).
  { intros _ [|j] Hj; [|cbv in Hj; lia]. unfold lower, upper, coordinate. simpl. lra. }
  destruct (hat_one _ _ _ (1 / 4) 1 SU WR) as (d & s' & M & EG' & EM & Hd & _ & _).
  destruct (three_value _ _ 0 1 0 (1 / 2) 0 true t (1 / 4) SU ltac:(intros; lra)) as (_ & _ & M' & EM' & S1 & _).
  rewrite EM in EM'. injection EM' as <-. rewrite S1 in Hd by lra.
  rewrite EG in EG'. injection EG' as -> ->. specialize (D 0%nat ltac:(cbv; lia)). unfold coordinate in D. cbn [nth] in D.
  rewrite Hd in D by (intros; lra). replace (1 * ((1 / 2 - 0) / ((1 - 0) / 2))) with 1 in D by lra. exact D.
Qed.

(** On the common faces of simplices there need not be a derivative; the number that
    TensorFlow returns is the slope in the simplex that contains the point by
    convention, here the right one. *)
Theorem C109_faces_refuted : exists t T s,
  TriSpec.setup dl2 inv1 grid3 hat_values 1 false t /\ wraps T t hat_values /\
  tf_gradients T [[1 / 2]] [[1]] = Ok ([[-1]], s) /\
  (forall h, 0 < h <= 1 / 2 -> objective t 1 [1] [1 / 2] - objective t 1 [1] [1 / 2 - h] = h) /\
  ~ derivable_pt_lim (fun z => objective t 1 [1] (replaced [1 / 2] 0 z)) (1 / 2) (-1).
Proof.
  destruct (hat_setup false) as (t & SU). pose proof (su_made _ _ _ _ _ _ _ SU) as E.
  assert (WR : wraps (TfTri hat_values t) t hat_values).
  { split; [reflexivity|]. exists (t_params t). destruct t; reflexivity. }
  destruct (hat_one _ _ _ (1 / 2) 1 SU WR) as (d & s & M & EG & EM & Hd & _ & _).
  assert (HM : M = -1).
  { destruct test_1d as (t' & E' & _ & _ & G). change (make_tri dl2 inv1 grid3 hat_values false = Ok t') in E'.
    rewrite E in E'. injection E' as <-.
    inversion G as [|? ? ? ? _ G1]; subst. inversion G1 as [|? ? ? ? _ G2]; subst. inversion G2 as [|? ? ? ? G3 _]; subst.
    rewrite EM in G3. now injection G3. }
  exists t, (TfTri hat_values t), s. split; auto. split; auto. split; [|].
  { rewrite EG, Hd, HM by discriminate. repeat f_equal; lra. }
  assert (OB : forall x, objective t 1 [1] [x] = triangulated t [x]).
  { intros x. unfold objective, triangulated. destruct (eval_value _ _ _ _ _ _ _ [x] SU eq_refl) as (o & EO & _ & _).
    rewrite EO. unfold coordinate. simpl. ring. }
  assert (LS : forall h, 0 < h <= 1 / 2 -> objective t 1 [1] [1 / 2] - objective t 1 [1] [1 / 2 - h] = h).
  { intros h Hh. rewrite !OB.
    destruct (three_value _ _ 0 1 0 (1 / 2) 0 false t (1 / 2) SU ltac:(discriminate)) as (V1 & _).
    destruct (three_value _ _ 0 1 0 (1 / 2) 0 false t (1 / 2 - h) SU ltac:(discriminate)) as (V2 & _).
    rewrite V1, V2 by lra. field. }
  split; auto. intros D. destruct (D 1 ltac:(lra)) as (e & He).
  pose (h := Rmin (e / 2) (1 / 2)). pose proof (cond_pos e).
  assert (Hh : 0 < h <= 1 / 2) by (split; [apply Rmin_pos; lra|apply Rmin_r]).
  assert (h <= e / 2) by apply Rmin_l.
  specialize (He (- h) ltac:(lra)). rewrite Rabs_Ropp, (Rabs_pos_eq h) in He by lra. specialize (He ltac:(lra)).
  unfold replaced in He. simpl set_nth in He. change (1 / 2 + - h) with (1 / 2 - h) in He.
  pose proof (LS h Hh) as L1.
  replace ((objective t 1 [1] [1 / 2 - h] - objective t 1 [1] [1 / 2]) / - h - -1) with 2 in He.
  2:{ replace (objective t 1 [1] [1 / 2 - h] - objective t 1 [1] [1 / 2]) with (- h) by lra. field. lra. }
  rewrite Rabs_pos_eq in He; lra.
Qed.
Print Assumptions C109_faces_refuted.
