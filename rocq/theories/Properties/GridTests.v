(** The unit tests of the repository for grids and triangulations
    (safe_learning/tests/test_functions.py), run on the
    model: each example states the inputs of one test and the values the test
    expects.  They say nothing new; they show that the definitions compute
    what the authors of the code observed. *)
From Coq Require Import List ZArith Reals Lia Lra Psatz Bool.
Import ListNotations.
From Verif Require Import Prelude NumModel NumProofs GridModel GridSpec GridProofs TriModel TriSpec TriInstances.
Local Open Scope R_scope.

Lemma eps_small : 0 < EPS < / 1000000000000.
Proof. unfold EPS. replace (2 ^ 52) with 4503599627370496 by lra. lra. Qed.

Lemma digitize_skip x b l : x < b -> digitize x (b :: l) = digitize x l.
Proof. intros H. unfold digitize; simpl. destruct Rle_dec; [lra|reflexivity]. Qed.
Lemma digitize_take x b l : b <= x -> digitize x (b :: l) = (1 + digitize x l)%Z.
Proof. intros H. unfold digitize; cbn [filter]. destruct Rle_dec; [cbn [length]; lia|lra]. Qed.

(** Deciding the comparisons, roundings and clippings of one concrete run. *)
Ltac z_try k := first [k 0%Z | k 1%Z | k 2%Z | k 3%Z | k 4%Z | k 5%Z | k 6%Z | k 7%Z | k (-1)%Z].
Ltac step :=
  match goal with
  | |- context [digitize ?x (?b :: ?l)] =>
      first [rewrite (digitize_take x b l) by lra | rewrite (digitize_skip x b l) by lra]
  | |- context [digitize ?x []] => change (digitize x []) with 0%Z
  | |- context [(?a / ?b)%Z] => let v := eval compute in (a / b)%Z in change (a / b)%Z with v
  | |- context [(?a mod ?b)%Z] => let v := eval compute in (a mod b)%Z in change (a mod b)%Z with v
  | |- context [Rmax ?a ?b] =>
      first [rewrite (Rmax_left a b) by lra | rewrite (Rmax_right a b) by lra]
  | |- context [Rmin ?a ?b] =>
      first [rewrite (Rmin_left a b) by lra | rewrite (Rmin_right a b) by lra]
  | |- context [rint ?e] =>
      z_try ltac:(fun k => rewrite (rint_eq e k) by (apply Rabs_def1; lra))
  | |- context [floorR ?e] =>
      z_try ltac:(fun k => rewrite (floorR_unique e k) by (split; lra))
  | |- context [Rle_dec ?a ?b] =>
      let H := fresh in
      first [destruct (Rle_dec a b) as [H|H]; [clear H|exfalso; lra]
            |destruct (Rle_dec a b) as [H|H]; [exfalso; lra|clear H]]
  | |- context [Rlt_dec ?a ?b] =>
      let H := fresh in
      first [destruct (Rlt_dec a b) as [H|H]; [clear H|exfalso; lra]
            |destruct (Rlt_dec a b) as [H|H]; [exfalso; lra|clear H]]
  | |- context [Req_EM_T ?a ?b] =>
      let H := fresh in
      first [destruct (Req_EM_T a b) as [H|H]; [exfalso; lra|clear H]
            |destruct (Req_EM_T a b) as [H|H]; [clear H|exfalso; lra]]
  end.
Ltac unfold_num := unfold clipR, modR, linspace, coordinate in *.
Ltac run := pose proof eps_small; simpl; unfold_num; simpl; repeat (step; unfold_num; simpl).
Ltac each := repeat apply Forall2_cons; try apply Forall2_nil; cbv beta.
Ltac eq_lists := repeat (f_equal; try lra); try lra.

(** ** test_functions.py, class TestGridworld (lines 298-366) *)

Definition test_grid := Grid [(-11 / 10, 15 / 10); (22 / 10, 24 / 10)] [7%Z; 8%Z].

Example test_dimensions_error :
  make_grid [(-11 / 10, 15 / 10); (22 / 10, 24 / 10)] (Vector [7%Z; 8%Z]) = Ok test_grid /\
  check_dimensions test_grid [1; 2; 3] = Err DimensionError /\
  check_dimensions test_grid [1] = Err DimensionError.
Proof. repeat split; reflexivity. Qed.

Lemma test_grid_valid : valid_grid test_grid.
Proof. repeat constructor; simpl; try lra; lia. Qed.

Example test_index_state_conversion_indices i : (0 <= i < 56)%Z ->
  exists s, index_to_state test_grid i = Ok s /\ state_to_index test_grid s = Ok i.
Proof. intros H. exact (round_trip test_grid test_grid_valid i H). Qed.

Example test_far_points :
  nrectangles test_grid = 42%Z /\
  state_to_rectangle test_grid [100; 100] = Ok 41%Z /\
  state_to_rectangle test_grid [-100; -100] = Ok 0%Z /\
  state_to_index test_grid [-12 / 10; 2] = Ok 0%Z.
Proof.
  split; [reflexivity|]. split; [|split].
  - unfold state_to_rectangle. run. reflexivity.
  - unfold state_to_rectangle. run. reflexivity.
  - unfold state_to_index. run. reflexivity.
Qed.

Example test_integer_numpoints :
  make_grid [(1, 2); (3, 4)] (Scalar 2) = Ok (Grid [(1, 2); (3, 4)] [2; 2]%Z).
Proof. reflexivity. Qed.

Definition grid3 := Grid [(0, 1)] [3%Z].

Example test_0d :
  make_grid [(0, 1)] (Scalar 3) = Ok grid3 /\
  mapM (state_to_index grid3) [[1 / 10]; [4 / 10]; [9 / 10]] = Ok [0; 1; 2]%Z /\
  mapM (state_to_rectangle grid3) [[1 / 10]; [4 / 10]; [9 / 10]] = Ok [0; 0; 1]%Z /\
  mapM (rectangle_to_state grid3) [0; 0; 1]%Z = Ok [[0]; [0]; [1 / 2]].
Proof.
  split; [reflexivity|]. split; [|split].
  - unfold state_to_index. run. reflexivity.
  - unfold state_to_rectangle. run. reflexivity.
  - unfold rectangle_to_state. run. eq_lists.
Qed.

(** ** class TestPiecewiseConstant (lines 408-451) *)

Definition square3 := Grid [(-1, 1); (-1, 1)] [3; 3]%Z.
Definition sums := [[-2]; [-1]; [0]; [-1]; [0]; [1]; [0]; [1]; [2]].

Example test_pwc_evaluation : exists f,
  make_pwc square3 sums = Ok f /\
  map (fun s => [nth 0 s 0 + nth 1 s 0]) (all_points square3) = sums /\
  Forall2 (fun p v => pwc_eval f [p] = Ok [v]) (all_points square3) sums /\
  pwc_eval f [[-15 / 10; -15 / 10]] = Ok [[-2]].
Proof.
  assert (E : all_points square3 = [[-1; -1]; [-1; 0]; [-1; 1]; [0; -1]; [0; 0]; [0; 1]; [1; -1]; [1; 0]; [1; 1]]).
  { unfold all_points, discrete_points. run. eq_lists. }
  exists (Pwc square3 sums). split; [reflexivity|]. split; [|split].
  - rewrite E. unfold sums. simpl. eq_lists.
  - rewrite E. each; unfold pwc_eval, state_to_index; run; reflexivity.
  - unfold pwc_eval, state_to_index. run. reflexivity.
Qed.

(** ** class TestTriangulationNumpy (lines 454-655) *)

Example test_find_simplex : exists t,
  make_tri dl2 inv2 (Grid [(-1, 1); (-1, 2)] [3; 7]%Z) (repeat [0] 21) false = Ok t /\
  nsimplex t = 24%Z /\
  Forall2 (fun p id => find_simplex t p = Ok id)
    [[-1; -1]; [-1 / 10; -55 / 100]; [1 / 10; -1]; [9 / 10; 19 / 10]] [0; 1; 12; 23]%Z /\
  Forall2 (fun id verts => simplices t id = Ok verts)
    [0; 1; 12; 23]%Z [[0; 1; 7]; [1; 7; 8]; [7; 8; 14]; [13; 19; 20]]%Z /\
  find_simplex t [-100; -100] = Ok 0%Z /\
  find_simplex t [100; 100] = Ok 23%Z.
Proof.
  eexists. split; [|split; [|split; [|split; [|split]]]].
  - unfold make_tri, simplex_indices, hyperplane, state_to_index, index_to_state, dl2. run. reflexivity.
  - reflexivity.
  - each; unfold find_simplex, state_to_rectangle; run; reflexivity.
  - each; unfold simplices, rectangle_corner_index; run; reflexivity.
  - unfold find_simplex, state_to_rectangle. run. reflexivity.
  - unfold find_simplex, state_to_rectangle. run. reflexivity.
Qed.

Definition unit_square := Grid [(0, 1); (0, 1)] [2; 2]%Z.

Definition square_tri (values : list (list R)) (project : bool) : tri :=
  Tri unit_square values project (dl2 [[1; 0]; [1; 1]; [0; 0]; [0; 1]]) [[0; 1; 2]; [1; 2; 3]]%Z
      [[[0; 1]; [1; 0]]; [[0; 1]; [-1; 1]]].
Lemma make_square_tri values project : length values = 4%nat ->
  make_tri dl2 inv2 unit_square values project = Ok (square_tri values project).
Proof.
  intros L. unfold make_tri. rewrite L.
  replace (rectangle_corners unit_square) with [[1; 0]; [1; 1]; [0; 0]; [0; 1]].
  2:{ unfold rectangle_corners. simpl. eq_lists. }
  unfold simplex_indices, hyperplane, state_to_index, index_to_state. run. unfold square_tri. eq_lists.
Qed.
Lemma eval_via t p id : find_simplex t p = Ok id ->
  tri_eval1 t p =
  do simp <- simplices t id;
  do o <- py_nth simp 0;
  do origin <- index_to_state (t_grid t) o;
  do H <- py_nth (t_hyper t) (id mod dl_nsimplex (t_dl t))%Z;
  let p' := if t_project t then project_point (t_grid t) p else p in
  let w := vecmat (ndim (t_grid t)) (vsub p' origin) H in
  do rows <- mapM (py_nth (t_params t)) simp;
  Ok (vecmat (output_dim t) ((1 - vsum w) :: w) rows).
Proof.
  intros E. unfold tri_eval1, get_weights. rewrite E. simpl bind. destruct (simplices t id) as [l|]; [|reflexivity]. simpl bind.
  destruct (py_nth l 0) as [z|]; [|reflexivity]. simpl bind. destruct (index_to_state _ z); [|reflexivity]. simpl bind.
  destruct (py_nth (t_hyper t) _); reflexivity.
Qed.
Ltac eval_tri :=
  erewrite eval_via by (unfold find_simplex, state_to_rectangle; run; reflexivity);
  unfold simplices, rectangle_corner_index, index_to_state, project_point; run; apply f_equal; apply (f_equal (fun x => [x])); first [lra | field; lra | field].

(** The rows of H, applied to arbitrary vertex values. *)
Example test_values a b c e : let eps := / 10000000000 in exists t,
  make_tri dl2 inv2 unit_square [[a]; [b]; [c]; [e]] false = Ok t /\
  Forall2 (fun p v => tri_eval1 t p = Ok [v])
    [[0; 0]; [1 - eps; 0]; [0; 1 - eps]; [1 / 2 - eps; 1 / 2 - eps]; [0; 1 / 2]; [1 / 2; 0]]
    [a; eps * a + (1 - eps) * c; eps * a + (1 - eps) * b;
     2 * eps * a + (1 / 2 - eps) * b + (1 / 2 - eps) * c;
     1 / 2 * a + 1 / 2 * b; 1 / 2 * a + 1 / 2 * c].
Proof.
  cbv zeta. eexists. split; [apply make_square_tri; reflexivity|].
  each; eval_tri.
Qed.

Example test_projection : exists t t',
  make_tri dl2 inv2 unit_square [[0]; [1]; [1]; [1]] false = Ok t /\
  make_tri dl2 inv2 unit_square [[0]; [1]; [1]; [1]] true = Ok t' /\
  tri_eval1 t [-1 / 2; -1 / 2] = Ok [-1] /\ tri_eval1 t' [-1 / 2; -1 / 2] = Ok [0].
Proof.
  do 2 eexists. split; [apply make_square_tri; reflexivity|]. split; [apply make_square_tri; reflexivity|].
  split; eval_tri.
Qed.

Lemma gradient_via t p id : find_simplex t p = Ok id ->
  gradient t [p] = do w <- weights_gradient1 t id; do g <- gradient_of t w; Ok [g].
Proof.
  intros E. unfold gradient, get_weights_gradient. simpl mapM. rewrite E. simpl.
  destruct (weights_gradient1 t id); [|reflexivity]. simpl. destruct (gradient_of t a); reflexivity.
Qed.
Ltac gradient_tri :=
  erewrite gradient_via by (unfold find_simplex, state_to_rectangle; run; reflexivity);
  unfold weights_gradient1, gradient_of, output_dim, simplices, rectangle_corner_index; run; eq_lists.

Example test_gradient : exists t,
  make_tri dl2 inv2 unit_square [[1]; [3]; [2]; [1]] false = Ok t /\
  gradient t [[1 / 100; 1 / 100]] = Ok [[[1; 2]]] /\
  gradient t [[99 / 100; 99 / 100]] = Ok [[[-2; -1]]].
Proof. eexists. split; [apply make_square_tri; reflexivity|]. split; gradient_tri. Qed.

Example test_1d : exists t,
  make_tri (fun p => Delaunay p [] (fun _ => 0%Z)) inv1 grid3 [[0]; [1 / 2]; [0]] false = Ok t /\
  Forall2 (fun p id => find_simplex t p = Ok id)
    [[0]; [2 / 10]; [1 / 2]; [6 / 10]; [9 / 10]; [1]] [0; 0; 1; 1; 1; 1]%Z /\
  Forall2 (fun p v => tri_eval1 t p = Ok [v])
    [[0]; [2 / 10]; [1 / 2]; [6 / 10]; [9 / 10]; [1]] [0; 2 / 10; 1 / 2; 4 / 10; 1 / 10; 0] /\
  Forall2 (fun p v => gradient t [p] = Ok [[[v]]])
    [[0]; [2 / 10]; [1 / 2]; [6 / 10]; [9 / 10]; [1]] [1; 1; -1; -1; -1; -1].
Proof.
  eexists. split; [|split; [|split]].
  - unfold make_tri, delaunay1d, simplex_indices, hyperplane, state_to_index, index_to_state. run. reflexivity.
  - each; unfold find_simplex, state_to_rectangle; run; reflexivity.
  - each; eval_tri.
  - each; gradient_tri.
Qed.
