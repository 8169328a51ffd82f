(** The unit tests of the repository for functions, the safe set and the
    utilities (safe_learning/tests/test_{functions,lyapunov,utilities}.py), run on
    the model, as in [GridTests]. *)
From Coq Require Import String Reals List Bool Arith ZArith Lia Lra.
From Verif Require Import Prelude UtilModel.
From Verif Require Import FunModel QuadModel.
From Verif Require Import NumModel GridModel SafeModel CertModel InitialModel RegionModel.
Import ListNotations.
Local Open Scope R_scope.

(** ** test_functions.py, class TestQuadraticFunction (lines 264-282) *)

Definition table (rows : list (list R)) : tensor :=
  {| FunModel.rows := List.length rows; cols := List.length (nth 0 rows []);
     FunModel.entry := fun i j => nth j (nth i rows []) 0 |}.

Example test_evaluate : exists q,
  quadratic_eval (quadratic_function (Matrix (table [[1; 1 / 10]; [2 / 10; 2]])))
    [table [[0; 0]; [0; 1]; [1; 0]; [1; 1]]] = Ok q /\
  FunModel.rows q = 4%nat /\ cols q = 1%nat /\
  map (fun i => FunModel.entry q i 0) [0; 1; 2; 3]%nat = [0; 2; 1; 33 / 10].
Proof.
  eexists. split; [reflexivity|]. split; [reflexivity|]. split; [reflexivity|]. cbv.
  repeat (apply f_equal2; [lra|]). reflexivity.
Qed.

(** ** test_lyapunov.py *)

(** Lines 24-46: the list [1, 3] becomes a mask of length 9. *)
Example test_safe_set_init vals : List.length vals = 9%nat ->
  exists L, any_init vals (Some (Indices false [1; 3]%Z)) false = Ok L /\
    l_safe L = [false; true; false; true; false; false; false; false; false].
Proof. intros E. unfold any_init. rewrite E. eexists. split; reflexivity. Qed.

(** Lines 48-76: V(x) = x^2 and next state x - 0.1 x. *)
Definition test_setup (eps : R) : CertModel.setup :=
  {| lyapunov_function := fun x => nth 0 x 0 * nth 0 x 0;
     CertModel.policy := fun x => [- (1 / 10) * nth 0 x 0];
     dynamics := fun x u => Exact [nth 0 x 0 + nth 0 u 0];
     lip_v := LvConst (3 / 10); lip_f := LfConst (4 / 10); tau := eps |}.
Definition test_cert (eps : R) := certificate (test_setup eps) 1 (fun k => nth k [[-1]; [0]; [1]] []).
Definition line3 := Grid [(-1, 1)] [3%Z].

Lemma batch_of_three bs : (3 <= bs)%nat -> starts 3 bs = [0%nat].
Proof.
  intros H. unfold starts. destruct bs as [|[|[|b]]]; try lia. simpl Nat.eqb. cbn iota.
  replace (3 + S (S (S b)) - 1)%nat with (2 + 1 * S (S (S b)))%nat by lia.
  rewrite Nat.div_add by lia. rewrite Nat.div_small by lia. reflexivity.
Qed.
Lemma slice_three {A} bs (a b c : A) : (3 <= bs)%nat -> slice 0 (0 + bs) [a; b; c] = [a; b; c].
Proof. intros H. unfold slice. rewrite Nat.sub_0_r. destruct bs as [|[|[|b']]]; try lia. simpl. now destruct b'. Qed.

Lemma any_verify_three C ad ini mr bs a b c safe ref last : (3 <= bs)%nat ->
  List.length safe = 3%nat -> List.length ref = 3%nat ->
  any_verify C ad ini mr [a; b; c] bs (starts 3 bs) safe ref last =
  any_verify C ad ini mr [a; b; c] 3 [0%nat] safe ref last.
Proof.
  intros B L1 L2. rewrite batch_of_three by auto.
  destruct safe as [|s1 [|s2 [|s3 [|]]]]; try discriminate. destruct ref as [|r1 [|r2 [|r3 [|]]]]; try discriminate.
  cbn [any_verify]. rewrite !slice_three by auto. reflexivity.
Qed.

Example test_update bs order : (3 <= bs)%nat -> order = [1; 0; 2]%nat \/ order = [1; 2; 0]%nat ->
  exists L, any_init [1; 0; 1] (Some (Indices false [1%Z])) false = Ok L /\
  (exists L', any_update (Some (Indices false [1%Z])) L (test_cert (1 / 2)) true 1 bs order = (L', None) /\
     l_safe L' = [false; true; false]) /\
  (exists L', any_update (Some (Indices false [1%Z])) L (test_cert 0) true 1 bs order = (L', None) /\
     l_safe L' = [true; true; true]).
Proof.
  intros B O. eexists. split; [reflexivity|].
  assert (N1 : forall k, (k < 3)%nat -> neg (test_cert (1 / 2)) k = false).
  { intros [|[|[|k]]] H; try lia; cbn; unfold decrease, threshold, Rltb; cbn; destruct Rlt_dec; auto; exfalso; lra. }
  pose proof (N1 0%nat ltac:(lia)) as M0. pose proof (N1 1%nat ltac:(lia)) as M1. pose proof (N1 2%nat ltac:(lia)) as M2. clear N1.
  assert (Na : neg (test_cert 0) 0 = true).
  { cbn; unfold decrease, threshold, Rltb; cbn; destruct Rlt_dec; auto; exfalso; lra. }
  assert (Nb : neg (test_cert 0) 1 = false).
  { cbn; unfold decrease, threshold, Rltb; cbn; destruct Rlt_dec; auto; exfalso; lra. }
  assert (Nc : neg (test_cert 0) 2 = true).
  { cbn; unfold decrease, threshold, Rltb; cbn; destruct Rlt_dec; auto; exfalso; lra. }
  generalize dependent (test_cert (1 / 2)). generalize dependent (test_cert 0).
  intros C Na Nb Nc C' M0 M1 M2. destruct C as [f nr ps], C' as [f' nr' ps']. cbn in *.
  split; destruct O as [-> | ->]; eexists; unfold any_update, any_verified; cbn [any_start assign_initial bind];
    change (Pos.to_nat 1) with 1%nat; cbn -[starts any_verify slice]; change (Pos.to_nat 1) with 1%nat;
    cbn -[starts any_verify slice]; rewrite any_verify_three by (auto; reflexivity);
    cbn [any_verify]; unfold any_pass; cbn; rewrite ?Na, ?Nb, ?Nc, ?M0, ?M1, ?M2; cbn;
    change (Pos.to_nat 1) with 1%nat; cbn; split; reflexivity.
Qed.

(** Lines 79-86. *)
Example test_smallest_boundary_value :
  smallest_boundary_value (fun x => 2 * (Rabs (nth 0 x 0) + Rabs (nth 1 x 0)))
    (Grid [(-15 / 10, 1); (-1, 15 / 10)] [3; 3]%Z) = Some (25 / 10).
Proof.
  unfold smallest_boundary_value, boundary_points, discrete_points, linspace. cbn -[Rabs Rmin].
  change (Pos.to_nat 3) with 3%nat. cbn -[Rabs Rmin].
  repeat match goal with |- context [Rabs ?x] =>
    first [rewrite (Rabs_pos_eq x) by lra | rewrite (Rabs_left1 x) by lra] end.
  apply f_equal.
  repeat match goal with |- context [Rmin ?x ?y] =>
    first [rewrite (Rmin_left x y) by lra | rewrite (Rmin_right x y) by lra] end.
  lra.
Qed.

(** ** test_utilities.py *)

(** Lines 37-72: a method that returns the storage and then stores a value;
    results and storage of the seven calls. *)
Definition method (s : @UtilModel.store string nat) (value : nat) (index : option string) :=
  (get_storage string_dec s "method" index,
   set_storage string_dec s "method" [("value"%string, value)] index).
Definition value_of (o : option (obj string nat)) : option nat :=
  match o with
  | Some (Dict d) => match dict_get string_dec d "value"%string with Some (Value v) => Some v | _ => None end
  | _ => None
  end.
Example test_storage :
  let '(r1, s1) := method [] 5 None in
  let '(r2, s2) := method s1 4 None in
  let '(r3, s3) := method s2 0 None in
  let '(r4, s4) := method s3 3 (Some "test"%string) in
  let '(r5, s5) := method s4 4 (Some "test"%string) in
  let '(r6, s6) := method s5 3 (Some "test2"%string) in
  let '(r7, _) := method s6 3 (Some "test"%string) in
  r1 = None /\ value_of r2 = Some 5%nat /\ value_of r3 = Some 4%nat /\
  r4 = None /\ value_of r5 = Some 3%nat /\ r6 = None /\ value_of r7 = Some 4%nat.
Proof. vm_compute. repeat split. Qed.

(** Lines 89-95; the rows are compared as the byte strings of their int64 entries. *)
Example test_unique_rows :
  let bytes := fun r => List.concat (map (le_bytes 8) r) in
  unique_rows (fun a b => bytes_leb (bytes a) (bytes b)) []
    [[1; 1]; [1; 2]; [1; 3]; [1; 2]; [1; 3]; [1; 4]; [2; 3]]%Z
  = [[1; 1]; [1; 2]; [1; 3]; [1; 4]; [2; 3]]%Z.
Proof. vm_compute. reflexivity. Qed.

(** test_functions.py, lines 370-385. *)
Example test_concatenate_numpy :
  concatenate_inputs 1 [Num 0; Arr2 [[0; 1]; [2; 3]]; Arr2 [[4; 5]; [6; 7]]]
  = Ok [Num 0; Arr2 [[0; 1; 4; 5]; [2; 3; 6; 7]]] /\
  concatenate_inputs 1 [Num 0; Arr2 [[0; 1]; [2; 3]]] = Ok [Num 0; Arr2 [[0; 1]; [2; 3]]].
Proof. split; reflexivity. Qed.
(** Lines 387-405. *)
Example test_concatenate_tensorflow :
  concatenate_inputs 1 [Num 0; Ten2 [[0; 1]; [2; 3]]; Ten2 [[4; 5]; [6; 7]]]
  = Ok [Num 0; Ten2 [[0; 1; 4; 5]; [2; 3; 6; 7]]] /\
  concatenate_inputs 1 [Num 0; Ten2 [[0; 1]; [2; 3]]] = Ok [Num 0; Ten2 [[0; 1]; [2; 3]]].
Proof. split; reflexivity. Qed.
