(** Properties C47 and C48: function stacks and GP data. *)
From Coq Require Import Reals List Bool Arith Lia Lra.
From Verif Require Import Prelude ListFacts FunModel StackModel StackProofs.
Import ListNotations.
Local Open Scope R_scope.

(** A cache that records the data. *)
Definition record_cache (X Y : list (list R)) : res (list (list R) * list (list R)) := Ok (X, Y).
Definition gp1 (X Y : list (list R)) : @gp (list (list R) * list (list R)) :=
  let x := {| ncol := 1; data := X |} in let y := {| ncol := 1; data := Y |} in
  {| gX := x; gY := y; cache := (X, Y); fed := (x, y, (X, Y)) |}.

(** ** C48 *)
Section C48.
Context {C : Type} (compute : list (list R) -> list (list R) -> res C).
Notation gp := (@gp C).

(** A history of accepted calls on a model with data: the data are the initial
    data followed by everything added, in order; there are as many outputs as
    inputs; the cache is the one of the current data and all of it is fed. *)
Theorem C48_history : forall (g g' : gp) calls results,
  consistent compute g -> (1 <= length (data (gY g)))%nat ->
  Forall (fun c => (1 <= length (rows_of (snd c)))%nat) calls ->
  run compute g calls = (g', results) -> Forall (fun r => r = Ok tt) results ->
  data (gX g') = data (gX g) ++ flat_map (fun c => rows_of (fst c)) calls /\
  data (gY g') = data (gY g) ++ flat_map (fun c => rows_of (snd c)) calls /\
  length (data (gX g')) = length (data (gY g')) /\
  compute (data (gX g')) (data (gY g')) = Ok (cache g') /\
  fed g' = (gX g', gY g', cache g').
Proof.
  intros g g' calls results Cg H1 F E R.
  destruct (run_consistent compute calls g g' results Cg H1 F E R) as ((A & B & D) & EX & EY). auto.
Qed.

(** A rejected call never changes what is evaluated: the fed data stay.  A wrong
    number of input columns changes nothing, a wrong number of output columns
    leaves the inputs added, a failing cache computation leaves both added. *)
Theorem C48_rejected : forall (g g' : gp) x y e, add_data_point compute g x y = (g', Err e) ->
  fed g' = fed g /\ cache g' = cache g /\
  (ncol (atleast_2d x) <> ncol (gX g) -> g' = g) /\
  (ncol (atleast_2d x) = ncol (gX g) -> data (gX g') = data (gX g) ++ rows_of x) /\
  (ncol (atleast_2d y) <> ncol (gY g) -> gY g' = gY g) /\
  (ncol (atleast_2d x) = ncol (gX g) -> ncol (atleast_2d y) = ncol (gY g) ->
     data (gY g') = data (gY g) ++ rows_of y /\ compute_cache compute (gX g') (gY g') = Err e).
Proof.
  intros g g' x y e H. destruct (add_failed compute _ _ _ _ _ H) as (A & B & D).
  split; auto. split; auto.
  destruct D as [(-> & N)|[(E1 & E2 & E3 & N)|(E1 & E2 & E3 & E4 & E5)]].
  - split; auto. split; [intros; contradiction|]. split; auto. intros; contradiction.
  - split; [intros; contradiction|]. split; auto. split; auto. intros; contradiction.
  - split; [intros; contradiction|]. split; auto. split; [intros; contradiction|]. auto.
Qed.

(** Numbers of inputs and outputs that differ are never accepted by a model with
    data. *)
Theorem C48_counts_checked : forall (g g' : gp) x y, consistent compute g ->
  (1 <= length (data (gY g)))%nat -> (1 <= length (rows_of y))%nat ->
  add_data_point compute g x y = (g', Ok tt) -> length (rows_of x) = length (rows_of y).
Proof. intros g g' x y Cg H1 H2 E. apply (add_consistent compute g x y g'); auto. Qed.

(** Once the numbers differ, no well-formed call is accepted any more: the model
    evaluates the old data for ever. *)
Theorem C48_stuck : forall (g g' : gp) calls results,
  length (data (gX g)) <> length (data (gY g)) -> (1 <= length (data (gY g)))%nat ->
  Forall (fun c => (1 <= length (rows_of (snd c)))%nat /\
            length (rows_of (fst c)) = length (rows_of (snd c)) /\
            ncol (atleast_2d (fst c)) = ncol (gX g) /\ ncol (atleast_2d (snd c)) = ncol (gY g)) calls ->
  run compute g calls = (g', results) ->
  fed g' = fed g /\ Forall (fun r => exists e, r = Err e) results.
Proof. intros g g' calls results. apply stuck. Qed.
End C48.

(** A call rejected because of the shape of y breaks the model. *)
Theorem C48_atomic_refuted : exists g1,
  consistent record_cache (gp1 [[0]] [[0]]) /\
  add_data_point record_cache (gp1 [[0]] [[0]]) (Scal 1) (Vec [1; 2]) = (g1, Err ValueError) /\
  data (gX g1) = [[0]; [1]] /\ data (gY g1) = [[0]] /\
  exists g2 e, add_data_point record_cache g1 (Scal 2) (Scal 3) = (g2, Err e).
Proof.
  eexists. split; [split; [|split]; reflexivity|]. split; [reflexivity|]. split; [reflexivity|].
  split; [reflexivity|]. do 2 eexists. reflexivity.
Qed.

(** Without initial data two inputs with a single output are accepted. *)
Theorem C48_counts_checked_refuted : exists g',
  consistent record_cache (gp1 [] []) /\
  add_data_point record_cache (gp1 [] []) (Arr {| ncol := 1; data := [[1]; [2]] |}) (Scal 5) = (g', Ok tt) /\
  data (gX g') = [[1]; [2]] /\ data (gY g') = [[5]] /\ cache g' = ([[1]; [2]], [[5]; [5]]).
Proof.
  eexists. split; [split; [|split]; reflexivity|]. split; [reflexivity|]. repeat split.
Qed.

Example C48_ex : exists g',
  run record_cache (gp1 [[0]] [[0]]) [(Scal 1, Scal 2); (Arr {| ncol := 1; data := [[3]; [4]] |},
    Arr {| ncol := 1; data := [[5]; [6]] |})] = (g', [Ok tt; Ok tt]) /\
  consistent record_cache (gp1 [[0]] [[0]]) /\
  data (gX g') = [[0]; [1]; [3]; [4]] /\ data (gY g') = [[0]; [2]; [5]; [6]].
Proof. eexists. split; [reflexivity|]. split; [split; [|split]; reflexivity|]. split; reflexivity. Qed.
Example C48_stuck_ex :
  length (data (gX (gp1 [[0]; [1]] [[0]]))) <> length (data (gY (gp1 [[0]; [1]] [[0]]))) /\
  snd (run record_cache (gp1 [[0]; [1]] [[0]]) [(Scal 1, Scal 2); (Scal 3, Scal 4)])
  = [Err ValueError; Err ValueError].
Proof. split; [discriminate|reflexivity]. Qed.

(** ** C47 *)

(** Means and errors are the columns of the members next to each other. *)
Theorem C47_evaluation : forall (fs : list member) x outs n, fs <> [] ->
  Forall2 (fun f o => f x = Ok o) fs outs ->
  Forall (fun o => rows (fst o) = n /\ rows (snd o) = n) outs ->
  exists mean error, stack_eval fs x = Ok (mean, error) /\ rows mean = n /\ rows error = n /\
    cols mean = offset (map fst outs) (length outs) /\ cols error = offset (map snd outs) (length outs) /\
    forall k d i j, (k < length outs)%nat ->
      ((j < cols (fst (nth k outs d)))%nat ->
         entry mean i (offset (map fst outs) k + j) = entry (fst (nth k outs d)) i j) /\
      ((j < cols (snd (nth k outs d)))%nat ->
         entry error i (offset (map snd outs) k + j) = entry (snd (nth k outs d)) i j).
Proof.
  intros fs x outs n Hne F R.
  assert (E : mapM (fun f => f x) fs = Ok outs).
  { clear -F. induction F; simpl; auto. rewrite H; simpl. now rewrite IHF. }
  assert (Ho : outs <> []) by (intros ->; inversion F; subst; contradiction).
  destruct (hcat_ok (map fst outs) n) as (m & Em & Rm & Cm & Km).
  { destruct outs; simpl; congruence. }
  { rewrite Forall_map. eapply Forall_impl; [|exact R]. simpl; tauto. }
  destruct (hcat_ok (map snd outs) n) as (e & Ee & Re & Ce & Ke).
  { destruct outs; simpl; congruence. }
  { rewrite Forall_map. eapply Forall_impl; [|exact R]. simpl; tauto. }
  exists m, e. unfold stack_eval. rewrite E. cbn [bind]. rewrite Em. cbn [bind]. rewrite Ee. cbn [bind].
  rewrite map_length in Cm, Ce. repeat (split; auto).
  - intros Hj. rewrite <- (map_nth fst). apply (Km k (fst d)); [now rewrite map_length|].
    now rewrite (map_nth fst).
  - intros Hj. rewrite <- (map_nth snd). apply (Ke k (snd d)); [now rewrite map_length|].
    now rewrite (map_nth snd).
Qed.

(** It fails for members with different numbers of rows; the error of a member is
    passed on. *)
Theorem C47_rejects : forall (fs : list member) x out, stack_eval fs x = Ok out ->
  Forall (fun f => exists m e, f x = Ok (m, e) /\ rows m = rows (fst out) /\ rows e = rows (snd out)) fs.
Proof.
  intros fs x out H. unfold stack_eval in H.
  apply bind_ok in H as (outs & E & H). apply bind_ok in H as (m & Em & H).
  apply bind_ok in H as (e & Ee & H). injection H as <-. simpl.
  apply hcat_rows in Em, Ee. rewrite Forall_map in Em, Ee.
  apply mapM_inv in E. clear -E Em Ee. induction E as [|f [a b] fs outs H E IH]; constructor.
  - inversion Em; inversion Ee; subst. eauto.
  - inversion Em; inversion Ee; subst. auto.
Qed.

Theorem C47_mean : forall (f : member) x,
  (forall m e, f x = Ok (m, e) -> to_mean_function f x = Ok m) /\
  (forall err, f x = Err err -> to_mean_function f x = Err err).
Proof. intros f x. unfold to_mean_function. split; intros; rewrite H; reflexivity. Qed.

(** One measurement (a single row with an entry per member, at least two): every
    member gets the inputs and its own entry. *)
Theorem C47_one_measurement : forall C (compute : list (list R) -> list (list R) -> res C) fs x r,
  length fs = length r -> (2 <= length r)%nat ->
  (forall k d, (k < length fs)%nat ->
     exists f', add_data_point compute (nth k fs d) x (Scal (nth k r 0)) = (f', Ok tt)) ->
  exists fs', stack_add compute fs x {| ncol := length r; data := [r] |} = (fs', Ok tt) /\
    length fs' = length fs /\
    forall k d, (k < length fs)%nat ->
      add_data_point compute (nth k fs d) x (Scal (nth k r 0)) = (nth k fs' d, Ok tt).
Proof.
  intros C compute fs x r L H2 H. unfold stack_add, squeezed. simpl.
  destruct (length r) as [|[|n]] eqn:E; [lia|lia|].
  apply add_each_ok; [congruence|]. auto.
Qed.

(** A single member with a single measurement is a TypeError. *)
Theorem C47_single_refuted : forall C (compute : list (list R) -> list (list R) -> res C) fs x v,
  stack_add compute fs x {| ncol := 1; data := [[v]] |} = (fs, Err TypeError).
Proof. reflexivity. Qed.

(** Several measurements for several single-output members: the first member gets
    the inputs, then a ValueError. *)
Theorem C47_several_measurements_refuted :
  forall C (compute : list (list R) -> list (list R) -> res C) f fs x y r1 r2 l,
  data y = r1 :: r2 :: l -> (2 <= ncol y)%nat -> length r1 = ncol y ->
  ncol (gY f) = 1%nat -> ncol (atleast_2d x) = ncol (gX f) ->
  exists f', stack_add compute (f :: fs) x y = (f' :: fs, Err ValueError) /\
    data (gX f') = data (gX f) ++ rows_of x /\ gY f' = gY f.
Proof.
  intros C compute f fs x y r1 r2 l Hd Hc L HY HX.
  unfold stack_add, squeezed. rewrite Hd. destruct (ncol y) as [|[|n]] eqn:E; [lia|lia|].
  simpl. unfold add_data_point, vstack. rewrite HX, Nat.eqb_refl. simpl. rewrite HY, L. simpl.
  eexists. split; [reflexivity|]. simpl. auto.
Qed.

(** Several measurements for one member: all inputs, but only the first output. *)
Theorem C47_one_member_refuted :
  forall C (compute : list (list R) -> list (list R) -> res C) f x y v1 v2 l,
  data y = [v1] :: [v2] :: l -> ncol y = 1%nat -> ncol (gY f) = 1%nat ->
  ncol (atleast_2d x) = ncol (gX f) -> length (rows_of x) = length (data y) ->
  length (data (gX f)) = length (data (gY f)) -> (1 <= length (data (gY f)))%nat ->
  exists f', stack_add compute [f] x y = ([f'], Err ValueError) /\
    data (gX f') = data (gX f) ++ rows_of x /\ data (gY f') = data (gY f) ++ [[v1]].
Proof.
  intros C compute f x y v1 v2 l Hd Hc HY HX Lx L H1.
  unfold stack_add, squeezed. rewrite Hd, Hc. simpl.
  unfold add_data_point, vstack. rewrite HX, Nat.eqb_refl. simpl. rewrite HY. simpl.
  unfold compute_cache. simpl. rewrite !app_length. simpl.
  fold (rows_of x). rewrite Lx, Hd. simpl.
  destruct (Nat.eqb_spec (length (data (gY f)) + 1) (length (data (gX f)) + S (S (length l)))); [lia|].
  destruct (Nat.eqb_spec (length (data (gY f)) + 1) 1); [lia|].
  eexists. split; [reflexivity|]. simpl. auto.
Qed.

(** The property [parameters] of a stack cannot be read. *)
Theorem C47_parameters_refuted : forall (V : Type) (members : list (list V)),
  members <> [] -> stack_parameters members = Err TypeError.
Proof. intros V [|m members]; [contradiction|reflexivity]. Qed.

Definition column (x : R) : member := fun p =>
  Ok ({| rows := rows p; cols := 1; entry := fun i _ => x * entry p i 0 |},
      {| rows := rows p; cols := 1; entry := fun _ _ => 0 |}).
Example C47_ex : exists m e,
  stack_eval [column 2; column 3] {| rows := 1; cols := 1; entry := fun _ _ => 5 |} = Ok (m, e) /\
  rows m = 1%nat /\ cols m = 2%nat /\ entry m 0 0 = 10 /\ entry m 0 1 = 15.
Proof. do 2 eexists. split; [reflexivity|]. simpl. repeat split; lra. Qed.
Example C47_data_ex : exists a b,
  stack_add record_cache [gp1 [[0]] [[0]]; gp1 [[0]] [[0]]] (Scal 1) {| ncol := 2; data := [[5; 6]] |}
  = ([a; b], Ok tt) /\ data (gY a) = [[0]; [5]] /\ data (gY b) = [[0]; [6]].
Proof. do 2 eexists. split; [reflexivity|]. split; reflexivity. Qed.

Print Assumptions C48_history.
Print Assumptions C48_rejected.
Print Assumptions C48_counts_checked.
Print Assumptions C48_stuck.
Print Assumptions C48_atomic_refuted.
Print Assumptions C48_counts_checked_refuted.
Print Assumptions C47_evaluation.
Print Assumptions C47_rejects.
Print Assumptions C47_mean.
Print Assumptions C47_one_measurement.
Print Assumptions C47_single_refuted.
Print Assumptions C47_several_measurements_refuted.
Print Assumptions C47_one_member_refuted.
Print Assumptions C47_parameters_refuted.
