(** C102: how wrong arguments are reported. *)
From Coq Require Import Reals List Bool Arith ZArith String Lia Lra.
From Verif Require Import Prelude NumModel NumProofs GridModel GridSpec GridProofs SafeModel CertModel ListFacts.
From Verif Require UtilModel SampleModel RolloutModel FunModel StackModel.
Import ListNotations.
Local Open Scope nat_scope.

(** [PiecewiseConstant] needs one row of values per grid state. *)
Theorem C102_piecewise_constant : forall g values,
  (Z.of_nat (List.length values) = nindex g -> exists f, make_pwc g values = Ok f) /\
  (Z.of_nat (List.length values) <> nindex g -> make_pwc g values = Err ValueError).
Proof.
  intros g values. unfold make_pwc. split; intros H.
  - rewrite H, Z.eqb_refl. eauto.
  - destruct (Z.eqb_spec (Z.of_nat (List.length values)) (nindex g)); [contradiction|reflexivity].
Qed.
Print Assumptions C102_piecewise_constant.

(** Several arguments of a decorated function, at least one of them a tensor: each
    needs two axes and they all need the same number of rows. *)
Theorem C102_concatenate : forall A start (args : list (UtilModel.arg A)),
  let rest := skipn start args in
  (2 <= List.length rest) -> existsb UtilModel.is_tensor rest = true ->
  let two_axes a := exists m, a = UtilModel.Arr2 m \/ a = UtilModel.Ten2 m in
  (~ Forall two_axes rest -> UtilModel.concatenate_inputs start args = Err ValueError) /\
  (Forall two_axes rest ->
     ~ (forall a b, In a rest -> In b rest ->
          List.length (UtilModel.atleast_2d a) = List.length (UtilModel.atleast_2d b)) ->
     UtilModel.concatenate_inputs start args = Err ValueError).
Proof.
  intros A start args rest L T two_axes. unfold UtilModel.concatenate_inputs. fold rest. rewrite T.
  replace (Z.of_nat (List.length args) - Z.of_nat start =? 1)%Z with false.
  2:{ symmetry. apply Z.eqb_neq. unfold rest in L. rewrite skipn_length in L. lia. }
  unfold UtilModel.tf_concat. set (f := fun a : UtilModel.arg A => _).
  assert (P1 : forall l, ~ Forall two_axes l -> mapM f l = Err ValueError).
  { induction l as [|a l IH]; intros N; [exfalso; apply N; constructor|]. cbn [mapM].
    destruct a as [x|v|m|v|m]; try reflexivity; cbn [f bind].
    - rewrite IH; [reflexivity|]. intros F. apply N. constructor; auto. exists m; auto.
    - rewrite IH; [reflexivity|]. intros F. apply N. constructor; auto. exists m; auto. }
  assert (P2 : forall l, Forall two_axes l -> mapM f l = Ok (map UtilModel.atleast_2d l)).
  { induction l as [|a l IH]; intros F; [reflexivity|]. inversion F as [|? ? (m & [-> | ->]) F']; subst;
      cbn [mapM map f bind]; rewrite IH by auto; reflexivity. }
  split; intros H.
  - rewrite P1 by auto. reflexivity.
  - intros N. rewrite P2 by auto. cbn [bind]. destruct rest as [|a l]; [cbn in L; lia|]. cbn [map UtilModel.hstack].
    destruct (forallb _ _) eqn:E; [|reflexivity]. exfalso. apply N.
    rewrite forallb_forall in E.
    assert (Q : forall b, In b (a :: l) -> List.length (UtilModel.atleast_2d b) = List.length (UtilModel.atleast_2d a)).
    { intros b [<-|Hb]; auto. apply Nat.eqb_eq. apply E. now apply in_map. }
    intros b c Hb Hc. rewrite (Q b Hb), (Q c Hc). reflexivity.
Qed.
Print Assumptions C102_concatenate.

(** A simulated trajectory: the first step to a state of a wrong width (neither the
    declared one nor one) raises ValueError. *)
Theorem C102_trajectory_width : forall dyn pol m initial num_steps,
  (2 <= num_steps)%Z ->
  List.length (dyn initial (pol initial)) <> List.length initial ->
  List.length (dyn initial (pol initial)) <> 1 ->
  UtilModel.compute_trajectory dyn pol m initial num_steps = Err ValueError.
Proof.
  intros dyn pol m initial num_steps H2 N1 N2. unfold UtilModel.compute_trajectory.
  destruct (Z.leb_spec num_steps 0); [reflexivity|].
  destruct (Z.to_nat num_steps - 1) as [|k] eqn:E; [lia|]. cbn [UtilModel.simulate].
  unfold UtilModel.assign_row. destruct (Nat.eqb_spec (List.length (dyn initial (pol initial))) (List.length initial)); [contradiction|].
  destruct (Nat.eqb_spec (List.length (dyn initial (pol initial))) 1); [contradiction|]. reflexivity.
Qed.
Print Assumptions C102_trajectory_width.

(** A closed loop whose policy returns a wrong number of actions. *)
Theorem C102_response_width : forall dynamics policy n m steps dt name const x0 u r,
  RolloutModel.reference_signal name steps m dt const = Ok r ->
  List.length x0 = n -> policy x0 = Ok u -> List.length u <> m ->
  RolloutModel.closedloop_response dynamics policy n m steps dt name const (Some x0) = Err ValueError.
Proof.
  intros dynamics policy n m steps dt name const x0 u r ER L EP N. unfold RolloutModel.closedloop_response.
  rewrite ER. cbn [bind]. unfold RolloutModel.check_width at 1. rewrite L, Nat.eqb_refl. cbn [bind].
  assert (NR : r <> []).
  { unfold RolloutModel.reference_signal in ER. intros ->.
    destruct (String.eqb _ _); [discriminate|]. rewrite Nat.add_1_r in ER.
    destruct (String.eqb _ _); [discriminate|]. destruct (String.eqb _ _); discriminate. }
  destruct r as [|r0 r]; [contradiction|]. cbn [RolloutModel.response_loop]. rewrite EP. cbn [bind].
  unfold RolloutModel.check_width at 1. destruct (Nat.eqb_spec (List.length u) m); [contradiction|]. reflexivity.
Qed.
Print Assumptions C102_response_width.
(** ... or that starts in a state of a wrong dimension. *)
Theorem C102_initial_width : forall dynamics policy n m steps dt name const x0 r,
  RolloutModel.reference_signal name steps m dt const = Ok r -> List.length x0 <> n ->
  RolloutModel.closedloop_response dynamics policy n m steps dt name const (Some x0) = Err ValueError.
Proof.
  intros dynamics policy n m steps dt name const x0 r ER N. unfold RolloutModel.closedloop_response.
  rewrite ER. cbn [bind]. unfold RolloutModel.check_width at 1.
  destruct (Nat.eqb_spec (List.length x0) n); [contradiction|]. reflexivity.
Qed.
Print Assumptions C102_initial_width.

(** No arrays to split into batches. *)
Theorem C102_no_arrays : forall A fuel bs, UtilModel.batchify (A := A) (S fuel) [] bs = Some (Err IndexError).
Proof. reflexivity. Qed.
Print Assumptions C102_no_arrays.

(** A negative number of samples. *)
Theorem C102_negative_samples : forall g L n draws states,
  mapM (fun k => index_to_state g (Z.of_nat k)) (SampleModel.np_where (l_safe L)) = Ok states ->
  (n < 0)%Z -> forall leb St width p lim positive,
  SampleModel.sample_with leb g L St width p lim positive (Some n) draws = Err ValueError.
Proof.
  intros g L n draws states E H leb St width p lim positive. unfold SampleModel.sample_with, SampleModel.select_states.
  rewrite E. cbn [bind]. destruct (Z.ltb_spec n (Z.of_nat (List.length states))); [|lia].
  destruct (Z.ltb_spec n 0); [reflexivity|lia].
Qed.
Print Assumptions C102_negative_samples.

(** Copying parameters from a function of another kind changes nothing, and what a
    copy of a sum returns cannot be evaluated. *)
Theorem C102_copy_parameters : forall s f g other,
  (forall a b, other <> FunModel.Added a b /\ other <> FunModel.Multiplied a b) ->
  FunModel.copy_parameters s (FunModel.Added f g) other = (s, Err AttributeError) /\
  FunModel.copy_parameters s (FunModel.Multiplied f g) other = (s, Err AttributeError) /\
  ((forall a lo hi, other <> FunModel.Saturated a lo hi) -> forall lo hi,
     FunModel.copy_parameters s (FunModel.Saturated f lo hi) other = (s, Err AttributeError)).
Proof.
  intros s f g other H. cbn [FunModel.copy_parameters].
  assert (E : FunModel.fun1 other = Err AttributeError).
  { destruct other as [| |a b|a b|]; try reflexivity; destruct (H a b) as [X Y]; congruence. }
  rewrite E. split; [reflexivity|]. split; [reflexivity|]. intros N lo hi.
  destruct other as [| | | |a l u]; try reflexivity. exfalso. exact (N a l u eq_refl).
Qed.
Print Assumptions C102_copy_parameters.
Theorem C102_copied_sum : forall s v1 b1 d1 v2 b2 d2 other s' r x,
  FunModel.copy_parameters s (FunModel.Added (FunModel.Leaf v1 b1 d1) (FunModel.Leaf v2 b2 d2)) other = (s', Ok (Some r)) ->
  FunModel.eval s' r x = Err TypeError.
Proof.
  intros s v1 b1 d1 v2 b2 d2 other s' r x E. cbn [FunModel.copy_parameters] in E.
  destruct (FunModel.fun1 other) as [o|]; [|discriminate]. unfold FunModel.base_copy in E.
  destruct (forallb _ _); [|discriminate]. destruct (forallb _ _); [|discriminate].
  injection E as _ <-. reflexivity.
Qed.
Print Assumptions C102_copied_sum.

(** ** Ties of the nearest grid point (C03) *)
Lemma rint_tie k : rint (IZR k + 1 / 2) = (if Z.even k then k else k + 1)%Z.
Proof.
  unfold rint. assert (FL : floorR (IZR k + 1 / 2) = k) by (apply floorR_unique; lra).
  rewrite FL. destruct Rlt_dec; [lra|]. destruct Rlt_dec; [lra|]. reflexivity.
Qed.
(** Halfway between two neighbours the one with the even number is taken. *)
Theorem C03_ties_to_even : forall g s, valid_grid g -> List.length s = dims g ->
  exists i p, state_to_index g s = Ok i /\ index_to_state g i = Ok p /\
    forall j k, (j < dims g) -> (0 <= k < npts g j - 1)%Z ->
      coordinate s j = (lower g j + (IZR k + 1 / 2) * spacing g j)%R ->
      coordinate p j = (lower g j + IZR (if Z.even k then k else k + 1) * spacing g j)%R.
Proof.
  intros g s V L. pose proof (rounded_multi g V s L) as M.
  exists (ravel (rounded g s) (num_points g)), (state_of g (rounded g s)).
  split; [now apply state_to_index_ok|]. split; [now apply index_to_state_multi|].
  pose proof (rounded_len g V s L) as Lr. intros j k Hj Hk E.
  rewrite state_of_nth, rounded_nth by auto.
  pose proof (spacing_pos g V j Hj) as U. pose proof (spacing_width g V j Hj) as W.
  assert (0 <= IZR k)%R by (apply IZR_le; lia).
  assert (IZR k + 1 <= IZR (npts g j - 1))%R by (rewrite <- plus_IZR; apply IZR_le; lia).
  rewrite clipR_id by (rewrite E; split; nra). rewrite E.
  replace ((lower g j + (IZR k + 1 / 2) * spacing g j - lower g j) * (1 / spacing g j))%R
    with (IZR k + 1 / 2)%R by (field; lra).
  now rewrite rint_tie.
Qed.
Print Assumptions C03_ties_to_even.

(** ** Concrete wrong arguments *)
Example C102_ex :
  make_pwc (Grid [(0, 1)%R] [3%Z]) [[1%R]; [2%R]] = Err ValueError /\
  UtilModel.concatenate_inputs 0 [UtilModel.Ten2 [[1; 2]; [3; 4]]; UtilModel.Arr1 [5; 6]] = Err ValueError /\
  UtilModel.concatenate_inputs 0 [UtilModel.Ten2 [[1; 2]; [3; 4]]; UtilModel.Arr2 [[5]]] = Err ValueError /\
  UtilModel.concatenate_inputs 0 [UtilModel.Ten2 [[1; 2]; [3; 4]]; UtilModel.Arr2 [[5]; [6]]]
    = Ok [UtilModel.Ten2 [[1; 2; 5]; [3; 4; 6]]] /\
  UtilModel.compute_trajectory (fun _ _ => [0; 0; 0]%R) (fun _ => [0%R]) 1 [1; 1]%R 3 = Err ValueError /\
  RolloutModel.closedloop_response (fun x _ => Ok x) (fun _ => Ok [0; 0]%R) 1 1 2 1 "zero" 0 (Some [1%R]) = Err ValueError /\
  state_to_index (Grid [(0, 3)%R] [4%Z]) [1 / 2]%R = Ok 0%Z /\
  state_to_index (Grid [(0, 3)%R] [4%Z]) [3 / 2]%R = Ok 2%Z.
Proof.
  assert (V : valid_grid (Grid [(0, 3)%R] [4%Z])) by (unfold valid_grid; simpl; repeat constructor; simpl; lra || lia).
  repeat (split; [reflexivity|]).
  split; rewrite state_to_index_ok by auto; f_equal; unfold rounded, unit_maxes, offset; cbn -[rint].
  - rewrite clipR_id by lra. replace ((1 / 2 - 0) * (1 / ((3 - 0) / 3)))%R with (IZR 0 + 1 / 2)%R by field.
    now rewrite rint_tie.
  - rewrite clipR_id by lra. replace ((3 / 2 - 0) * (1 / ((3 - 0) / 3)))%R with (IZR 1 + 1 / 2)%R by field.
    now rewrite rint_tie.
Qed.
