(** C94: triangulations as Lyapunov functions. *)
From Coq Require Import List ZArith Reals Lia Lra Bool.
Import ListNotations.
From Verif Require Import Prelude ListFacts NumModel NumProofs GridModel GridSpec GridProofs
  TriModel TriSpec TriProofs TriProofs2 TriInstances TriContSpec TriContProofs TriContProofs2
  CertModel CertSpec CertProofs TriSlopeProofs TriLyapModel TriLyapSpec
  Properties.GridProps Properties.TriProps Properties.TriContProps Properties.CertProps.
Open Scope R_scope.

(** ** C94 *)

Lemma between_segment x y z s : length z = length x ->
  (forall j, (j < length x)%nat -> coordinate z j = coordinate y j + s * (coordinate x j - coordinate y j)) ->
  between (length x) x y s = z.
Proof.
  intros Lz H. apply (nth_ext _ _ 0 0); [now rewrite between_length|]. intros j Hj. rewrite between_length in Hj.
  change (coordinate (between (length x) x y s) j = coordinate z j). rewrite between_nth, H by auto. reflexivity.
Qed.

Lemma segment_between n x y s : length x = n -> 0 <= s <= 1 -> on_segment x y (between n x y s).
Proof.
  intros Lx Hs. split; [now rewrite between_length|]. exists s. split; [auto|]. intros j Hj.
  apply between_nth. lia.
Qed.

Lemma dist1_sumn n x y : length x = n -> length y = n ->
  dist1 x y = sumn n (fun j => Rabs (coordinate x j - coordinate y j)).
Proof.
  revert x y. induction n as [|n IH]; intros [|a x] [|b y] Lx Ly; try discriminate; [reflexivity|].
  rewrite sumn_S_l. change (dist1 (a :: x) (b :: y)) with (Rabs (a - b) + dist1 x y).
  rewrite (IH x y) by (simpl in *; lia). reflexivity.
Qed.

(** The values at two points differ by no more than the largest slope, in the
    direction from one to the other, that the gradients on the line between them
    show; this holds across simplices and cells. *)
Theorem C94_mean_value : forall dl inv g values m project t o x y K,
  TriSpec.setup dl inv g values m project t -> conforming g t -> (o < m)%nat ->
  length x = dims g -> length y = dims g -> well_inside g x -> well_inside g y ->
  (forall z M, on_segment x y z -> gradient t [z] = Ok [M] ->
     Rabs (sumn (dims g) (fun j => entry M o j * (coordinate x j - coordinate y j))) <= K) ->
  exists out out', tri_eval t [x] = Ok [out] /\ tri_eval t [y] = Ok [out'] /\
    Rabs (coordinate out o - coordinate out' o) <= K.
Proof.
  intros dl inv g values m project t o x y K SU C Ho Lx Ly Wx Wy B.
  pose proof (conforming_matching _ _ _ _ _ _ _ SU C) as MT.
  destruct (eval_value _ _ _ _ _ _ _ x SU Lx) as (out & E1 & _ & V1).
  destruct (eval_value _ _ _ _ _ _ _ y SU Ly) as (out' & E2 & _ & V2).
  exists out, out'. split; [auto|]. split; [auto|]. rewrite <- V1, <- V2.
  apply (segment_slope _ _ _ _ _ _ _ SU MT o Ho); auto.
  intros s M Hs EM. apply (B (between (dims g) x y s) M); auto. now apply segment_between.
Qed.
Print Assumptions C94_mean_value.

(** So the largest entry of the gradients between two points is a Lipschitz constant
    for the 1-norm distance. *)
Theorem C94_largest_entries : forall dl inv g values m project t o x y K,
  TriSpec.setup dl inv g values m project t -> conforming g t -> (o < m)%nat ->
  length x = dims g -> length y = dims g -> well_inside g x -> well_inside g y ->
  entries_between t o K x y ->
  exists out out', tri_eval t [x] = Ok [out] /\ tri_eval t [y] = Ok [out'] /\
    Rabs (coordinate out o - coordinate out' o) <= K * dist1 x y.
Proof.
  intros dl inv g values m project t o x y K SU C Ho Lx Ly Wx Wy B.
  apply (C94_mean_value _ _ _ _ _ _ _ o x y _ SU C Ho Lx Ly Wx Wy).
  intros z M Hz EM. eapply Rle_trans; [apply sumn_abs|].
  rewrite (dist1_sumn (dims g)) by auto. rewrite <- sumn_scal. apply sumn_le. intros j Hj.
  rewrite Rabs_mult. apply Rmult_le_compat_r; [apply Rabs_pos|]. apply (B z M j Hz EM). now rewrite Lx.
Qed.
Print Assumptions C94_largest_entries.

(** What the Lyapunov object is given: the triangulation or its negative. *)
Definition uses_triangulation (S : CertModel.setup) (t : tri) : Prop :=
  (forall z, lyapunov_function S z = triangulated t z) \/
  (forall z, lyapunov_function S z = neg_triangulated t z).

Lemma uses_difference S t K a b out out' : uses_triangulation S t ->
  tri_eval t [a] = Ok [out] -> tri_eval t [b] = Ok [out'] -> Rabs (coordinate out 0 - coordinate out' 0) <= K ->
  Rabs (lyapunov_function S a - lyapunov_function S b) <= K.
Proof.
  intros U E1 E2 H. unfold coordinate in H. destruct U as [U|U]; rewrite !U; unfold neg_triangulated, triangulated; rewrite E1, E2; [exact H|].
  replace (_ - _) with (- (nth 0 out 0 - nth 0 out' 0)) by ring. now rewrite Rabs_Ropp.
Qed.

(** The decrease condition at a grid state guarantees the decrease at the states
    within tau, if the constant used at the grid state bounds the gradients on the
    line to the other state and on the line between the two successors. *)
Theorem C94_certified_neighbourhood : forall dl inv g values project t S F c x,
  TriSpec.setup dl inv g values 1 project t -> conforming g t -> uses_triangulation S t ->
  length c = dims g -> length x = dims g -> length (F c) = dims g -> length (F x) = dims g ->
  well_inside g c -> well_inside g x -> well_inside g (F c) -> well_inside g (F x) ->
  0 <= lv_scalar S c -> 0 <= lf_scalar S c ->
  entries_between t 0 (lv_scalar S c) x c -> entries_between t 0 (lv_scalar S c) (F x) (F c) ->
  dist1 (F x) (F c) <= lf_scalar S c * dist1 x c ->
  model_right S F c ->
  decrease S c < threshold S c (tau S) -> dist1 x c <= tau S ->
  lyapunov_function S (F x) < lyapunov_function S x.
Proof.
  intros dl inv g values project t S F c x SU C U Lc Lx LFc LFx Wc Wx WFc WFx Pv Pf B1 B2 LF MR D T.
  destruct (C94_largest_entries _ _ _ _ _ _ _ 0 x c _ SU C ltac:(lia) Lx Lc Wx Wc B1) as (o1 & o2 & E1 & E2 & D1).
  destruct (C94_largest_entries _ _ _ _ _ _ _ 0 (F x) (F c) _ SU C ltac:(lia) LFx LFc WFx WFc B2) as (o3 & o4 & E3 & E4 & D2).
  apply (C20_local_constants S F dist1 c x); auto.
  - exact (uses_difference _ _ _ _ _ _ _ U E1 E2 D1).
  - exact (uses_difference _ _ _ _ _ _ _ U E3 E4 D2).
Qed.
Print Assumptions C94_certified_neighbourhood.

(** For uncertain dynamics the computed bound covers every successor within the
    error bounds, if the constant bounds the gradients on the line to the mean. *)
Lemma wdist_repeat k x y : length x = length y -> wdist (repeat k (length x)) x y = k * dist1 x y.
Proof.
  revert y. induction x as [|a x IH]; intros [|b y] L; try discriminate.
  - unfold wdist, dist1. simpl. ring.
  - specialize (IH y ltac:(simpl in L; lia)). unfold wdist, dist1 in *. simpl. simpl in IH. rewrite IH. ring.
Qed.

Theorem C94_uncertain_successors : forall dl inv g values project t S K x mean err y,
  TriSpec.setup dl inv g values 1 project t -> conforming g t -> uses_triangulation S t ->
  lip_v S = LvConst K -> 0 <= K ->
  length mean = dims g -> well_inside g mean -> well_inside g y -> CertSpec.within y mean err ->
  entries_between t 0 K y mean ->
  lyapunov_function S y - lyapunov_function S x <= v_decrease_bound S x (Uncertain mean err).
Proof.
  intros dl inv g values project t S K x mean err y SU C U EK PK Lm Wm Wy Hy B.
  assert (Ly : length y = dims g) by (destruct Hy as [-> _]; auto).
  destruct (C94_largest_entries _ _ _ _ _ _ _ 0 y mean _ SU C ltac:(lia) Ly Lm Wy Wm B) as (o1 & o2 & E1 & E2 & D1).
  pose proof (uses_difference _ _ _ _ _ _ _ U E1 E2 D1) as D2.
  pose (S' := {| lyapunov_function := lyapunov_function S; policy := policy S;
                 dynamics := fun _ _ => Uncertain mean err; lip_v := lip_v S; lip_f := lip_f S; tau := tau S |}).
  pose proof (C21_bound_covers_all_successors S' x) as Q. cbn [dynamics S'] in Q.
  assert (CC : coordinate_constants S' mean = repeat K (length mean)) by (unfold coordinate_constants; cbn [lip_v S']; now rewrite EK).
  rewrite CC in Q. apply (Q y Hy).
  - apply repeat_length.
  - apply Forall_forall. intros a Ha. apply repeat_spec in Ha. lra.
  - cbn [lyapunov_function S']. rewrite <- Lm in Ly. rewrite <- Ly, wdist_repeat by auto. exact D2.
Qed.
Print Assumptions C94_uncertain_successors.

(** With one axis the constant holds on the whole line, outside the limits too,
    with and without projection. *)
Theorem C94_one_axis : forall dl inv g values m project t o K,
  TriSpec.setup dl inv g values m project t -> dims g = 1%nat -> (o < m)%nat ->
  (forall z M, length z = 1%nat -> inside g z -> gradient t [z] = Ok [M] -> Rabs (entry M o 0) <= K) ->
  forall x y, length x = 1%nat -> length y = 1%nat ->
  exists out out', tri_eval t [x] = Ok [out] /\ tri_eval t [y] = Ok [out'] /\
    Rabs (coordinate out o - coordinate out' o) <= K * dist1 x y.
Proof.
  intros dl inv g values m project t o K SU D1 Ho B x y Lx Ly.
  destruct (eval_value _ _ _ _ _ _ _ x SU ltac:(congruence)) as (out & E1 & _ & V1).
  destruct (eval_value _ _ _ _ _ _ _ y SU ltac:(congruence)) as (out' & E2 & _ & V2).
  exists out, out'. split; [auto|]. split; [auto|]. rewrite <- V1, <- V2.
  pose proof (su_grid _ _ _ _ _ _ _ SU) as VG. destruct g as [lims ns]. unfold dims in D1. cbn [limits] in D1.
  destruct lims as [|[lo up] [|]]; try discriminate. inversion VG as [|? n ? ? _ VG']; subst.
  cbn [limits num_points] in *. inversion VG'; subst.
  destruct x as [|x [|]]; try discriminate. destruct y as [|y [|]]; try discriminate.
  unfold dist1. simpl. rewrite Rplus_0_r.
  apply (line_lipschitz dl inv lo up n values m project t SU o Ho K).
  intros z M Hz EM. apply (B [z] M); auto. intros [|j] Hj; [exact Hz|cbv in Hj; lia].
Qed.
Print Assumptions C94_one_axis.

(** Triangulations of one axis with three points. *)
Lemma three_setup lo up a b c project : 2 * lo + 4 * EPS < up + lo ->
  exists t, TriSpec.setup dl2 inv1 (Grid [(lo, up)] [3%Z]) [[a]; [b]; [c]] 1 project t.
Proof.
  intros H. pose proof EPS_pos.
  assert (VG : valid_grid (Grid [(lo, up)] [3%Z])) by (constructor; [simpl; split; [lra|lia]|constructor]).
  destruct (C08_construction dl2 inv1 (Grid [(lo, up)] [3%Z]) [[a]; [b]; [c]] 1 project) as [K _].
  - exact VG.
  - intros [|j] Hj; [|cbv in Hj; lia]. unfold spacing, upper, lower, npts. simpl. lra.
  - intros N. now destruct N.
  - exact good_inv1.
  - repeat constructor.
  - apply K. reflexivity.
Qed.

Lemma three_value dl inv lo up a b c project t x :
  TriSpec.setup dl inv (Grid [(lo, up)] [3%Z]) [[a]; [b]; [c]] 1 project t ->
  (project = true -> lo <= x <= up) ->
  (x <= (lo + up) / 2 -> triangulated t [x] = a + (b - a) / ((up - lo) / 2) * (x - lo)) /\
  ((lo + up) / 2 <= x -> triangulated t [x] = b + (c - b) / ((up - lo) / 2) * (x - (lo + up) / 2)) /\
  exists M, gradient t [[x]] = Ok [[[M]]] /\ (x < (lo + up) / 2 -> M = (b - a) / ((up - lo) / 2)) /\
    ((lo + up) / 2 < x -> M = (c - b) / ((up - lo) / 2)).
Proof.
  intros SU PX. destruct (line_step dl inv lo up 3 _ _ _ _ SU) as (Ph & Ch & Eu).
  destruct (line_value dl inv lo up 3 _ _ _ _ SU 0 ltac:(lia) x) as (k & y & q & Hk & Eq & Hq & Ey & V & M & EM & EE).
  destruct (eval_value _ _ _ _ _ _ _ [x] SU eq_refl) as (out & E1 & _ & V1).
  assert (ET : triangulated t [x] = value t 0 [x]) by (unfold triangulated; rewrite E1, V1; reflexivity).
  assert (YX : y = x).
  { rewrite Ey. destruct project; [|auto]. specialize (PX eq_refl). unfold Rmin, Rmax. repeat destruct Rle_dec; lra. }
  destruct (gradient_shape _ _ _ _ _ _ _ [x] M SU eq_refl EM) as [LM FM].
  destruct M as [|[|M [|]] [|]]; try discriminate; try (inversion FM; subst; discriminate).
  unfold entry in EE. cbn [nth] in EE.
  rewrite ET, V, EM. clear V ET V1 E1 Ey EM FM LM. rewrite YX in *. clear YX.
  change (3 - 1)%Z with 2%Z in *. pose proof EPS_pos.
  assert (K : (k = 0 \/ k = 1)%Z) by lia. destruct K as [-> | ->]; unfold value_at in *; simpl nth in *; simpl Z.add in *.
  - assert (X : x <= (lo + up) / 2).
    { destruct Hq as [_ Hq]. rewrite Eq in Hq. revert Hq. unfold clipR, Rmin, Rmax. repeat destruct Rle_dec; lra. }
    split; [|split].
    + intros X2. f_equal. f_equal. ring.
    + intros X2. replace x with ((lo + up) / 2) by lra. simpl Z.to_nat. unfold Pos.to_nat. simpl. field. lra.
    + exists M. split; [auto|]. split; [auto|]. intros; lra.
  - assert (X : (lo + up) / 2 <= x).
    { destruct Hq as [Hq _]. rewrite Eq in Hq. revert Hq. unfold clipR, Rmin, Rmax. repeat destruct Rle_dec; lra. }
    split; [|split].
    + intros X2. replace x with ((lo + up) / 2) by lra. simpl Z.to_nat. unfold Pos.to_nat. simpl. field. lra.
    + intros X2. simpl Z.to_nat. unfold Pos.to_nat. simpl. field. lra.
    + exists M. split; [auto|]. split; [intros; lra|auto].
Qed.

(** The Lyapunov function of the one-dimensional notebooks is |x|, on the whole line,
    and 1 is a right constant for it. *)
Theorem C94_notebooks_one_axis : forall dl inv t,
  TriSpec.setup dl inv (Grid [(-1, 1)] [3%Z]) [[1]; [0]; [1]] 1 false t ->
  (forall x, triangulated t [x] = Rabs x) /\
  (forall x y, length x = 1%nat -> length y = 1%nat ->
     Rabs (triangulated t x - triangulated t y) <= 1 * dist1 x y).
Proof.
  intros dl inv t SU.
  assert (V : forall x, triangulated t [x] = Rabs x).
  { intros x. destruct (three_value _ _ _ _ _ _ _ _ _ x SU ltac:(discriminate)) as (V1 & V2 & _).
    destruct (Rle_dec x 0) as [H|H].
    - rewrite V1 by lra. rewrite Rabs_left1 by lra. field.
    - rewrite V2 by lra. rewrite Rabs_pos_eq by lra. field. }
  split; [exact V|]. intros [|x [|]] [|y [|]] Lx Ly; try discriminate.
  rewrite !V. unfold dist1. simpl. rewrite Rplus_0_r, Rmult_1_l. apply Rabs_triang_inv2.
Qed.
Print Assumptions C94_notebooks_one_axis.

Example C94_notebooks_one_axis_ex : exists t,
  TriSpec.setup dl2 inv1 (Grid [(-1, 1)] [3%Z]) [[1]; [0]; [1]] 1 false t /\
  triangulated t [-3 / 4] = 3 / 4 /\ triangulated t [7] = 7.
Proof.
  pose proof EPS_small.
  destruct (three_setup (-1) 1 1 0 1 false ltac:(lra)) as (t & SU). exists t. split; [auto|].
  destruct (C94_notebooks_one_axis _ _ t SU) as [V _]. rewrite !V.
  rewrite Rabs_left1, Rabs_pos_eq by lra. split; [field|reflexivity].
Qed.

(** The constant of the pendulum notebook, the largest gradient entry at the state
    itself, is not enough: with the (negated) values 0, 21/20, 1 at 0, 1/2, 1 and
    x -> x/2, the condition holds at 3/4, but V increases from 1. *)
Theorem C94_gradient_at_state_refuted : exists t S F c x,
  TriSpec.setup dl2 inv1 (Grid [(0, 1)] [3%Z]) [[0]; [-21 / 20]; [-1]] 1 true t /\
  (forall z, lyapunov_function S z = neg_triangulated t z) /\ lip_v S = largest_gradient t /\
  (forall z, dynamics S z (policy S z) = Exact (F z)) /\
  0 <= lf_scalar S c /\ (forall a b, dist1 (F a) (F b) <= lf_scalar S c * dist1 a b) /\
  inside (Grid [(0, 1)] [3%Z]) x /\
  decrease S c < threshold S c (tau S) /\ dist1 x c <= tau S /\
  lyapunov_function S x < lyapunov_function S (F x).
Proof.
  pose proof EPS_small.
  destruct (three_setup 0 1 0 (-21 / 20) (-1) true ltac:(lra)) as (t & SU).
  pose (F := fun z : list R => map (Rmult (1 / 2)) z).
  pose (S := {| lyapunov_function := neg_triangulated t; policy := fun _ => [];
                dynamics := fun z _ => Exact (F z); lip_v := largest_gradient t;
                lip_f := LfConst (1 / 2); tau := 1 / 4 |}).
  exists t, S, F, [3 / 4], [1]. split; [exact SU|].
  split; [reflexivity|]. split; [reflexivity|]. split; [reflexivity|].
  assert (VL : forall z, 0 <= z <= 1 / 2 -> neg_triangulated t [z] = 21 / 10 * z).
  { intros z Hz. destruct (three_value _ _ _ _ _ _ _ _ _ z SU ltac:(intros; lra)) as (V1 & _).
    unfold neg_triangulated. rewrite V1 by lra. field. }
  assert (VR : forall z, 1 / 2 <= z <= 1 -> neg_triangulated t [z] = 21 / 20 - 1 / 10 * (z - 1 / 2)).
  { intros z Hz. destruct (three_value _ _ _ _ _ _ _ _ _ z SU ltac:(intros; lra)) as (_ & V2 & _).
    unfold neg_triangulated. rewrite V2 by lra. field. }
  assert (LV : lv_scalar S [3 / 4] = 1 / 10).
  { destruct (three_value _ _ _ _ _ _ _ _ _ (3 / 4) SU ltac:(intros; lra)) as (_ & _ & M & EM & _ & G).
    specialize (G ltac:(lra)). unfold lv_scalar, S, largest_gradient. cbn [lip_v]. rewrite EM. simpl.
    rewrite G. rewrite Rabs_pos_eq by lra. unfold Rmax. destruct Rle_dec; lra. }
  assert (LF : lf_scalar S [3 / 4] = 1 / 2) by reflexivity.
  split; [rewrite LF; lra|]. split.
  { intros a. rewrite LF. induction a as [|u a IH]; intros [|v b]; unfold dist1 in *; simpl; try lra.
    specialize (IH b). change (map (Rmult (1 / 2))) with F.
    replace (1 / 2 * u - 1 / 2 * v) with (1 / 2 * (u - v)) by ring. rewrite Rabs_mult, (Rabs_pos_eq (1 / 2)) by lra. lra. }
  split; [intros [|j] Hj; [unfold lower, upper, coordinate; simpl; lra|cbv in Hj; lia]|].
  split; [|split].
  - unfold threshold. rewrite LV, LF. unfold decrease, v_decrease_bound, v_decrease_confidence.
    cbn [dynamics S policy F map lyapunov_function tau].
    rewrite (VL (1 / 2 * (3 / 4))), (VR (3 / 4)) by lra. lra.
  - unfold dist1. simpl. rewrite Rabs_pos_eq by lra. lra.
  - cbn [lyapunov_function S F map]. rewrite (VR 1), (VR (1 / 2 * 1)) by lra. lra.
Qed.
Print Assumptions C94_gradient_at_state_refuted.

(** Nor is the bound for uncertain dynamics that is computed with it: with the
    (negated) values 0, 0, 1, the mean 1/4 and the error 1/2. *)
Theorem C94_error_bound_refuted : exists t S mean err y,
  TriSpec.setup dl2 inv1 (Grid [(0, 1)] [3%Z]) [[0]; [0]; [-1]] 1 true t /\
  (forall z, lyapunov_function S z = neg_triangulated t z) /\ lip_v S = largest_gradient t /\
  CertSpec.within y mean err /\ inside (Grid [(0, 1)] [3%Z]) y /\
  forall x, v_decrease_bound S x (Uncertain mean err) < lyapunov_function S y - lyapunov_function S x.
Proof.
  pose proof EPS_small.
  destruct (three_setup 0 1 0 0 (-1) true ltac:(lra)) as (t & SU).
  pose (S := {| lyapunov_function := neg_triangulated t; policy := fun _ => [];
                dynamics := fun z _ => Exact z; lip_v := largest_gradient t;
                lip_f := LfConst 1; tau := 1 / 4 |}).
  exists t, S, [1 / 4], [1 / 2], [3 / 4]. split; [exact SU|].
  split; [reflexivity|]. split; [reflexivity|].
  split; [split; [reflexivity|]; split; [reflexivity|]; intros [|j] Hj; [simpl; rewrite Rabs_pos_eq; lra|cbv in Hj; lia]|].
  split; [intros [|j] Hj; [unfold lower, upper, coordinate; simpl; lra|cbv in Hj; lia]|].
  intros x. unfold v_decrease_bound, v_decrease_confidence, weighted_error. cbn [lip_v S largest_gradient lyapunov_function].
  destruct (three_value _ _ _ _ _ _ _ _ _ (1 / 4) SU ltac:(intros; lra)) as (V1 & _ & M & EM & G & _).
  destruct (three_value _ _ _ _ _ _ _ _ _ (3 / 4) SU ltac:(intros; lra)) as (_ & V2 & _).
  specialize (G ltac:(lra)). rewrite EM, G. replace ((0 - 0) / ((1 - 0) / 2)) with 0 by field.
  unfold neg_triangulated. rewrite V1, V2 by lra. cbn [map fold_right sum]. rewrite Rabs_R0.
  unfold Rmax. destruct Rle_dec; lra.
Qed.
Print Assumptions C94_error_bound_refuted.

(** A case: V(x, y) = x + 3 y and halving both coordinates. *)
Example C94_ex : forall x, length x = 2%nat -> dist1 x [1 / 2; 1 / 2] <= 1 / 10 ->
  exists t S, TriSpec.setup dl2 inv2 g35 v35 1 false t /\ (forall z, lyapunov_function S z = triangulated t z) /\
    lyapunov_function S (map (Rmult (1 / 2)) x) < lyapunov_function S x.
Proof.
  intros x Lx Hx. pose proof EPS_small. destruct (t35 false) as (t & SU).
  pose (F := fun z : list R => map (Rmult (1 / 2)) z).
  pose (S := {| lyapunov_function := triangulated t; policy := fun _ => [];
                dynamics := fun z _ => Exact (F z); lip_v := LvConst 3;
                lip_f := LfConst (1 / 2); tau := 1 / 10 |}).
  exists t, S. split; [auto|]. split; [reflexivity|]. change (map (Rmult (1 / 2)) x) with (F x).
  destruct x as [|x [|y [|]]]; try discriminate. unfold dist1 in Hx. simpl in Hx.
  assert (X : -1 / 10 <= x - 1 / 2 <= 1 / 10 /\ -1 / 10 <= y - 1 / 2 <= 1 / 10).
  { pose proof (Rabs_pos (x - 1 / 2)). pose proof (Rabs_pos (y - 1 / 2)). pose proof (Rle_abs (x - 1 / 2)).
    pose proof (Rle_abs (y - 1 / 2)). pose proof (Rle_abs (- (x - 1 / 2))). pose proof (Rle_abs (- (y - 1 / 2))).
    rewrite Rabs_Ropp in *. lra. }
  assert (EV : forall a b, triangulated t [a; b] = a + 3 * b).
  { intros a b. destruct (C09_affine_reproduction _ _ _ _ _ _ _ [a; b] 0 [1; 3] 0 SU eq_refl ltac:(lia) v35_affine) as (q & out & Q & E & A).
    simpl in Q. subst q. unfold triangulated. rewrite E. change (nth 0 out 0) with (coordinate out 0). rewrite A.
    unfold affine, coordinate; simpl. lra. }
  assert (EB : forall a b, entries_between t 0 3 [a; b] [1 / 2; 1 / 2] /\ entries_between t 0 3 [a; b] (F [1 / 2; 1 / 2])).
  { intros a b.
    assert (Q : forall w M j, length w = 2%nat -> gradient t [w] = Ok [M] -> (j < 2)%nat -> Rabs (TriSpec.entry M 0 j) <= 3).
    { intros w M j Lw EM Hj.
      destruct (C13_affine_gradient _ _ _ _ _ _ _ w 0 [1; 3] 0 SU Lw ltac:(lia) v35_affine) as (M' & EM' & A).
      rewrite EM in EM'. injection EM' as <-. rewrite A by exact Hj.
      destruct j as [|[|j]]; [| |lia]; unfold coordinate; simpl; rewrite Rabs_pos_eq; lra. }
    split; intros w M j [Lw _] EM Hj; apply (Q w M j Lw EM Hj). }
  apply (C94_certified_neighbourhood _ _ _ _ _ t S F [1 / 2; 1 / 2] [x; y] SU
    (t35_conforming _ _ _ _ _ SU)); try reflexivity.
  - left; reflexivity.
  - intros [|[|j]] Hj; [| |cbv in Hj; lia]; unfold lower, upper, coordinate; simpl; lra.
  - intros [|[|j]] Hj; [| |cbv in Hj; lia]; unfold lower, upper, coordinate; simpl; lra.
  - intros [|[|j]] Hj; [| |cbv in Hj; lia]; unfold lower, upper, coordinate; simpl; lra.
  - intros [|[|j]] Hj; [| |cbv in Hj; lia]; unfold lower, upper, coordinate; simpl; lra.
  - change (0 <= 3). lra.
  - change (0 <= 1 / 2). lra.
  - apply EB.
  - apply EB.
  - unfold dist1, F. simpl. replace (1 / 2 * x - 1 / 2 * (1 / 2)) with (1 / 2 * (x - 1 / 2)) by ring.
    replace (1 / 2 * y - 1 / 2 * (1 / 2)) with (1 / 2 * (y - 1 / 2)) by ring.
    rewrite !Rabs_mult, (Rabs_pos_eq (1 / 2)) by lra. change (lf_scalar S [1 / 2; 1 / 2]) with (1 / 2). lra.
  - unfold threshold, decrease, v_decrease_bound, v_decrease_confidence. cbn [dynamics S policy lyapunov_function].
    unfold F. cbn [map]. rewrite !EV. change (lf_scalar S [1 / 2; 1 / 2]) with (1 / 2).
    change (lv_scalar S [1 / 2; 1 / 2]) with 3. change (tau S) with (1 / 10). lra.
  - change (tau S) with (1 / 10). unfold dist1. simpl. lra.
Qed.
