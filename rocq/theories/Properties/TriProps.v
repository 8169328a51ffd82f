(** C08-C14: the triangulation. *)
From Coq Require Import List ZArith Reals Lia Lra Bool.
Import ListNotations.
From Verif Require Import Prelude NumModel NumProofs GridModel GridSpec SparseSpec GridProofs
  TriModel TriSpec TriProofs TriProofs2 TriInstances Properties.GridProps.
Open Scope R_scope.

(** Concrete objects for the examples: the 3 x 5 grid on [0,1] x [-1,1] with
    the values of f(x,y) = x + 3 y at the vertices. *)
Definition v35 : mat := map (fun p => [coordinate p 0 + 3 * coordinate p 1]) (all_points g35).

Lemma EPS_small : 0 < EPS /\ EPS <= 1 / 1000000.
Proof.
  split; [apply EPS_pos|]. unfold EPS. apply Rmult_le_reg_l with (2 ^ 52); [apply pow_lt; lra|].
  rewrite Rinv_r by (apply pow_nonzero; lra). simpl. lra.
Qed.

Lemma g35_spacing j : (j < 2)%nat -> spacing g35 j = 1 / 2.
Proof. intros H. destruct j as [|[|j]]; [| |lia]; unfold spacing, upper, lower, npts; simpl; lra. Qed.

Lemma t35 project : exists t, setup dl2 inv2 g35 v35 1 project t.
Proof.
  assert (G : good_dl g35 dl2) by (apply good_dl2; [exact g35_valid|reflexivity]).
  destruct (make_tri_ok g35 g35_valid dl2 inv2 G good_inv2 v35 project) as (t & E & _).
  { unfold v35. rewrite map_length. rewrite (all_points_length g35 g35_valid). reflexivity. }
  exists t. constructor; auto using g35_valid, good_inv2.
  - intros j Hj. rewrite g35_spacing by exact Hj. pose proof EPS_small. lra.
  - unfold columns, v35. apply Forall_forall. intros r Hr. apply in_map_iff in Hr as (p & <- & _). reflexivity.
Qed.

(** ** C08 *)
Theorem C08_construction : forall dl inv g values m project,
  valid_grid g -> coarse g -> good_dl g dl -> good_inv (dims g) inv -> columns m values ->
  (Z.of_nat (length values) = nindex g -> exists t, setup dl inv g values m project t) /\
  (Z.of_nat (length values) <> nindex g -> make_tri dl inv g values project = Err ValueError).
Proof.
  intros dl inv g values m project V C D I M. split; intros L.
  - destruct (make_tri_ok g V dl inv D I values project L) as (t & E & _). exists t. constructor; auto.
  - unfold make_tri. destruct (Z.eqb_spec (Z.of_nat (length values)) (nindex g)); [contradiction|reflexivity].
Qed.
Print Assumptions C08_construction.

Theorem C08_simplex_of_the_cell : forall dl inv g values m project t x,
  setup dl inv g values m project t -> length x = dims g ->
  exists id verts r c,
    find_simplex t x = Ok id /\ (0 <= id < nsimplex t)%Z /\
    simplices t id = Ok verts /\
    length verts = S (dims g) /\ NoDup verts /\
    state_to_rectangle g x = Ok r /\ rectangle_to_state g r = Ok c /\
    (* every vertex is a grid index whose state is a corner of the cell of x *)
    forall v, In v verts -> exists s, index_to_state g v = Ok s /\
      forall j, (j < dims g)%nat ->
        coordinate s j = coordinate c j \/ coordinate s j = coordinate c j + spacing g j.
Proof.
  intros dl inv g values m project t x SU L.
  destruct (find dl inv g values m project t SU x L) as (id & verts & vp & w & G & c & q & y & r & Lo).
  exists id, verts, r, c. destruct Lo. repeat (split; [assumption|]).
  intros v Hv. destruct (In_nth _ _ 0%Z Hv) as (k & Hk & <-).
  destruct (mapM_nth_ok _ _ _ 0%Z [] lo_states) as [_ N]. exists (nth k vp []). split; [now apply N|].
  intros j Hj. apply lo_cell; auto. now rewrite <- lo_len.
Qed.
Print Assumptions C08_simplex_of_the_cell.

Example C08_example : exists t id verts, setup dl2 inv2 g35 v35 1 false t /\
  find_simplex t [3 / 10; 1 / 10] = Ok id /\ simplices t id = Ok verts /\ length verts = 3%nat /\
  nsimplex t = 16%Z.
Proof.
  destruct (t35 false) as (t & SU). destruct (C08_simplex_of_the_cell _ _ _ _ _ _ _ [3 / 10; 1 / 10] SU eq_refl)
    as (id & verts & r & c & A & _ & B & D & _). exists t, id, verts. repeat (split; [assumption|]).
  pose proof (su_made _ _ _ _ _ _ _ SU) as E. unfold make_tri in E. 
  destruct (_ =? _)%Z; [|discriminate]. cbn [limits g35 bind] in E.
  destruct (simplex_indices _ _); [|discriminate]. cbn [bind] in E. destruct (mapM _ _); [|discriminate].
  injection E as <-. reflexivity.
Qed.

(** ** C09 *)
Theorem C09_barycentric_weights : forall dl inv g values m project t x,
  setup dl inv g values m project t -> length x = dims g ->
  exists w verts states y,
    get_weights t x = Ok (w, verts) /\ mapM (index_to_state g) verts = Ok states /\
    query g project x y /\
    length w = S (dims g) /\ length verts = S (dims g) /\
    sumn (S (dims g)) (coordinate w) = 1 /\
    (forall j, (j < dims g)%nat ->
       sumn (S (dims g)) (fun k => coordinate w k * entry states k j) = coordinate y j) /\
    (* and the value is the sum of the stored rows with these weights *)
    exists out, tri_eval t [x] = Ok [out] /\ length out = m /\
      forall o, (o < m)%nat -> coordinate out o =
        sumn (S (dims g)) (fun k => coordinate w k * value_at values o (nth k verts 0%Z)).
Proof.
  intros dl inv g values m project t x SU L.
  destruct (find dl inv g values m project t SU x L) as (id & verts & vp & w & G & c & q & y & r & Lo).
  destruct (eval_located dl inv g values m project t SU _ _ _ _ _ _ _ _ _ _ Lo) as (out & E1 & E2 & E3).
  exists w, verts, vp, y. destruct (setup_wf dl inv g values m project t SU) as (_ & _ & <-).
  destruct Lo. repeat (split; [assumption|]).
  exists out. split; [unfold tri_eval; cbn [mapM]; now rewrite E1|]. split; auto.
  intros o Ho. rewrite E3 by auto. unfold combine_at. now rewrite lo_len.
Qed.
Print Assumptions C09_barycentric_weights.

(** Affine functions are reproduced everywhere; outside the limits too if
    project is not set. *)
Theorem C09_affine_reproduction : forall dl inv g values m project t x o a b,
  setup dl inv g values m project t -> length x = dims g -> (o < m)%nat ->
  (forall i s, index_to_state g i = Ok s -> value_at values o i = affine (dims g) a b s) ->
  exists y out, query g project x y /\ tri_eval t [x] = Ok [out] /\
    coordinate out o = affine (dims g) a b y.
Proof.
  intros dl inv g values m project t x o a b SU L Ho A.
  destruct (find dl inv g values m project t SU x L) as (id & verts & vp & w & G & c & q & y & r & Lo).
  destruct (eval_located dl inv g values m project t SU _ _ _ _ _ _ _ _ _ _ Lo) as (out & E1 & E2 & E3).
  exists y, out. destruct (setup_wf dl inv g values m project t SU) as (_ & _ & <-).
  split; [apply (lo_query _ _ _ _ _ _ _ _ _ _ _ _ Lo)|]. split; [unfold tri_eval; cbn [mapM]; now rewrite E1|].
  rewrite E3 by auto. exact (combine_affine g t _ _ _ _ _ _ _ _ _ _ a b _ Lo A).
Qed.
Print Assumptions C09_affine_reproduction.

Lemma v35_affine i s : index_to_state g35 i = Ok s -> value_at v35 0 i = affine 2 [1; 3] 0 s.
Proof.
  intros E. pose proof (index_range g35 i s E) as R.
  pose proof (all_points_nth g35 g35_valid i R) as P. rewrite E in P. injection P as ->.
  unfold value_at, v35. rewrite (nth_map_lt _ _ _ []).
  - unfold affine, coordinate; simpl. lra.
  - pose proof (all_points_length g35 g35_valid). lia.
Qed.

Example C09_example : exists t, setup dl2 inv2 g35 v35 1 false t /\
  tri_eval t [[7; -9]] = Ok [[-20]].     (* far outside: 7 + 3 * (-9) *)
Proof.
  destruct (t35 false) as (t & SU). exists t. split; auto.
  destruct (C09_affine_reproduction _ _ _ _ _ _ _ [7; -9] 0 [1; 3] 0 SU eq_refl ltac:(lia) v35_affine)
    as (y & out & Q & E & A). simpl in Q; subst y. rewrite E. repeat f_equal.
  destruct (C09_barycentric_weights _ _ _ _ _ _ _ [7; -9] SU eq_refl) as (? & ? & ? & ? & ? & ? & ? & ? & ? & ? & ? & out' & E' & L' & _).
  rewrite E in E'. injection E' as <-. destruct out as [|o [|]]; try discriminate.
  unfold affine, coordinate in A; simpl in A. f_equal. lra.
Qed.

(** ** C10 *)
Theorem C10_vertex_values : forall dl inv g values m project t i x,
  setup dl inv g values m project t ->
  sumn (dims g) (fun j => 2 * EPS / spacing g j) < 1 ->
  index_to_state g i = Ok x ->
  tri_eval t [x] = Ok [nth (Z.to_nat i) values []].
Proof.
  intros dl inv g values m project t i x SU FM E.
  pose proof (su_grid _ _ _ _ _ _ _ SU) as V.
  assert (L : length x = dims g) by apply (index_vertex g V i x E).
  destruct (find dl inv g values m project t SU x L) as (id & verts & vp & w & G & c & q & y & r & Lo).
  destruct (setup_wf dl inv g values m project t SU) as (W & <- & _).
  unfold tri_eval. cbn [mapM].
  rewrite (vertex_exact g V (su_coarse _ _ _ _ _ _ _ SU) t W m (values_m _ _ _ _ _ _ _ SU) _ _ _ _ _ _ _ _ _ _ i Lo FM E).
  reflexivity.
Qed.
Print Assumptions C10_vertex_values.

Example C10_example : exists t, setup dl2 inv2 g35 v35 1 false t /\
  sumn (dims g35) (fun j => 2 * EPS / spacing g35 j) < 1 /\
  (exists x, index_to_state g35 14 = Ok x /\ tri_eval t [x] = Ok [nth 14 v35 []]).   (* upper corner *)
Proof.
  destruct (t35 false) as (t & SU). exists t. split; auto.
  assert (FM : sumn (dims g35) (fun j => 2 * EPS / spacing g35 j) < 1).
  { cbn [dims g35 limits length sumn]. rewrite !g35_spacing by lia. pose proof EPS_small. lra. }
  split; auto. eexists. split; [reflexivity|]. eapply (C10_vertex_values _ _ _ _ _ _ _ 14%Z); eauto.
Qed.

(** ** C11 *)
Theorem C11_convex_weights : forall dl inv g values m project t x,
  setup dl inv g values m project t -> length x = dims g -> well_inside g x ->
  exists w verts, get_weights t x = Ok (w, verts) /\
    (forall k, (k < S (dims g))%nat -> 0 <= coordinate w k <= 1) /\
    exists out, tri_eval t [x] = Ok [out] /\
      forall o lo hi, (o < m)%nat ->
        (forall i, (0 <= i < nindex g)%Z -> lo <= value_at values o i <= hi) ->
        lo <= coordinate out o <= hi.
Proof.
  intros dl inv g values m project t x SU L WI.
  destruct (find dl inv g values m project t SU x L) as (id & verts & vp & w & G & c & q & y & r & Lo).
  destruct (eval_located dl inv g values m project t SU _ _ _ _ _ _ _ _ _ _ Lo) as (out & E1 & E2 & E3).
  destruct (weights_nonneg g t x id verts vp w G c q y r L WI Lo) as [_ NN].
  exists w, verts. split; [apply (lo_weights _ _ _ _ _ _ _ _ _ _ _ _ Lo)|]. split; auto.
  exists out. split; [unfold tri_eval; cbn [mapM]; now rewrite E1|].
  intros o lo hi Ho B. rewrite E3 by auto. unfold combine_at. rewrite (lo_len _ _ _ _ _ _ _ _ _ _ _ _ Lo).
  apply convex_bounds; [intros; apply NN; auto|apply (lo_wsum _ _ _ _ _ _ _ _ _ _ _ _ Lo)|].
  intros k Hk. apply B. pose proof (lo_valid _ _ _ _ _ _ _ _ _ _ _ _ Lo) as F. rewrite Forall_forall in F.
  apply F, nth_In. now rewrite (lo_len _ _ _ _ _ _ _ _ _ _ _ _ Lo).
Qed.
Print Assumptions C11_convex_weights.

(** With project=True the bounds hold for all points up to 2 eps times the
    1-norm of the gradient reported at the point. *)
Theorem C11_projected_bounds : forall dl inv g values m t x,
  setup dl inv g values m true t -> length x = dims g ->
  exists out M, tri_eval t [x] = Ok [out] /\ gradient t [x] = Ok [M] /\
    forall o lo hi, (o < m)%nat ->
      (forall i, (0 <= i < nindex g)%Z -> lo <= value_at values o i <= hi) ->
      let err := 2 * EPS * sumn (dims g) (fun j => Rabs (entry M o j)) in
      lo - err <= coordinate out o <= hi + err.
Proof.
  intros dl inv g values m t x SU L.
  destruct (find dl inv g values m true t SU x L) as (id & verts & vp & w & G & c & q & y & r & Lo).
  destruct (eval_located dl inv g values m true t SU _ _ _ _ _ _ _ _ _ _ Lo) as (out & E1 & _).
  destruct (gradient_located dl inv g values m true t SU _ _ _ _ _ _ _ _ _ _ Lo) as (M & E2 & _).
  exists out, M. split; [unfold tri_eval; cbn [mapM]; now rewrite E1|]. split; auto.
  intros o lo hi Ho B.
  destruct (value_bounds dl inv g values m true t SU x o lo hi L eq_refl Ho B) as (out' & M' & A & A' & K).
  rewrite E1 in A. rewrite E2 in A'. injection A as <-. injection A' as <-. exact K.
Qed.
Print Assumptions C11_projected_bounds.

Example C11_example : exists t out, setup dl2 inv2 g35 v35 1 true t /\
  well_inside g35 [3 / 10; 1 / 10] /\ tri_eval t [[3 / 10; 1 / 10]] = Ok [out] /\ -3 <= coordinate out 0 <= 4.
Proof.
  destruct (t35 true) as (t & SU).
  assert (WI : well_inside g35 [3 / 10; 1 / 10]).
  { intros [|[|j]] Hj; [| |cbv in Hj; lia]; unfold lower, upper, coordinate; simpl; pose proof EPS_small; lra. }
  destruct (C11_convex_weights _ _ _ _ _ _ _ [3 / 10; 1 / 10] SU eq_refl WI) as (w & verts & _ & _ & out & E & B).
  exists t, out. repeat (split; [assumption|]). apply B; [lia|].
  intros i Hi. destruct (round_trip g35 g35_valid i Hi) as (s & Es & _). rewrite (v35_affine i s Es).
  destruct (index_vertex g35 g35_valid i s Es) as [_ Vs].
  destruct (Vs 0%nat ltac:(cbv; lia)) as (k0 & K0 & E0). destruct (Vs 1%nat ltac:(cbv; lia)) as (k1 & K1 & E1).
  rewrite g35_spacing in E0, E1 by lia. unfold affine; simpl. rewrite E0, E1.
  unfold lower, npts in *; simpl in *. unfold coordinate; simpl.
  assert (0 <= IZR k0 <= 2) by (split; apply IZR_le; lia). assert (0 <= IZR k1 <= 4) by (split; apply IZR_le; lia). lra.
Qed.

(** ** C12 *)
Theorem C12_parameter_derivative : forall dl inv g values m project t points,
  setup dl inv g values m project t -> Forall (fun x => length x = dims g) points ->
  exists B, parameter_derivative t points = Ok B /\ coo_wf B /\
    coo_rows B = Z.of_nat (length points) /\ coo_cols B = nindex g /\
    (* the same matrix works for whatever parameters are stored *)
    forall m' values' t', setup dl inv g values' m' project t' ->
      parameter_derivative t' points = Ok B /\
      exists out, tri_eval t' points = Ok out /\ length out = length points /\
        forall k o, (k < length points)%nat -> (o < m')%nat ->
          coo_dot B (value_at values' o) (Z.of_nat k) = coordinate (nth k out []) o.
Proof.
  intros dl inv g values m project t points SU F.
  destruct (parameter_derivative_ok dl inv g values m project t SU points F) as (B & E & WF & R & Co & _).
  exists B. repeat (split; [assumption|]). intros m' values' t' SU'.
  destruct (parameter_derivative_ok dl inv g values' m' project t' SU' points F) as (B' & E' & _ & _ & _ & K).
  assert (ES : forall f, parameter_derivative t' points = Ok f -> f = B).
  { intros f Hf.
    pose proof (su_made _ _ _ _ _ _ _ SU) as M1. pose proof (su_made _ _ _ _ _ _ _ SU') as M2.
    unfold make_tri in M1, M2. destruct (_ =? _)%Z; [|discriminate]. destruct (_ =? _)%Z; [|discriminate].
    destruct (match limits g with [_] => _ | _ => _ end) as [D|]; [|discriminate]. cbn [bind] in *.
    destruct (simplex_indices g D); [|discriminate]. cbn [bind] in *. destruct (mapM (hyperplane inv g) _); [|discriminate].
    cbn [bind] in *. injection M1 as <-. injection M2 as <-.
    assert (parameter_derivative (Tri g values' project D a a0) points = parameter_derivative (Tri g values project D a a0) points) by reflexivity.
    rewrite H, E in Hf. congruence. }
  assert (B' = B) by auto. subst B'. split; [exact E'|].
  assert (EX : forall points, Forall (fun x => length x = dims g) points ->
    exists out, mapM (tri_eval1 t') points = Ok out /\ length out = length points /\
      forall k, (k < length points)%nat -> tri_eval1 t' (nth k points []) = Ok (nth k out [])).
  { clear - SU'. induction 1 as [|p ps Hp F IH].
    - exists []. repeat split; auto. simpl; lia.
    - destruct IH as (out & E & L & N).
      destruct (find dl inv g values' m' project t' SU' p Hp) as (id & verts & vp & w & G & c & q & y & r & Lo).
      destruct (eval_located dl inv g values' m' project t' SU' _ _ _ _ _ _ _ _ _ _ Lo) as (o & E1 & _).
      exists (o :: out). cbn [mapM]. rewrite E1. cbn [bind]. rewrite E. split; auto. split; [simpl; lia|].
      intros [|k] Hk; cbn [nth]; auto. apply N. simpl in Hk. lia. }
  destruct (EX points F) as (out & EO & LO & NO). exists out. split; auto. split; auto.
  intros k o Hk Ho. destruct (K k Hk) as (out' & A & A'). rewrite (NO k Hk) in A. injection A as <-. auto.
Qed.
Print Assumptions C12_parameter_derivative.

Example C12_example : exists t B, setup dl2 inv2 g35 v35 1 false t /\
  parameter_derivative t [[7; -9]; [1 / 4; 0]] = Ok B /\
  coo_dot B (value_at v35 0) 0 = -20 /\ coo_dot B (value_at v35 0) 1 = 1 / 4.
Proof.
  destruct (t35 false) as (t & SU). 
  assert (F : Forall (fun x => length x = dims g35) [[7; -9]; [1 / 4; 0]]) by (repeat constructor).
  destruct (C12_parameter_derivative _ _ _ _ _ _ _ _ SU F) as (B & E & _ & _ & _ & K).
  exists t, B. split; auto. split; auto.
  destruct (K _ _ _ SU) as (_ & out & EO & LO & D).
  pose proof (D 0%nat 0%nat ltac:(simpl; lia) ltac:(lia)) as D0. pose proof (D 1%nat 0%nat ltac:(simpl; lia) ltac:(lia)) as D1.
  change (Z.of_nat 0) with 0%Z in D0. change (Z.of_nat 1) with 1%Z in D1. rewrite D0, D1.
  destruct (C09_affine_reproduction _ _ _ _ _ _ _ [7; -9] 0 [1; 3] 0 SU eq_refl ltac:(lia) v35_affine) as (y & o1 & Q & E1 & A1).
  destruct (C09_affine_reproduction _ _ _ _ _ _ _ [1 / 4; 0] 0 [1; 3] 0 SU eq_refl ltac:(lia) v35_affine) as (y' & o2 & Q' & E2 & A2).
  simpl in Q, Q'; subst y y'. unfold tri_eval in *. cbn [mapM] in *.
  destruct (tri_eval1 t [7; -9]); [|discriminate]. destruct (tri_eval1 t [1 / 4; 0]); [|discriminate].
  cbn [bind] in *. injection EO as <-. injection E1 as ->. injection E2 as ->. cbn [nth].
  rewrite A1, A2. unfold affine, coordinate; simpl. lra.
Qed.

(** ** C13 *)

(** Within one simplex the function is affine with the reported slopes. *)
Theorem C13_gradient_is_slope : forall dl inv g values m project t x x' id,
  setup dl inv g values m project t -> length x = dims g -> length x' = dims g ->
  find_simplex t x = Ok id -> find_simplex t x' = Ok id ->
  exists M out out' y y',
    gradient t [x] = Ok [M] /\ tri_eval t [x] = Ok [out] /\ tri_eval t [x'] = Ok [out'] /\
    query g project x y /\ query g project x' y' /\
    forall o, (o < m)%nat ->
      coordinate out' o - coordinate out o =
      sumn (dims g) (fun j => entry M o j * (coordinate y' j - coordinate y j)).
Proof.
  intros dl inv g values m project t x x' id SU L L' E E'.
  destruct (find dl inv g values m project t SU x L) as (i1 & verts & vp & w & G & c & q & y & r & Lo).
  destruct (find dl inv g values m project t SU x' L') as (i2 & verts' & vp' & w' & G' & c' & q' & y' & r' & Lo').
  pose proof (lo_find _ _ _ _ _ _ _ _ _ _ _ _ Lo) as F1. pose proof (lo_find _ _ _ _ _ _ _ _ _ _ _ _ Lo') as F2.
  rewrite E in F1. rewrite E' in F2. injection F1 as <-. injection F2 as <-.
  destruct (eval_located dl inv g values m project t SU _ _ _ _ _ _ _ _ _ _ Lo) as (out & A1 & _ & A2).
  destruct (eval_located dl inv g values m project t SU _ _ _ _ _ _ _ _ _ _ Lo') as (out' & B1 & _ & B2).
  destruct (gradient_located dl inv g values m project t SU _ _ _ _ _ _ _ _ _ _ Lo) as (M & E3 & _ & _ & E4).
  destruct (same_simplex g t _ _ _ _ _ _ _ _ _ _ _ _ _ _ _ _ _ _ _ Lo Lo') as (-> & -> & -> & K).
  exists M, out, out', y, y'. split; auto. unfold tri_eval; cbn [mapM]. rewrite A1, B1. split; [reflexivity|]. split; [reflexivity|].
  destruct (setup_wf dl inv g values m project t SU) as (_ & _ & <-).
  split; [apply (lo_query _ _ _ _ _ _ _ _ _ _ _ _ Lo)|]. split; [apply (lo_query _ _ _ _ _ _ _ _ _ _ _ _ Lo')|].
  intros o Ho. rewrite A2, B2 by auto.
  rewrite (combine_shift g w w' G (fun j => coordinate y' j - coordinate y j)); auto; [|apply (lo_len _ _ _ _ _ _ _ _ _ _ _ _ Lo)].
  set (S1 := combine_at _ _ _). assert (EQ : forall a b, a + b - a = b) by (intros; lra). rewrite EQ.
  apply sumn_ext. intros j Hj. now rewrite E4.
Qed.
Print Assumptions C13_gradient_is_slope.

(** The sparse matrix gives the gradients, point by point. *)
Theorem C13_gradient_derivative_point_major : forall dl inv g values m project t points,
  setup dl inv g values m project t -> Forall (fun x => length x = dims g) points ->
  exists B Ms, gradient_parameter_derivative t (ByPoints points) = Ok (B, []) /\
    gradient t points = Ok Ms /\ length Ms = length points /\
    coo_wf B /\ coo_rows B = Z.of_nat (dims g * length points) /\ coo_cols B = nindex g /\
    forall k o j, (k < length points)%nat -> (o < m)%nat -> (j < dims g)%nat ->
      coo_dot B (value_at values o) (Z.of_nat (k * dims g + j)) = entry (nth k Ms []) o j.
Proof.
  intros dl inv g values m project t points SU F.
  destruct (gradient_derivative_ok dl inv g values m project t SU points F) as (B & Ms & A & A' & K1 & K2 & K3 & K4 & K5).
  exists B, Ms. repeat (split; [assumption|]). assumption.
Qed.
Print Assumptions C13_gradient_derivative_point_major.

(** Gradients of affine data are the coefficients, at every state. *)
Theorem C13_affine_gradient : forall dl inv g values m project t x o a b,
  setup dl inv g values m project t -> length x = dims g -> (o < m)%nat ->
  (forall i s, index_to_state g i = Ok s -> value_at values o i = affine (dims g) a b s) ->
  exists M, gradient t [x] = Ok [M] /\ forall j, (j < dims g)%nat -> entry M o j = coordinate a j.
Proof.
  intros dl inv g values m project t x o a b SU L Ho A.
  destruct (find dl inv g values m project t SU x L) as (id & verts & vp & w & G & c & q & y & r & Lo).
  destruct (gradient_located dl inv g values m project t SU _ _ _ _ _ _ _ _ _ _ Lo) as (M & E3 & _ & _ & E4).
  exists M. split; auto. intros j Hj. rewrite E4 by auto.
  exact (combine_gradient g t _ _ _ _ _ _ _ _ _ _ a b _ j Lo A Hj).
Qed.
Print Assumptions C13_affine_gradient.

Example C13_example : exists t M, setup dl2 inv2 g35 v35 1 false t /\
  gradient t [[3 / 10; 1 / 10]] = Ok [M] /\ entry M 0 0 = 1 /\ entry M 0 1 = 3.
Proof.
  destruct (t35 false) as (t & SU).
  destruct (C13_affine_gradient _ _ _ _ _ _ _ [3 / 10; 1 / 10] 0%nat [1; 3] 0 SU eq_refl ltac:(lia) v35_affine) as (M & E & K).
  exists t, M. repeat (split; [assumption|]). split; [apply (K 0%nat)|apply (K 1%nat)]; cbv; lia.
Qed.

(** The docstring: [B.dot(vertex_val).reshape(ndim, -1)] should have the
    derivative along axis j at point k in row j, column k, i.e. at position
    [j * npoints + k] of the product. *)
Definition docstring_reshape : Prop :=
  forall dl inv g values project t points,
  setup dl inv g values 1 project t -> Forall (fun x => length x = dims g) points ->
  exists B Ms, gradient_parameter_derivative t (ByPoints points) = Ok (B, []) /\
    gradient t points = Ok Ms /\
    forall k j, (k < length points)%nat -> (j < dims g)%nat ->
      coo_dot B (value_at values 0) (Z.of_nat (j * length points + k)) = entry (nth k Ms []) 0 j.

Theorem C13_docstring_reshape_refuted : ~ docstring_reshape.
Proof.
  intros H. destruct (t35 false) as (t & SU). pose (pts := [[3 / 10; 1 / 10]; [1 / 10; 1 / 10]] : list (list R)).
  assert (F : Forall (fun x => length x = dims g35) pts) by (repeat constructor).
  destruct (H _ _ _ _ _ _ pts SU F) as (B & Ms & E1 & E2 & K).
  destruct (C13_gradient_derivative_point_major _ _ _ _ _ _ _ pts SU F) as (B' & Ms' & E1' & E2' & L' & _ & _ & _ & K').
  rewrite E1 in E1'. rewrite E2 in E2'. injection E1' as <-. injection E2' as <-.
  pose proof (K 1%nat 0%nat ltac:(simpl; lia) ltac:(cbv; lia)) as A.
  pose proof (K' 0%nat 0%nat 1%nat ltac:(simpl; lia) ltac:(lia) ltac:(cbv; lia)) as A'.
  change (Z.of_nat (0 * length pts + 1)) with 1%Z in A. change (Z.of_nat (0 * dims g35 + 1)) with 1%Z in A'.
  rewrite A in A'.
  destruct (C13_affine_gradient _ _ _ _ _ _ _ [3 / 10; 1 / 10] 0%nat [1; 3] 0 SU eq_refl ltac:(lia) v35_affine) as (M0 & G0 & V0).
  destruct (C13_affine_gradient _ _ _ _ _ _ _ [1 / 10; 1 / 10] 0%nat [1; 3] 0 SU eq_refl ltac:(lia) v35_affine) as (M1 & G1 & V1).
  assert (N : Ms = [M0; M1]).
  { clear - E2 G0 G1. unfold gradient, get_weights_gradient in *. cbn [pts mapM] in *.
    destruct (find_simplex t [3 / 10; 1 / 10]); [|discriminate]. destruct (find_simplex t [1 / 10; 1 / 10]); [|discriminate].
    cbn [bind mapM] in *. destruct (weights_gradient1 t a); [|discriminate]. destruct (weights_gradient1 t a0); [|discriminate].
    cbn [bind mapM fst] in *. destruct (gradient_of t a1); [|discriminate]. destruct (gradient_of t a2); [|discriminate].
    cbn [bind] in *. congruence. }
  rewrite N in A'. cbn [nth] in A'. rewrite V0, V1 in A' by (cbv; lia). unfold coordinate in A'; simpl in A'. lra.
Qed.
Print Assumptions C13_docstring_reshape_refuted.

(** ** C14 *)

(** What can happen to a wrapper between two calls. *)
Inductive tf_op : Type :=
| Assign (v : mat)          (* the variable is assigned *)
| SetProject (b : bool)     (* wrapper.project = b *)
| AskGradient (p : list vec).    (* gradient is evaluated (writes into the wrapped object) *)
Definition tf_step (T : tf_tri) (op : tf_op) : tf_tri :=
  match op with
  | Assign v => tf_assign T v
  | SetProject b => tf_set_project T b
  | AskGradient p => snd (tf_gradient T p)
  end.
(** The parameters and the flag in force after the operations. *)
Fixpoint last_values (v : mat) (ops : list tf_op) : mat :=
  match ops with [] => v | Assign v' :: t => last_values v' t | _ :: t => last_values v t end.
Fixpoint last_project (b : bool) (ops : list tf_op) : bool :=
  match ops with [] => b | SetProject b' :: t => last_project b' t | _ :: t => last_project b t end.

(** After any history the wrapper computes what a fresh numpy triangulation
    with the current values and flag computes, and the same gradients. *)
Theorem C14_tensorflow_equals_numpy : forall dl inv g values project T ops,
  make_tf_tri dl inv g values project = Ok T ->
  let v := last_values values ops in
  let b := last_project project ops in
  length v = length values ->
  exists t, make_tri dl inv g v b = Ok t /\
    forall points,
      tf_eval (fold_left tf_step ops T) points = tri_eval t points /\
      fst (tf_gradient (fold_left tf_step ops T) points) = gradient t points.
Proof.
  intros dl inv g values project T ops E v b L.
  unfold make_tf_tri, make_tri in E. destruct (_ =? _)%Z eqn:EN; [|discriminate].
  destruct (match limits g with [_] => _ | _ => _ end) as [D|] eqn:ED; [|discriminate]. cbn [bind] in E.
  destruct (simplex_indices g D) as [us|] eqn:ES; [|discriminate]. cbn [bind] in E.
  destruct (mapM (hyperplane inv g) us) as [hs|] eqn:EH; [|discriminate]. cbn [bind] in E. injection E as <-.
  exists (Tri g v b D us hs). split.
  { unfold make_tri. rewrite L, EN, ED. cbn [bind]. rewrite ES. cbn [bind]. now rewrite EH. }
  assert (INV : forall ops vv bb pp, exists pp',
      fold_left tf_step ops (TfTri vv (Tri g pp bb D us hs)) =
      TfTri (last_values vv ops) (Tri g pp' (last_project bb ops) D us hs)).
  { clear. induction ops as [|op ops IH]; intros vv bb pp; [now exists pp|]. destruct op; cbn; apply IH. }
  destruct (INV ops values project values) as (pp' & ->). fold v b. intros points. split; [|reflexivity].
  unfold tf_eval, tri_eval. induction points as [|p ps IH]; [reflexivity|]. cbn [mapM].
  rewrite IH. clear IH. f_equal.
  unfold tf_eval1, tri_eval1, tf_get_hyperplanes, get_weights. cbn [tf_inner tf_var t_grid].
  change (find_simplex (Tri g pp' b D us hs) p) with (find_simplex (Tri g v b D us hs) p).
  destruct (find_simplex _ p) as [id|]; [|reflexivity]. cbn [bind].
  change (simplices (Tri g pp' b D us hs) id) with (simplices (Tri g v b D us hs) id).
  destruct (simplices _ id) as [sv|]; [|reflexivity]. cbn [bind].
  destruct (py_nth sv 0) as [o|]; [|reflexivity]. cbn [bind].
  destruct (index_to_state g o) as [or|]; [|reflexivity]. cbn [bind t_hyper t_dl].
  destruct (py_nth hs _) as [H|]; [|reflexivity]. cbn [bind t_project fst snd t_params].
  reflexivity.
Qed.
Print Assumptions C14_tensorflow_equals_numpy.

Example C14_example : exists T t,
  make_tf_tri dl2 inv2 g35 v35 false = Ok T /\
  let ops := [AskGradient [[0; 0]]; Assign (map (vscale 2) v35); SetProject true] in
  make_tri dl2 inv2 g35 (map (vscale 2) v35) true = Ok t /\
  tf_eval (fold_left tf_step ops T) [[3 / 10; 1 / 10]] = tri_eval t [[3 / 10; 1 / 10]].
Proof.
  destruct (t35 false) as (t & SU). pose proof (su_made _ _ _ _ _ _ _ SU) as E.
  assert (ET : make_tf_tri dl2 inv2 g35 v35 false = Ok (TfTri v35 t)) by (unfold make_tf_tri; now rewrite E).
  destruct (C14_tensorflow_equals_numpy _ _ _ _ _ _ [AskGradient [[0; 0]]; Assign (map (vscale 2) v35); SetProject true] ET)
    as (t' & E' & K).
  { cbn. now rewrite map_length. }
  exists (TfTri v35 t), t'. split; auto. split; [exact E'|]. apply K.
Qed.

(** ** C61 *)
Theorem C61_gradient_by_index : forall dl inv g values m project t points,
  setup dl inv g values m project t -> Forall (fun x => length x = dims g) points ->
  exists ids B after,
    mapM (find_simplex t) points = Ok ids /\
    gradient_parameter_derivative t (ByPoints points) = Ok (B, []) /\
    gradient_parameter_derivative t (ByIndices ids) = Ok (B, after) /\
    (* the caller's array afterwards: ids modulo the simplices per cell *)
    (exists per_cell, nsimplex t = (per_cell * nrectangles g)%Z /\ after = map (fun id => id mod per_cell)%Z ids) /\
    (forall pts is, gradient_parameter_derivative t (ByBoth pts is) = Err TypeError) /\
    gradient_parameter_derivative t ByNone = Err TypeError.
Proof.
  intros dl inv g values m project t points SU F.
  destruct (grad_all dl inv g values m project t SU points F) as (ids & ws & Ms & E1 & E2 & _).
  unfold gradient_parameter_derivative, get_weights_gradient. rewrite E1. cbn [bind]. rewrite E2. cbn [bind fst snd].
  exists ids. eexists. eexists. split; [reflexivity|]. split; [reflexivity|]. rewrite E2. cbn [bind fst snd].
  split; [reflexivity|]. split; [|split; reflexivity].
  exists (dl_nsimplex (t_dl t)). split; [|reflexivity]. unfold nsimplex.
  destruct (setup_wf _ _ _ _ _ _ _ SU) as (W & _). now rewrite (wf_grid _ _ W).
Qed.
Print Assumptions C61_gradient_by_index.

(** The caller's array is not left alone: ids are reduced modulo the number of
    simplices of one cell. *)
Definition indices_untouched : Prop :=
  forall dl inv g values m project t ids B after,
  setup dl inv g values m project t ->
  gradient_parameter_derivative t (ByIndices ids) = Ok (B, after) -> after = ids.

Theorem C61_indices_untouched_refuted : ~ indices_untouched.
Proof.
  intros H. destruct (t35 false) as (t & SU). pose (pts := [[9; 9]] : list (list R)).
  assert (F : Forall (fun x => length x = dims g35) pts) by (repeat constructor).
  destruct (C61_gradient_by_index _ _ _ _ _ _ _ _ SU F) as (ids & B & after & E1 & _ & E2 & _).
  pose proof (H _ _ _ _ _ _ _ _ _ _ SU E2) as ->.
  unfold gradient_parameter_derivative, get_weights_gradient in E2.
  destruct (mapM (weights_gradient1 t) ids) as [ws|]; [|discriminate]. cbn [bind fst snd] in E2.
  injection E2 as _ E2.
  (* the id of the last cell is at least 14, its remainder is below 2 *)
  destruct (setup_wf _ _ _ _ _ _ _ SU) as (W & _).
  destruct (find_simplex_ok g35 g35_valid t W [9; 9] eq_refl) as (id & s & H' & Es & _ & EF & _).
  assert (NS : dl_nsimplex (t_dl t) = 2%Z).
  { pose proof (su_made _ _ _ _ _ _ _ SU) as E. unfold make_tri in E. 
    destruct (_ =? _)%Z; [|discriminate]. cbn [limits g35 bind] in E.
    destruct (simplex_indices _ _); [|discriminate]. cbn [bind] in E. destruct (mapM (hyperplane inv2 g35) _); [|discriminate].
    injection E as <-. reflexivity. }
  assert (RV : ravel (cell_of g35 [9; 9]) (map (fun n => n - 1)%Z (num_points g35)) = 7%Z).
  { unfold cell_of. cbn [limits num_points g35 map3 fst snd]. 
    rewrite (floorR_unique _ 18), (floorR_unique _ 20); [reflexivity| |]; simpl; lra. }
  rewrite RV in EF. unfold pts in E1. cbn [mapM] in E1. rewrite EF in E1. cbn [bind] in E1. injection E1 as <-.
  cbn [map] in E2. injection E2 as E2. rewrite NS in E2.
  match type of E2 with (?x mod 2)%Z = _ => pose proof (Z.mod_pos_bound x 2) end. lia.
Qed.
Print Assumptions C61_indices_untouched_refuted.
