(** Proofs about policy iteration. *)
From Coq Require Import Reals List Bool Arith ZArith Lia Lra.
From Verif Require Import Prelude NumModel NumProofs GridModel GridSpec SparseSpec GridProofs TriModel TriSpec
  TriProofs TriProofs2 SafeModel CertModel ListFacts Bellman RLModel RLSpec.
Import ListNotations.
Local Open Scope nat_scope.
Local Open Scope R_scope.

Definition interp (t : tri) (f : nat -> R) (x : list R) : R :=
  match get_weights t x with
  | Ok (w, verts) => combine_at w (fun i => f (Z.to_nat i)) verts
  | Err _ => 0
  end.
Definition look (v : list R) (k : nat) : R := nth k v 0.
Definition rows_of (v : list R) : list (list R) := map (fun x => [x]) v.

Lemma setup_rows dl inv g values m project t rows m' : TriSpec.setup dl inv g values m project t ->
  Z.of_nat (length rows) = nindex g -> columns m' rows ->
  TriSpec.setup dl inv g rows m' project (with_params t rows).
Proof.
  intros SU TV CR. pose proof (su_made _ _ _ _ _ _ _ SU) as M.
  constructor; try apply SU; auto.
  unfold make_tri in *. destruct (_ =? _)%Z; [|discriminate].
  rewrite TV, Z.eqb_refl.
  destruct (match GridModel.limits g with [_] => _ | _ => _ end) as [D|]; [|discriminate]. cbn [bind] in *.
  destruct (simplex_indices g D); [|discriminate]. cbn [bind] in *.
  destruct (mapM (hyperplane inv g) _); [|discriminate]. cbn [bind] in *. injection M as <-. reflexivity.
Qed.
Lemma setup_params dl inv g values m project t v : TriSpec.setup dl inv g values m project t ->
  table g v -> TriSpec.setup dl inv g (rows_of v) 1 project (with_params t (rows_of v)).
Proof.
  intros SU TV. apply (setup_rows _ _ _ _ _ _ _ _ _ SU).
  - unfold rows_of. now rewrite map_length.
  - unfold columns, rows_of. apply Forall_forall. intros r Hr. apply in_map_iff in Hr as (x & <- & _). reflexivity.
Qed.

Lemma tf_is_tri t rows x : tf_eval1 (TfTri rows t) x = tri_eval1 (with_params t rows) x.
Proof.
  unfold tf_eval1, tri_eval1, tf_get_hyperplanes, get_weights. cbn [tf_inner tf_var].
    change (find_simplex (with_params t rows) x) with (find_simplex t x).
    destruct (find_simplex t x) as [i|]; [|reflexivity]. cbn [bind].
    change (simplices (with_params t rows) i) with (simplices t i).
    destruct (simplices t i) as [sm|]; [|reflexivity]. cbn [bind].
    destruct (py_nth sm 0); [|reflexivity]. cbn [bind].
    change (t_grid (with_params t rows)) with (t_grid t).
    destruct (index_to_state _ _); [|reflexivity]. cbn [bind].
    change (t_dl (with_params t rows)) with (t_dl t).
    change (t_hyper (with_params t rows)) with (t_hyper t).
    destruct (py_nth (t_hyper t) _); [|reflexivity]. cbn [bind]. reflexivity.
Qed.

Lemma mapM_seq {A B} (f : A -> res B) (l : list A) d : forall h,
  (forall k, (k < length l)%nat -> f (nth k l d) = Ok (h k)) -> mapM f l = Ok (map h (seq 0 (length l))).
Proof.
  induction l as [|p l IH]; intros h H; auto.
  cbn [mapM]. pose proof (H 0%nat ltac:(simpl; lia)) as H0. cbn [nth] in H0. rewrite H0. cbn [bind].
  rewrite (IH (fun k => h (S k))). 2:{ intros k Hk. apply (H (S k)). simpl; lia. }
  cbn [bind length seq map]. rewrite <- seq_shift, map_map. reflexivity.
Qed.

Section Learner.
Variables (dl : list (list R) -> delaunay) (inv : list (list R) -> res (list (list R))) (g : grid)
  (values : list (list R)) (m : nat) (project : bool) (t : tri).
Hypothesis SU : TriSpec.setup dl inv g values m project t.

Lemma t_grid_g : t_grid t = g.
Proof using SU. destruct (setup_wf _ _ _ _ _ _ _ SU) as (W & _). apply (wf_grid _ _ W). Qed.

Lemma value_ok v x : table g v -> length x = dims g ->
  tf_eval1 (TfTri (rows_of v) t) x = Ok [interp t (look v) x].
Proof using SU.
  intros TV L. pose proof (setup_params _ _ _ _ _ _ _ v SU TV) as SV.
  destruct (find _ _ _ _ _ _ _ SV x L) as (id & verts & vp & w & G & c & q & y & r & Lo).
  destruct (eval_located _ _ _ _ _ _ _ SV _ _ _ _ _ _ _ _ _ _ Lo) as (out & E & LE & V1).
  pose proof (lo_weights _ _ _ _ _ _ _ _ _ _ _ _ Lo) as EW.
  change (get_weights (with_params t (rows_of v)) x) with (get_weights t x) in EW.
  rewrite tf_is_tri, E. destruct out as [|o [|]]; try discriminate. f_equal. f_equal.
  specialize (V1 0%nat ltac:(lia)). unfold coordinate in V1; simpl in V1. rewrite V1.
  unfold interp. rewrite EW. unfold combine_at. apply sumn_ext. intros i Hi.
  rewrite (lo_len _ _ _ _ _ _ _ _ _ _ _ _ Lo) in Hi.
  f_equal. unfold value_at, rows_of, look.
  pose proof (lo_valid _ _ _ _ _ _ _ _ _ _ _ _ Lo) as FV. rewrite Forall_forall in FV.
  specialize (FV (nth i verts 0%Z)).
  rewrite (nth_map_lt _ _ _ 0); [reflexivity|].
  unfold table in TV. assert (In (nth i verts 0%Z) verts) by (apply nth_In; rewrite (lo_len _ _ _ _ _ _ _ _ _ _ _ _ Lo); lia).
  specialize (FV H). lia.
Qed.

Lemma weights_at x : length x = dims g -> exists w verts,
  get_weights t x = Ok (w, verts) /\ length w = S (dims g) /\ length verts = S (dims g) /\
  sumn (S (dims g)) (coordinate w) = 1 /\ Forall (fun i => 0 <= i < nindex g)%Z verts.
Proof using SU.
  intros L. destruct (find _ _ _ _ _ _ _ SU x L) as (id & verts & vp & w & G & c & q & y & r & Lo).
  exists w, verts. destruct Lo. repeat (split; [assumption|]). assumption.
Qed.

Lemma interp_diff u v x D c : length x = dims g -> weights_bounded t c x ->
  (forall k, (Z.of_nat k < nindex g)%Z -> Rabs (u k - v k) <= D) ->
  Rabs (interp t u x - interp t v x) <= c * D.
Proof using SU.
  intros L (w & verts & E & B) H. unfold interp. rewrite E.
  destruct (weights_at x L) as (w' & verts' & E' & Lw & Lv & _ & F). rewrite E in E'. injection E' as <- <-.
  unfold combine_at. rewrite <- sumn_minus.
  eapply Rle_trans; [apply sumn_abs|].
  assert (D0 : 0 <= D).
  { pose proof (nindex_pos g (su_grid _ _ _ _ _ _ _ SU)) as NP. specialize (H 0%nat ltac:(lia)).
    pose proof (Rabs_pos (u 0%nat - v 0%nat)). lra. }
  apply Rle_trans with (sumn (length verts) (fun i => Rabs (coordinate w i)) * D).
  - rewrite <- sumn_scal_r. apply sumn_le. intros i Hi. rewrite <- Rmult_minus_distr_l, Rabs_mult.
    apply Rmult_le_compat_l; [apply Rabs_pos|]. apply H.
    rewrite Forall_forall in F. specialize (F (nth i verts 0%Z) (nth_In _ _ Hi)). lia.
  - apply Rmult_le_compat_r; auto. rewrite Lv, <- Lw. exact B.
Qed.

Lemma interp_mono u v x : length x = dims g -> weights_nonnegative t x ->
  (forall k, (Z.of_nat k < nindex g)%Z -> u k <= v k) -> interp t u x <= interp t v x.
Proof using SU.
  intros L (w & verts & E & B) H. unfold interp. rewrite E.
  destruct (weights_at x L) as (w' & verts' & E' & Lw & Lv & _ & F). rewrite E in E'. injection E' as <- <-.
  unfold combine_at. apply sumn_le. intros i Hi. apply Rmult_le_compat_l; [apply B; lia|].
  apply H. rewrite Forall_forall in F. specialize (F (nth i verts 0%Z) (nth_In _ _ Hi)). lia.
Qed.

Lemma nonnegative_bounded x : length x = dims g -> weights_nonnegative t x -> weights_bounded t 1 x.
Proof using SU.
  intros L (w & verts & E & B). exists w, verts. split; auto.
  destruct (weights_at x L) as (w' & verts' & E' & Lw & Lv & S1 & F). rewrite E in E'. injection E' as <- <-.
  rewrite Lw. rewrite (sumn_ext _ _ (coordinate w)); [lra|].
  intros i Hi. apply Rabs_pos_eq. apply B. lia.
Qed.

Lemma interp_linear u v a b x : interp t (fun k => a * u k + b * v k) x = a * interp t u x + b * interp t v x.
Proof using.
  unfold interp. destruct (get_weights t x) as [[w verts]|]; [|lra]. unfold combine_at.
  rewrite <- !sumn_scal, <- sumn_plus. apply sumn_ext. intros. lra.
Qed.

Lemma interp_ext u v x : length x = dims g -> (forall k, (Z.of_nat k < nindex g)%Z -> u k = v k) ->
  interp t u x = interp t v x.
Proof using SU.
  intros L H. unfold interp. destruct (weights_at x L) as (w & verts & E & Lw & Lv & _ & F). rewrite E.
  unfold combine_at. apply sumn_ext. intros i Hi. f_equal. apply H.
  rewrite Forall_forall in F. specialize (F (nth i verts 0%Z) (nth_In _ _ Hi)). lia.
Qed.

(** Inside, the weights are convex. *)
Lemma inside_nonnegative x : length x = dims g -> well_inside g x -> weights_nonnegative t x.
Proof using SU.
  intros L WI. destruct (find _ _ _ _ _ _ _ SU x L) as (id & verts & vp & w & G & c & q & y & r & Lo).
  exists w, verts. split; [apply (lo_weights _ _ _ _ _ _ _ _ _ _ _ _ Lo)|].
  intros k Hk. rewrite (lo_wlen _ _ _ _ _ _ _ _ _ _ _ _ Lo) in Hk.
  eapply weights_nonneg; eauto.
Qed.
(** At the grid points too. *)
Lemma vertex_nonnegative x i : sumn (dims g) (fun j => 2 * EPS / spacing g j) < 1 ->
  index_to_state g i = Ok x -> weights_nonnegative t x.
Proof using SU.
  intros FM Ei. pose proof (su_grid _ _ _ _ _ _ _ SU) as V.
  pose proof (su_coarse _ _ _ _ _ _ _ SU) as C.
  pose proof (index_vertex g V i x Ei) as PV. assert (L : length x = dims g) by apply PV.
  destruct (find _ _ _ _ _ _ _ SU x L) as (id & verts & vp & w & G & c & q & y & r & Lo).
  destruct (setup_wf _ _ _ _ _ _ _ SU) as (W & _).
  exists w, verts. split; [apply (lo_weights _ _ _ _ _ _ _ _ _ _ _ _ Lo)|].
  assert (K : exists k, (k < S (dims g))%nat /\ nth k verts 0%Z = i) by (eapply vertex_in_simplex; eauto).
  destruct K as (k & Hk & Ek).
  assert (IN : inside g x).
  { destruct PV as [_ PV]. intros j Hj. destruct (PV j Hj) as (kk & Hkk & ->).
    pose proof (spacing_pos g V j Hj). pose proof (spacing_width g V j Hj).
    assert (0 <= IZR kk <= IZR (npts g j - 1)) by (split; apply IZR_le; lia). nra. }
  assert (Y : y = x) by (apply (query_inside g (t_project t)); auto; exact (lo_query _ _ _ _ _ _ _ _ _ _ _ _ Lo)).
  destruct (mapM_nth_ok _ _ _ 0%Z [] (lo_states _ _ _ _ _ _ _ _ _ _ _ _ Lo)) as [Lvp NV].
  rewrite (lo_len _ _ _ _ _ _ _ _ _ _ _ _ Lo) in Lvp, NV. pose proof (NV k Hk) as Es. rewrite Ek, Ei in Es. injection Es as Es.
  intros k' Hk'. rewrite (lo_wlen _ _ _ _ _ _ _ _ _ _ _ _ Lo) in Hk'.
  assert (WK : coordinate w k' = delta k' k).
  { apply (weights_are g t _ _ _ _ _ _ _ _ _ _ (fun k' => delta k' k) Lo); auto.
    - rewrite (sumn_ext (S (dims g)) _ (fun i => delta i k * 1)) by (intros; lra). now rewrite sumn_delta.
    - intros j Hj. rewrite sumn_delta by auto. unfold entry. rewrite <- Es, Y. reflexivity. }
  rewrite WK. unfold delta. destruct (_ =? _)%nat; lra.
Qed.
End Learner.

(** ** The Bellman operator of a learner *)
Section Operator.
Variables (dl : list (list R) -> delaunay) (inv : list (list R) -> res (list (list R))) (g : grid)
  (project : bool) (t : tri) (P : learner).
Hypothesis LN : learns dl inv g project t P.

Definition N : nat := Z.to_nat (nindex g).
Definition Top (u : nat -> R) (k : nat) : R :=
  rl_reward P (nth k (all_points g) []) (rl_policy P (nth k (all_points g) [])) + rl_gamma P *
   interp t u (successor P (rl_policy P (nth k (all_points g) [])) (nth k (all_points g) [])).

Lemma ln_grid : valid_grid g.
Proof using LN. destruct (ln_tri _ _ _ _ _ _ LN) as (v & SU). apply SU. Qed.
Lemma inner_t : tf_inner (rl_value P) = t.
Proof using LN. destruct (ln_value _ _ _ _ _ _ LN) as (v & -> & _). reflexivity. Qed.
Lemma grid_of : t_grid t = g.
Proof using LN. destruct (ln_tri _ _ _ _ _ _ LN) as (v & SU). eapply t_grid_g; eauto. Qed.
Lemma space_of : state_space P = all_points g.
Proof using LN. unfold state_space. now rewrite inner_t, grid_of. Qed.
Lemma points_N : length (all_points g) = N.
Proof using LN. pose proof (all_points_length g ln_grid). unfold N. lia. Qed.
Lemma N_index k : (k < N)%nat -> (Z.of_nat k < nindex g)%Z.
Proof using. unfold N. lia. Qed.
Lemma table_N v : table g v <-> length v = N.
Proof using LN.
  unfold table, N. pose proof (nindex_pos g ln_grid). split; intros; lia.
Qed.
Lemma st_index k : (k < N)%nat -> index_to_state g (Z.of_nat k) = Ok (nth k (all_points g) []).
Proof using LN.
  intros Hk. rewrite (all_points_nth g ln_grid) by (unfold N in Hk; lia). now rewrite Nat2Z.id.
Qed.
Lemma st_vertex k : (k < N)%nat -> is_vertex g (nth k (all_points g) []).
Proof using LN. intros Hk. eapply index_vertex; [apply ln_grid|]. now apply st_index. Qed.
Lemma index_st k s : index_to_state g (Z.of_nat k) = Ok s -> (k < N)%nat /\ s = nth k (all_points g) [].
Proof using LN.
  intros E. pose proof (index_range g _ _ E) as Rg. assert (Hk : (k < N)%nat) by (unfold N; lia). split; auto.
  rewrite st_index in E by auto. congruence.
Qed.
Lemma nx_len k : (k < N)%nat ->
  length (successor P (rl_policy P (nth k (all_points g) [])) (nth k (all_points g) [])) = dims g.
Proof using LN. intros Hk. apply (ln_next _ _ _ _ _ _ LN). now apply st_vertex. Qed.

Lemma value_state v x : table g v -> length x = dims g ->
  value_at_state (TfTri (rows_of v) t) x = Ok (interp t (look v) x).
Proof using LN.
  intros TV L. destruct (ln_tri _ _ _ _ _ _ LN) as (v0 & SU).
  unfold value_at_state. rewrite (value_ok _ _ _ _ _ _ _ SU v x TV L). reflexivity.
Qed.

Lemma bellman_fixed v : bellman P g v <-> length v = N /\ fixed N Top (look v).
Proof using LN.
  unfold bellman. rewrite table_N. destruct (ln_tri _ _ _ _ _ _ LN) as (v0 & SU). split.
  - intros (L & B). split; auto. intros k Hk. destruct (B k _ (st_index k Hk)) as (e & E & F).
    unfold tf_assign, tf_eval in E. rewrite inner_t in E. cbn [mapM] in E. fold (rows_of v) in E.
    rewrite (value_ok _ _ _ _ _ _ _ SU) in E by (auto using nx_len; now apply table_N).
    cbn [bind] in E. injection E as <-. unfold Top. unfold look at 2. lra.
  - intros (L & F). split; auto. intros k s E. destruct (index_st k s E) as (Hk & ->).
    exists (interp t (look v) (successor P (rl_policy P (nth k (all_points g) [])) (nth k (all_points g) []))).
    unfold tf_assign, tf_eval. rewrite inner_t. cbn [mapM]. fold (rows_of v).
    rewrite (value_ok _ _ _ _ _ _ _ SU) by (auto using nx_len; now apply table_N). cbn [bind]. split; auto.
    specialize (F k Hk). unfold Top in F. unfold look in F at 2. lra.
Qed.

Lemma future_ok v k : table g v -> rl_value P = TfTri (rows_of v) t -> (k < N)%nat ->
  future_value P None None None (nth k (all_points g) []) = Ok (Top (look v) k).
Proof using LN.
  intros TV EV Hk. unfold future_value, Top. rewrite EV.
  pose proof (nx_len k Hk) as L. unfold successor in *.
  destruct (rl_dynamics P _ _); rewrite value_state by auto; reflexivity.
Qed.

Lemma mapM_points {A} (f : list R -> res A) h : (forall k, (k < N)%nat -> f (nth k (all_points g) []) = Ok (h k)) ->
  mapM f (all_points g) = Ok (map h (seq 0 N)).
Proof using LN. rewrite <- points_N. apply mapM_seq. Qed.
Lemma look_seq h k : (k < N)%nat -> look (map h (seq 0 N)) k = h k.
Proof using. intros Hk. unfold look. rewrite (nth_map_lt _ _ _ 0%nat) by now rewrite seq_length. now rewrite seq_nth. Qed.

Lemma step_ok v : table g v -> rl_value P = TfTri (rows_of v) t ->
  value_iteration P = Ok (with_values P (map (Top (look v)) (seq 0 N))).
Proof using LN.
  intros TV EV. unfold value_iteration. rewrite space_of.
  rewrite (mapM_points _ (Top (look v))); [reflexivity|]. intros k Hk. now apply future_ok.
Qed.

Lemma contraction c : 0 <= rl_gamma P ->
  (forall s, is_vertex g s -> weights_bounded t c (successor P (rl_policy P s) s)) ->
  forall u v D, (forall k, (k < N)%nat -> Rabs (u k - v k) <= D) ->
    forall k, (k < N)%nat -> Rabs (Top u k - Top v k) <= rl_gamma P * c * D.
Proof using LN.
  intros G0 B u v D H k Hk. destruct (ln_tri _ _ _ _ _ _ LN) as (v0 & SU). unfold Top.
  match goal with |- Rabs (?r + ?g * ?x - (?r + ?g * ?y)) <= _ =>
    replace (r + g * x - (r + g * y)) with (g * (x - y)) by ring end.
  rewrite Rabs_mult, (Rabs_pos_eq (rl_gamma P)), Rmult_assoc by auto. apply Rmult_le_compat_l; auto.
  eapply interp_diff; eauto using nx_len, st_vertex. intros i Hi. apply H. unfold N. lia.
Qed.
Lemma monotone : 0 <= rl_gamma P ->
  (forall s, is_vertex g s -> weights_nonnegative t (successor P (rl_policy P s) s)) ->
  forall u v, (forall k, (k < N)%nat -> u k <= v k) -> forall k, (k < N)%nat -> Top u k <= Top v k.
Proof using LN.
  intros G0 B u v H k Hk. destruct (ln_tri _ _ _ _ _ _ LN) as (v0 & SU). unfold Top.
  apply Rplus_le_compat_l. apply Rmult_le_compat_l; auto.
  eapply interp_mono; eauto using nx_len, st_vertex. intros i Hi. apply H. unfold N. lia.
Qed.
Lemma nonneg_bounded :
  (forall s, is_vertex g s -> weights_nonnegative t (successor P (rl_policy P s) s)) ->
  forall s, is_vertex g s -> weights_bounded t 1 (successor P (rl_policy P s) s).
Proof using LN.
  intros B s Hs. destruct (ln_tri _ _ _ _ _ _ LN) as (v0 & SU).
  eapply nonnegative_bounded; eauto. now apply (ln_next _ _ _ _ _ _ LN).
Qed.
End Operator.

Lemma learns_with dl inv g project t P v : learns dl inv g project t P -> table g v ->
  learns dl inv g project t (with_values P v).
Proof.
  intros LN TV. constructor.
  - apply LN.
  - exists v. split; auto. unfold with_values, tf_assign. cbn [rl_value]. now rewrite (inner_t _ _ _ _ _ _ LN).
  - apply LN.
Qed.
Lemma rl_value_with dl inv g project t P v : learns dl inv g project t P ->
  rl_value (with_values P v) = TfTri (rows_of v) t.
Proof. intros LN. unfold with_values, tf_assign. cbn [rl_value]. now rewrite (inner_t _ _ _ _ _ _ LN). Qed.

Lemma iterations_ok dl inv g project t P v0 n : learns dl inv g project t P ->
  rl_value P = TfTri (rows_of v0) t -> table g v0 ->
  exists vn, value_iterations n P = Ok (with_values P vn) /\ table g vn /\
    forall k, (k < N g)%nat -> look vn k = iter (Top g t P) n (look v0) k.
Proof.
  intros LN E TV. induction n as [|n IH].
  - exists v0. split; [|split; auto]. cbn [value_iterations]. f_equal. destruct P. cbn in *. subst.
    reflexivity.
  - destruct IH as (vn & En & Tn & Kn).
    exists (map (Top g t (with_values P vn) (look vn)) (seq 0 (N g))). split; [|split].
    + cbn [value_iterations]. rewrite En. cbn [bind].
      rewrite (step_ok _ _ _ _ _ _ (learns_with _ _ _ _ _ _ vn LN Tn) vn Tn); [|eapply rl_value_with; eauto].
      reflexivity.
    + eapply table_N; eauto. now rewrite map_length, seq_length.
    + intros k Hk. rewrite look_seq by auto. cbn [iter].
      change (Top g t (with_values P vn) (look vn) k) with (Top g t P (look vn) k).
      unfold Top. f_equal. f_equal. destruct (ln_tri _ _ _ _ _ _ LN) as (w0 & SU).
      eapply interp_ext; eauto using nx_len. intros i Hi. apply Kn. unfold N. lia.
Qed.

Lemma table_ext n u v : length u = n -> length v = n -> (forall k, (k < n)%nat -> look u k = look v k) -> u = v.
Proof. intros Lu Lv H. apply (nth_ext _ _ 0 0); [congruence|]. intros k Hk. apply H. lia. Qed.

Lemma sum_look v : sum v = sumn (length v) (look v).
Proof.
  induction v as [|x v IH]; [reflexivity|]. cbn [sum fold_right length]. fold (sum v). rewrite IH, sumn_S_l. reflexivity.
Qed.
Lemma sumn_le_eq n f h : (forall k, (k < n)%nat -> f k <= h k) -> sumn n h <= sumn n f ->
  forall k, (k < n)%nat -> f k = h k.
Proof.
  induction n as [|n IH]; intros H S k Hk; [lia|]. cbn [sumn] in S.
  assert (A : sumn n f <= sumn n h) by (apply sumn_le; auto). pose proof (H n ltac:(lia)).
  destruct (Nat.eq_dec k n) as [->|]; [lra|]. apply IH; auto; [lra|lia].
Qed.

(** ** The linear program *)
Section LP.
Variables (dl : list (list R) -> delaunay) (inv : list (list R) -> res (list (list R))) (g : grid)
  (project : bool) (t : tri) (P : learner).
Hypothesis LN : learns dl inv g project t P.
Definition lp_rewards (P : learner) : list R := map (fun s => rl_reward P s (rl_policy P s)) (state_space P).

Lemma matrix_ok : exists M, parameter_derivative (tf_inner (rl_value P)) (map (mean_next P) (state_space P)) = Ok M /\
  forall v k, table g v -> (k < N g)%nat ->
    coo_dot M (fun i => nth (Z.to_nat i) v 0) (Z.of_nat k) =
    interp t (look v) (successor P (rl_policy P (nth k (all_points g) [])) (nth k (all_points g) [])).
Proof using LN.
  destruct (ln_tri _ _ _ _ _ _ LN) as (v0 & SU).
  rewrite (inner_t _ _ _ _ _ _ LN), (space_of _ _ _ _ _ _ LN).
  pose proof (points_N _ _ _ _ _ _ LN) as PN.
  assert (F : Forall (fun p => length p = dims g) (map (mean_next P) (all_points g))).
  { apply Forall_forall. intros p Hp. apply in_map_iff in Hp as (s & <- & Hs).
    destruct (In_nth _ _ [] Hs) as (k & Hk & <-). apply (nx_len _ _ _ _ _ _ LN). lia. }
  destruct (parameter_derivative_ok _ _ _ _ _ _ _ SU _ F) as (B & E & _). exists B. split; auto.
  intros v k TV Hk. pose proof (setup_params _ _ _ _ _ _ _ v SU TV) as SV.
  destruct (parameter_derivative_ok _ _ _ _ _ _ _ SV _ F) as (B' & E' & _ & _ & _ & K).
  change (parameter_derivative (with_params t (rows_of v)) (map (mean_next P) (all_points g)))
    with (parameter_derivative t (map (mean_next P) (all_points g))) in E'.
  rewrite E in E'. injection E' as <-.
  destruct (K k) as (out & EO & CO). { now rewrite map_length, PN. }
  rewrite (nth_map_lt _ _ _ []) in EO by now rewrite PN.
  specialize (CO 0%nat ltac:(lia)).
  assert (EX : forall f h r, (forall i, f i = h i) -> coo_dot B f r = coo_dot B h r).
  { intros f h r H. unfold coo_dot. f_equal. apply map_ext. intros a. destruct (_ =? _)%Z; auto. now rewrite H. }
  rewrite (EX _ (value_at (rows_of v) 0)).
  2:{ intros i. unfold value_at, rows_of. destruct (Nat.lt_ge_cases (Z.to_nat i) (length v)) as [H|H].
      - now rewrite (nth_map_lt _ _ _ 0).
      - rewrite (nth_overflow v) by lia. rewrite (nth_overflow (map _ v)) by (rewrite map_length; lia). reflexivity. }
  rewrite CO.
  pose proof (nx_len _ _ _ _ _ _ LN k Hk) as L.
  destruct (find _ _ _ _ _ _ _ SV _ L) as (id & verts & vp & w & G & c & q & y & r & Lo).
  destruct (eval_located _ _ _ _ _ _ _ SV _ _ _ _ _ _ _ _ _ _ Lo) as (out' & EO' & LO' & VO').
  change (mean_next P (nth k (all_points g) [])) with (successor P (rl_policy P (nth k (all_points g) [])) (nth k (all_points g) [])) in EO.
  rewrite EO' in EO. injection EO as <-. rewrite VO' by lia.
  pose proof (lo_weights _ _ _ _ _ _ _ _ _ _ _ _ Lo) as EW.
  change (get_weights (with_params t (rows_of v))) with (get_weights t) in EW.
  unfold interp. rewrite EW. unfold combine_at. apply sumn_ext. intros i Hi. f_equal.
  unfold value_at, rows_of, look. rewrite (nth_map_lt _ _ _ 0); [reflexivity|].
  pose proof (lo_valid _ _ _ _ _ _ _ _ _ _ _ _ Lo) as FV. rewrite Forall_forall in FV.
  specialize (FV (nth i verts 0%Z) (nth_In _ _ Hi)). unfold table in TV. lia.
Qed.

Lemma feasible_iff M v : parameter_derivative (tf_inner (rl_value P)) (map (mean_next P) (state_space P)) = Ok M ->
  (lp_feasible (lp_rewards P) (rl_gamma P) M v <->
   length v = N g /\ forall k, (k < N g)%nat -> look v k <= Top g t P (look v) k).
Proof using LN.
  intros EM. destruct matrix_ok as (M' & EM' & K). rewrite EM in EM'. injection EM' as <-.
  unfold lp_feasible, lp_rewards. rewrite map_length, (space_of _ _ _ _ _ _ LN), (points_N _ _ _ _ _ _ LN).
  assert (EQ : length v = N g -> forall k, (k < N g)%nat ->
    nth k (map (fun s : list R => rl_reward P s (rl_policy P s)) (all_points g)) 0 +
    rl_gamma P * coo_dot M (fun i : Z => nth (Z.to_nat i) v 0) (Z.of_nat k) = Top g t P (look v) k).
  { intros L k Hk. rewrite (nth_map_lt _ _ _ []) by (now rewrite (points_N _ _ _ _ _ _ LN)).
    rewrite (K v k) by (auto; now apply (table_N _ _ _ _ _ _ LN)). reflexivity. }
  split; intros (L & H); split; auto; intros k Hk; specialize (H k Hk); specialize (EQ L k Hk); change (nth k v 0) with (look v k) in *; lra.
Qed.

Hypothesis G : 0 <= rl_gamma P < 1.
Hypothesis W : forall s, is_vertex g s -> weights_nonnegative t (successor P (rl_policy P s) s).

Lemma q1 : 0 <= rl_gamma P * 1 < 1.
Proof using G. lra. Qed.
Lemma lp_iff M v : parameter_derivative (tf_inner (rl_value P)) (map (mean_next P) (state_space P)) = Ok M ->
  (lp_optimal (lp_rewards P) (rl_gamma P) M v <-> bellman P g v).
Proof using LN G W.
  intros EM. rewrite (bellman_fixed _ _ _ _ _ _ LN).
  pose proof (contraction _ _ _ _ _ _ LN 1 (proj1 G) (nonneg_bounded _ _ _ _ _ _ LN W)) as HT.
  pose proof (monotone _ _ _ _ _ _ LN (proj1 G) W) as HM.
  unfold lp_optimal. setoid_rewrite (feasible_iff M _ EM). split.
  - intros ((L & F) & O). split; auto.
    destruct (fixed_exists (N g) (Top g t P) _ q1 HT) as (w & Fw).
    set (wl := map w (seq 0 (N g))).
    assert (Lw : length wl = N g) by (unfold wl; now rewrite map_length, seq_length).
    assert (Ew : forall k, (k < N g)%nat -> look wl k = w k) by (intros; apply look_seq; auto).
    assert (Fwl : fixed (N g) (Top g t P) (look wl)).
    { intros k Hk. rewrite (T_ext _ _ _ HT _ w) by auto. rewrite Ew by auto. now apply Fw. }
    assert (S : sum wl <= sum v). { apply O. split; auto. intros k Hk. rewrite Fwl by auto. lra. }
    rewrite !sum_look, Lw, L in S.
    pose proof (below_fixed _ _ _ q1 HT HM (look v) (look wl) F Fwl) as B.
    pose proof (sumn_le_eq _ _ _ B S) as E.
    intros k Hk. rewrite (T_ext _ _ _ HT _ (look wl)) by auto. rewrite E by auto. now apply Fwl.
  - intros (L & F). split; [split; auto; intros k Hk; rewrite F by auto; lra|].
    intros v' (L' & F'). rewrite !sum_look, L, L'. apply sumn_le.
    apply (below_fixed _ _ _ q1 HT HM); auto.
Qed.
End LP.

(** ** Greedy policies *)
Lemma xargmax_from_spec l : forall best at_ i pre,
  length pre = i -> (at_ < i)%nat -> nth at_ pre None = best ->
  (forall j, (j < i)%nat -> xltb best (nth j pre None) = false) ->
  (forall j, (j < at_)%nat -> xltb (nth j pre None) best = true) ->
  let r := xargmax_from best at_ i l in
  let full := pre ++ l in
  (r < length full)%nat /\
  (forall j, (j < length full)%nat -> xltb (nth r full None) (nth j full None) = false) /\
  (forall j, (j < r)%nat -> xltb (nth j full None) (nth r full None) = true).
Proof.
  assert (TR1 : forall a b c, xltb a b = true -> xltb a c = false -> xltb b c = false).
  { intros [a|] [b|] [c|]; simpl; auto; try discriminate. unfold Rltb. repeat destruct Rlt_dec; auto; try discriminate; lra. }
  assert (TR2 : forall a b c, xltb b a = false -> xltb b c = true -> xltb a c = true).
  { intros [a|] [b|] [c|]; simpl; auto; try discriminate. unfold Rltb. repeat destruct Rlt_dec; auto; try discriminate; lra. }
  assert (IRR : forall a, xltb a a = false).
  { intros [a|]; simpl; auto. unfold Rltb. destruct Rlt_dec; auto; lra. }
  induction l as [|x l IH]; intros best at_ i pre Lp Ha Eb Hmax Hfst; cbn [xargmax_from].
  - cbv zeta. rewrite app_nil_r. split; [lia|]. rewrite Eb. split; auto. intros j Hj. apply Hmax. lia.
  - replace (pre ++ x :: l) with ((pre ++ [x]) ++ l) by now rewrite <- app_assoc.
    assert (L2 : length (pre ++ [x]) = S i) by (rewrite app_length; simpl; lia).
    destruct (xltb best x) eqn:E.
    + apply IH; auto.
      * rewrite app_nth2 by lia. now rewrite <- Lp, Nat.sub_diag.
      * intros j Hj. destruct (Nat.eq_dec j i) as [->|].
        -- rewrite app_nth2 by lia. now rewrite <- Lp, Nat.sub_diag.
        -- rewrite app_nth1 by lia. apply TR1 with best; auto. apply Hmax. lia.
      * intros j Hj. rewrite app_nth1 by lia. apply TR2 with best; auto.
    + apply IH; auto.
      * rewrite app_nth1 by lia. auto.
      * intros j Hj. destruct (Nat.eq_dec j i) as [->|].
        -- rewrite app_nth2 by lia. now rewrite <- Lp, Nat.sub_diag.
        -- rewrite app_nth1 by lia. apply Hmax. lia.
      * intros j Hj. rewrite app_nth1 by lia. auto.
Qed.
Lemma xargmax_spec l i : xargmax l = Ok i -> (i < length l)%nat /\
  (forall j, (j < length l)%nat -> xltb (nth i l None) (nth j l None) = false) /\
  (forall j, (j < i)%nat -> xltb (nth j l None) (nth i l None) = true).
Proof.
  destruct l as [|x l]; [discriminate|]. cbn [xargmax]. intros E. injection E as <-.
  apply (xargmax_from_spec l x 0 1 [x]); auto.
  - intros j Hj. assert (j = 0)%nat by lia. subst. cbn [nth]. destruct x; simpl; auto.
    unfold Rltb. destruct Rlt_dec; auto; lra.
  - intros; lia.
Qed.
Lemma xargmax_ok l : l <> [] -> exists i, xargmax l = Ok i.
Proof. destruct l; [contradiction|]. intros _. cbn. eauto. Qed.

Lemma mapM_ok_all {A B} (f : A -> res B) l : (forall x, In x l -> exists y, f x = Ok y) ->
  exists l', mapM f l = Ok l'.
Proof.
  induction l as [|a l IH]; intros H; [eexists; reflexivity|].
  destruct (H a (or_introl eq_refl)) as (y & E). destruct IH as (l' & E'). { intros x Hx. apply H. now right. }
  exists (y :: l'). cbn [mapM]. rewrite E. cbn [bind]. now rewrite E'.
Qed.

Definition slack_ok (constraint : option (list (list R) -> list R)) (n : nat) (a : list R) : Prop :=
  match constraint with None => True | Some f => length (f (repeat a n)) = n end.

Lemma option_values_spec P constraint states a col : option_values P constraint states a = Ok col ->
  length col = length states /\
  forall k, (k < length states)%nat -> exists q,
    future_value P None (Some a) None (nth k states []) = Ok q /\
    (allowed constraint (length states) a k -> nth k col None = Some q) /\
    (~ allowed constraint (length states) a k -> nth k col None = None).
Proof.
  unfold option_values. destruct (mapM _ states) as [vals|] eqn:E; [|discriminate]. cbn [bind].
  destruct (mapM_nth_ok _ _ _ [] 0 E) as [Lv NV].
  destruct constraint as [f|]; cbn [allowed].
  - destruct (Nat.eqb_spec (length (f (repeat a (length states)))) (length states)) as [L|]; [|discriminate].
    intros H. injection H as <-. rewrite map2_length. split; [lia|].
    intros k Hk. exists (nth k vals 0). split; auto.
    rewrite (nth_map2 _ _ _ _ 0 0) by lia. unfold Rltb. destruct Rlt_dec; split; auto; intros; exfalso; lra.
  - intros H. injection H as <-. rewrite map_length. split; auto.
    intros k Hk. exists (nth k vals 0). split; auto. rewrite (nth_map_lt _ _ _ 0) by lia.
    split; auto. intros F; now destruct F.
Qed.

Section Greedy.
Variables (P : learner) (gp : grid) (options : list (list R)) (constraint : option (list (list R) -> list R)).
Let n := length (all_points gp).

Lemma greedy_spec actions : discrete_policy_optimization P gp options constraint = Ok actions ->
  length actions = n /\
  forall k, (k < n)%nat -> exists i (q : nat -> R), (i < length options)%nat /\
    nth k actions [] = nth i options [] /\
    (forall j, (j < length options)%nat ->
       future_value P None (Some (nth j options [])) None (nth k (all_points gp) []) = Ok (q j)) /\
    ((exists j, (j < length options)%nat /\ allowed constraint n (nth j options []) k) ->
       allowed constraint n (nth i options []) k /\
       forall j, (j < length options)%nat -> allowed constraint n (nth j options []) k ->
         q j <= q i /\ ((j < i)%nat -> q j < q i)) /\
    ((forall j, (j < length options)%nat -> ~ allowed constraint n (nth j options []) k) -> i = 0%nat).
Proof using.
  unfold discrete_policy_optimization. destruct (mapM _ options) as [cols|] eqn:EC; [|discriminate]. cbn [bind].
  destruct (mapM_nth_ok _ _ _ [] [] EC) as [Lc NC]. intros EA.
  destruct (mapM_nth_ok _ _ _ 0%nat [] EA) as [La NA]. rewrite seq_length in La, NA. fold n in La, NA. split; auto.
  intros k Hk. specialize (NA k Hk). rewrite seq_nth in NA by auto. cbn [Nat.add] in NA.
  destruct (xargmax _) as [i|] eqn:EX; [|discriminate]. cbn [bind] in NA. injection NA as NA.
  destruct (xargmax_spec _ _ EX) as (Li & MX & FI). rewrite map_length, Lc in *.
  assert (COL : forall j, (j < length options)%nat -> exists q,
    future_value P None (Some (nth j options [])) None (nth k (all_points gp) []) = Ok q /\
    (allowed constraint n (nth j options []) k -> nth j (map (fun c => nth k c None) cols) None = Some q) /\
    (~ allowed constraint n (nth j options []) k -> nth j (map (fun c => nth k c None) cols) None = None)).
  { intros j Hj. destruct (option_values_spec _ _ _ _ _ (NC j Hj)) as (Lcol & KC).
    destruct (KC k Hk) as (q & A & B). exists q. split; auto. rewrite (nth_map_lt _ _ _ []) by lia. exact B. }
  set (q := fun j => match future_value P None (Some (nth j options [])) None (nth k (all_points gp) []) with Ok q => q | _ => 0 end).
  assert (Q : forall j, (j < length options)%nat ->
    future_value P None (Some (nth j options [])) None (nth k (all_points gp) []) = Ok (q j) /\
    (allowed constraint n (nth j options []) k -> nth j (map (fun c => nth k c None) cols) None = Some (q j)) /\
    (~ allowed constraint n (nth j options []) k -> nth j (map (fun c => nth k c None) cols) None = None)).
  { intros j Hj. unfold q. destruct (COL j Hj) as (q' & A & B). rewrite A. auto. }
  assert (DEC : forall a, allowed constraint n a k \/ ~ allowed constraint n a k).
  { intros a. unfold allowed. destruct constraint; [|auto]. destruct (Rle_dec 0 (nth k (l (repeat a n)) 0)); auto. }
  exists i, q. split; auto. split; auto. split; [intros j Hj; apply Q; auto|]. split.
  - intros (j0 & Hj0 & A0). 
    assert (AI : allowed constraint n (nth i options []) k).
    { destruct (DEC (nth i options [])) as [|NA']; auto. specialize (MX j0 ltac:(lia)).
      rewrite (proj2 (proj2 (Q i Li)) NA') in MX. rewrite (proj1 (proj2 (Q j0 Hj0)) A0) in MX. discriminate. }
    split; auto. intros j Hj AJ. specialize (MX j ltac:(lia)). specialize (FI j).
    pose proof (proj1 (proj2 (Q i Li)) AI) as QI. pose proof (proj1 (proj2 (Q j Hj)) AJ) as QJ.
    rewrite QI, QJ in MX, FI.
    cbn [xltb] in *. unfold Rltb in *. split.
    + destruct (Rlt_dec (q i) (q j)); [discriminate MX|]. lra.
    + intros H. specialize (FI H). destruct (Rlt_dec (q j) (q i)); [auto|discriminate FI].
  - intros H. destruct (Nat.eq_dec i 0) as [|NE]; auto. specialize (FI 0%nat ltac:(lia)).
    assert (H0 : (0 < length options)%nat) by lia. exfalso.
    rewrite (proj2 (proj2 (Q i Li)) (H i Li)) in FI. destruct (nth 0 _ None); discriminate.
Qed.

Lemma greedy_runs : options <> [] ->
  (forall k a, (k < n)%nat -> In a options -> exists q, future_value P None (Some a) None (nth k (all_points gp) []) = Ok q) ->
  (forall a, In a options -> slack_ok constraint n a) ->
  exists actions, discrete_policy_optimization P gp options constraint = Ok actions.
Proof using.
  intros NE HF HS. unfold discrete_policy_optimization.
  destruct (mapM_ok_all (option_values P constraint (all_points gp)) options) as (cols & EC).
  { intros a Ha. unfold option_values.
    destruct (mapM_ok_all (future_value P None (Some a) None) (all_points gp)) as (vals & EV).
    { intros s Hs. destruct (In_nth _ _ [] Hs) as (k & Hk & <-). apply HF; auto. }
    rewrite EV. cbn [bind]. specialize (HS a Ha). destruct constraint as [f|]; [|eauto].
    cbn [slack_ok] in HS. fold n. rewrite HS, Nat.eqb_refl. eauto. }
  rewrite EC. cbn [bind]. apply mapM_ok_all. intros k _.
  destruct (mapM_nth_ok _ _ _ [] [] EC) as [Lc _].
  destruct (xargmax_ok (map (fun c => nth k c None) cols)) as (i & E).
  { destruct cols; [|discriminate]. destruct options; [contradiction|discriminate]. }
  rewrite E. cbn [bind]. eauto.
Qed.
End Greedy.

Section Improve.
Variables (dl : list (list R) -> delaunay) (inv : list (list R) -> res (list (list R))) (g : grid)
  (project : bool) (t : tri) (P : learner) (p' : list R -> list R).
Hypothesis LN : learns dl inv g project t P.
Hypothesis LN' : learns dl inv g project t (with_policy P p').
Hypothesis G : 0 <= rl_gamma P < 1.
Hypothesis W' : forall s, is_vertex g s -> weights_nonnegative t (successor P (p' s) s).
Variables (v v' : list R) (options : list (list R)) (constraint : option (list (list R) -> list R))
  (actions : list (list R)).
Hypothesis EV : rl_value P = TfTri (rows_of v) t.
Hypothesis BV : bellman P g v.
Hypothesis BV' : bellman (with_policy P p') g v'.
Hypothesis D : discrete_policy_optimization P g options constraint = Ok actions.
Hypothesis P' : forall k s, index_to_state g (Z.of_nat k) = Ok s -> p' s = nth k actions [].
Hypothesis OLD : forall k s, index_to_state g (Z.of_nat k) = Ok s ->
  In (rl_policy P s) options /\ allowed constraint (N g) (rl_policy P s) k.

Lemma improve k : (k < N g)%nat -> look v k <= look v' k.
Proof using All.
  revert k. assert (G' : 0 <= rl_gamma (with_policy P p') * 1 < 1) by (cbn; lra).
  apply (bellman_fixed _ _ _ _ _ _ LN) in BV as (L & F).
  apply (bellman_fixed _ _ _ _ _ _ LN') in BV' as (L' & F').
  pose proof (contraction _ _ _ _ _ _ LN' 1 (proj1 G) (nonneg_bounded _ _ _ _ _ _ LN' W')) as HT.
  pose proof (monotone _ _ _ _ _ _ LN' (proj1 G) W') as HM.
  apply (below_fixed _ _ _ G' HT HM); auto.
  intros k Hk. rewrite <- F by auto.
  pose proof (st_index _ _ _ _ _ _ LN k Hk) as ES.
  destruct (greedy_spec _ _ _ _ _ D) as (LA & K). rewrite (points_N _ _ _ _ _ _ LN) in *.
  destruct (K k Hk) as (i & q & Hi & EA & EQ & BEST & _).
  destruct (OLD k _ ES) as (IN & AL). destruct (In_nth _ _ [] IN) as (j & Hj & EJ).
  destruct BEST as (AI & MX). { exists j. rewrite EJ. auto. }
  specialize (MX j Hj). rewrite EJ in MX. destruct (MX AL) as (LE & _).
  set (s := nth k (all_points g) []) in *.
  assert (TV : table g v) by now apply (table_N _ _ _ _ _ _ LN).
  assert (QJ : q j = Top g t P (look v) k).
  { specialize (EQ j Hj). rewrite EJ in EQ.
    pose proof (future_ok _ _ _ _ _ _ LN v k TV EV Hk) as FO. fold s in FO.
    change (future_value P None None None s) with (future_value P None (Some (rl_policy P s)) None s) in FO. congruence. }
  assert (QI : q i = Top g t (with_policy P p') (look v) k).
  { specialize (EQ i Hi). rewrite <- EA, <- (P' k s ES) in EQ.
    pose proof (future_ok _ _ _ _ _ _ LN' v k TV EV Hk) as FO. fold s in FO.
    change (future_value (with_policy P p') None None None s) with (future_value P None (Some (p' s)) None s) in FO. congruence. }
  lra.
Qed.
End Improve.

(** ** The Bellman error *)
Lemma sum_sq_zero l l' : length l = length l' ->
  0 <= sum (map2 (fun t v => (t - v) * (t - v)) l l') /\
  (sum (map2 (fun t v => (t - v) * (t - v)) l l') = 0 <-> l = l').
Proof.
  revert l'. induction l as [|a l IH]; intros [|b l'] L; try discriminate L; cbn [map2 sum fold_right].
  - split; [lra|tauto].
  - destruct (IH l' ltac:(simpl in L; lia)) as (A & B). fold (sum (map2 (fun t v => (t - v) * (t - v)) l l')) in *.
    pose proof (Rle_0_sqr (a - b)) as Q. unfold Rsqr in Q. split; [lra|]. split.
    + intros H. assert (S0 : sum (map2 (fun t v => (t - v) * (t - v)) l l') = 0) by lra. apply B in S0. subst.
      f_equal. assert ((a - b) * (a - b) = 0) by lra. apply Rmult_integral in H0. lra.
    + intros H. injection H as -> ->. rewrite (proj2 B eq_refl). lra.
Qed.

Lemma bellmann_ok P states e : bellmann_error P states = Ok e ->
  0 <= e /\ (e = 0 <-> forall s, In s states -> future_value P None None None s = value_at_state (rl_value P) s).
Proof.
  unfold bellmann_error. destruct (mapM (future_value _ _ _ _) states) as [tg|] eqn:ET; [|discriminate]. cbn [bind].
  destruct (mapM (value_at_state _) states) as [vl|] eqn:EV; [|discriminate]. cbn [bind]. intros E. injection E as <-.
  destruct (mapM_nth_ok _ _ _ [] 0 ET) as [LT NT]. destruct (mapM_nth_ok _ _ _ [] 0 EV) as [LV NV].
  destruct (sum_sq_zero tg vl ltac:(congruence)) as (A & B). split; auto. rewrite B. split.
  - intros -> s Hs. destruct (In_nth _ _ [] Hs) as (k & Hk & <-). now rewrite NT, NV.
  - intros H. apply (nth_ext _ _ 0 0); [congruence|]. intros k Hk.
    specialize (H (nth k states []) ltac:(apply nth_In; lia)). rewrite NT, NV in H by lia. congruence.
Qed.
