(** Property C113: policy optimization by gradient descent, policies that are
    triangulations. *)
From Coq Require Import Reals List Bool Arith ZArith Lia Lra FunctionalExtensionality.
From Coquelicot Require Import Coquelicot.
From Verif Require Import Prelude FunModel QuadModel QuadProofs NNModel AutoNetProofs2.
From Verif Require Import NumModel NumProofs ListFacts GridModel GridSpec GridProofs TriModel TriSpec TriProofs TriProofs2 SafeModel CertModel RLModel RLProofs
  AutoTriModel AutoTriSpec AutoTriProofs Properties.AutoTriProps PolGradModel PolGradSpec PolGradProofs Properties.PolGradProps.
Import ListNotations.
Local Open Scope R_scope.

Lemma slices_lin s f h z o : slices_dot s (fun i => f i + z * h i) o = slices_dot s f o + z * slices_dot s h o.
Proof. induction s as [|[i v] s IH]; unfold slices_dot in *; cbn [map fold_right fst snd]; [ring|rewrite IH; ring]. Qed.
Lemma slices_ext s f h o : (forall i v, In (i, v) s -> f i = h i) -> slices_dot s f o = slices_dot s h o.
Proof.
  induction s as [|[i v] s IH]; intros H; [reflexivity|]. unfold slices_dot in *. cbn [map fold_right fst snd].
  rewrite (H i v) by (left; reflexivity). rewrite IH; [reflexivity|]. intros; eapply H; right; eauto.
Qed.
Lemma slices_vertices s N o f : (forall i v, In (i, v) s -> (0 <= i < Z.of_nat N)%Z) ->
  slices_dot s (fun j => f (Z.to_nat j)) o = sumn N (fun i => vertex_derivative s i o * f i).
Proof.
  induction s as [|[j v] s IH]; intros H.
  - unfold slices_dot, vertex_derivative, slices_dot. cbn [map fold_right]. rewrite (sumn_ext _ _ (fun _ => 0)); [now rewrite sumn_zero|intros; ring].
  - unfold slices_dot in *. cbn [map fold_right fst snd]. rewrite IH by (intros; eapply H; right; eauto).
    pose proof (H j v ltac:(left; reflexivity)) as Hj.
    rewrite (sumn_ext N (fun i => vertex_derivative ((j, v) :: s) i o * f i)
       (fun i => coordinate v o * (delta i (Z.to_nat j) * f i) + vertex_derivative s i o * f i)).
    + rewrite sumn_plus, sumn_scal, sumn_delta by lia. reflexivity.
    + intros i _. unfold vertex_derivative, slices_dot. cbn [map fold_right fst snd]. unfold delta. rewrite Nat.eqb_sym. destruct (Nat.eqb i (Z.to_nat j)); ring.
Qed.
Lemma moved_columns z m V dV : length dV = length V -> columns m V -> columns m dV ->
  length (moved_values z V dV) = length V /\ columns m (moved_values z V dV).
Proof.
  intros L C C'. unfold moved_values. rewrite map2_length. split; [lia|]. revert dV L C'. induction V as [|r V IH]; intros [|r' dV] L C'; try discriminate; [constructor|].
  cbn [map2]. constructor; [rewrite map2_length, (List.Forall_inv C), (List.Forall_inv C'); apply Nat.min_id|]. apply IH; [exact (List.Forall_inv_tail C)|now injection L|exact (List.Forall_inv_tail C')].
Qed.
Lemma moved_value z m V dV o i : length dV = length V -> columns m V -> columns m dV -> (o < m)%nat -> (Z.to_nat i < length V)%nat ->
  value_at (moved_values z V dV) o i = value_at V o i + z * value_at dV o i.
Proof.
  intros L C C' Ho Hi. unfold value_at, moved_values. rewrite (nth_map2 _ _ _ _ [] []) by lia. unfold columns in *. rewrite Forall_forall in C, C'.
  rewrite (nth_map2 _ _ _ _ 0 0); [reflexivity| |]; [rewrite (C _ (nth_In _ _ Hi)); exact Ho|rewrite (C' _ (nth_In _ _ (eq_ind_r (fun n => (_ < n)%nat) Hi L))); exact Ho].
Qed.
Lemma moved_values_0 V dV m : length dV = length V -> columns m V -> columns m dV -> moved_values 0 V dV = V.
Proof.
  unfold moved_values. revert dV. induction V as [|r V IH]; intros [|r' dV] L C C'; try discriminate; [reflexivity|]. cbn [map2]. f_equal.
  - assert (E : length r' = length r) by (rewrite (List.Forall_inv C), (List.Forall_inv C'); reflexivity). clear - E. revert r' E.
    induction r as [|a r IH]; intros [|b r'] E; try discriminate; [reflexivity|]. cbn [map2]. f_equal; [ring|]. apply IH. now injection E.
  - apply IH; [now injection L|exact (List.Forall_inv_tail C)|exact (List.Forall_inv_tail C')].
Qed.

Lemma outputs_rows dl inv g values m project t points out : TriSpec.setup dl inv g values m project t ->
  List.Forall (fun x => length x = dims g) points -> tri_eval t points = Ok out -> length out = length points /\ List.Forall (fun r => length r = m) out.
Proof.
  intros SU F E. destruct (mapM_nth_ok _ _ _ [] [] E) as [L K]. split; [exact L|]. apply Forall_forall. intros r Hr.
  apply (In_nth _ _ []) in Hr as (k & Hk & <-). assert (Hk' : (k < length points)%nat) by (rewrite <- L; exact Hk). specialize (K k Hk').
  assert (Lx : length (nth k points []) = dims g) by (rewrite Forall_forall in F; apply F, nth_In; auto).
  destruct (find dl inv g values m project t SU _ Lx) as (id' & verts' & vp' & w' & G' & c' & q' & y' & r' & Lo').
  destruct (eval_located dl inv g values m project t SU _ _ _ _ _ _ _ _ _ _ Lo') as (out' & E1 & L1 & _). rewrite E1 in K. injection K as <-. exact L1.
Qed.

Section Line.
Variables (dl : list vec -> delaunay) (inv : mat -> res mat) (g : grid) (values : mat) (m : nat) (project : bool) (t : tri) (T : tf_tri).
Variables (points : list vec).
Hypothesis SU : TriSpec.setup dl inv g values m project t.
Hypothesis WR : wraps T t values.
Hypothesis FP : List.Forall (fun x => length x = dims g) points.
Variables (dvalues : mat).
Hypothesis LD : length dvalues = length values.
Hypothesis CD : columns m dvalues.

Lemma line_setup z : TriSpec.setup dl inv g (moved_values z values dvalues) m project (with_params t (moved_values z values dvalues)).
Proof using SU LD CD.
  destruct (moved_columns z m values dvalues LD (su_values _ _ _ _ _ _ _ SU) CD) as [L C].
  apply (setup_rows _ _ _ _ _ _ _ _ _ SU); [|exact C]. rewrite L. apply (setup_len _ _ _ _ _ _ _ SU).
Qed.
Lemma line_eval z : tf_eval (tf_assign T (moved_values z values dvalues)) points = tri_eval (with_params t (moved_values z values dvalues)) points.
Proof using WR FP.
  destruct WR as [_ [old EI]]. destruct T as [v u]. cbn in EI. subst u. unfold tf_eval, tri_eval, tf_assign. cbn [tf_inner].
  induction points as [|x l IH]; [reflexivity|]. cbn [mapM]. rewrite tf_is_tri. unfold with_params at 1. cbn [t_grid t_project t_dl t_unit t_hyper]. fold (with_params t (moved_values z values dvalues)). now rewrite IH by (now inversion FP).
Qed.

Lemma triangulation_line : exists (Vt : R -> list (list R)) (v : nat -> nat -> R),
  (forall z, tf_eval (tf_assign T (moved_values z values dvalues)) points = Ok (Vt z) /\ length (Vt z) = length points /\ List.Forall (fun r => length r = m) (Vt z)) /\
  (forall i o, (i < length points)%nat -> (o < m)%nat -> is_derive (fun z => TriSpec.entry (Vt z) i o) 0 (v i o)) /\
  forall dys, length dys = length points -> List.Forall (fun y => length y = m) dys ->
  exists dxs s, tf_gradients T points dys = Ok (dxs, s) /\ (forall i r, In (i, r) s -> (0 <= i < nindex g)%Z /\ length r = m) /\
    forall o, (o < m)%nat -> slices_dot s (value_at dvalues o) o = sumn (length points) (fun i => TriSpec.entry dys i o * v i o).
Proof using SU WR FP LD CD.
  set (Vt := fun z => match tf_eval (tf_assign T (moved_values z values dvalues)) points with Ok V => V | Err _ => [] end).
  assert (G : forall dys, length dys = length points -> List.Forall (fun y => length y = m) dys ->
     exists dxs s, tf_gradients T points dys = Ok (dxs, s) /\ (forall i r, In (i, r) s -> (0 <= i < nindex g)%Z /\ length r = m) /\
       (forall z, tf_eval (tf_assign T (moved_values z values dvalues)) points = Ok (Vt z) /\ length (Vt z) = length points /\ List.Forall (fun r => length r = m) (Vt z)) /\
       forall o, (o < m)%nat -> is_derive (fun z => sumn (length points) (fun k => TriSpec.entry dys k o * TriSpec.entry (Vt z) k o)) 0 (slices_dot s (value_at dvalues o) o)).
  { intros dys L FY. destruct (C109_parameters _ _ _ _ _ _ _ _ points dys SU WR FP L FY) as (dxs & s & E & I & K).
    exists dxs, s. split; [exact E|]. split; [exact I|]. assert (V : forall z, tf_eval (tf_assign T (moved_values z values dvalues)) points = Ok (Vt z)).
    { intros z. destruct (K _ _ (line_setup z)) as (out & EO & _). unfold Vt. rewrite line_eval, EO. reflexivity. }
    split. { intros z. split; [apply V|]. apply (outputs_rows _ _ _ _ _ _ _ _ _ (line_setup z) FP). rewrite <- line_eval. apply V. }
    intros o Ho. apply (is_derive_ext (fun z => slices_dot s (value_at values o) o + z * slices_dot s (value_at dvalues o) o)).
    - intros z. destruct (K _ _ (line_setup z)) as (out & EO & HO). specialize (V z). rewrite line_eval, EO in V. injection V as <-.
      rewrite <- (HO o Ho), <- slices_lin. apply slices_ext. intros i r Hi. symmetry. apply (moved_value z m); auto; [apply (su_values _ _ _ _ _ _ _ SU)|].
      pose proof (setup_len _ _ _ _ _ _ _ SU). destruct (I i r Hi) as [? _]. lia.
    - auto_derive; [exact Logic.I|ring]. }
  assert (DE : forall i o, (i < length points)%nat -> (o < m)%nat -> ex_derive (fun z => TriSpec.entry (Vt z) i o) 0).
  { intros i o Hi Ho. destruct (G (map (fun k => map (fun p => delta k i) (seq 0 m)) (seq 0 (length points)))) as (dxs & s & _ & _ & _ & D).
    - now rewrite map_length, seq_length.
    - apply Forall_forall. intros r Hr. apply in_map_iff in Hr as (k & <- & _). now rewrite map_length, seq_length.
    - exists (slices_dot s (value_at dvalues o) o). eapply is_derive_ext; [|exact (D o Ho)]. intros z. cbn beta.
      rewrite <- (sumn_delta (length points) i (fun k => TriSpec.entry (Vt z) k o) Hi). apply sumn_ext. intros k Hk. f_equal.
      unfold TriSpec.entry at 1. rewrite (nth_map_lt _ _ _ 0%nat) by now rewrite seq_length. rewrite (nth_map_lt _ _ _ 0%nat) by now rewrite seq_length. now rewrite seq_nth. }
  exists Vt, (fun i o => Derive (fun z => TriSpec.entry (Vt z) i o) 0). split; [|split].
  - destruct (G (map (fun k => map (fun p => 0) (seq 0 m)) (seq 0 (length points)))) as (dxs & s & _ & _ & V & _); [| |exact V].
    + now rewrite map_length, seq_length.
    + apply Forall_forall. intros r Hr. apply in_map_iff in Hr as (k & <- & _). now rewrite map_length, seq_length.
  - intros i o Hi Ho. apply Derive_correct. now apply DE.
  - intros dys L FY. destruct (G dys L FY) as (dxs & s & E & I & _ & D). exists dxs, s. split; [exact E|]. split; [exact I|]. intros o Ho.
    rewrite <- (is_derive_unique _ _ _ (D o Ho)). apply is_derive_unique.
    apply (dsumn (length points) (fun k z => TriSpec.entry dys k o * TriSpec.entry (Vt z) k o)). intros k Hk. apply dscal.
    apply Derive_correct. now apply DE.
Qed.
End Line.

(** The gradients that the optimizer uses are those of the loss. *)
Theorem C113_triangulation_gradients : forall dl inv g values project t P D dl' inv' g' pvalues n project' t' T states weights actions,
  TriSpec.setup dl inv g values 1 project t -> wraps (rl_value P) t values ->
  TriSpec.setup dl' inv' g' pvalues n project' t' -> wraps T t' pvalues ->
  List.Forall (fun s => length s = dims g') states -> length weights = length states -> tf_eval T states = Ok actions ->
  (forall i, (i < length states)%nat -> smooth_state P D g t n (nth i states []) (nth i actions [])) ->
  exists s, triangulation_gradients P D T states weights = Ok s /\
    (forall i r, In (i, r) s -> (0 <= i < nindex g')%Z /\ length r = n) /\
    forall dvalues, length dvalues = length pvalues -> columns n dvalues ->
    exists L, (forall z, triangulation_loss P (tf_assign T (moved_values z pvalues dvalues)) states weights = Ok (L z)) /\
      is_derive L 0 (sumn n (fun o => slices_dot s (value_at dvalues o) o)).
Proof.
  intros dl inv g values project t P D dl' inv' g' pvalues n project' t' T states weights actions SU WR SU' WR' FS LW EA SS.
  assert (K : forall dvalues, length dvalues = length pvalues -> columns n dvalues ->
    exists da L dxs s, loss_backprop P D states actions weights = Ok da /\ tf_gradients T states da = Ok (dxs, s) /\
      (forall i r, In (i, r) s -> (0 <= i < nindex g')%Z /\ length r = n) /\
      (forall z, triangulation_loss P (tf_assign T (moved_values z pvalues dvalues)) states weights = Ok (L z)) /\
      is_derive L 0 (sumn n (fun o => slices_dot s (value_at dvalues o) o))).
  { intros dvalues Ld Cd. destruct (triangulation_line _ _ _ _ _ _ _ _ states SU' WR' FS dvalues Ld Cd) as (Vt & v & EV & DV & GG).
    assert (V0 : Vt 0 = actions).
    { destruct (EV 0) as [E0 _]. rewrite (moved_values_0 _ _ n) in E0; auto; [|apply (su_values _ _ _ _ _ _ _ SU')].
      assert (ET : tf_assign T pvalues = T) by (destruct WR' as [<- _]; destruct T; reflexivity). rewrite ET, EA in E0. now injection E0. }
    set (a := map (fun i z => nth i (Vt z) []) (seq 0 (length states))).
    assert (La : length a = length states) by (unfold a; now rewrite map_length, seq_length).
    assert (Na : forall i z, (i < length states)%nat -> nth i a (fun _ => []) z = nth i (Vt z) []).
    { intros i z Hi. unfold a. rewrite (nth_map_lt _ _ _ 0%nat) by now rewrite seq_length. now rewrite seq_nth. }
    assert (Ma : forall z, map (fun c => c z) a = Vt z).
    { intros z. unfold a. rewrite map_map. destruct (EV z) as (_ & <- & _). apply nth_ext with (d := []) (d' := []).
      - now rewrite map_length, seq_length.
      - intros k Hk. rewrite map_length, seq_length in Hk. rewrite (nth_map_lt _ _ _ 0%nat) by now rewrite seq_length. now rewrite seq_nth. }
    destruct (loss_derive dl inv g values project t P D n SU WR states a weights v La LW) as (da & L & EB & Lda & Fda & EL & DL).
    { intros i Hi. rewrite Na by auto. rewrite V0. split; [now apply SS|]. split.
      - intros z. rewrite Na by auto. destruct (EV z) as (_ & LV & FV). rewrite Forall_forall in FV. apply FV, nth_In. lia.
      - intros k Hk. eapply is_derive_ext; [|apply (DV i k); auto]. intros z. cbn beta. rewrite Na by auto. reflexivity. }
    rewrite Ma, V0 in EB. destruct (GG da Lda Fda) as (dxs & s & EG & I & TD). exists da, L, dxs, s. split; [exact EB|]. split; [exact EG|]. split; [exact I|]. split.
    - intros z. unfold triangulation_loss. rewrite (proj1 (EV z)). cbn [bind]. rewrite <- Ma. apply EL.
    - eapply dconv; [exact DL|]. rewrite sumn_swap. apply sumn_ext. intros o Ho. rewrite (TD o Ho). reflexivity. }
  assert (LP : columns n (map (fun _ => map (fun _ => 0) (seq 0 n)) pvalues)).
  { apply Forall_forall. intros r Hr. apply in_map_iff in Hr as (k & <- & _). now rewrite map_length, seq_length. }
  destruct (K _ (map_length _ _) LP) as (da & _ & dxs & s & EB & EG & I & _). exists s. split; [|split; [exact I|]].
  - unfold triangulation_gradients. rewrite EA. cbn [bind]. rewrite EB. cbn [bind]. rewrite EG. reflexivity.
  - intros dvalues Ld Cd. destruct (K dvalues Ld Cd) as (da' & L & dxs' & s' & EB' & EG' & _ & EL & DL).
    rewrite EB in EB'. injection EB' as <-. rewrite EG in EG'. injection EG' as <- <-. exists L. auto.
Qed.
Print Assumptions C113_triangulation_gradients.

(** ** Small steps *)
Lemma scatter_columns lr m : forall s V, columns m V -> (forall i r, In (i, r) s -> length r = m /\ (Z.to_nat i < length V)%nat) ->
  length (scatter_sub lr V s) = length V /\ columns m (scatter_sub lr V s) /\
  forall o i, (o < m)%nat -> (i < length V)%nat -> nth o (nth i (scatter_sub lr V s) []) 0 = nth o (nth i V []) 0 - lr * vertex_derivative s i o.
Proof.
  induction s as [|[j r] s IH]; intros V C H.
  - split; [reflexivity|]. split; [exact C|]. intros o i _ _. unfold vertex_derivative, slices_dot. cbn. ring.
  - unfold scatter_sub in *. cbn [fold_left fst snd]. destruct (H j r ltac:(left; reflexivity)) as [Lr Hj].
    set (W := set_nth (Z.to_nat j) (vsub (nth (Z.to_nat j) V []) (vscale lr r)) V).
    assert (LW : length W = length V) by (unfold W; apply set_nth_length).
    assert (LN : length (nth (Z.to_nat j) V []) = m) by (unfold columns in C; rewrite Forall_forall in C; apply C, nth_In; auto).
    assert (LS : length (vsub (nth (Z.to_nat j) V []) (vscale lr r)) = m).
    { unfold vsub, vscale. rewrite map2_length, map_length, LN, Lr. apply Nat.min_id. }
    assert (CW : columns m W).
    { apply Forall_forall. intros q Hq. apply (In_nth _ _ []) in Hq as (k & Hk & <-). unfold W. rewrite nth_set_nth.
      destruct (Nat.eqb (Z.to_nat j) k && Nat.ltb k (length V))%bool; [exact LS|]. unfold columns in C; rewrite Forall_forall in C; apply C, nth_In. lia. }
    destruct (IH W CW) as (L1 & C1 & K1). { intros i q Hq. rewrite LW. apply H. right; auto. }
    split; [lia|]. split; [exact C1|]. intros o i Ho Hi. rewrite K1 by lia. unfold W. rewrite nth_set_nth.
    unfold vertex_derivative at 2, slices_dot. cbn [map fold_right fst snd].
    change (fold_right Rplus 0 (map _ s)) with (vertex_derivative s i o).
    rewrite (proj2 (Nat.ltb_lt i (length V)) Hi), andb_true_r. destruct (Nat.eqb (Z.to_nat j) i) eqn:Q; [|ring].
    apply Nat.eqb_eq in Q. subst i. unfold vsub. rewrite (nth_map2 _ _ _ _ 0 0); [|lia|unfold vscale; rewrite map_length; lia].
    unfold vscale. rewrite (nth_map_lt _ _ _ 0) by lia. unfold coordinate. ring.
Qed.
Definition descent_of (s : slices) (N m : nat) : mat := map (fun i => map (fun o => - vertex_derivative s i o) (seq 0 m)) (seq 0 N).
Lemma descent_value s N m o i : (i < N)%nat -> (o < m)%nat -> nth o (nth i (descent_of s N m) []) 0 = - vertex_derivative s i o.
Proof.
  intros Hi Ho. unfold descent_of. rewrite (nth_map_lt _ _ _ 0%nat) by now rewrite seq_length. rewrite (nth_map_lt _ _ _ 0%nat) by now rewrite seq_length.
  now rewrite !seq_nth.
Qed.
Lemma scatter_moved lr m s V : columns m V -> (forall i r, In (i, r) s -> length r = m /\ (Z.to_nat i < length V)%nat) ->
  scatter_sub lr V s = moved_values lr V (descent_of s (length V) m).
Proof.
  intros C H. destruct (scatter_columns lr m s V C H) as (L & CS & K).
  assert (LD : length (descent_of s (length V) m) = length V) by (unfold descent_of; now rewrite map_length, seq_length).
  assert (CD : columns m (descent_of s (length V) m)).
  { apply Forall_forall. intros r Hr. apply in_map_iff in Hr as (k & <- & _). now rewrite map_length, seq_length. }
  destruct (moved_columns lr m V _ LD C CD) as [LM CM]. apply nth_ext with (d := []) (d' := []); [lia|]. intros i Hi.
  unfold columns in CS, CM. rewrite Forall_forall in CS, CM.
  assert (E1 : length (nth i (scatter_sub lr V s) []) = m) by (apply CS, nth_In; lia).
  assert (E2 : length (nth i (moved_values lr V (descent_of s (length V) m)) []) = m) by (apply CM, nth_In; lia).
  apply nth_ext with (d := 0) (d' := 0); [lia|]. intros o Ho. rewrite K by lia.
  pose proof (moved_value lr m V _ o (Z.of_nat i) LD C CD ltac:(lia)) as M. unfold value_at in M. rewrite Nat2Z.id in M. rewrite M by lia.
  rewrite descent_value by lia. ring.
Qed.

(** Unless the derivatives with respect to all vertex values vanish, every sufficiently
    small learning rate decreases the loss. *)
Theorem C113_triangulation_step : forall dl inv g values project t P D dl' inv' g' pvalues n project' t' T states weights actions s i o,
  TriSpec.setup dl inv g values 1 project t -> wraps (rl_value P) t values ->
  TriSpec.setup dl' inv' g' pvalues n project' t' -> wraps T t' pvalues ->
  List.Forall (fun s => length s = dims g') states -> length weights = length states -> tf_eval T states = Ok actions ->
  (forall i, (i < length states)%nat -> smooth_state P D g t n (nth i states []) (nth i actions [])) ->
  triangulation_gradients P D T states weights = Ok s ->
  (i < length pvalues)%nat -> (o < n)%nat -> vertex_derivative s i o <> 0 ->
  exists eta, 0 < eta /\ forall learning_rate, 0 < learning_rate < eta ->
    exists T' before after, triangulation_step P D learning_rate states weights T = Ok T' /\
      triangulation_loss P T states weights = Ok before /\ triangulation_loss P T' states weights = Ok after /\ after < before.
Proof.
  intros dl inv g values project t P D dl' inv' g' pvalues n project' t' T states weights actions s i o SU WR SU' WR' FS LW EA SS ES Hi Ho Hn.
  destruct (C113_triangulation_gradients dl inv g values project t P D dl' inv' g' pvalues n project' t' T states weights actions SU WR SU' WR' FS LW EA SS)
    as (s' & ES' & I & K). rewrite ES in ES'. injection ES' as <-.
  pose proof (setup_len _ _ _ _ _ _ _ SU') as LN.
  set (dV := descent_of s (length pvalues) n).
  assert (LD : length dV = length pvalues) by (unfold dV, descent_of; now rewrite map_length, seq_length).
  assert (CD : columns n dV).
  { apply Forall_forall. intros r Hr. apply in_map_iff in Hr as (k & <- & _). now rewrite map_length, seq_length. }
  destruct (K dV LD CD) as (L & EL & DL).
  assert (Q : sumn n (fun o => slices_dot s (value_at dV o) o) =
     - sumn n (fun o => sumn (length pvalues) (fun i => vertex_derivative s i o * vertex_derivative s i o))).
  { rewrite <- (Rmult_1_l (sumn n (fun o => sumn _ _))), Ropp_mult_distr_l, <- sumn_scal. apply sumn_ext. intros p Hp.
    transitivity (sumn (length pvalues) (fun k => vertex_derivative s k p * - vertex_derivative s k p)).
    - rewrite <- (slices_vertices s (length pvalues) p (fun k => - vertex_derivative s k p)) by (intros k r Hk; destruct (I k r Hk); lia).
      apply slices_ext. intros k r Hk. unfold value_at, dV. apply descent_value; auto. destruct (I k r Hk); lia.
    - rewrite <- sumn_scal. apply sumn_ext. intros; ring. }
  rewrite Q in DL. destruct (decrease L _ DL) as (eta & He & H).
  { rewrite <- rsum_sumn. match goal with |- - ?A < 0 => assert (0 < A); [|lra] end. apply (rsum_pos _ _ o); auto.
    - intros p _. rewrite <- rsum_sumn. apply NNProofs.rsum_nonneg. intros k _. apply Rle_0_sqr.
    - rewrite <- rsum_sumn. apply (rsum_pos _ _ i); auto; [intros k _; apply Rle_0_sqr|]. now apply Rlt_0_sqr. }
  exists eta. split; [exact He|]. intros lr Hlr. exists (tf_assign T (moved_values lr pvalues dV)), (L 0), (L lr).
  assert (EV : tf_var T = pvalues) by apply WR'. pose proof (su_values _ _ _ _ _ _ _ SU') as CP. split; [|split; [|split]].
  - unfold triangulation_step. rewrite ES. cbn [bind]. rewrite EV. rewrite (scatter_moved lr n); auto.
    intros k r Hk. destruct (I k r Hk) as [? ?]. split; [auto|lia].
  - rewrite <- EL, (moved_values_0 _ _ n) by auto. rewrite <- EV. destruct T; reflexivity.
  - apply EL.
  - now apply H.
Qed.
Print Assumptions C113_triangulation_step.
