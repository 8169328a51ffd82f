(** Property C109: derivatives of triangulations computed by TensorFlow. *)
From Coq Require Import List ZArith Reals Lia Lra Bool.
From Verif Require Import Prelude ListFacts NumModel NumProofs GridModel GridSpec GridProofs TriModel TriSpec TriProofs TriProofs2 TriInstances.
From Verif Require Import AutoTriModel AutoTriSpec AutoTriProofs Properties.TriProps.
Import ListNotations.
Local Open Scope R_scope.

(** After any history of assignments and calls, a wrapper is of the kind that the
    following theorems speak about. *)
Theorem C109_histories : forall dl inv g values project T ops,
  make_tf_tri dl inv g values project = Ok T ->
  length (last_values values ops) = length values ->
  exists t, make_tri dl inv g (last_values values ops) (last_project project ops) = Ok t /\
    wraps (fold_left tf_step ops T) t (last_values values ops).
Proof.
  intros dl inv g values project T ops E L.
  unfold make_tf_tri, make_tri in E. destruct (_ =? _)%Z eqn:EN; [|discriminate].
  destruct (match limits g with [_] => _ | _ => _ end) as [D|] eqn:ED; [|discriminate]. cbn [bind] in E.
  destruct (simplex_indices g D) as [us|] eqn:ES; [|discriminate]. cbn [bind] in E.
  destruct (mapM (hyperplane inv g) us) as [hs|] eqn:EH; [|discriminate]. cbn [bind] in E. injection E as <-.
  exists (Tri g (last_values values ops) (last_project project ops) D us hs). split.
  { unfold make_tri. rewrite L, EN, ED. cbn [bind]. rewrite ES. cbn [bind]. now rewrite EH. }
  assert (INV : forall ops vv bb pp, exists pp',
      fold_left tf_step ops (TfTri vv (Tri g pp bb D us hs)) =
      TfTri (last_values vv ops) (Tri g pp' (last_project bb ops) D us hs)).
  { clear. induction ops as [|op ops IH]; intros vv bb pp; [now exists pp|]. destruct op; cbn; apply IH. }
  destruct (INV ops values project values) as (pp' & ->). split; [reflexivity|]. now exists pp'.
Qed.
Print Assumptions C109_histories.

(** The derivatives with respect to the points are the gradients that [gradient]
    returns, weighted with [grad_ys]; with projection, coordinates outside the limits
    get zero. *)
Theorem C109_points : forall dl inv g values m project t T points dys,
  setup dl inv g values m project t -> wraps T t values ->
  Forall (fun x => length x = dims g) points -> length dys = length points ->
  Forall (fun y => length y = m) dys ->
  exists dxs s Ms, tf_gradients T points dys = Ok (dxs, s) /\ gradient t points = Ok Ms /\
    length dxs = length points /\ Forall (fun r => length r = dims g) dxs /\
    forall k j, (k < length points)%nat -> (j < dims g)%nat ->
      let x := nth k points [] in
      ((project = true -> within_limits g x j) ->
         entry dxs k j = sumn m (fun o => entry dys k o * entry (nth k Ms []) o j)) /\
      (project = true -> ~ within_limits g x j -> entry dxs k j = 0).
Proof.
  intros dl inv g values m project t T points dys SU WR F L FY.
  destruct (back_all dl inv g values m project t SU T WR points dys F L FY) as (rs & E & Lr & K).
  destruct (C13_gradient_derivative_point_major dl inv g values m project t points SU F) as (_ & Ms & _ & EM & LM & _).
  exists (map fst rs), (concat (map snd rs)), Ms. unfold tf_gradients. rewrite E. cbn [bind].
  split; [reflexivity|]. split; auto. split; [now rewrite map_length|]. split.
  { apply Forall_forall. intros r Hr. apply in_map_iff in Hr as (r0 & <- & Hr). apply (In_nth _ _ ([], [])) in Hr as (k & Hk & <-).
    assert (Hk' : (k < length points)%nat) by (rewrite <- Lr; exact Hk). destruct (K k Hk') as (id & verts & vp & w & G & c & q & y & r & _ & W & _). exact W. }
  intros k j Hk Hj. cbv zeta.
  destruct (K k Hk) as (id & verts & vp & w & G & c & q & y & r & Lo & _ & _ & C).
  assert (ED : entry (map fst rs) k j = coordinate (fst (nth k rs ([], []))) j).
  { unfold entry, coordinate. f_equal. exact (map_nth (@fst vec slices) rs ([], []) k). }
  rewrite ED, C by auto. split.
  - intros I. rewrite passes_inside by auto. apply sumn_ext. intros o Ho. f_equal.
    destruct (gradient_located dl inv g values m project t SU _ _ _ _ _ _ _ _ _ _ Lo) as (M & _ & EG & _ & EE).
    assert (N : nth k Ms [] = M).
    { clear - EM EG Hk Lo. unfold gradient, get_weights_gradient in EM.
      destruct (mapM (find_simplex t) points) as [ids|] eqn:E1; [|discriminate]. cbn [bind] in EM.
      destruct (mapM (weights_gradient1 t) ids) as [ws|] eqn:E2; [|discriminate]. cbn [bind fst] in EM.
      destruct (mapM_nth_ok _ _ _ [] 0%Z E1) as [La Ka]. destruct (mapM_nth_ok _ _ _ 0%Z ([], []) E2) as [Lb Kb].
      destruct (mapM_nth_ok _ _ _ ([], []) [] EM) as [Lc Kc].
      pose proof (Ka k Hk) as A. rewrite (lo_find _ _ _ _ _ _ _ _ _ _ _ _ Lo) in A. injection A as A.
      pose proof (Kb k ltac:(lia)) as B. rewrite <- A, (lo_grad _ _ _ _ _ _ _ _ _ _ _ _ Lo) in B. injection B as B.
      pose proof (Kc k ltac:(lia)) as D. rewrite <- B, EG in D. now injection D. }
    rewrite N. symmetry. now apply EE.
  - intros -> O. apply passes_outside; auto. apply limits_ordered; auto. apply (su_grid _ _ _ _ _ _ _ SU).
Qed.
Print Assumptions C109_points.

(** The derivative with respect to the vertex values gives the change of the weighted
    sum of outputs for every change of the values, exactly; indices are added up. *)
Theorem C109_parameters : forall dl inv g values m project t T points dys,
  setup dl inv g values m project t -> wraps T t values ->
  Forall (fun x => length x = dims g) points -> length dys = length points ->
  Forall (fun y => length y = m) dys ->
  exists dxs s, tf_gradients T points dys = Ok (dxs, s) /\
    (forall i v, In (i, v) s -> (0 <= i < nindex g)%Z /\ length v = m) /\
    forall values' t', setup dl inv g values' m project t' ->
    exists out, tri_eval t' points = Ok out /\
      forall o, (o < m)%nat ->
        slices_dot s (value_at values' o) o =
        sumn (length points) (fun k => entry dys k o * entry out k o).
Proof.
  intros dl inv g values m project t T points dys SU WR F L FY.
  destruct (back_all dl inv g values m project t SU T WR points dys F L FY) as (rs & E & Lr & K).
  exists (map fst rs), (concat (map snd rs)). unfold tf_gradients. rewrite E. cbn [bind]. split; [reflexivity|]. split.
  - intros i v Hi. apply in_concat in Hi as (s & Hs & Hi). apply in_map_iff in Hs as (r0 & <- & Hr).
    apply (In_nth _ _ ([], [])) in Hr as (k & Hk' & <-).
    assert (Hk : (k < length points)%nat) by (rewrite <- Lr; exact Hk').
    destruct (K k Hk) as (id & verts & vp & w & G & c & q & y & r & Lo & _ & ES & _).
    assert (Hi' : In (i, v) (combine verts (map (fun a => vscale a (nth k dys [])) w))) by (rewrite <- ES; exact Hi).
    clear Hi. rename Hi' into Hi.
    split.
    + pose proof (lo_valid _ _ _ _ _ _ _ _ _ _ _ _ Lo) as FV. rewrite Forall_forall in FV. apply FV.
      now apply in_combine_l in Hi.
    + apply in_combine_r in Hi. apply in_map_iff in Hi as (a & <- & _). unfold vscale. rewrite map_length.
      rewrite Forall_forall in FY. apply FY, nth_In. lia.
  - intros values' t' SU'.
    destruct (C12_parameter_derivative dl inv g values' m project t' points SU' F) as (B0 & _ & _ & _ & _ & K').
    destruct (K' m values' t' SU') as (_ & out & EO & LO & _). exists out. split; auto.
    intros o Ho. rewrite (slices_sum rs []). rewrite Lr. apply sumn_ext. intros k Hk.
    destruct (K k Hk) as (id & verts & vp & w & G & c & q & y & r & Lo & _ & ES & _). rewrite ES.
    rewrite slices_point by (rewrite (lo_len _ _ _ _ _ _ _ _ _ _ _ _ Lo), (lo_wlen _ _ _ _ _ _ _ _ _ _ _ _ Lo); reflexivity).
    unfold entry, coordinate. f_equal.
    assert (Lx : length (nth k points []) = dims g) by (rewrite Forall_forall in F; apply F, nth_In; auto).
    destruct (find dl inv g values' m project t' SU' _ Lx) as (id' & verts' & vp' & w' & G' & c' & q' & y' & r' & Lo').
    destruct (eval_located dl inv g values' m project t' SU' _ _ _ _ _ _ _ _ _ _ Lo') as (out' & E1 & _ & E2).
    pose proof (lo_weights _ _ _ _ _ _ _ _ _ _ _ _ Lo') as W'.
    rewrite (same_weights _ _ _ _ _ _ _ _ _ _ _ SU SU'), (lo_weights _ _ _ _ _ _ _ _ _ _ _ _ Lo) in W'. injection W' as <- <-.
    destruct (mapM_nth_ok _ _ _ [] [] EO) as [_ KO]. specialize (KO k Hk). rewrite E1 in KO. injection KO as <-.
    symmetry. now apply E2.
Qed.
Print Assumptions C109_parameters.

(** In one simplex the derivative gives the exact change of the outputs.  With
    projection this holds on the side of the limits on which the point is. *)
Theorem C109_slope : forall dl inv g values m project t T x x' id dy,
  setup dl inv g values m project t -> wraps T t values ->
  length x = dims g -> length x' = dims g -> length dy = m ->
  find_simplex t x = Ok id -> find_simplex t x' = Ok id ->
  (project = true -> forall j, (j < dims g)%nat ->
     (within_limits g x j /\ within_limits g x' j) \/
     (coordinate x j < lower g j /\ coordinate x' j < lower g j) \/
     (upper g j < coordinate x j /\ upper g j < coordinate x' j)) ->
  exists dx s, tf_gradients T [x] [dy] = Ok ([dx], s) /\
    objective t m dy x' - objective t m dy x =
    sumn (dims g) (fun j => coordinate dx j * (coordinate x' j - coordinate x j)).
Proof.
  intros dl inv g values m project t T x x' id dy SU WR L L' Ld E E' Side.
  destruct (C109_points dl inv g values m project t T [x] [dy] SU WR) as (dxs & s & Ms & EG & EM & LD & _ & K);
    [constructor; auto|reflexivity|constructor; auto|].
  destruct dxs as [|dx [|? ?]]; try discriminate. exists dx, s. split; auto.
  destruct (C13_gradient_is_slope dl inv g values m project t x x' id SU L L' E E') as (M & out & out' & y & y' & EM' & EO & EO' & Q & Q' & H).
  rewrite EM in EM'. injection EM' as ->.
  unfold objective. rewrite EO, EO'. rewrite <- sumn_minus.
  transitivity (sumn m (fun o => sumn (dims g) (fun j => coordinate dy o * entry M o j * (coordinate y' j - coordinate y j)))).
  { apply sumn_ext. intros o Ho. rewrite <- Rmult_minus_distr_l, H by auto. rewrite <- sumn_scal.
    apply sumn_ext. intros; ring. }
  rewrite sumn_swap. apply sumn_ext. intros j Hj. rewrite sumn_scal_r.
  destruct (K 0%nat j ltac:(simpl; lia) Hj) as [K1 K2]. cbn [nth] in K1, K2.
  change (entry [dx] 0 j) with (coordinate dx j) in K1, K2.
  change (fun o => entry [dy] 0 o * entry M o j) with (fun o => coordinate dy o * entry M o j) in K1.
  pose proof (limits_ordered g j (su_grid _ _ _ _ _ _ _ SU) Hj) as LL.
  destruct project.
  - destruct Q as [_ Q]. destruct Q' as [_ Q']. rewrite (Q j Hj), (Q' j Hj).
    destruct (Side eq_refl j Hj) as [[I I']|[[I I']|[I I']]].
    + rewrite K1 by auto. unfold within_limits in I, I'. rewrite !Rmax_left, !Rmin_left by lra. reflexivity.
    + rewrite K2 by (auto; unfold within_limits; lra). rewrite !Rmax_right, !Rmin_left by lra. ring.
    + rewrite K2 by (auto; unfold within_limits; lra). rewrite !Rmax_left, !Rmin_right by lra. ring.
  - cbn in Q, Q'. subst y y'. rewrite K1 by discriminate. reflexivity.
Qed.
Print Assumptions C109_slope.

(** So it is the derivative, in the sense of analysis, wherever one simplex surrounds
    the point. *)
Theorem C109_derivative : forall dl inv g values m project t T x id dy r,
  setup dl inv g values m project t -> wraps T t values ->
  length x = dims g -> length dy = m -> 0 < r ->
  (forall x', length x' = dims g -> (forall j, (j < dims g)%nat -> Rabs (coordinate x' j - coordinate x j) < r) ->
     find_simplex t x' = Ok id) ->
  (project = true -> forall j, (j < dims g)%nat -> coordinate x j <> lower g j /\ coordinate x j <> upper g j) ->
  exists dx s, tf_gradients T [x] [dy] = Ok ([dx], s) /\
    forall j, (j < dims g)%nat ->
      derivable_pt_lim (fun z => objective t m dy (replaced x j z)) (coordinate x j) (coordinate dx j).
Proof.
  intros dl inv g values m project t T x id dy r SU WR L Ld Hr Near Off.
  assert (E : find_simplex t x = Ok id).
  { apply Near; auto. intros. rewrite Rminus_diag_eq, Rabs_R0; auto. }
  pose proof (C109_slope dl inv g values m project t T x x id dy SU WR L L Ld E E) as K0.
  destruct K0 as (dx & s & EG & _).
  { intros P j Hj. destruct (Off P j Hj) as [O1 O2]. unfold within_limits.
    destruct (Rlt_dec (coordinate x j) (lower g j)); [right; left; lra|].
    destruct (Rlt_dec (upper g j) (coordinate x j)); [right; right; lra|]. left; lra. }
  exists dx, s. split; auto. intros j Hj.
  assert (CR : forall z k, coordinate (replaced x j z) k = if (k =? j)%nat then z else coordinate x k).
  { intros z k. unfold replaced, coordinate. destruct (Nat.eqb_spec k j) as [->|N].
    - rewrite nth_set_nth, Nat.eqb_refl. replace (j <? length x)%nat with true; [reflexivity|]. symmetry. apply Nat.ltb_lt. lia.
    - rewrite nth_set_nth. replace (j =? k)%nat with false; [reflexivity|]. symmetry. now apply Nat.eqb_neq, not_eq_sym. }
  assert (LR : forall z, length (replaced x j z) = dims g) by (intros; unfold replaced; rewrite set_nth_length; auto).
  assert (Ex : replaced x j (coordinate x j) = x).
  { apply nth_ext with (d := 0) (d' := 0); [now rewrite LR|]. intros k _.
    pose proof (CR (coordinate x j) k) as C. unfold coordinate in C at 1. rewrite C.
    destruct (k =? j)%nat eqn:Q; [apply Nat.eqb_eq in Q; subst k|]; reflexivity. }
  assert (exists e, 0 < e /\ e <= r /\ (project = true ->
    e <= Rabs (coordinate x j - lower g j) /\ e <= Rabs (coordinate x j - upper g j))) as (e & He & Her & Hp).
  { destruct project.
    - destruct (Off eq_refl j Hj) as [O1 O2].
      exists (Rmin r (Rmin (Rabs (coordinate x j - lower g j)) (Rabs (coordinate x j - upper g j)))).
      repeat split.
      + repeat apply Rmin_pos; auto; apply Rabs_pos_lt; lra.
      + apply Rmin_l.
      + eapply Rle_trans; [apply Rmin_r|apply Rmin_l].
      + eapply Rle_trans; [apply Rmin_r|apply Rmin_r].
    - exists r. repeat split; try lra; discriminate. }
  intros eps Heps. exists (mkposreal e He). intros h Hh Hd. cbn [pos] in Hd.
  rewrite Ex.
  assert (E' : find_simplex t (replaced x j (coordinate x j + h)) = Ok id).
  { apply Near; auto. intros k Hk. rewrite CR. destruct (Nat.eqb_spec k j) as [->|].
    - replace (coordinate x j + h - coordinate x j) with h by ring. lra.
    - rewrite Rminus_diag_eq, Rabs_R0; auto. }
  pose proof (C109_slope dl inv g values m project t T x (replaced x j (coordinate x j + h)) id dy SU WR L (LR _) Ld E E') as K1.
  destruct K1 as (dx1 & s1 & EG1 & H1).
  { intros P k Hk. destruct (Off P k Hk) as [O1 O2]. unfold within_limits. rewrite CR.
    pose proof (limits_ordered g k (su_grid _ _ _ _ _ _ _ SU) Hk) as LL.
    destruct (Nat.eqb_spec k j) as [->|].
    - destruct (Hp P) as [P1 P2]. revert P1 P2 Hd. unfold Rabs.
      destruct (Rcase_abs (coordinate x j - lower g j)), (Rcase_abs (coordinate x j - upper g j)), (Rcase_abs h); lra.
    - destruct (Rlt_dec (coordinate x k) (lower g k)); [right; left; lra|].
      destruct (Rlt_dec (upper g k) (coordinate x k)); [right; right; lra|]. left; lra. }
  rewrite EG in EG1. injection EG1 as <- <-.
  rewrite H1.
  rewrite (sumn_ext _ _ (fun k => if (k =? j)%nat then coordinate dx j * h else 0)).
  2:{ intros k Hk. rewrite CR. destruct (Nat.eqb_spec k j) as [->|]; ring. }
  assert (SD : sumn (dims g) (fun k => if (k =? j)%nat then coordinate dx j * h else 0) = coordinate dx j * h).
  { etransitivity; [|exact (sumn_delta (dims g) j (fun _ => coordinate dx j * h) Hj)]. apply sumn_ext. intros k Hk. unfold delta.
    destruct (k =? j)%nat; ring. }
  rewrite SD. replace (coordinate dx j * h / h - coordinate dx j) with 0 by (field; auto).
  rewrite Rabs_R0. auto.
Qed.
Print Assumptions C109_derivative.
