(** Properties C28 and C29: safe samples and perturbed actions. *)
From Coq Require Import Reals List Bool Arith ZArith Lia Lra.
From Verif Require Import Prelude ListFacts NumModel GridModel GridSpec GridProofs SafeModel
  SafeSpec CertModel CertSpec CertProofs UtilModel UtilProofs SampleModel SampleSpec SampleProofs.
Import ListNotations.
Local Open Scope nat_scope.
Local Open Scope R_scope.

(** ** C29: perturb_actions *)

(** Without limits: exactly one row per state and perturbation, state by state,
    in order, also if rows coincide. *)
Theorem C29_all_pairs : forall leb states actions perts m,
  length actions = length states ->
  (forall a, In a actions -> length a = m) -> (forall p, In p perts -> length p = m) ->
  exists rows, perturb_actions leb states actions perts None = Ok rows /\
    length rows = (length states * length perts)%nat /\
    forall i j, (i < length states)%nat -> (j < length perts)%nat ->
      nth (i * length perts + j) rows []
      = nth i states [] ++ map2 Rplus (nth i actions []) (nth j perts []).
Proof.
  intros leb states actions perts m HL HA HP.
  exists (pert_rows (map2 Rplus) states actions perts). split; [|split].
  - apply perturb_none; auto. intros a p Ha Hp. apply add_row_eq. rewrite (HA a), (HP p); auto.
  - rewrite pert_rows_length, HL, Nat.min_id. reflexivity.
  - intros i j Hi Hj. apply pert_rows_nth; auto. now rewrite HL.
Qed.
Print Assumptions C29_all_pairs.

(** With limits: the pairs with clipped actions, each exactly once; the states
    are the given ones and the actions respect the limits. *)
Theorem C29_clipped_pairs : forall leb states actions perts lims m,
  total_order leb ->
  length actions = length states ->
  (forall a, In a actions -> length a = m) -> (forall p, In p perts -> length p = m) ->
  length lims = m ->
  exists rows, perturb_actions leb states actions perts (Some lims) = Ok rows /\
    NoDup rows /\
    (forall row, In row rows <->
       exists i p, (i < length states)%nat /\ In p perts /\
         row = nth i states [] ++ limited (Some lims) (map2 Rplus (nth i actions []) p)) /\
    ((forall l, In l lims -> fst l <= snd l) ->
     forall row, In row rows -> exists i u, (i < length states)%nat /\
       row = nth i states [] ++ u /\ length u = m /\
       forall j, (j < m)%nat -> fst (nth j lims (0, 0)) <= nth j u 0 <= snd (nth j lims (0, 0))).
Proof.
  intros leb states actions perts lims m TO HL HA HP HM.
  assert (HS : forall a p, In a actions -> In p perts -> length (map2 Rplus a p) = m).
  { intros a p Ha Hp. rewrite map2_length, (HA a), (HP p) by auto. lia. }
  eexists. split; [|split; [|split]].
  - apply perturb_some with (h := map2 Rplus); auto.
    + intros a p Ha Hp. apply add_row_eq. rewrite (HA a), (HP p); auto.
    + intros a p Ha Hp. rewrite HS; auto.
  - apply (unique_rows_spec leb [] _ (to_total _ TO) (to_trans _ TO) (fun a b _ _ => to_antisym _ TO a b)).
  - intros row.
    rewrite (proj1 (proj2 (unique_rows_spec leb [] _ (to_total _ TO) (to_trans _ TO)
              (fun a b _ _ => to_antisym _ TO a b))) row).
    rewrite pert_rows_In. split.
    + intros (i & p & Hi & _ & Hp & ->). eauto.
    + intros (i & p & Hi & Hp & ->). exists i, p. repeat split; auto. now rewrite HL.
  - intros HO row Hr.
    rewrite (proj1 (proj2 (unique_rows_spec leb [] _ (to_total _ TO) (to_trans _ TO)
              (fun a b _ _ => to_antisym _ TO a b))) row) in Hr.
    apply pert_rows_In in Hr as (i & p & Hi & Hi' & Hp & ->).
    exists i, (map2 clip1 (map2 Rplus (nth i actions []) p) lims).
    assert (Hlen : length (map2 Rplus (nth i actions []) p) = m) by (apply HS; auto; now apply nth_In).
    repeat split; auto.
    { rewrite map2_length, Hlen, HM. lia. }
    all: rewrite (nth_map2 _ _ _ _ 0 (0, 0)) by lia; unfold clip1;
      specialize (HO (nth j lims (0, 0)) ltac:(apply nth_In; lia)).
    + apply Rmin_glb; auto. apply Rmax_r.
    + apply Rmin_r.
Qed.
Print Assumptions C29_clipped_pairs.

(** One perturbation per row for all actions, one action for all perturbations, and
    one pair of limits for all actions, are used for every action dimension. *)
Theorem C29_single_columns : forall leb states actions perts lim m,
  total_order leb ->
  length actions = length states ->
  ((forall a, In a actions -> length a = m) /\ (forall p, In p perts -> length p = 1%nat) \/
   (forall a, In a actions -> length a = 1%nat) /\ (forall p, In p perts -> length p = m)) ->
  let all := fun x : R => repeat x m in
  let wide := fun l : list R => if (length l =? m)%nat then l else all (nth 0 l 0) in
  (exists rows, perturb_actions leb states actions perts None = Ok rows /\
    length rows = (length states * length perts)%nat /\
    forall i j, (i < length states)%nat -> (j < length perts)%nat ->
      nth (i * length perts + j) rows []
      = nth i states [] ++ map2 Rplus (wide (nth i actions [])) (wide (nth j perts []))) /\
  exists rows, perturb_actions leb states actions perts (Some [lim]) = Ok rows /\ NoDup rows /\
    forall row, In row rows <->
       exists i p, (i < length states)%nat /\ In p perts /\
         row = nth i states [] ++
           limited (Some (repeat lim m)) (map2 Rplus (wide (nth i actions [])) (wide p)).
Proof.
  intros leb states actions perts lim m TO HL HM all wide.
  set (h := fun a p => map2 Rplus (wide a) (wide p)).
  assert (M1 : forall (a : list R) (x : R), map2 Rplus a (repeat x (length a)) = map (fun y => y + x) a).
  { induction a; intros; simpl; f_equal; auto. }
  assert (M2 : forall (a : list R) (x : R), map2 Rplus (repeat x (length a)) a = map (fun y => x + y) a).
  { induction a; intros; simpl; f_equal; auto. }
  assert (HA : forall a p, In a actions -> In p perts -> add_row a p = Ok (h a p) /\ length (h a p) = m).
  { intros a p Ha Hp. unfold h, wide, all. destruct (Nat.eq_dec m 1) as [->|N].
    - assert (A : length a = 1%nat) by (destruct HM as [(A & _)|(A & _)]; auto).
      assert (P : length p = 1%nat) by (destruct HM as [(_ & P)|(_ & P)]; auto).
      rewrite A, P, Nat.eqb_refl, map2_length, A, P. split; [apply add_row_eq; lia|reflexivity].
    - pose proof (proj2 (Nat.eqb_neq m 1) N) as N1. assert (N2 : (1 =? m)%nat = false) by (apply Nat.eqb_neq; lia).
      unfold add_row. destruct HM as [(A & P)|(A & P)]; rewrite (A a Ha), (P p Hp), Nat.eqb_refl, ?N1, ?N2; cbn iota.
      + rewrite Nat.eqb_refl. rewrite <- (A a Ha), M1. split; [reflexivity|apply map_length].
      + rewrite Nat.eqb_refl. rewrite <- (P p Hp), M2. split; [reflexivity|apply map_length]. }
  split.
  - exists (pert_rows h states actions perts). split; [|split].
    + apply perturb_none; auto. intros a p Ha Hp. now apply HA.
    + rewrite pert_rows_length, HL, Nat.min_id. reflexivity.
    + intros i j Hi Hj. apply (pert_rows_nth h); auto. now rewrite HL.
  - assert (C : forall a, length a = m -> clip_row [lim] a = clip_row (repeat lim m) a).
    { intros a La. unfold clip_row. rewrite repeat_length, La, Nat.eqb_refl. simpl length.
      assert (E : map (fun x => clip1 x lim) a = map2 clip1 a (repeat lim m)).
      { subst m. clear. induction a; simpl; f_equal; auto. }
      rewrite Nat.eqb_refl. destruct (1 =? m)%nat eqn:E1; [|cbn [nth]; now rewrite E].
      apply Nat.eqb_eq in E1. rewrite <- E1. reflexivity. }
    assert (P : perturb_actions leb states actions perts (Some [lim])
                = perturb_actions leb states actions perts (Some (repeat lim m))).
    { unfold perturb_actions. rewrite HL, Nat.eqb_refl. simpl negb. cbv iota. rewrite <- HL, combine_rows.
      rewrite (mapM_flat_map _ h (fun x => x)) by (intros; simpl; now apply HA). cbn [bind].
      assert (G : forall l, Forall (fun a => length a = m) l -> mapM (clip_row [lim]) l = mapM (clip_row (repeat lim m)) l).
      { induction 1; simpl; auto. rewrite C by auto. now rewrite IHForall. }
      rewrite G; [reflexivity|]. apply Forall_forall. intros a Ha. apply in_flat_map in Ha as (a' & Ha & Hp).
      apply in_map_iff in Hp as (p & <- & Hp). now apply HA. }
    rewrite P. eexists. split; [|split].
    + apply perturb_some with (h := h); auto.
      * intros a p Ha Hp. now apply HA.
      * intros a p Ha Hp. rewrite repeat_length. symmetry. now apply HA.
    + apply (unique_rows_spec leb [] _ (to_total _ TO) (to_trans _ TO) (fun a b _ _ => to_antisym _ TO a b)).
    + intros row.
      rewrite (proj1 (proj2 (unique_rows_spec leb [] _ (to_total _ TO) (to_trans _ TO)
              (fun a b _ _ => to_antisym _ TO a b))) row).
      rewrite pert_rows_In. split.
      * intros (i & p & Hi & _ & Hp & ->). eauto.
      * intros (i & p & Hi & Hp & ->). exists i, p. repeat split; auto. now rewrite HL.
Qed.
Print Assumptions C29_single_columns.


(** A total order of rows. *)
Fixpoint rows_leb (a b : list R) : bool :=
  match a, b with
  | [], _ => true
  | _ :: _, [] => false
  | x :: a', y :: b' => if Rlt_dec x y then true else if Rlt_dec y x then false else rows_leb a' b'
  end.
Lemma rows_leb_order : total_order rows_leb.
Proof.
  split.
  - induction a as [|x a IH]; intros [|y b]; simpl; auto.
    destruct (Rlt_dec x y), (Rlt_dec y x); auto; try lra.
  - induction a as [|x a IH]; intros [|y b] [|z c]; simpl; auto; try discriminate.
    destruct (Rlt_dec x y), (Rlt_dec y x), (Rlt_dec y z), (Rlt_dec z y), (Rlt_dec x z), (Rlt_dec z x);
      auto; try discriminate; try lra. apply IH.
  - induction a as [|x a IH]; intros [|y b]; simpl; auto; try discriminate.
    destruct (Rlt_dec x y), (Rlt_dec y x); try discriminate; try lra.
    intros H1 H2. f_equal; [lra|now apply IH].
Qed.

Ltac rltdec := repeat (match goal with
  | |- context [Rlt_dec ?a ?b] =>
    let H := fresh in destruct (Rlt_dec a b) as [H|H];
    cbn in H; try (exfalso; lra); clear H
  end; simpl).

(** Two states, three perturbations, limits [-1, 1]: in state 1 two of the
    perturbed actions are clipped to 1. *)
Example C29_single_columns_ex :
  perturb_actions rows_leb [[0]; [7]] [[1; 2]; [3; 4]] [[5]] None = Ok [[0; 1 + 5; 2 + 5]; [7; 3 + 5; 4 + 5]] /\
  perturb_actions rows_leb [[0]; [7]] [[1]; [3]] [[5; 6]] None = Ok [[0; 1 + 5; 1 + 6]; [7; 3 + 5; 3 + 6]] /\
  exists rows, perturb_actions rows_leb [[0]] [[1; 8]] [[5]] (Some [(0, 9)]) = Ok rows /\ In [0; 6; 9] rows.
Proof.
  split; [reflexivity|]. split; [reflexivity|].
  destruct (C29_single_columns rows_leb [[0]] [[1; 8]] [[5]] (0, 9) 2 rows_leb_order eq_refl) as (_ & rows & E & _ & H).
  - left. split; [intros a [<-|[]]|intros p [<-|[]]]; reflexivity.
  - exists rows. split; auto. apply H. exists 0%nat, [5]. simpl. split; [lia|]. split; auto.
    rewrite (Rmax_left (1 + 5)), (Rmin_left (1 + 5)), (Rmax_left (8 + 5)), (Rmin_right (8 + 5)) by lra.
    do 2 f_equal. lra.
Qed.
Example C29_ex :
  perturb_actions rows_leb [[0]; [7]] [[0]; [1]] [[- 1]; [1]; [2]] None
  = Ok [[0; 0 + -1]; [0; 0 + 1]; [0; 0 + 2]; [7; 1 + -1]; [7; 1 + 1]; [7; 1 + 2]] /\
  exists rows,
    perturb_actions rows_leb [[0]; [7]] [[0]; [1]] [[- 1]; [1]; [2]] (Some [(-1, 1)]) = Ok rows /\
    NoDup rows /\ In [7; 1] rows /\ In [7; 0] rows /\ In [0; -1] rows /\ In [0; 1] rows /\
    ~ In [7; 2] rows.
Proof.
  split; [reflexivity|].
  destruct (C29_clipped_pairs rows_leb [[0]; [7]] [[0]; [1]] [[- 1]; [1]; [2]] [(-1, 1)] 1
              rows_leb_order) as (rows & E & ND & Hin & _); auto.
  { intros a [<-|[<-|[]]]; reflexivity. }
  { intros a [<-|[<-|[<-|[]]]]; reflexivity. }
  assert (K : forall i p x u, (i < 2)%nat -> In p [[-1]; [1]; [2]] ->
     [x; u] = nth i [[0]; [7]] [] ++ limited (Some [(-1, 1)]) (map2 Rplus (nth i [[0]; [1]] []) p) ->
     In [x; u] rows) by (intros; apply Hin; eauto).
  exists rows. split; auto. split; auto.
  assert (C1 : forall x, 1 <= x -> Rmin (Rmax x (-1)) 1 = 1)
    by (intros; unfold Rmin, Rmax; repeat destruct Rle_dec; lra).
  assert (C2 : forall x, -1 <= x <= 1 -> Rmin (Rmax x (-1)) 1 = x)
    by (intros; unfold Rmin, Rmax; repeat destruct Rle_dec; lra).
  split; [|split; [|split; [|split]]].
  - apply (K 1%nat [1]); simpl; auto. rewrite C1 by lra. reflexivity.
  - apply (K 1%nat [-1]); simpl; auto. rewrite C2 by lra. repeat f_equal; lra.
  - apply (K 0%nat [-1]); simpl; auto. rewrite C2 by lra. repeat f_equal; lra.
  - apply (K 0%nat [1]); simpl; auto. rewrite C1 by lra. reflexivity.
  - intros H. apply Hin in H as (i & p & Hi & Hp & E').
    assert (E2 : nth 1 [7; 2] 0 <= 1).
    { rewrite E'. destruct i as [|[|]]; simpl in *; [| |lia];
        destruct Hp as [<-|[<-|[<-|[]]]]; simpl; apply Rmin_r. }
    simpl in E2. lra.
Qed.

(** ** C28: get_safe_sample *)

(** With perturbations.  If no state is safe, ValueError.  Otherwise the result
    is a tested safe grid state [s], an action [u] and the total uncertainty of
    the prediction there, where
    - [u] is the perturbed and clipped policy action, the pair is certified, and
      no other certified proposal is more uncertain; or
    - nothing that was proposed is certified, and [u] is the clipped policy
      action in the tested state in which its prediction is most uncertain. *)
Theorem C28_most_uncertain_certified : forall leb g L S m limits perts positive num draws,
  total_order leb -> sample_fits g L S m limits ->
  (forall p, In p perts -> length p = m) -> drawn g L num draws ->
  let ts := tested g L num draws in
  let action := fun s p => limited limits (map2 Rplus (policy S s) p) in
  let result := get_safe_sample leb g L S (Perturbations m perts) limits positive num draws in
  (ts = [] -> result = Err ValueError) /\
  (ts <> [] ->
   exists s u, In s ts /\ result = Ok (s ++ u, uncertainty S s u) /\
     ((exists p, In p perts /\ u = action s p /\ certified g L S positive s u /\
         forall s' p', In s' ts -> In p' perts -> certified g L S positive s' (action s' p') ->
           uncertainty S s' (action s' p') <= uncertainty S s u) \/
      (u = limited limits (policy S s) /\
       (forall s' p', In s' ts -> In p' perts -> ~ certified g L S positive s' (action s' p')) /\
       forall s', In s' ts ->
         uncertainty S s' (limited limits (policy S s')) <= uncertainty S s u))).
Proof. intros. now apply sample_spec. Qed.
Print Assumptions C28_most_uncertain_certified.

(** The tested states are safe grid states; without subsampling all of them. *)
Theorem C28_tested_states : forall g L S m limits num draws,
  sample_fits g L S m limits -> drawn g L num draws ->
  (forall s, In s (tested g L num draws) ->
     exists k, safe L k /\ (Z.of_nat k < nindex g)%Z /\ index_to_state g (Z.of_nat k) = Ok s) /\
  (forall k, (num = None \/ exists n, num = Some n /\
                (Z.of_nat (length (filter (fun b => b) (l_safe L))) <= n)%Z) ->
     safe L k -> In (grid_point g k) (tested g L num draws)).
Proof.
  intros g L S m limits num draws HF HD. split.
  - intros s Hs. apply (tested_In g L S m limits HF num draws s HD), (safe_states_spec g L S m limits HF) in Hs
      as (k & Hk & Hn & ->). exists k. repeat split; auto.
    now apply (grid_point_ok g L S m limits HF).
  - intros k Hnum Hk.
    assert (Hin : In (grid_point g k) (safe_states g L)).
    { apply (safe_states_spec g L S m limits HF). exists k. repeat split; auto.
      rewrite <- (sf_safe _ _ _ _ _ HF). unfold safe in Hk.
      assert (k < length (l_safe L))%nat; [|lia].
      destruct (Nat.lt_ge_cases k (length (l_safe L))); auto.
      rewrite nth_overflow in Hk by auto. discriminate. }
    unfold tested. destruct Hnum as [->|(n & -> & Hn)]; auto.
    replace (n <? Z.of_nat (length (safe_states g L)))%Z with false; auto.
    symmetry. apply Z.ltb_ge. unfold safe_states. rewrite map_length.
    rewrite <- np_where_filter. unfold np_where. now rewrite mask_length by (now rewrite seq_length).
Qed.
Print Assumptions C28_tested_states.

(** What certification means: if the true successor is within the predicted
    bounds and the Lyapunov function has the given Lipschitz constants between
    the mean and the true successor, then the successor is in the level set. *)
Theorem C28_certified_maps_inside : forall g L S positive s u y,
  certified g L S positive s u ->
  (forall mean err, dynamics S s u = Uncertain mean err ->
     within y mean err /\ length (coordinate_constants S mean) = length mean /\
     Forall (Rle 0) (coordinate_constants S mean) /\
     Rabs (lyapunov_function S y - lyapunov_function S mean)
       <= wdist (coordinate_constants S mean) y mean) ->
  lyapunov_function S y < l_cmax L.
Proof.
  intros g L S positive s u y (mean & err & E & Hlt & _) H.
  destruct (H mean err E) as ((H1 & H2 & H3) & H4 & H5 & H6).
  assert (wdist (coordinate_constants S mean) y mean
          <= sum (map2 Rmult (coordinate_constants S mean) err)).
  { unfold wdist. apply wsum_le; auto; rewrite ?map2_length; try lia.
    intros j Hj. rewrite (nth_map2 _ _ _ _ 0 0) by lia.
    apply H3. lia. }
  assert (lyapunov_function S y - lyapunov_function S mean
    <= Rabs (lyapunov_function S y - lyapunov_function S mean)) by apply Rle_abs.
  lra.
Qed.
Print Assumptions C28_certified_maps_inside.

(** The sampled action respects the limits. *)
Theorem C28_action_limits : forall leb g L S m lims perts positive num draws row b,
  total_order leb -> sample_fits g L S m (Some lims) ->
  (forall p, In p perts -> length p = m) -> drawn g L num draws ->
  (forall l, In l lims -> fst l <= snd l) ->
  get_safe_sample leb g L S (Perturbations m perts) (Some lims) positive num draws = Ok (row, b) ->
  length row = (dims g + m)%nat /\
  forall j, (j < m)%nat ->
    fst (nth j lims (0, 0)) <= nth (dims g + j) row 0 <= snd (nth j lims (0, 0)).
Proof.
  intros leb g L S m lims perts positive num draws row b TO HF HP HD HO E.
  destruct (C28_most_uncertain_certified leb g L S m (Some lims) perts positive num draws TO HF HP HD)
    as (H0 & H1).
  assert (Hts : tested g L num draws <> []) by (intros E0; rewrite (H0 E0) in E; discriminate).
  destruct (H1 Hts) as (s & u & Hs & E' & Hu). rewrite E in E'. injection E' as -> _.
  destruct (safe_good g L S m _ HF num draws HD s Hs) as (Hv & Hl).
  pose proof (sf_policy _ _ _ _ _ HF s Hv) as Hpol.
  pose proof (sf_limits _ _ _ _ _ HF lims eq_refl) as Hlims.
  assert (G : forall v, length v = m -> length (limited (Some lims) v) = m /\
    forall j, (j < m)%nat -> fst (nth j lims (0, 0)) <= nth j (limited (Some lims) v) 0 <= snd (nth j lims (0, 0))).
  { intros v Hv'. unfold limited. split; [rewrite map2_length; lia|]. intros j Hj.
    rewrite (nth_map2 _ _ _ _ 0 (0, 0)) by lia.
    specialize (HO (nth j lims (0, 0)) ltac:(apply nth_In; lia)). split.
    - apply Rmin_glb; auto. apply Rmax_r.
    - apply Rmin_r. }
  assert (HU : exists v, length v = m /\ u = limited (Some lims) v).
  { destruct Hu as [(p & Hp & -> & _)|(-> & _)].
    - exists (map2 Rplus (policy S s) p). split; auto. rewrite map2_length, Hpol, HP by auto. lia.
    - exists (policy S s). auto. }
  destruct HU as (v & Hv' & ->). destruct (G v Hv') as (G1 & G2).
  rewrite app_length, Hl, G1. split; auto. intros j Hj.
  rewrite app_nth2, Hl by lia. replace (dims g + j - dims g)%nat with j by lia. auto.
Qed.
Print Assumptions C28_action_limits.

(** With [actions] instead of perturbations (one state and one action
    dimension): the most uncertain certified pair of a tested state and a given
    action; the limits are ignored, and if nothing is certified the function
    fails with NameError instead of using the policy. *)
Theorem C28_given_actions : forall leb g L S acts limits positive num draws,
  sample_fits g L S 1 None -> dims g = 1%nat ->
  (forall a, In a acts -> length a = 1%nat) -> drawn g L num draws ->
  let ts := tested g L num draws in
  let result := get_safe_sample leb g L S (Actions 1 acts) limits positive num draws in
  ((forall s u, In s ts -> In u acts -> ~ certified g L S positive s u) ->
   result = Err NameError) /\
  ((exists s u, In s ts /\ In u acts /\ certified g L S positive s u) ->
   exists s u, In s ts /\ In u acts /\ result = Ok (s ++ u, uncertainty S s u) /\
     certified g L S positive s u /\
     forall s' u', In s' ts -> In u' acts -> certified g L S positive s' u' ->
       uncertainty S s' u' <= uncertainty S s u).
Proof. intros. now apply (sample_actions_spec leb g L S 1 None). Qed.
Print Assumptions C28_given_actions.

(** In every other dimension [actions] does not work. *)
Theorem C28_given_actions_dimensions : forall leb g L S m m' acts limits limits' positive num draws,
  sample_fits g L S m limits' -> drawn g L num draws -> (dims g + m' <> 2)%nat ->
  get_safe_sample leb g L S (Actions m' acts) limits positive num draws = Err ValueError.
Proof.
  intros leb g L S m m' acts limits limits' positive num draws HF HD Hm.
  unfold get_safe_sample, sample_with. rewrite (select_ok g L S m limits' HF num draws HD).
  cbn [action_dim]. cbv beta iota delta [bind]. change (ndim g) with (dims g).
  apply Nat.eqb_neq in Hm. now rewrite Hm.
Qed.
Print Assumptions C28_given_actions_dimensions.

(** Dynamics that return no error bounds cannot be used. *)
Theorem C28_exact_dynamics : forall leb g L S m limits perts positive num draws,
  total_order leb -> valid_grid g -> Z.of_nat (length (l_safe L)) = nindex g ->
  (forall s, is_vertex g s -> length (policy S s) = m) ->
  (forall lims, limits = Some lims -> length lims = m) ->
  (forall p, In p perts -> length p = m) -> drawn g L num draws ->
  (forall s u, exists y, dynamics S s u = Exact y) ->
  perts <> [] -> tested g L num draws <> [] ->
  get_safe_sample leb g L S (Perturbations m perts) limits positive num draws = Err TypeError.
Proof.
  intros leb g L S m limits perts positive num draws TO VG HL HP HM HPm HD HE NP NT.
  set (S' := {| lyapunov_function := lyapunov_function S; CertModel.policy := policy S;
                dynamics := fun _ _ => Uncertain (repeat 0 (dims g)) (repeat 0 (dims g));
                lip_v := LvFun (fun _ => repeat 0 (dims g)); lip_f := lip_f S; tau := tau S |}).
  assert (F : sample_fits g L S' m limits).
  { constructor; auto. intros s u _ _. exists (repeat 0 (dims g)), (repeat 0 (dims g)).
    repeat split; try apply repeat_length. unfold coordinate_constants. cbn [lip_v S'].
    pose proof (repeat_length 0 (dims g)) as E1.
    destruct (repeat 0 (dims g)) as [|c [|c' r]] eqn:E; simpl in *; auto. }
  unfold get_safe_sample, sample_with. rewrite (select_ok g L S' m limits F num draws HD).
  cbn [bind action_dim].
  destruct (proposals leb g L S' m limits TO F (tested g L num draws) perts (map2 Rplus)) as (rows & E & In1 & In2).
  { apply (safe_good g L S' m limits F num draws HD). }
  { intros s p Hs Hp. apply add_row_eq. rewrite HPm by auto. symmetry. apply HP.
    now apply (safe_good g L S' m limits F num draws HD). }
  { intros s p Hs Hp. rewrite map2_length, (HPm p) by auto. cbn [CertModel.policy S'].
    rewrite HP by (now apply (safe_good g L S' m limits F num draws HD)). lia. }
  cbn [CertModel.policy S'] in E. rewrite E. cbn [bind].
  assert (FE : feed (ndim g + m) rows = Ok rows).
  { unfold feed. replace (forallb _ rows) with true; auto. symmetry. apply forallb_forall. intros r Hr.
    destruct (In2 r Hr) as (s & u & -> & _ & L1 & L2). rewrite app_length, L1, L2. apply Nat.eqb_refl. }
  rewrite FE. cbn [bind].
  destruct rows as [|r rows].
  - exfalso. destruct (tested g L num draws) as [|s ts]; [contradiction|]. destruct perts as [|p ps]; [contradiction|].
    apply (In1 (s ++ limited limits (map2 Rplus (policy S' s) p))). exists s, p. simpl; auto.
  - cbn [mapM]. unfold predict at 1. destruct (HE (firstn (ndim g) r) (skipn (ndim g) r)) as (y & ->). reflexivity.
Qed.
Print Assumptions C28_exact_dynamics.

(** An object with three states -1, 0, 1 of which 0 and 1 are safe, V = |x|, the
    policy -x/2, dynamics x + u with an error of at most |u|/4. *)
Definition g3 : grid := {| GridModel.limits := [(-1, 1)]; num_points := [3%Z] |}.
Definition L3 (c : R) : lyap :=
  {| l_init := None; l_adaptive := false; l_vals := [1; 0; 1];
     l_safe := [false; true; true]; l_ref := [0%Z; 1%Z; 1%Z]; l_cmax := c |}.
Definition S3 : setup :=
  {| lyapunov_function := fun x => Rabs (nth 0 x 0);
     policy := fun x => [- nth 0 x 0 / 2];
     dynamics := fun x u => Uncertain [nth 0 x 0 + nth 0 u 0] [Rabs (nth 0 u 0) / 4];
     lip_v := LvConst 1; lip_f := LfConst 1; tau := 1 |}.

Lemma g3_valid : valid_grid g3.
Proof. unfold valid_grid, g3; simpl. repeat constructor; simpl; try lra; lia. Qed.
Lemma fits3 c limits : (forall lims, limits = Some lims -> length lims = 1%nat) ->
  sample_fits g3 (L3 c) S3 1 limits.
Proof.
  intros HL. constructor; auto using g3_valid.
  intros s u _ _. exists [nth 0 s 0 + nth 0 u 0], [Rabs (nth 0 u 0) / 4]. repeat split; reflexivity.
Qed.
Lemma states3 c : safe_states g3 (L3 c) = [[0]; [1]].
Proof.
  unfold safe_states. simpl. unfold grid_point, index_to_state. simpl.
  rewrite !Z.div_1_r. repeat f_equal; lra.
Qed.

(** c_max = 1, perturbations -1/4, 0, 1/4, limits [-1/2, 1/2]: the sample is the
    state 1 with the action -1/2 and uncertainty 1/8. *)
Example C28_ex :
  get_safe_sample rows_leb g3 (L3 1) S3 (Perturbations 1 [[- (1/4)]; [0]; [1/4]])
    (Some [(- (1/2), 1/2)]) true None [] = Ok ([1; - (1/2)], 1 / 8) /\
  certified g3 (L3 1) S3 true [1] [- (1/2)].
Proof.
  assert (HC : certified g3 (L3 1) S3 true [1] [- (1/2)]).
  { exists [1 + - (1/2)], [Rabs (- (1/2)) / 4]. simpl. repeat split; try discriminate.
    rewrite Rabs_Ropp, !Rabs_pos_eq by lra. lra. }
  split; auto.
  assert (CL : forall x, Rmin (Rmax x (- (1/2))) (1/2) <= 1/2 /\ - (1/2) <= Rmin (Rmax x (- (1/2))) (1/2)).
  { intros x. split; [apply Rmin_r|]. apply Rmin_glb; [apply Rmax_r|lra]. }
  destruct (C28_most_uncertain_certified rows_leb g3 (L3 1) S3 1 (Some [(- (1/2), 1/2)])
     [[- (1/4)]; [0]; [1/4]] true None [] rows_leb_order) as (_ & H).
  { apply fits3. intros lims [= <-]. reflexivity. }
  { intros p [<-|[<-|[<-|[]]]]; reflexivity. }
  { intros n [=]. }
  unfold tested in H. rewrite states3 in H. destruct H as (s & u & Hs & -> & Hu); [discriminate|].
  assert (E1 : limited (Some [(- (1/2), 1/2)]) (map2 Rplus (policy S3 [1]) [- (1/4)]) = [- (1/2)]).
  { simpl. f_equal. unfold Rmin, Rmax; repeat destruct Rle_dec; lra. }
  assert (U1 : uncertainty S3 [1] [- (1/2)] = 1 / 8).
  { unfold uncertainty; simpl. rewrite Rabs_Ropp, Rabs_pos_eq by lra. lra. }
  destruct Hu as [(p & Hp & Eu & _ & Hmax)|(_ & Hno & _)].
  - specialize (Hmax [1] [- (1/4)] ltac:(simpl; auto) ltac:(simpl; auto)).
    rewrite E1 in Hmax. specialize (Hmax HC). rewrite U1 in Hmax. subst u.
    assert (B : forall x, uncertainty S3 s [x] = Rabs x / 4) by (intros; unfold uncertainty; simpl; lra).
    destruct Hs as [<-|[<-|[]]]; destruct Hp as [<-|[<-|[<-|[]]]]; cbn [policy S3 nth map2 limited] in *;
      rewrite B in *;
      match type of Hmax with _ <= Rabs ?x / 4 =>
        assert (Hx : x = - (1/2) \/ Rabs x <= 1/4) by
          (cbn [fst snd]; unfold Rmin, Rmax; repeat destruct Rle_dec; try (left; lra);
           right; unfold Rabs; destruct Rcase_abs; lra);
        destruct Hx as [Hx|Hx]; [rewrite Hx|exfalso; lra]
      end.
    all: try (exfalso; revert Hx; cbn [fst snd]; unfold Rmin, Rmax; repeat destruct Rle_dec; lra).
    all: rewrite U1; reflexivity.
  - exfalso. apply (Hno [1] [- (1/4)]); simpl; auto. simpl in E1. rewrite E1. exact HC.
Qed.

(** The same object with the dynamics x + u, known exactly. *)
Example C28_exact_ex :
  get_safe_sample rows_leb g3 (L3 1)
    {| lyapunov_function := lyapunov_function S3; CertModel.policy := policy S3;
       dynamics := fun s u => Exact [nth 0 s 0 + nth 0 u 0];
       lip_v := lip_v S3; lip_f := lip_f S3; tau := tau S3 |}
    (Perturbations 1 [[1 / 4]]) None true None [] = Err TypeError.
Proof.
  destruct (fits3 1 None) as [VG HL HP _ _]; [intros lims [=]|].
  apply C28_exact_dynamics; auto using rows_leb_order.
  - intros lims [=].
  - intros p [<-|[]]; reflexivity.
  - intros n [=].
  - intros s u. eexists. reflexivity.
  - discriminate.
  - unfold tested. rewrite states3. discriminate.
Qed.

(** The returned pair is not always certified: with c_max = 0 nothing is, and the
    result is the policy action in the state 1, whose successor is predicted
    outside of the level set. *)
Theorem C28_always_certified_refuted :
  exists leb g L S m perts row b s u, total_order leb /\ sample_fits g L S m None /\
    (forall p, In p perts -> length p = m) /\
    get_safe_sample leb g L S (Perturbations m perts) None true None [] = Ok (row, b) /\
    row = s ++ u /\ u = policy S s /\ is_vertex g s /\ ~ certified g L S true s u.
Proof.
  destruct (C28_most_uncertain_certified rows_leb g3 (L3 0) S3 1 None
     [[0]] true None [] rows_leb_order) as (_ & H).
  { apply fits3. intros lims [=]. }
  { intros p [<-|[]]; reflexivity. }
  { intros n [=]. }
  unfold tested in H. rewrite states3 in H. destruct H as (s & u & Hs & E & Hu); [discriminate|].
  assert (HN : forall s u, ~ certified g3 (L3 0) S3 true s u).
  { intros s' u' (mean & err & [= <- <-] & Hlt & _). simpl in Hlt.
    pose proof (Rabs_pos (nth 0 s' 0 + nth 0 u' 0)). pose proof (Rabs_pos (nth 0 u' 0)). lra. }
  destruct Hu as [(p & Hp & Eu & Hc & _)|(Eu & _)]; [exfalso; now apply (HN s u)|].
  exists rows_leb, g3, (L3 0), S3, 1%nat, [[0]], (s ++ u), (uncertainty S3 s u), s, u.
  split; [apply rows_leb_order|]. split; [apply fits3; intros lims [=]|].
  split; [intros p [<-|[]]; reflexivity|]. split; [exact E|]. split; [reflexivity|].
  split; [exact Eu|]. split; [|apply HN].
  assert (Hin : In s (safe_states g3 (L3 0))) by (rewrite states3; exact Hs).
  apply (safe_states_spec g3 (L3 0) S3 1 None (fits3 0 None ltac:(intros ? [=]))) in Hin
    as (k & _ & Hk & ->).
  apply (grid_point_ok g3 (L3 0) S3 1 None (fits3 0 None ltac:(intros ? [=]))); auto.
Qed.
Print Assumptions C28_always_certified_refuted.

(** With [actions], the limits are not applied, and there is no fall back. *)
Example C28_actions_ex :
  get_safe_sample rows_leb g3 (L3 1) S3 (Actions 1 [[- (1/2)]]) (Some [(0, 1)]) true None []
    = Ok ([1; - (1/2)], 1 / 8) \/
  get_safe_sample rows_leb g3 (L3 1) S3 (Actions 1 [[- (1/2)]]) (Some [(0, 1)]) true None []
    = Ok ([0; - (1/2)], 1 / 8).
Proof.
  destruct (C28_given_actions rows_leb g3 (L3 1) S3 [[- (1/2)]] (Some [(0, 1)]) true None [])
    as (_ & H); auto.
  { apply fits3. intros lims [=]. }
  { intros p [<-|[]]; reflexivity. }
  { intros n [=]. }
  unfold tested in H. rewrite states3 in H. destruct H as (s & u & Hs & [<-|[]] & -> & _).
  - exists [1], [- (1/2)]. repeat split; simpl; auto.
    exists [1 + - (1/2)], [Rabs (- (1/2)) / 4]. simpl. repeat split; try discriminate.
    rewrite Rabs_Ropp, !Rabs_pos_eq by lra. lra.
  - assert (U : forall s, uncertainty S3 s [- (1/2)] = 1 / 8).
    { intros s'. unfold uncertainty; simpl. rewrite Rabs_Ropp, Rabs_pos_eq by lra. lra. }
    rewrite U. destruct Hs as [<-|[<-|[]]]; simpl; auto.
Qed.
Example C28_actions_ex2 :
  get_safe_sample rows_leb g3 (L3 0) S3 (Actions 1 [[- (1/2)]]) None true None [] = Err NameError.
Proof.
  apply (C28_given_actions rows_leb g3 (L3 0) S3 [[- (1/2)]] None true None []); auto.
  { apply fits3. intros lims [=]. }
  { intros p [<-|[]]; reflexivity. }
  { intros n [=]. }
  intros s' u' _ _ (mean & err & [= <- <-] & Hlt & _). simpl in Hlt.
  pose proof (Rabs_pos (nth 0 s' 0 + nth 0 u' 0)). pose proof (Rabs_pos (nth 0 u' 0)). lra.
Qed.
