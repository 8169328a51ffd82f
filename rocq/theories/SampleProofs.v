(** Lemmas about [perturb_actions] and [get_safe_sample]. *)
From Coq Require Import Reals List Bool Arith ZArith Lia Lra Sorted.
From Verif Require Import Prelude ListFacts NumModel GridModel GridSpec GridProofs SafeModel
  SafeSpec CertModel CertSpec CertProofs UtilModel UtilProofs SampleModel SampleSpec.
Import ListNotations.
Local Open Scope nat_scope.

Lemma repeat_rows_cons {A} n (r : A) rows : repeat_rows n (r :: rows) = repeat r n ++ repeat_rows n rows.
Proof. reflexivity. Qed.
Lemma tile_rows_S {A} n (rows : list A) : tile_rows (S n) rows = rows ++ tile_rows n rows.
Proof. reflexivity. Qed.

Lemma combine_app {A B} (a c : list A) (b d : list B) : length a = length b ->
  combine (a ++ c) (b ++ d) = combine a b ++ combine c d.
Proof.
  revert b; induction a; destruct b; simpl; intros; try lia; auto. f_equal; auto.
Qed.
Lemma combine_repeat {A B} (a : A) (b : list B) :
  combine (repeat a (length b)) b = map (fun p => (a, p)) b.
Proof. induction b; simpl; auto. f_equal; auto. Qed.

Lemma combine_rows {A B} (acts : list A) (perts : list B) :
  combine (repeat_rows (length perts) acts) (tile_rows (length acts) perts)
  = flat_map (fun a => map (fun p => (a, p)) perts) acts.
Proof.
  induction acts as [|a acts IH]; [reflexivity|].
  rewrite repeat_rows_cons. simpl length. rewrite tile_rows_S, combine_app.
  - rewrite combine_repeat, IH. reflexivity.
  - apply repeat_length.
Qed.

Lemma map2_app {A B C} (f : A -> B -> C) a c b d : length a = length b ->
  map2 f (a ++ c) (b ++ d) = map2 f a b ++ map2 f c d.
Proof.
  revert b; induction a; destruct b; simpl; intros; try lia; auto. f_equal; auto.
Qed.
Lemma map2_repeat {A B C} (f : A -> B -> C) a b : map2 f (repeat a (length b)) b = map (f a) b.
Proof. induction b; simpl; auto. f_equal; auto. Qed.

Lemma stack_rows {X A B P C} (f : X -> B -> C) (h : A -> P -> B) (perts : list P) :
  forall (states : list X) (acts : list A), length states = length acts ->
  map2 f (repeat_rows (length perts) states) (flat_map (fun a => map (h a) perts) acts)
  = concat (map2 (fun s a => map (fun p => f s (h a p)) perts) states acts).
Proof.
  induction states as [|s states IH]; intros acts E; [reflexivity|].
  destruct acts as [|a acts]; [discriminate|].
  rewrite repeat_rows_cons. simpl flat_map. rewrite map2_app.
  - simpl. f_equal.
    + rewrite <- (map_length (h a) perts), map2_repeat, map_map. reflexivity.
    + apply IH. now injection E.
  - now rewrite repeat_length, map_length.
Qed.

(** Sum of rows of the same width, or with one column broadcast. *)
Lemma add_row_eq a p : length p = length a -> add_row a p = Ok (map2 Rplus a p).
Proof. intros E. unfold add_row. now rewrite E, Nat.eqb_refl. Qed.
Lemma add_row_zero a : add_row a [0%R] = Ok a.
Proof.
  unfold add_row. simpl length. destruct (length a =? 1) eqn:E.
  - apply Nat.eqb_eq in E. destruct a as [|x [|]]; try discriminate. simpl. now rewrite Rplus_0_r.
  - simpl. f_equal. rewrite <- (map_id a) at 2. apply map_ext. intros; simpl; lra.
Qed.
Lemma clip_row_eq lims a : length lims = length a -> clip_row lims a = Ok (map2 clip1 a lims).
Proof. intros E. unfold clip_row. now rewrite E, Nat.eqb_refl. Qed.

Lemma mapM_flat_map {A B C D} (f : A * B -> res C) (h : A -> B -> C) (g : C -> D) (acts : list A) (perts : list B) :
  (forall a p, In a acts -> In p perts -> f (a, p) = Ok (h a p)) ->
  mapM f (flat_map (fun a => map (fun p => (a, p)) perts) acts)
  = Ok (flat_map (fun a => map (h a) perts) acts).
Proof.
  intros H. rewrite (mapM_ok f _ (fun ap => h (fst ap) (snd ap))).
  - f_equal. induction acts; simpl; auto. rewrite map_app, map_map. f_equal; auto.
    apply IHacts. intros; apply H; simpl; auto.
  - intros [a p] Hin. apply in_flat_map in Hin as (a' & Ha & Hin).
    apply in_map_iff in Hin as (p' & E & Hp). injection E as <- <-. auto.
Qed.

(** The rows before removing duplicates. *)
Definition pert_rows (h : list R -> list R -> list R) (states actions perts : list (list R)) :=
  concat (map2 (fun s a => map (fun p => s ++ h a p) perts) states actions).

Lemma perturb_none leb states actions perts (h : list R -> list R -> list R) :
  length actions = length states ->
  (forall a p, In a actions -> In p perts -> add_row a p = Ok (h a p)) ->
  perturb_actions leb states actions perts None = Ok (pert_rows h states actions perts).
Proof.
  intros E H. unfold perturb_actions. rewrite E, Nat.eqb_refl. simpl negb. cbv iota.
  rewrite <- E, combine_rows.
  rewrite (mapM_flat_map _ h (fun x => x)) by (intros; simpl; auto).
  cbv beta iota delta [bind].
  f_equal. unfold pert_rows.
  now rewrite (stack_rows (fun s b => s ++ b) h perts states actions).
Qed.

Lemma map_flat {A B C} (k : B -> C) (h : A -> list B) l : map k (flat_map h l) = flat_map (fun a => map k (h a)) l.
Proof. induction l; simpl; auto. rewrite map_app. f_equal; auto. Qed.

Lemma perturb_some leb states actions perts lims (h : list R -> list R -> list R) :
  length actions = length states ->
  (forall a p, In a actions -> In p perts -> add_row a p = Ok (h a p)) ->
  (forall a p, In a actions -> In p perts -> length lims = length (h a p)) ->
  perturb_actions leb states actions perts (Some lims)
  = Ok (unique_rows leb [] (pert_rows (fun a p => map2 clip1 (h a p) lims) states actions perts)).
Proof.
  intros E H HL. unfold perturb_actions. rewrite E, Nat.eqb_refl. simpl negb. cbv iota.
  rewrite <- E, combine_rows.
  rewrite (mapM_flat_map _ h (fun x => x)) by (intros; simpl; auto).
  cbv beta iota delta [bind].
  rewrite (mapM_ok _ _ (fun a => map2 clip1 a lims)).
  - f_equal. f_equal. unfold pert_rows. rewrite map_flat.
    erewrite flat_map_ext; [|intros a; rewrite map_map; reflexivity].
    now rewrite (stack_rows (fun s b => s ++ b) (fun a p => map2 clip1 (h a p) lims) perts states actions).
  - intros a Ha. apply in_flat_map in Ha as (a' & Ha & Hp).
    apply in_map_iff in Hp as (p & <- & Hp). apply clip_row_eq; auto.
Qed.

Lemma pert_rows_In h states actions perts row :
  In row (pert_rows h states actions perts) <->
  exists i p, i < length states /\ i < length actions /\ In p perts /\
    row = nth i states [] ++ h (nth i actions []) p.
Proof.
  unfold pert_rows. rewrite in_concat. split.
  - intros (l & Hl & Hr). apply In_nth with (d := []) in Hl as (i & Hi & <-).
    rewrite map2_length in Hi. rewrite (nth_map2 _ _ _ _ [] []) in Hr by lia.
    apply in_map_iff in Hr as (p & <- & Hp). exists i, p. repeat split; auto; lia.
  - intros (i & p & H1 & H2 & Hp & ->).
    exists (nth i (map2 (fun s a => map (fun p => s ++ h a p) perts) states actions) []). split.
    + apply nth_In. rewrite map2_length. lia.
    + rewrite (nth_map2 _ _ _ _ [] []) by lia. apply in_map_iff. eauto.
Qed.

Lemma pert_rows_length h states actions perts :
  length (pert_rows h states actions perts) = Nat.min (length states) (length actions) * length perts.
Proof.
  unfold pert_rows. revert actions; induction states as [|s st IH]; intros [|a ac]; simpl; auto.
  rewrite app_length, map_length, IH. reflexivity.
Qed.

Lemma pert_rows_nth h perts : forall states actions i j,
  i < length states -> i < length actions -> j < length perts ->
  nth (i * length perts + j) (pert_rows h states actions perts) []
  = nth i states [] ++ h (nth i actions []) (nth j perts []).
Proof.
  induction states as [|s st IH]; intros [|a ac] i j Hi Ha Hj; simpl in Hi, Ha; try lia.
  unfold pert_rows. simpl. destruct i as [|i].
  - simpl. rewrite app_nth1 by (now rewrite map_length). now rewrite (nth_map_lt _ _ _ []) by auto.
  - rewrite app_nth2 by (rewrite map_length; simpl; lia). rewrite map_length.
    replace (S i * length perts + j - length perts) with (i * length perts + j) by (simpl; lia).
    change (concat _) with (pert_rows h st ac perts). apply IH; lia.
Qed.

(** [np.argmax]. *)
Lemma argmax_from_spec l : forall best at_ i (pre : list R),
  length pre = i -> (at_ < i)%nat -> nth at_ pre 0%R = best ->
  (forall q, q < i -> (nth q pre 0 <= best)%R) ->
  let k := argmax_from best at_ i l in
  k < length (pre ++ l) /\
  forall q, q < length (pre ++ l) -> (nth q (pre ++ l) 0 <= nth k (pre ++ l) 0)%R.
Proof.
  induction l as [|x l IH]; intros best at_ i pre HL Hat Hb Hmax.
  - simpl. rewrite app_nil_r, HL. split; auto. intros q Hq. rewrite Hb. auto.
  - simpl. replace (pre ++ x :: l) with ((pre ++ [x]) ++ l) by (now rewrite <- app_assoc).
    unfold Rltb. destruct (Rlt_dec best x) as [Hlt|Hge].
    + apply IH.
      * rewrite app_length; simpl; lia.
      * lia.
      * rewrite app_nth2 by lia. now rewrite HL, Nat.sub_diag.
      * intros q Hq. destruct (Nat.eq_dec q i) as [->|].
        -- rewrite app_nth2 by lia. rewrite HL, Nat.sub_diag. simpl. lra.
        -- rewrite app_nth1 by lia. apply Rlt_le, (Rle_lt_trans _ best); auto. apply Hmax; lia.
    + apply IH.
      * rewrite app_length; simpl; lia.
      * lia.
      * rewrite app_nth1 by lia. auto.
      * intros q Hq. destruct (Nat.eq_dec q i) as [->|].
        -- rewrite app_nth2 by lia. rewrite HL, Nat.sub_diag. simpl. lra.
        -- rewrite app_nth1 by lia. apply Hmax; lia.
Qed.

Lemma np_argmax_spec l : l <> [] -> exists k, np_argmax l = Ok k /\ k < length l /\
  forall q, q < length l -> (nth q l 0 <= nth k l 0)%R.
Proof.
  destruct l as [|x l]; intros H; [contradiction|]. exists (argmax_from x 0 1 l). split; [reflexivity|].
  apply (argmax_from_spec l x 0 1 [x]); simpl; auto.
  intros q Hq. replace q with 0 by lia. lra.
Qed.

Lemma mask_map {A B} (f : A -> B) m l : mask m (map f l) = map f (mask m l).
Proof. revert l; induction m as [|[] m IH]; destruct l; simpl; auto. now rewrite IH. Qed.

Lemma mask_length {A} (m : list bool) (l : list A) : length m = length l ->
  length (mask m l) = length (filter (fun b => b) m).
Proof.
  revert l; induction m as [|[] m IH]; intros [|a l]; simpl; intros E; try lia;
    rewrite IH by lia; reflexivity.
Qed.

Lemma mask_map_filter {A} (f : A -> bool) l : mask (map f l) l = filter f l.
Proof. induction l; simpl; auto. destruct (f a); simpl; now rewrite IHl. Qed.

Lemma np_where_filter m : np_where m = filter (fun k => nth k m false) (seq 0 (length m)).
Proof.
  unfold np_where. rewrite <- mask_map_filter. f_equal.
  apply (list_ext false); [now rewrite map_length, seq_length|].
  intros q Hq. rewrite (nth_map_lt _ _ _ 0) by (now rewrite seq_length). now rewrite seq_nth.
Qed.

Section Sample.
  Variables (leb : list R -> list R -> bool) (g : grid) (L : lyap) (St : setup).
  Variable m : nat.
  Variable limits : option (list (R * R)).
  Hypothesis Hleb : total_order leb.
  Hypothesis F : sample_fits g L St m limits.

  Lemma grid_point_ok k : (Z.of_nat k < nindex g)%Z ->
    index_to_state g (Z.of_nat k) = Ok (grid_point g k) /\ is_vertex g (grid_point g k) /\
    length (grid_point g k) = dims g.
  Proof using F.
    destruct F as [VG _ _ _ _]. intros Hk.
    pose proof (grid_point_vertex g k VG Hk) as (Hv & _). split; [|split; auto].
    - unfold grid_point. rewrite (proj1 (index_to_state_ok g VG (Z.of_nat k) ltac:(lia))). reflexivity.
    - apply vertex_iff in Hv as (ks & Hm & ->); auto.
      apply multi_nth in Hm as (Hm & _); auto. apply state_of_len; auto.
  Qed.

  Lemma safe_states_spec s : In s (safe_states g L) <->
    exists k, safe L k /\ (Z.of_nat k < nindex g)%Z /\ s = grid_point g k.
  Proof using F.
    destruct F as [VG HL _ _ _]. unfold safe_states, safe. rewrite in_map_iff. split.
    - intros (k & <- & H). apply filter_In in H as (H1 & H2). apply in_seq in H1.
      exists k. repeat split; auto; lia.
    - intros (k & H & Hk & ->). exists k. split; auto. apply filter_In. split; auto.
      apply in_seq. lia.
  Qed.

  Lemma select_ok num draws : drawn g L num draws ->
    select_states g L num draws = Ok (tested g L num draws).
  Proof using F.
    intros HD. unfold select_states.
    assert (E : mapM (fun k => index_to_state g (Z.of_nat k)) (np_where (l_safe L)) = Ok (safe_states g L)).
    { unfold safe_states. rewrite np_where_filter. apply mapM_ok. intros k Hk.
      apply filter_In in Hk as (Hk & _). apply in_seq in Hk.
      apply grid_point_ok. destruct F. lia. }
    rewrite E. cbv beta iota delta [bind]. unfold tested. destruct num as [n|]; auto.
    destruct (n <? _)%Z; auto. destruct (HD n eq_refl) as (Hn & _).
    replace (n <? 0)%Z with false by (symmetry; apply Z.ltb_ge; lia). reflexivity.
  Qed.

  Lemma tested_In num draws s : drawn g L num draws ->
    In s (tested g L num draws) -> In s (safe_states g L).
  Proof using F.
    intros HD. unfold tested. destruct num as [n|]; auto.
    destruct (Z.ltb_spec n (Z.of_nat (length (safe_states g L)))) as [Hlt|]; auto.
    rewrite in_map_iff. intros (i & <- & Hi). apply nth_In.
    now apply (proj2 (proj2 (HD n eq_refl) Hlt)).
  Qed.

  (** Rows of the proposed form. *)
  Definition good (states : list (list R)) : Prop := forall s, In s states -> is_vertex g s /\ length s = dims g.

  Lemma safe_good num draws : drawn g L num draws -> good (tested g L num draws).
  Proof using F.
    intros HD s Hs. apply tested_In, safe_states_spec in Hs as (k & _ & Hk & ->); auto.
    now apply grid_point_ok.
  Qed.

  (** The proposed pairs, as a set. *)
  Lemma proposals states perts (h : list R -> list R -> list R) : good states ->
    (forall s p, In s states -> In p perts -> add_row (policy St s) p = Ok (h (policy St s) p)) ->
    (forall s p, In s states -> In p perts -> length (h (policy St s) p) = m) ->
    exists rows, perturb_actions leb states (map (policy St) states) perts limits = Ok rows /\
      (forall row, In row rows <-> exists s p, In s states /\ In p perts /\
         row = s ++ limited limits (h (policy St s) p)) /\
      (forall row, In row rows -> exists s u, row = s ++ u /\ is_vertex g s /\ length s = dims g /\ length u = m).
  Proof using F Hleb.
    intros HG HA Hh.
    assert (HA' : forall a p, In a (map (policy St) states) -> In p perts -> add_row a p = Ok (h a p)).
    { intros a p Ha Hp. apply in_map_iff in Ha as (s & <- & Hs). auto. }
    assert (G : exists rows, perturb_actions leb states (map (policy St) states) perts limits = Ok rows /\
      (forall row, In row rows <-> exists s p, In s states /\ In p perts /\
         row = s ++ limited limits (h (policy St s) p))).
    { assert (K : forall (k : list R -> list R -> list R) row,
         In row (pert_rows k states (map (policy St) states) perts) <->
         exists s p, In s states /\ In p perts /\ row = s ++ k (policy St s) p).
      { intros k row. rewrite pert_rows_In. split.
        - intros (i & p & Hi & _ & Hp & ->). exists (nth i states []), p.
          split; [now apply nth_In|split; auto]. now rewrite (nth_map_lt _ _ _ []).
        - intros (s & p & Hs & Hp & ->). apply In_nth with (d := []) in Hs as (i & Hi & <-).
          exists i, p. rewrite map_length. repeat split; auto. now rewrite (nth_map_lt _ _ _ []). }
      destruct limits as [lims|] eqn:EL.
      - rewrite (perturb_some leb states _ perts lims h); auto.
        + eexists. split; [reflexivity|]. intros row.
          rewrite (proj1 (proj2 (unique_rows_spec leb [] _ (to_total _ Hleb) (to_trans _ Hleb)
                    (fun a b _ _ => to_antisym _ Hleb a b))) row).
          rewrite K. reflexivity.
        + apply map_length.
        + intros a p Ha Hp. apply in_map_iff in Ha as (s & <- & Hs). rewrite Hh by auto.
          apply (sf_limits _ _ _ _ _ F). reflexivity.
      - rewrite (perturb_none leb states _ perts h); auto using map_length.
        eexists. split; [reflexivity|]. intros row. rewrite K. reflexivity. }
    destruct G as (rows & E & Hin). exists rows. split; auto. split; auto.
    intros row Hr. apply Hin in Hr as (s & p & Hs & Hp & ->).
    exists s, (limited limits (h (policy St s) p)). destruct (HG s Hs) as (Hv & Hl).
    split; [reflexivity|split; [exact Hv|split; [exact Hl|]]].
    unfold limited. destruct limits as [lims|] eqn:EL; auto.
    rewrite map2_length, Hh by auto. rewrite (sf_limits _ _ _ _ _ F lims) by reflexivity. lia.
  Qed.

  Lemma predict_ok s u : is_vertex g s -> length s = dims g -> length u = m ->
    exists mean err, dynamics St s u = Uncertain mean err /\ predict g St (s ++ u) = Ok (mean, err) /\
      length mean = dims g /\ length err = dims g /\ length (coordinate_constants St mean) = dims g.
  Proof using F.
    intros Hv Hs Hu. destruct (sf_model _ _ _ _ _ F s u Hv Hu) as (mean & err & E & H1 & H2 & H3).
    exists mean, err. repeat split; auto.
    unfold predict. change (ndim g) with (dims g). rewrite <- Hs, firstn_app, skipn_app, Nat.sub_diag, firstn_all, skipn_all.
    simpl. rewrite app_nil_r, E. reflexivity.
  Qed.

  (** Pure versions for the rows. *)
  Definition pred (row : list R) : list R * list R :=
    match predict g St row with Ok me => me | Err _ => ([], []) end.
  Definition adm (positive : bool) (row : list R) : bool :=
    match admissible g L St positive (pred row) with Ok b => b | Err _ => false end.

  Lemma pred_ok s u : is_vertex g s -> length s = dims g -> length u = m ->
    predict g St (s ++ u) = Ok (pred (s ++ u)) /\ sum (snd (pred (s ++ u))) = uncertainty St s u.
  Proof using F.
    intros Hv Hs Hu. destruct (predict_ok s u Hv Hs Hu) as (mean & err & E & P & _).
    unfold pred, uncertainty. rewrite P, E. auto.
  Qed.

  Lemma adm_ok positive s u : is_vertex g s -> length s = dims g -> length u = m ->
    admissible g L St positive (pred (s ++ u)) = Ok (adm positive (s ++ u)) /\
    (adm positive (s ++ u) = true <-> certified g L St positive s u).
  Proof using F.
    intros Hv Hs Hu. destruct (predict_ok s u Hv Hs Hu) as (mean & err & E & P & Hm & He & Hc).
    assert (Ep : pred (s ++ u) = (mean, err)) by (unfold pred; now rewrite P).
    unfold adm. rewrite Ep. unfold admissible, maps_inside. simpl fst; simpl snd.
    rewrite (weighted_error_constants St mean err) by congruence.
    set (b := Rltb _ _).
    assert (Hb : b = true <-> (lyapunov_function St mean + sum (map2 Rmult (coordinate_constants St mean) err) < l_cmax L)%R).
    { apply Rltb_true. }
    assert (D : forall mean' err', dynamics St s u = Uncertain mean' err' -> mean' = mean /\ err' = err).
    { intros mean' err' E'. rewrite E in E'. injection E' as <- <-. auto. }
    destruct positive.
    - split; auto. rewrite Hb. split.
      + intros H. exists mean, err. repeat split; auto. discriminate.
      + intros (mean' & err' & E' & H & _). apply D in E' as (-> & ->). auto.
    - destruct (nearest g (sf_grid _ _ _ _ _ F) mean Hm) as (i & p & Ei & Hi & _).
      unfold certified, is_safe. rewrite Ei. cbv beta iota delta [bind].
      rewrite (py_nth_Z _ i false) by (rewrite (sf_safe _ _ _ _ _ F); lia).
      split; auto. rewrite andb_true_iff, Hb. split.
      + intros (H1 & H2). exists mean, err. repeat split; auto. intros _. rewrite Ei.
        rewrite (py_nth_Z _ i false) by (rewrite (sf_safe _ _ _ _ _ F); lia). now rewrite H2.
      + intros (mean' & err' & E' & H & H'). apply D in E' as (-> & ->). split; auto.
        specialize (H' eq_refl). rewrite Ei in H'.
        rewrite (py_nth_Z _ i false) in H' by (rewrite (sf_safe _ _ _ _ _ F); lia). congruence.
  Qed.

  Definition well (rows : list (list R)) := forall row, In row rows ->
    exists s u, row = s ++ u /\ is_vertex g s /\ length s = dims g /\ length u = m.

  Lemma feed_ok rows : well rows -> feed (dims g + m) rows = Ok rows.
  Proof using.
    intros W. unfold feed. replace (forallb _ rows) with true; auto. symmetry.
    apply forallb_forall. intros row Hr. destruct (W row Hr) as (s & u & -> & _ & Hs & Hu).
    rewrite app_length, Hs, Hu. apply Nat.eqb_refl.
  Qed.
  Lemma predict_all rows : well rows -> mapM (predict g St) rows = Ok (map pred rows).
  Proof using F.
    intros W. apply mapM_ok. intros row Hr. destruct (W row Hr) as (s & u & -> & Hv & Hs & Hu).
    now apply pred_ok.
  Qed.
  Lemma adm_all positive rows : well rows ->
    mapM (admissible g L St positive) (map pred rows) = Ok (map (adm positive) rows).
  Proof using F.
    intros W. induction rows as [|row rows IH]; [reflexivity|]. simpl.
    destruct (W row (or_introl eq_refl)) as (s & u & -> & Hv & Hs & Hu).
    rewrite (proj1 (adm_ok positive s u Hv Hs Hu)). cbv beta iota delta [bind].
    rewrite IH by (intros r Hr; apply W; now right). reflexivity.
  Qed.

  (** The best of a non-empty list of rows. *)
  Lemma best rows : rows <> [] ->
    exists k, np_argmax (map (fun r => sum (snd (pred r))) rows) = Ok k /\
      In (nth k rows []) rows /\
      nth k (map (fun r => sum (snd (pred r))) rows) 0%R = sum (snd (pred (nth k rows []))) /\
      forall r, In r rows -> (sum (snd (pred r)) <= sum (snd (pred (nth k rows []))))%R.
  Proof using.
    intros H. set (f := fun r => sum (snd (pred r))).
    destruct (np_argmax_spec (map f rows)) as (k & E & Hk & Hmax).
    { destruct rows; [contradiction|discriminate]. }
    rewrite map_length in Hk, Hmax. exists k. split; auto.
    assert (G : nth k (map f rows) 0%R = f (nth k rows [])) by (now rewrite (nth_map_lt _ _ _ [])).
    split; [now apply nth_In|]. split; auto.
    intros r Hr. apply In_nth with (d := []) in Hr as (q & Hq & <-).
    specialize (Hmax q Hq). rewrite G, (nth_map_lt _ _ _ []) in Hmax; auto.
  Qed.

  Lemma unc row : (exists s u, row = s ++ u /\ is_vertex g s /\ length s = dims g /\ length u = m) ->
    exists s u, row = s ++ u /\ sum (snd (pred row)) = uncertainty St s u.
  Proof using F.
    intros (s & u & -> & Hv & Hs & Hu). exists s, u. split; auto. now apply pred_ok.
  Qed.

  (** The whole function with perturbations. *)
  Lemma sample_spec perts positive num draws :
    (forall p, In p perts -> length p = m) -> drawn g L num draws ->
    let ts := tested g L num draws in
    let act := fun s p => limited limits (map2 Rplus (policy St s) p) in
    let result := get_safe_sample leb g L St (Perturbations m perts) limits positive num draws in
    (ts = [] -> result = Err ValueError) /\
    (ts <> [] ->
     exists s u, In s ts /\ result = Ok (s ++ u, uncertainty St s u) /\
       ((exists p, In p perts /\ u = act s p /\ certified g L St positive s u /\
           forall s' p', In s' ts -> In p' perts -> certified g L St positive s' (act s' p') ->
             (uncertainty St s' (act s' p') <= uncertainty St s u)%R) \/
        (u = limited limits (policy St s) /\
         (forall s' p', In s' ts -> In p' perts -> ~ certified g L St positive s' (act s' p')) /\
         forall s', In s' ts ->
           (uncertainty St s' (limited limits (policy St s')) <= uncertainty St s u)%R))).
  Proof using F Hleb.
    intros Hperts HD ts act result.
    pose proof (safe_good num draws HD) as HG. fold ts in HG.
    assert (Hpol : forall s, In s ts -> length (policy St s) = m).
    { intros s Hs. apply (sf_policy _ _ _ _ _ F). now apply HG. }
    destruct (proposals ts perts (fun a p => map2 Rplus a p) HG) as (rows & ER & Hin & W).
    { intros s p Hs Hp. apply add_row_eq. rewrite Hpol, Hperts; auto. }
    { intros s p Hs Hp. rewrite map2_length, Hpol, Hperts by auto. lia. }
    destruct (proposals ts [[0%R]] (fun a p => a) HG) as (rows0 & ER0 & Hin0 & W0).
    { intros s p Hs [<-|[]]. apply add_row_zero. }
    { intros s p Hs _. auto. }
    assert (Eres : result =
      match filter (adm positive) rows with
      | [] => do k <- np_argmax (map (fun r => sum (snd (pred r))) rows0);
              Ok (nth k rows0 [], nth k (map (fun r => sum (snd (pred r))) rows0) 0%R)
      | _ => do k <- np_argmax (map (fun r => sum (snd (pred r))) (filter (adm positive) rows));
             Ok (nth k (filter (adm positive) rows) [],
                 nth k (map (fun r => sum (snd (pred r))) (filter (adm positive) rows)) 0%R)
      end).
    { unfold result, get_safe_sample, sample_with. change (ndim g) with (dims g). rewrite (select_ok num draws HD). fold ts.
      cbn [action_dim]. cbv beta iota delta [bind]. rewrite ER.
      rewrite (feed_ok rows W), (predict_all rows W), (adm_all positive rows W).
      rewrite map_map, mask_map, mask_map_filter.
      destruct (filter (adm positive) rows) as [|r0 rs] eqn:EF.
      - simpl map. cbv iota. rewrite ER0, (feed_ok rows0 W0), (predict_all rows0 W0), map_map. reflexivity.
      - reflexivity. }
    split; intros Hts.
    - assert (rows = []) as ->.
      { destruct rows as [|r rows]; auto. destruct (proj1 (Hin r) (or_introl eq_refl)) as (s & p & Hs & _).
        rewrite Hts in Hs. contradiction. }
      assert (rows0 = []) as ->.
      { destruct rows0 as [|r rows0]; auto. destruct (proj1 (Hin0 r) (or_introl eq_refl)) as (s & p & Hs & _).
        rewrite Hts in Hs. contradiction. }
      rewrite Eres. reflexivity.
    - destruct (filter (adm positive) rows) as [|r0 rs] eqn:EF.
      + assert (HN : rows0 <> []).
        { destruct ts as [|s ts']; [contradiction|]. intros E.
          assert (In (s ++ limited limits (policy St s)) rows0) as H0.
          { apply Hin0. exists s, [0%R]. simpl; auto. }
          rewrite E in H0. contradiction. }
        destruct (best rows0 HN) as (k & EK & Hk & Ev & Hmax).
        rewrite EK in Eres. cbv beta iota delta [bind] in Eres. rewrite Ev in Eres.
        destruct (proj1 (Hin0 _) Hk) as (s & p & Hs & Hp & Erow).
        exists s, (limited limits (policy St s)). split; auto.
        assert (Hu : forall s', In s' ts -> sum (snd (pred (s' ++ limited limits (policy St s'))))
                  = uncertainty St s' (limited limits (policy St s'))).
        { intros s' Hs'. destruct (HG s' Hs') as (Hv & Hl).
          assert (Hlen : length (limited limits (policy St s')) = m).
          { unfold limited. destruct limits as [lims|] eqn:EL; auto.
            rewrite map2_length, Hpol, (sf_limits _ _ _ _ _ F lims) by auto. lia. }
          apply pred_ok; auto. }
        rewrite Eres, Erow, Hu by auto. split; auto. right. split; auto. split.
        * intros s' p' Hs' Hp' Hc.
          assert (Hr : In (s' ++ act s' p') rows) by (apply Hin; eauto).
          destruct (HG s' Hs') as (Hv & Hl).
          assert (Ha : length (act s' p') = m).
          { unfold act, limited. destruct limits as [lims|] eqn:EL; rewrite ?map2_length, Hpol, Hperts by auto;
              [rewrite (sf_limits _ _ _ _ _ F lims) by auto|]; lia. }
          apply (proj2 (adm_ok positive s' (act s' p') Hv Hl Ha)) in Hc.
          assert (In (s' ++ act s' p') (filter (adm positive) rows)) as H0 by (apply filter_In; auto).
          rewrite EF in H0. contradiction.
        * intros s' Hs'. rewrite <- (Hu s'), <- (Hu s) by auto. rewrite <- Erow. apply Hmax.
          apply Hin0. exists s', [0%R]. simpl; auto.
      + assert (HN : filter (adm positive) rows <> []) by (rewrite EF; discriminate).
        rewrite <- EF in Eres. clear EF r0 rs.
        destruct (best (filter (adm positive) rows) HN) as (k & EK & Hk & Ev & Hmax).
        assert (Eres' : result = Ok (nth k (filter (adm positive) rows) [],
            sum (snd (pred (nth k (filter (adm positive) rows) []))))).
        { rewrite Eres. rewrite EK. cbv beta iota delta [bind]. rewrite Ev.
          destruct (filter (adm positive) rows); [contradiction|reflexivity]. }
        clear Eres. rewrite Eres'. clear Eres' EK Ev.
        set (row := nth k _ []) in *. clearbody row.
        apply filter_In in Hk as (Hk & Hadm). apply Hin in Hk as (s & p & Hs & Hp & ->).
        assert (Hall : forall s' p', In s' ts -> In p' perts ->
          sum (snd (pred (s' ++ act s' p'))) = uncertainty St s' (act s' p') /\
          (adm positive (s' ++ act s' p') = true <-> certified g L St positive s' (act s' p'))).
        { intros s' p' Hs' Hp'. destruct (HG s' Hs') as (Hv & Hl).
          assert (Ha : length (act s' p') = m).
          { unfold act, limited. destruct limits as [lims|] eqn:EL; rewrite ?map2_length, Hpol, Hperts by auto;
              [rewrite (sf_limits _ _ _ _ _ F lims) by auto|]; lia. }
          split; [now apply pred_ok|now apply adm_ok]. }
        exists s, (act s p). split; auto.
        change (limited limits (map2 Rplus (policy St s) p)) with (act s p) in *.
        rewrite (proj1 (Hall s p Hs Hp)) in *. split; auto. left. exists p. repeat split; auto.
        * now apply Hall.
        * intros s' p' Hs' Hp' Hc. rewrite <- (proj1 (Hall s' p' Hs' Hp')). apply Hmax.
          apply filter_In. split; [apply Hin; eauto|now apply Hall].
  Qed.

  (** With the argument [actions] and one state and one action dimension. *)
  Lemma sample_actions_spec acts lims positive num draws :
    dims g = 1 -> m = 1 ->
    (forall a, In a acts -> length a = 1) -> drawn g L num draws ->
    let ts := tested g L num draws in
    let result := get_safe_sample leb g L St (Actions m acts) lims positive num draws in
    ((forall s u, In s ts -> In u acts -> ~ certified g L St positive s u) ->
     result = Err NameError) /\
    ((exists s u, In s ts /\ In u acts /\ certified g L St positive s u) ->
     exists s u, In s ts /\ In u acts /\ result = Ok (s ++ u, uncertainty St s u) /\
       certified g L St positive s u /\
       forall s' u', In s' ts -> In u' acts -> certified g L St positive s' u' ->
         (uncertainty St s' u' <= uncertainty St s u)%R).
  Proof using F.
    intros Hd Hm Hacts HD ts result.
    pose proof (safe_good num draws HD) as HG. fold ts in HG.
    set (rows := flat_map (fun x => map (fun u => [x; u]) (concat acts)) (concat ts)).
    assert (Hin : forall row, In row rows <-> exists s u, In s ts /\ In u acts /\ row = s ++ u).
    { intros row. unfold rows. rewrite in_flat_map. split.
      - intros (x & Hx & Hr). apply in_map_iff in Hr as (u & <- & Hu).
        apply in_concat in Hx as (s & Hs & Hx). apply in_concat in Hu as (a & Ha & Hu).
        exists s, a. repeat split; auto.
        destruct (HG s Hs) as (_ & Hl). rewrite Hd in Hl. pose proof (Hacts a Ha) as Hl'.
        destruct s as [|s0 [|]]; try discriminate. destruct a as [|a0 [|]]; try discriminate.
        destruct Hx as [->|[]]. destruct Hu as [->|[]]. reflexivity.
      - intros (s & a & Hs & Ha & ->).
        destruct (HG s Hs) as (_ & Hl). rewrite Hd in Hl. pose proof (Hacts a Ha) as Hl'.
        destruct s as [|s0 [|]]; try discriminate. destruct a as [|a0 [|]]; try discriminate.
        exists s0. split; [apply in_concat; exists [s0]; simpl; auto|].
        apply in_map_iff. exists a0. split; auto. apply in_concat. exists [a0]; simpl; auto. }
    assert (W : well rows).
    { intros row Hr. apply Hin in Hr as (s & u & Hs & Hu & ->). exists s, u.
      destruct (HG s Hs) as (Hv & Hl). split; auto. split; auto. split; auto.
      rewrite Hm. auto. }
    assert (Hall : forall s u, In s ts -> In u acts ->
      sum (snd (pred (s ++ u))) = uncertainty St s u /\
      (adm positive (s ++ u) = true <-> certified g L St positive s u)).
    { intros s u Hs Hu. destruct (HG s Hs) as (Hv & Hl).
      assert (length u = m) by (rewrite Hm; auto).
      split; [now apply pred_ok|now apply adm_ok]. }
    assert (Eres : result =
      match filter (adm positive) rows with
      | [] => Err NameError
      | _ => do k <- np_argmax (map (fun r => sum (snd (pred r))) (filter (adm positive) rows));
             Ok (nth k (filter (adm positive) rows) [],
                 nth k (map (fun r => sum (snd (pred r))) (filter (adm positive) rows)) 0%R)
      end).
    { unfold result, get_safe_sample, sample_with. change (ndim g) with (dims g).
      rewrite (select_ok num draws HD). fold ts.
      cbn [action_dim]. cbv beta iota delta [bind].
      replace (dims g + m =? 2) with true by (rewrite Hd, Hm; reflexivity). fold rows.
      rewrite (feed_ok rows W), (predict_all rows W), (adm_all positive rows W).
      rewrite map_map, mask_map, mask_map_filter.
      destruct (filter (adm positive) rows) as [|r0 rs] eqn:EF; reflexivity. }
    split.
    - intros Hno. rewrite Eres. destruct (filter (adm positive) rows) as [|r rs] eqn:EF; auto.
      assert (H : In r (filter (adm positive) rows)) by (rewrite EF; now left).
      apply filter_In in H as (H1 & H2). apply Hin in H1 as (s & u & Hs & Hu & ->).
      apply Hall in H2; auto. exfalso. now apply (Hno s u).
    - intros (s0 & u0 & Hs0 & Hu0 & Hc0).
      assert (HN : filter (adm positive) rows <> []).
      { intros E. assert (H : In (s0 ++ u0) (filter (adm positive) rows)).
        { apply filter_In. split; [apply Hin; eauto|now apply Hall]. }
        rewrite E in H. contradiction. }
      destruct (best (filter (adm positive) rows) HN) as (k & EK & Hk & Ev & Hmax).
      assert (Eres' : result = Ok (nth k (filter (adm positive) rows) [],
          sum (snd (pred (nth k (filter (adm positive) rows) []))))).
      { rewrite Eres. rewrite EK. cbv beta iota delta [bind]. rewrite Ev.
        destruct (filter (adm positive) rows); [contradiction|reflexivity]. }
      clear Eres. rewrite Eres'. clear Eres' EK Ev.
      set (row := nth k _ []) in *. clearbody row.
      apply filter_In in Hk as (Hk & Hadm). apply Hin in Hk as (s & u & Hs & Hu & ->).
      exists s, u. rewrite (proj1 (Hall s u Hs Hu)) in *. repeat split; auto.
      + now apply Hall.
      + intros s' u' Hs' Hu' Hc. rewrite <- (proj1 (Hall s' u' Hs' Hu')). apply Hmax.
        apply filter_In. split; [apply Hin; eauto|now apply Hall].
  Qed.
End Sample.
