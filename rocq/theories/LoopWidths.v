(** Lemmas about the entries of the feed dictionary in programs that use a
    [Lyapunov] object. *)
From Coq Require Import Reals List Bool Arith ZArith Lia Lra.
From Verif Require Import Prelude ListFacts GridModel GridSpec GridProofs SafeModel SafeSpec SafeProofs
  CertModel CertSpec CertProofs UtilModel UtilProofs SampleModel SampleSpec SampleProofs LoopModel LoopSpec LoopProofs.
Import ListNotations.
Local Open Scope nat_scope.

Lemma mapM_In {A B} (f : A -> res B) l bs b : mapM f l = Ok bs -> In b bs ->
  exists a, In a l /\ f a = Ok b.
Proof.
  intros H. apply mapM_inv in H. induction H as [|x y l1 l2 H HF IH]; [intros []|].
  intros [<-|Hb]; [exists x; simpl; auto|]. destruct (IH Hb) as (a & Ha & E). exists a; simpl; auto.
Qed.
Lemma map2_In {A B C} (f : A -> B -> C) l m c : In c (map2 f l m) ->
  exists a b, In a l /\ In b m /\ c = f a b.
Proof.
  revert m. induction l as [|a l IH]; intros [|b m]; simpl; try tauto.
  intros [<-|H]; [exists a, b; auto|]. destruct (IH m H) as (a' & b' & ? & ? & ->). exists a', b'; auto.
Qed.
Lemma repeat_rows_In {A} n (rows : list A) r : In r (repeat_rows n rows) -> In r rows.
Proof. unfold repeat_rows. rewrite in_flat_map. intros (x & Hx & H). apply repeat_spec in H. now subst. Qed.
Lemma tile_rows_In {A} n (rows : list A) r : In r (tile_rows n rows) -> In r rows.
Proof. unfold tile_rows. rewrite in_concat. intros (x & Hx & H). apply repeat_spec in Hx. now subst. Qed.

Lemma add_row_width a p c x : broadcasts (length p) (length a) c -> add_row a p = Ok x -> length x = c.
Proof.
  intros B. unfold add_row.
  destruct (Nat.eqb_spec (length a) (length p)) as [E|N].
  { intros [= <-]. rewrite map2_length. unfold broadcasts in B. lia. }
  destruct (Nat.eqb_spec (length p) 1) as [E|N1].
  { intros [= <-]. rewrite map_length. unfold broadcasts in B. lia. }
  destruct (Nat.eqb_spec (length a) 1) as [E|N2]; [|discriminate].
  intros [= <-]. rewrite map_length. unfold broadcasts in B. lia.
Qed.
Lemma add_row_ok a p c : broadcasts (length p) (length a) c -> exists x, add_row a p = Ok x.
Proof.
  intros B. unfold add_row.
  destruct (Nat.eqb_spec (length a) (length p)) as [E|N]; [eauto|].
  destruct (Nat.eqb_spec (length p) 1) as [E|N1]; [eauto|].
  destruct (Nat.eqb_spec (length a) 1) as [E|N2]; [eauto|].
  unfold broadcasts in B. lia.
Qed.
Lemma clip_row_width lims a x : clip_row lims a = Ok x -> length x = length a.
Proof.
  unfold clip_row. destruct (Nat.eqb_spec (length lims) (length a)).
  { intros [= <-]. rewrite map2_length. lia. }
  destruct (length lims =? 1); [|discriminate]. intros [= <-]. apply map_length.
Qed.

Section Widths.
  Variable leb : list R -> list R -> bool.
  Hypothesis Hleb : total_order leb.
  Lemma unique_In rows r : In r (unique_rows leb [] rows) <-> In r rows.
  Proof using Hleb.
    apply (unique_rows_spec leb [] rows (to_total _ Hleb) (to_trans _ Hleb)
             (fun a b _ _ => to_antisym _ Hleb a b)).
  Qed.

  (** All proposed rows have the columns of a state and of a sum. *)
  Lemma perturb_width states actions perts limits rows d c :
    (forall s, In s states -> length s = d) ->
    (forall a p, In a actions -> In p perts -> broadcasts (length p) (length a) c) ->
    perturb_actions leb states actions perts limits = Ok rows ->
    forall r, In r rows -> length r = d + c.
  Proof using Hleb.
    intros HS HA. unfold perturb_actions. destruct negb; [discriminate|].
    destruct mapM as [sums|] eqn:ES; [|discriminate]. cbn [bind].
    assert (W : forall x, In x sums -> length x = c).
    { intros x Hx. destruct (mapM_In _ _ _ _ ES Hx) as ((a & p) & Hin & E). cbn in E.
      pose proof (in_combine_l _ _ _ _ Hin) as Ha. pose proof (in_combine_r _ _ _ _ Hin) as Hp.
      eapply add_row_width; [|exact E]. apply HA; [eapply repeat_rows_In | eapply tile_rows_In]; eauto. }
    assert (G : forall sums, (forall x, In x sums -> length x = c) ->
      forall r, In r (map2 (fun s a => s ++ a) (repeat_rows (length perts) states) sums) -> length r = d + c).
    { intros l Hl r Hr. apply map2_In in Hr as (s & x & Hs & Hx & ->). rewrite app_length.
      rewrite (HS s), (Hl x); auto. eapply repeat_rows_In; eauto. }
    destruct limits as [lims|].
    - destruct (mapM (clip_row lims) sums) as [cl|] eqn:EC; [|discriminate]. cbn [bind]. intros [= <-] r Hr.
      apply (proj1 (unique_In _ _)) in Hr. eapply G; [|exact Hr]. intros x Hx.
      destruct (mapM_In _ _ _ _ EC Hx) as (a & Ha & E). apply clip_row_width in E. rewrite E. auto.
    - intros [= <-]. now apply G.
  Qed.

  (** With a state and a proposal there is a row. *)
  Lemma perturb_row states actions perts limits c s p :
    length actions = length states -> In s states -> In p perts ->
    (forall a p, In a actions -> In p perts -> broadcasts (length p) (length a) c) ->
    (forall lims, limits = Some lims -> length lims = c) ->
    exists r rows, perturb_actions leb states actions perts limits = Ok (r :: rows).
  Proof using Hleb.
    intros HL Hs Hp HA HLim.
    set (h := fun a p => match add_row a p with Ok x => x | Err _ => [] end).
    assert (Hh : forall a p, In a actions -> In p perts -> add_row a p = Ok (h a p)).
    { intros a q Ha Hq. unfold h. destruct (add_row_ok a q c) as (x & ->); auto. }
    assert (Hw : forall a p, In a actions -> In p perts -> length (h a p) = c).
    { intros a q Ha Hq. eapply add_row_width; [|apply Hh]; auto. }
    assert (N : forall k, pert_rows k states actions perts <> []).
    { intros k E. apply (f_equal (@length _)) in E. rewrite pert_rows_length in E. simpl in E.
      destruct states; [destruct Hs|]. destruct perts; [destruct Hp|]. rewrite HL in E. simpl in E. lia. }
    destruct limits as [lims|].
    - rewrite (perturb_some leb states actions perts lims h); auto.
      + specialize (N (fun a p => map2 clip1 (h a p) lims)).
        destruct (pert_rows _ _ _ _) as [|r0 rs] eqn:EP; [congruence|]. rewrite <- EP.
        pose proof (proj2 (unique_In (pert_rows (fun a p => map2 clip1 (h a p) lims) states actions perts) r0)
          ltac:(rewrite EP; left; reflexivity)) as Hin.
        destruct unique_rows; [destruct Hin|eauto].
      + intros a q Ha Hq. rewrite Hw by auto. now apply HLim.
    - rewrite (perturb_none leb states actions perts h); auto.
      specialize (N h). destruct pert_rows; [congruence|eauto].
  Qed.

  Lemma feed_misfit width rows c r : In r rows -> (forall r, In r rows -> length r = c) -> c <> width ->
    feed width rows = Err ValueError.
  Proof.
    intros Hr HW N. unfold feed. destruct forallb eqn:E; auto. rewrite forallb_forall in E.
    specialize (E r Hr). apply Nat.eqb_eq in E. rewrite HW in E by auto. congruence.
  Qed.
  Lemma feed_fits width rows : (forall r, In r rows -> length r = width) -> feed width rows = Ok rows.
  Proof.
    intros H. unfold feed. replace (forallb _ rows) with true; auto. symmetry. apply forallb_forall.
    intros r Hr. apply Nat.eqb_eq. auto.
  Qed.

  Variable g : grid.
  Variable VG : valid_grid g.
  Variables (L : lyap) (St : setup).
  Hypothesis HL : length (l_safe L) = length (all_points g).

  Lemma point_ok k : (k < length (l_safe L)) ->
    index_to_state g (Z.of_nat k) = Ok (grid_point g k) /\ is_vertex g (grid_point g k) /\
    length (grid_point g k) = dims g.
  Proof using HL VG.
    intros Hk. assert (Hz : (Z.of_nat k < nindex g)%Z) by (rewrite <- (all_points_length g VG); lia).
    pose proof (grid_point_vertex g k VG Hz) as (Hv & _). split; [|split; auto].
    - unfold grid_point. rewrite (proj1 (index_to_state_ok g VG (Z.of_nat k) ltac:(lia))). reflexivity.
    - apply vertex_iff in Hv as (ks & Hm & ->); auto.
      apply multi_nth in Hm as (Hm & _); auto. apply state_of_len; auto.
  Qed.
  Lemma all_selected : mapM (fun k => index_to_state g (Z.of_nat k)) (np_where (l_safe L)) = Ok (safe_states g L).
  Proof using HL VG.
    unfold safe_states. rewrite np_where_filter. apply mapM_ok. intros k Hk.
    apply filter_In in Hk as (Hk & _). apply in_seq in Hk. apply point_ok. lia.
  Qed.
  Lemma safe_vertex s : In s (safe_states g L) -> is_vertex g s /\ length s = dims g.
  Proof using HL VG.
    unfold safe_states. rewrite in_map_iff. intros (k & <- & Hk).
    apply filter_In in Hk as (Hk & _). apply in_seq in Hk. apply point_ok. lia.
  Qed.
  Lemma selected_vertex num draws states :
    (forall i, In i draws -> i < length (safe_states g L)) ->
    select_states g L num draws = Ok states -> forall s, In s states -> is_vertex g s /\ length s = dims g.
  Proof using HL VG.
    intros HD. unfold select_states. rewrite all_selected. cbn [bind].
    assert (K : forall s, In s (map (fun i => nth i (safe_states g L) []) draws) -> In s (safe_states g L)).
    { intros s Hs. apply in_map_iff in Hs as (i & <- & Hi). apply nth_In; auto. }
    destruct num as [n|]; [|intros [= <-]; apply safe_vertex].
    destruct (n <? _)%Z; [|intros [= <-]; apply safe_vertex].
    destruct (n <? 0)%Z; [discriminate|]. intros [= <-] s Hs. apply safe_vertex; auto.
  Qed.
  Lemma drawn_real num draws n : num = Some n -> (n < Z.of_nat (length (safe_states g L)))%Z ->
    drawn g L num draws -> forall i, In i draws -> i < length (safe_states g L).
  Proof. intros E Hn HD. destruct (HD n E) as (_ & H). now apply H. Qed.
  Lemma drawn_select num draws : drawn g L num draws ->
    select_states g L num draws = Ok (tested g L num draws) /\
    forall s, In s (tested g L num draws) -> is_vertex g s /\ length s = dims g.
  Proof using HL VG.
    intros HD. unfold select_states. rewrite all_selected. cbn [bind]. unfold tested.
    destruct num as [n|]; [|split; [auto|apply safe_vertex]].
    destruct (Z.ltb_spec n (Z.of_nat (length (safe_states g L)))) as [Hn|]; [|split; [auto|apply safe_vertex]].
    destruct (HD n eq_refl) as (H0 & H1). replace (n <? 0)%Z with false by (symmetry; apply Z.ltb_ge; lia).
    split; [reflexivity|]. intros s Hs. apply in_map_iff in Hs as (i & <- & Hi). apply safe_vertex, nth_In.
    now apply H1.
  Qed.

  (** Calls with matching columns leave no misfit. *)
  Lemma no_misfit m rows lims positive num draws :
    (forall s, is_vertex g s -> length (policy St s) = m) ->
    (forall r, In r rows -> length r = m) ->
    (forall i, In i draws -> i < length (safe_states g L)) ->
    misfit_after leb g L St false (dims g + m) (Perturbations m rows) lims positive num draws = false.
  Proof using HL VG Hleb.
    intros HP HR HD. unfold misfit_after. destruct select_states as [states|] eqn:ES; auto.
    assert (HV : forall s, In s states -> is_vertex g s /\ length s = dims g) by (eapply selected_vertex; eauto).
    assert (HAct : forall a, In a (map (policy St) states) -> length a = m).
    { intros a Ha. apply in_map_iff in Ha as (s & <- & Hs). apply HP, HV, Hs. }
    destruct (perturb_actions leb states _ rows lims) as [cand|] eqn:EC; auto.
    rewrite feed_fits.
    2: { eapply perturb_width; [| |exact EC]; [intros s Hs; now apply HV|].
         intros a p Ha Hp. rewrite (HAct a Ha), (HR p Hp). left; auto. }
    destruct (bind _ _) as [inside|]; auto. destruct (mask inside cand); auto.
    destruct (perturb_actions leb states _ [[0%R]] lims) as [backup|] eqn:EB; auto.
    rewrite feed_fits; auto. eapply perturb_width; [| |exact EB]; [intros s Hs; now apply HV|].
    intros a p Ha [<-|[]]. rewrite (HAct a Ha). simpl. right; auto.
  Qed.

  (** A call with another number of columns leaves one. *)
  Lemma leaves_misfit before m k c width rows lims positive num draws :
    (forall s, is_vertex g s -> length (policy St s) = k) ->
    (forall r, In r rows -> length r = m) -> rows <> [] ->
    (forall l, lims = Some l -> length l = c) ->
    drawn g L num draws -> tested g L num draws <> [] ->
    broadcasts m k c -> dims g + c <> width ->
    sample_with leb g L St width (Perturbations m rows) lims positive num draws = Err ValueError /\
    misfit_after leb g L St before width (Perturbations m rows) lims positive num draws = true.
  Proof using HL VG Hleb.
    intros HP HR HR0 HLim HD HT HB HW.
    destruct (drawn_select num draws HD) as (ES & HV).
    unfold misfit_after, sample_with. rewrite ES. cbn [bind].
    set (states := tested g L num draws) in *.
    assert (HAct : forall a p, In a (map (policy St) states) -> In p rows -> broadcasts (length p) (length a) c).
    { intros a p Ha Hp. apply in_map_iff in Ha as (s & <- & Hs).
      rewrite (HP s), (HR p Hp); auto. apply HV, Hs. }
    destruct states as [|s0 ss] eqn:Est; [congruence|]. rewrite <- Est in *.
    destruct rows as [|p0 ps] eqn:Erows; [congruence|]. rewrite <- Erows in *.
    destruct (perturb_row states (map (policy St) states) rows lims c s0 p0) as (r & rs & E); auto.
    { apply map_length. } { rewrite Est; left; auto. } { rewrite Erows; left; auto. }
    rewrite E. cbn [bind].
    assert (EF : feed width (r :: rs) = Err ValueError).
    { apply (feed_misfit width (r :: rs) (dims g + c) r); [left; auto| |auto].
      eapply perturb_width; [| |exact E]; auto. intros s Hs. now apply HV. }
    rewrite EF. auto.
  Qed.
End Widths.

Section Stuck.
  Context {W : Type} (leb : list R -> list R -> bool) (g : grid).
  Notation run := (run leb g).
  Notation step := (step leb g).

  Lemma evaluates_iff (st : state W) : evaluates leb g st <-> ob_stuck (snd st) = false.
  Proof.
    destruct st as [w o]. unfold evaluates. cbn. unfold ob_update_values.
    destruct ob_stuck; cbn; split; auto; discriminate.
  Qed.

  (** Only [get_safe_sample] changes this. *)
  Lemma stuck_kept (st : state W) c : ~ is_sample c -> ob_stuck (snd (fst (step st c))) = ob_stuck (snd st).
  Proof.
    destruct st as [w o]. intros H. destruct c; cbn; auto.
    - unfold ob_update_values. destruct (ob_stuck o) eqn:E; cbn; auto.
    - unfold ob_update_safe_set. destruct Bool.eqb; cbn; auto. destruct (_ && _); cbn; auto.
      destruct update_effect; reflexivity.
    - exfalso. apply H. exact I.
  Qed.
  (** ... and not with perturbations. *)
  Lemma stays_stuck (st : state W) c : ob_stuck (snd st) = true -> ~ proposes_actions c ->
    ob_stuck (snd (fst (step st c))) = true.
  Proof.
    intros H N. destruct c; try solve [rewrite stuck_kept; [exact H|intros []]].
    destruct st as [w o]. cbn in H |- *. destruct p as [m rows|]; [|exfalso; apply N; exact I].
    unfold ob_get_safe_sample, sample_call. rewrite H.
    destruct select_states as [|[]]; cbn; auto.
  Qed.
  Lemma stuck_run cs : forall st : state W, ob_stuck (snd st) = true -> without proposes_actions cs ->
    ob_stuck (snd (run st cs)) = true.
  Proof.
    induction cs as [|c cs IH]; intros st H N; [exact H|]. inversion N; subst. rewrite run_cons.
    apply IH; auto. now apply stays_stuck.
  Qed.

  (** The invariant of programs with matching columns. *)
  Definition matching (m : nat) (o : object W) : Prop :=
    ob_stuck o = false /\ length (l_safe (ob_lyap o)) = length (all_points g) /\
    (forall w s, is_vertex g s -> length (policy (ob_setup o w) s) = m) /\
    (forall gr, ob_sample o = Some gr -> sg_width gr = dims g + m /\
       forall w s, is_vertex g s -> length (policy (sg_setup gr w) s) = m).
  Lemma matching_step m (st : state W) c : total_order leb -> valid_grid g ->
    shaped g m c -> real_draws g st c -> lengths g (book st) ->
    matching m (snd st) -> matching m (snd (fst (step st c))).
  Proof.
    intros TO VG HS HD HLen (H1 & H2 & H3 & H4). destruct st as [w o]. cbn in H1, H2, H3, H4.
    assert (HLen' : length (l_safe (book (fst (step (w, o) c)))) = length (all_points g)).
    { apply (lengths_run leb g [c] (w, o) HLen). }
    revert HLen'. unfold book. destruct c; cbn; intros HLen'.
    - split; [exact H1|]. split; [exact H2|]. split; [exact H3|exact H4].
    - split; [exact H1|]. split; [exact H2|]. split; [exact HS|exact H4].
    - split; [exact H1|]. split; [exact H2|]. split; [exact H3|exact H4].
    - unfold ob_update_values. rewrite H1. cbn. split; [exact H1|]. split; [exact H2|]. split; [exact H3|exact H4].
    - revert HLen'. unfold ob_update_safe_set. rewrite H1. cbn [andb].
      destruct Bool.eqb; cbn; [destruct update_effect; cbn|]; intros HLen'; (split; [reflexivity|]); (split; [exact HLen'|]);
        (split; [exact H3|exact H4]).
    - unfold ob_get_safe_sample. rewrite H1.
      set (gr := match ob_sample o with None => _ | Some gr => gr end).
      assert (HG : sg_width gr = dims g + m /\ forall w s, is_vertex g s -> length (policy (sg_setup gr w) s) = m).
      { unfold gr. destruct (ob_sample o) as [gr0|]; [apply H4; auto|]. cbn. split; [|exact H3].
        destruct p; cbn in HS |- *; destruct HS as (-> & _); reflexivity. }
      assert (HM : snd (sample_call leb g (ob_lyap o) (sg_setup gr w) (sg_width gr) false p limits positive num draws) = false).
      { unfold sample_call. destruct HG as (-> & HP). destruct p as [m' rows|m' rows]; cbn in HS |- *.
        - destruct HS as (-> & HR). apply no_misfit; auto.
        - destruct HS as (-> & Hd & ->). unfold misfit_after. destruct select_states; auto. rewrite Hd. reflexivity. }
      destruct sample_call as [r b] eqn:EC. cbn in HM. subst b.
      destruct r as [|[]]; cbn; (split; [auto|]); (split; [exact H2|]); (split; [exact H3|]);
        try exact H4; intros gr' [= <-]; exact HG.
  Qed.
  Lemma matching_run m cs : total_order leb -> valid_grid g -> forall st : state W,
    Forall (shaped g m) cs -> throughout leb g (real_draws g) st cs -> lengths g (book st) ->
    matching m (snd st) -> matching m (snd (run st cs)).
  Proof.
    intros TO VG. induction cs as [|c cs IH]; intros st HS HD HL HM; [exact HM|].
    inversion HS; subst. destruct HD as (HD1 & HD2). rewrite run_cons. apply IH; auto.
    - apply (lengths_run leb g [c] st HL).
    - now apply matching_step.
  Qed.
End Stuck.
