(** Lemmas on the continuity of triangulations. *)
From Coq Require Import List ZArith Reals Lia Lra Bool Classical.
Import ListNotations.
From Verif Require Import Prelude ListFacts NumModel NumProofs GridModel GridSpec GridProofs
  TriModel TriSpec TriProofs TriProofs2 TriContSpec.
Open Scope R_scope.

(** ** A function that is Lipschitz at every point of an interval is Lipschitz *)
Lemma locally_lipschitz (f : R -> R) K :
  (forall s, 0 <= s <= 1 -> exists dl, 0 < dl /\
     forall t, 0 <= t <= 1 -> Rabs (t - s) < dl -> Rabs (f t - f s) <= K * Rabs (t - s)) ->
  Rabs (f 1 - f 0) <= K.
Proof.
  intros H.
  set (E := fun t => 0 <= t <= 1 /\ Rabs (f t - f 0) <= K * t).
  destruct (completeness E) as [s [UB LUB]].
  { exists 1. intros t [Ht _]. lra. }
  { exists 0. split; [lra|]. rewrite Rminus_diag_eq by reflexivity. rewrite Rabs_R0. lra. }
  assert (E0 : E 0).
  { split; [lra|]. rewrite Rminus_diag_eq by reflexivity. rewrite Rabs_R0. lra. }
  assert (Hs : 0 <= s <= 1).
  { split; [now apply UB|]. apply LUB. intros t [Ht _]. lra. }
  destruct (H s Hs) as (dl & Pd & HL).
  assert (Es : E s).
  { split; [auto|].
    destruct (classic (exists t, E t /\ s - dl < t)) as [(t & [Ht Et] & Lt)|N].
    - pose proof (UB t (conj Ht Et)).
      specialize (HL t Ht). rewrite Rabs_left1 in HL by lra. specialize (HL ltac:(lra)).
      replace (f s - f 0) with ((f t - f 0) - (f t - f s)) by ring.
      eapply Rle_trans; [apply Rabs_triang|]. rewrite Rabs_Ropp. lra.
    - exfalso. assert (s <= s - dl); [|lra]. apply LUB. intros t Et.
      apply Rnot_lt_le. intros Lt. apply N. eauto. }
  destruct (Rle_lt_or_eq_dec s 1 (proj2 Hs)) as [L1|E1]; [|subst s; destruct Es; rewrite Rmult_1_r in *; auto].
  exfalso. set (t := s + Rmin (dl / 2) (1 - s)).
  assert (0 < Rmin (dl / 2) (1 - s)) by (apply Rmin_glb_lt; lra).
  pose proof (Rmin_l (dl / 2) (1 - s)). pose proof (Rmin_r (dl / 2) (1 - s)).
  assert (Et : E t).
  { split; [unfold t; lra|].
    specialize (HL t ltac:(unfold t; lra)).
    assert (A : t - s = Rmin (dl / 2) (1 - s)) by (unfold t; ring).
    rewrite A in HL. rewrite Rabs_pos_eq in HL by lra. specialize (HL ltac:(lra)). destruct Es as [_ Es].
    replace (f t - f 0) with ((f t - f s) + (f s - f 0)) by ring.
    eapply Rle_trans; [apply Rabs_triang|]. unfold t at 2. lra. }
  apply UB in Et. unfold t in Et. lra.
Qed.

(** ** Hulls *)
Lemma hull_map d vs p (h : vec -> vec) (a : nat -> R) :
  (forall v j, In v vs -> (j < d)%nat -> coordinate (h v) j = coordinate v j + a j) ->
  (forall j, (j < d)%nat -> coordinate (h p) j = coordinate p j + a j) ->
  convex_hull d vs p -> convex_hull d (map h vs) (h p).
Proof.
  intros Hv Hp (lam & P & S1 & SP). exists lam. rewrite map_length. split; [auto|]. split; [auto|].
  intros j Hj. rewrite Hp, SP by auto.
  rewrite <- (Rmult_1_l (a j)), <- S1, <- sumn_scal_r, <- sumn_plus. apply sumn_ext. intros k Hk.
  unfold entry. rewrite (nth_map_lt _ _ _ []) by auto.
  change (nth j (h (nth k vs [])) 0) with (coordinate (h (nth k vs [])) j).
  rewrite Hv by (auto; now apply nth_In). unfold coordinate. lra.
Qed.

Section Simplex.
Variable g : grid.
Hypothesis V : valid_grid g.
Hypothesis C : coarse g.
Variable t : tri.
Hypothesis W : tri_wf g t.
Local Notation d := (dims g).

(** The affine function of the simplex a point was located in. *)
Definition piece (f : Z -> R) (w : vec) (verts : list Z) (G : mat) (y x : vec) : R :=
  combine_at w f verts + sumn d (fun j => combine_at (nth j G []) f verts * (coordinate x j - coordinate y j)).

Lemma piece_combination f p id verts vp w G c q y r x lam :
  located g t p id verts vp w G c q y r -> length x = d ->
  sumn (S d) lam = 1 ->
  (forall j, (j < d)%nat -> coordinate x j = sumn (S d) (fun k => lam k * entry vp k j)) ->
  piece f w verts G y x = sumn (S d) (fun k => lam k * f (nth k verts 0%Z)).
Proof.
  intros Lo Lx S1 SP. unfold piece.
  pose proof (lo_len _ _ _ _ _ _ _ _ _ _ _ _ Lo) as LV.
  pose (wl := map lam (seq 0 (S d))).
  assert (WL : forall k, (k < S d)%nat -> coordinate wl k = lam k).
  { intros k Hk. unfold wl, coordinate. rewrite (nth_map_lt _ _ _ 0%nat) by (rewrite seq_length; auto).
    now rewrite seq_nth by auto. }
  rewrite <- (combine_shift g w wl G (fun j => coordinate x j - coordinate y j) f verts LV).
  - unfold combine_at. rewrite LV. apply sumn_ext. intros k Hk. now rewrite WL.
  - intros k Hk. rewrite WL by auto.
    rewrite (lo_wunique _ _ _ _ _ _ _ _ _ _ _ _ Lo x lam Lx S1 SP k Hk).
    rewrite (sumn_ext d (fun j => (coordinate y j - coordinate x j) * entry G j k)
                       (fun j => - 1 * ((coordinate x j - coordinate y j) * entry G j k))) by (intros; lra).
    rewrite sumn_scal. lra.
Qed.

Lemma piece_affine f w verts G y x (n : nat) (lam : nat -> R) (cs : list vec) :
  sumn n lam = 1 -> n = length cs ->
  (forall j, (j < d)%nat -> coordinate x j = sumn n (fun k => lam k * entry cs k j)) ->
  piece f w verts G y x = sumn n (fun k => lam k * piece f w verts G y (nth k cs [])).
Proof.
  intros S1 -> SP. unfold piece.
  rewrite (sumn_ext (length cs) _ (fun k => lam k * combine_at w f verts
     + sumn d (fun j => lam k * (combine_at (nth j G []) f verts * (coordinate (nth k cs []) j - coordinate y j))))).
  2:{ intros k Hk. rewrite Rmult_plus_distr_l. f_equal. now rewrite sumn_scal. }
  rewrite sumn_plus, sumn_scal_r, S1, Rmult_1_l. f_equal.
  rewrite sumn_swap. apply sumn_ext. intros j Hj. rewrite SP by auto.
  rewrite (sumn_ext (length cs) (fun i => lam i * (combine_at (nth j G []) f verts * (coordinate (nth i cs []) j - coordinate y j)))
     (fun i => combine_at (nth j G []) f verts * (lam i * entry cs i j - lam i * coordinate y j))).
  2:{ intros i Hi. unfold entry, coordinate. ring. }
  rewrite sumn_scal, sumn_minus, sumn_scal_r, S1. ring.
Qed.

(** The stored value as a function of the position. *)
Definition by_position (f : Z -> R) (v : vec) : R :=
  match state_to_index g v with Ok i => f i | Err _ => 0 end.

Lemma piece_vertex f p id verts vp w G c q y r v :
  located g t p id verts vp w G c q y r -> In v vp -> piece f w verts G y v = by_position f v.
Proof.
  intros Lo Hv. destruct (mapM_nth_ok _ _ _ 0%Z [] (lo_states _ _ _ _ _ _ _ _ _ _ _ _ Lo)) as [Lvp NV].
  rewrite (lo_len _ _ _ _ _ _ _ _ _ _ _ _ Lo) in *.
  destruct (In_nth _ _ [] Hv) as (k & Hk & <-). rewrite Lvp in Hk. specialize (NV k Hk).
  pose proof (index_vertex g V _ _ NV) as [Lv _].
  assert (Hk' : (k < S d)%nat) by exact Hk.
  rewrite (piece_combination f _ _ _ _ _ _ _ _ _ _ _ (fun i => delta i k) Lo Lv).
  - rewrite (sumn_delta (S d) k (fun i => f (nth i verts 0%Z))) by auto.
    unfold by_position. destruct (round_trip g V (nth k verts 0%Z) (index_range g _ _ NV)) as (s & E1 & E2).
    rewrite NV in E1. injection E1 as <-. now rewrite E2.
  - rewrite (sumn_ext _ _ (fun i => delta i k * 1)) by (intros; lra). now rewrite sumn_delta.
  - intros j Hj. now rewrite (sumn_delta (S d) k (fun i => entry vp i j)).
Qed.

(** On a face with corners [cs] the piece only depends on the values there. *)
Lemma piece_face f p id verts vp w G c q y r x cs (lam : nat -> R) :
  located g t p id verts vp w G c q y r -> incl cs vp ->
  sumn (length cs) lam = 1 ->
  (forall j, (j < d)%nat -> coordinate x j = sumn (length cs) (fun k => lam k * entry cs k j)) ->
  piece f w verts G y x = sumn (length cs) (fun k => lam k * by_position f (nth k cs [])).
Proof.
  intros Lo I S1 SP. rewrite (piece_affine f w verts G y x _ lam cs S1 eq_refl SP).
  apply sumn_ext. intros k Hk. f_equal. eapply piece_vertex; eauto. apply I. now apply nth_In.
Qed.

(** The simplex in terms of a cell and a simplex of the unit cell. *)
Lemma located_cell p id verts vp w G c q y r : located g t p id verts vp w G c q y r ->
  exists rs s, multi_rect g rs /\ In s (dl_simplices (t_dl t)) /\
    Forall (fun k => (k < length (rectangle_corners g))%nat) s /\ vp = verts_pos g rs s.
Proof.
  intros Lo. pose proof (lo_range _ _ _ _ _ _ _ _ _ _ _ _ Lo) as R.
  pose proof (dl_pos g V t W) as P. unfold nsimplex in R. rewrite (wf_grid _ _ W) in R.
  set (ns := dl_nsimplex (t_dl t)) in *.
  assert (D : (0 <= id / ns < nrectangles g)%Z).
  { split; [apply Z.div_pos; lia|]. apply Z.div_lt_upper_bound; lia. }
  destruct (rect_multi g V _ D) as (rs & M & Er).
  pose proof (Z.mod_pos_bound id ns P) as B.
  destruct (nth_error (dl_simplices (t_dl t)) (Z.to_nat (id mod ns))) as [s|] eqn:Es.
  2:{ apply nth_error_None in Es. unfold ns, dl_nsimplex in *. lia. }
  pose proof (simplices_ok g V t W rs _ s M Es) as SO. rewrite <- Er in SO.
  rewrite Z2Nat.id in SO by lia. fold ns in SO.
  replace (id mod ns + id / ns * ns)%Z with id in SO by (rewrite (Z.div_mod id ns) at 1; lia).
  rewrite (lo_simplices _ _ _ _ _ _ _ _ _ _ _ _ Lo) in SO. injection SO as Ev.
  destruct (simplex_points g V t W s _ Es) as [_ F].
  exists rs, s. repeat split; auto; [eapply nth_error_In; eauto|].
  pose proof (verts_states g V rs s M F) as VS. rewrite <- Ev in VS.
  rewrite (lo_states _ _ _ _ _ _ _ _ _ _ _ _ Lo) in VS. now injection VS.
Qed.

Hypothesis MT : matching (unit_maxes g) (t_dl t).

(** Two pieces agree on the points their simplices have in common. *)
Lemma pieces_agree f p id verts vp w G c q y r p' id' verts' vp' w' G' c' q' y' r' x :
  located g t p id verts vp w G c q y r -> located g t p' id' verts' vp' w' G' c' q' y' r' ->
  length x = d -> convex_hull d vp x -> convex_hull d vp' x ->
  piece f w verts G y x = piece f w' verts' G' y' x.
Proof.
  intros Lo Lo' Lx H1 H2.
  destruct (located_cell _ _ _ _ _ _ _ _ _ _ Lo) as (rs & s & M & Is & Fs & Evp).
  destruct (located_cell _ _ _ _ _ _ _ _ _ _ Lo') as (rs' & s' & M' & Is' & Fs' & Evp').
  pose proof M as MM. pose proof M' as MM'.
  apply (multi_rect_nth g V) in MM as [Lr _]. apply (multi_rect_nth g V) in MM' as [Lr' _].
  assert (SL : length (state_of g rs) = d) by now apply state_of_len.
  assert (SL' : length (state_of g rs') = d) by now apply state_of_len.
  assert (DP : dl_points (t_dl t) = rectangle_corners g) by apply (wf_dl _ _ W).
  set (b := state_of g rs) in *.
  set (e := fun j => (nth j rs' 0 - nth j rs 0)%Z).
  set (h := fun v => vsub v b).
  assert (CP : forall k, In k s -> length (nth k (rectangle_corners g) []) = d).
  { intros k Hk. rewrite Forall_forall in Fs. apply (corner_nth g V k (Fs k Hk)). }
  assert (CP' : forall k, In k s' -> length (nth k (rectangle_corners g) []) = d).
  { intros k Hk. rewrite Forall_forall in Fs'. apply (corner_nth g V k (Fs' k Hk)). }
  assert (E1 : map h vp = corner_points (t_dl t) s).
  { rewrite Evp. unfold verts_pos, corner_points. rewrite map_map, DP. apply map_ext_in. intros k Hk.
    unfold h. specialize (CP k Hk).
    assert (LA : length (vadd (state_of g rs) (nth k (rectangle_corners g) [])) = d)
      by (rewrite vadd_len; fold b; congruence).
    apply (nth_ext _ _ 0 0); [rewrite vsub_len; congruence|].
    intros j Hj. rewrite vsub_len in Hj by congruence.
    change (coordinate (vsub (vadd (state_of g rs) (nth k (rectangle_corners g) [])) b) j
            = coordinate (nth k (rectangle_corners g) []) j).
    rewrite vsub_coord by (try rewrite LA; try rewrite SL; lia).
    rewrite vadd_coord by (fold b; lia). fold b. lra. }
  assert (TR : forall k, In k s' -> vsub (vadd (state_of g rs') (nth k (rectangle_corners g) [])) b
                 = translate (unit_maxes g) e (nth k (rectangle_corners g) [])).
  { intros k Hk. specialize (CP' k Hk).
    assert (LA : length (vadd (state_of g rs') (nth k (rectangle_corners g) [])) = d)
      by (rewrite vadd_len; congruence).
    apply (nth_ext _ _ 0 0).
    { rewrite vsub_len by congruence. unfold translate. rewrite map_length, seq_length, (unit_len g V). exact LA. }
    intros j Hj. rewrite vsub_len in Hj by congruence. rewrite LA in Hj.
    change (coordinate (vsub (vadd (state_of g rs') (nth k (rectangle_corners g) [])) b) j
            = coordinate (translate (unit_maxes g) e (nth k (rectangle_corners g) [])) j).
    rewrite vsub_coord by lia. rewrite vadd_coord by lia.
    unfold translate. unfold coordinate at 4. rewrite (unit_len g V).
    rewrite (nth_map_lt _ _ _ 0%nat) by (rewrite seq_length; auto). rewrite seq_nth by auto. simpl.
    unfold b. rewrite !(state_of_nth g V) by auto. unfold e. rewrite minus_IZR.
    unfold coordinate at 3. rewrite (unit_nth g V) by auto. lra. }
  assert (E2 : map h vp' = map (translate (unit_maxes g) e) (corner_points (t_dl t) s')).
  { rewrite Evp'. unfold verts_pos, corner_points. rewrite !map_map, DP. apply map_ext_in. intros k Hk.
    now apply TR. }
  assert (VL : Forall (fun v => length v = d) vp) by (rewrite Evp; now apply verts_pos_len).
  assert (VL' : Forall (fun v => length v = d) vp') by (rewrite Evp'; now apply verts_pos_len).
  rewrite Forall_forall in VL, VL'.
  assert (HC : forall v j, length v = d -> (j < d)%nat -> coordinate (h v) j = coordinate v j + - coordinate b j).
  { intros v j Lv Hj. unfold h. rewrite vsub_coord by lia. lra. }
  pose proof (hull_map d vp x h (fun j => - coordinate b j)
     (fun v j Hv Hj => HC v j (VL v Hv) Hj) (fun j Hj => HC x j Lx Hj) H1) as K1.
  pose proof (hull_map d vp' x h (fun j => - coordinate b j)
     (fun v j Hv Hj => HC v j (VL' v Hv) Hj) (fun j Hj => HC x j Lx Hj) H2) as K2.
  rewrite E1 in K1. rewrite E2 in K2.
  assert (Lhx : length (h x) = length (unit_maxes g)) by (unfold h; rewrite vsub_len, (unit_len g V); congruence).
  pose proof (MT s s' e Is Is') as SF. unfold share_faces in SF. rewrite (unit_len g V) in SF, Lhx.
  destruct (SF (h x) Lhx K1 K2) as (cs & I1 & I2 & (lam & P & S1 & SP)).
  set (cs' := map (vadd b) cs).
  assert (J1 : incl cs' vp).
  { intros v Hv. apply in_map_iff in Hv as (v0 & <- & Hv0). apply I1 in Hv0.
    unfold corner_points in Hv0. apply in_map_iff in Hv0 as (k & <- & Hk). rewrite DP, Evp.
    unfold verts_pos. apply in_map_iff. exists k. auto. }
  assert (J2 : incl cs' vp').
  { intros v Hv. apply in_map_iff in Hv as (v0 & <- & Hv0). apply I2 in Hv0.
    unfold corner_points in Hv0. rewrite map_map in Hv0. apply in_map_iff in Hv0 as (k & <- & Hk). rewrite DP, Evp'.
    unfold verts_pos. apply in_map_iff. exists k. split; [|auto]. rewrite <- TR by auto.
    assert (LA : length (vadd (state_of g rs') (nth k (rectangle_corners g) [])) = d)
      by (rewrite vadd_len; rewrite ?CP'; auto).
    assert (LB : length (vsub (vadd (state_of g rs') (nth k (rectangle_corners g) [])) b) = d)
      by (rewrite vsub_len; congruence).
    apply (nth_ext _ _ 0 0); [rewrite LA, (vadd_len b) by congruence; congruence|].
    intros j Hj. rewrite LA in Hj.
    change (coordinate (vadd (state_of g rs') (nth k (rectangle_corners g) [])) j
      = coordinate (vadd b (vsub (vadd (state_of g rs') (nth k (rectangle_corners g) [])) b)) j).
    rewrite (vadd_coord b) by lia. rewrite vsub_coord by lia. lra. }
  assert (Lcs : forall v, In v cs -> length v = d).
  { intros v Hv. apply I1 in Hv. unfold corner_points in Hv. apply in_map_iff in Hv as (k & <- & Hk).
    rewrite DP. now apply CP. }
  assert (SP' : forall j, (j < d)%nat -> coordinate x j = sumn (length cs') (fun k => lam k * entry cs' k j)).
  { intros j Hj. unfold cs'. rewrite map_length. specialize (SP j Hj). rewrite HC in SP by auto.
    rewrite (sumn_ext (length cs) (fun k => lam k * entry (map (vadd b) cs) k j)
               (fun k => lam k * coordinate b j + lam k * entry cs k j)).
    - rewrite sumn_plus, sumn_scal_r, S1, <- SP. lra.
    - intros k Hk. unfold entry. rewrite (nth_map_lt _ _ _ []) by auto.
      change (nth j (vadd b (nth k cs [])) 0) with (coordinate (vadd b (nth k cs [])) j).
      rewrite vadd_coord; [unfold coordinate; lra|lia|]. rewrite Lcs; auto. now apply nth_In. }
  assert (S1' : sumn (length cs') lam = 1) by (unfold cs'; rewrite map_length; auto).
  rewrite (piece_face f _ _ _ _ _ _ _ _ _ _ x cs' lam Lo J1 S1' SP').
  now rewrite (piece_face f _ _ _ _ _ _ _ _ _ _ x cs' lam Lo' J2 S1' SP').
Qed.

End Simplex.
