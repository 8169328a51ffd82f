(** Cells with one or two axes always fit together. *)
From Coq Require Import List ZArith Reals Lia Lra Bool.
Import ListNotations.
From Verif Require Import Prelude ListFacts NumModel NumProofs GridModel GridSpec GridProofs
  TriModel TriSpec TriProofs TriProofs2 TriContSpec.
Open Scope R_scope.

Lemma sumn_pos_ex n f : 0 < sumn n f -> exists k, (k < n)%nat /\ 0 < f k.
Proof.
  induction n as [|n IH]; simpl; [lra|]. intros H.
  destruct (Rlt_le_dec 0 (f n)) as [P|N]; [exists n; auto|].
  destruct IH as (k & Hk & P); [lra|]. exists k. auto.
Qed.

(** Points of a box. *)
Definition box_corner (u v : vec) : Prop :=
  length v = length u /\ forall j, (j < length u)%nat -> coordinate v j = 0 \/ coordinate v j = coordinate u j.
Definition positive (u : vec) : Prop := forall j, (j < length u)%nat -> 0 < coordinate u j.

Section Box.
Variable u : vec.
Hypothesis U : positive u.
Variable vs : list vec.
Hypothesis BC : Forall (box_corner u) vs.
Local Notation d := (length u).

Lemma hull_box p : convex_hull d vs p -> forall j, (j < d)%nat -> 0 <= coordinate p j <= coordinate u j.
Proof.
  intros (lam & P & S1 & SP) j Hj. rewrite SP by auto. rewrite Forall_forall in BC.
  assert (B : forall k, (k < length vs)%nat -> 0 <= entry vs k j <= coordinate u j).
  { intros k Hk. destruct (BC _ (nth_In _ [] Hk)) as [_ Bc]. specialize (U j Hj).
    unfold entry. destruct (Bc j Hj) as [E|E]; unfold coordinate in E at 1; rewrite E; lra. }
  split.
  - apply sumn_nonneg. intros k Hk. apply Rmult_le_pos; [auto|apply B; auto].
  - rewrite <- (Rmult_1_l (coordinate u j)), <- S1, <- sumn_scal_r. apply sumn_le. intros k Hk.
    apply Rmult_le_compat_l; [auto|apply B; auto].
Qed.

(** If a point lies on the side p_j of the box, so do the corners it is made of. *)
Lemma side_corner p lam : (forall k, (k < length vs)%nat -> 0 <= lam k) -> sumn (length vs) lam = 1 ->
  (forall j, (j < d)%nat -> coordinate p j = sumn (length vs) (fun k => lam k * entry vs k j)) ->
  forall j k, (j < d)%nat -> (k < length vs)%nat -> 0 < lam k ->
    coordinate p j = 0 \/ coordinate p j = coordinate u j -> entry vs k j = coordinate p j.
Proof.
  intros P S1 SP j k Hj Hk Pk Hp. rewrite Forall_forall in BC.
  assert (B : forall k, (k < length vs)%nat -> entry vs k j = 0 \/ entry vs k j = coordinate u j).
  { intros k' Hk'. destruct (BC _ (nth_In _ [] Hk')) as [_ Bc]. apply Bc; auto. }
  specialize (U j Hj). specialize (SP j Hj).
  assert (N : forall k, (k < length vs)%nat -> 0 <= lam k * entry vs k j).
  { intros k' Hk'. apply Rmult_le_pos; [auto|]. destruct (B k' Hk') as [-> | ->]; lra. }
  assert (N' : forall k, (k < length vs)%nat -> 0 <= lam k * (coordinate u j - entry vs k j)).
  { intros k' Hk'. apply Rmult_le_pos; [auto|]. destruct (B k' Hk') as [-> | ->]; lra. }
  destruct Hp as [E|E]; rewrite E in *.
  - destruct (B k Hk) as [E'|E']; [auto|].
    pose proof (sumn_nonneg_term (length vs) _ k N Hk) as T. cbv beta in T. rewrite <- SP, E' in T. nra.
  - destruct (B k Hk) as [E'|E']; [|auto].
    pose proof (sumn_nonneg_term (length vs) _ k N' Hk) as T. cbv beta in T.
    rewrite (sumn_ext _ _ (fun k => lam k * coordinate u j - lam k * entry vs k j)) in T by (intros; ring).
    rewrite sumn_minus, sumn_scal_r, S1, <- SP, E' in T. nra.
Qed.

Lemma side_upper p i j : convex_hull d vs p -> (i < d)%nat -> (j < d)%nat ->
  coordinate p j = 0 \/ coordinate p j = coordinate u j -> 0 < coordinate p i ->
  exists v, In v vs /\ length v = d /\ coordinate v j = coordinate p j /\ coordinate v i = coordinate u i.
Proof.
  intros (lam & P & S1 & SP) Hi Hj Hp Pi. rewrite (SP i Hi) in Pi.
  destruct (sumn_pos_ex _ _ Pi) as (k & Hk & Pk).
  pose proof BC as BC'. rewrite Forall_forall in BC'. destruct (BC' _ (nth_In _ [] Hk)) as [Lv Bc].
  assert (Pl : 0 < lam k).
  { destruct (P k Hk) as [Pl|E]; [auto|]. rewrite <- E in Pk. lra. }
  exists (nth k vs []). split; [now apply nth_In|]. split; [auto|]. split.
  - apply (side_corner p lam P S1 SP j k); auto.
  - destruct (Bc i Hi) as [E|E]; [|auto]. unfold entry in Pk. unfold coordinate in E. rewrite E in Pk. lra.
Qed.

Lemma side_lower p i j : convex_hull d vs p -> (i < d)%nat -> (j < d)%nat ->
  coordinate p j = 0 \/ coordinate p j = coordinate u j -> coordinate p i < coordinate u i ->
  exists v, In v vs /\ length v = d /\ coordinate v j = coordinate p j /\ coordinate v i = 0.
Proof.
  intros (lam & P & S1 & SP) Hi Hj Hp Pi.
  assert (Pi' : 0 < sumn (length vs) (fun k => lam k * (coordinate u i - entry vs k i))).
  { rewrite (sumn_ext _ _ (fun k => lam k * coordinate u i - lam k * entry vs k i)) by (intros; ring).
    rewrite sumn_minus, sumn_scal_r, S1, <- SP by auto. lra. }
  destruct (sumn_pos_ex _ _ Pi') as (k & Hk & Pk).
  pose proof BC as BC'. rewrite Forall_forall in BC'. destruct (BC' _ (nth_In _ [] Hk)) as [Lv Bc].
  assert (Pl : 0 < lam k).
  { destruct (P k Hk) as [Pl|E]; [auto|]. rewrite <- E in Pk. lra. }
  exists (nth k vs []). split; [now apply nth_In|]. split; [auto|]. split.
  - apply (side_corner p lam P S1 SP j k); auto.
  - destruct (Bc i Hi) as [E|E]; [auto|]. unfold entry in Pk. unfold coordinate in E at 1. rewrite E in Pk. lra.
Qed.
End Box.

Lemma hull_one d p : convex_hull d [p] p.
Proof.
  exists (fun _ => 1). split; [intros; lra|]. simpl. split; [lra|]. intros j Hj. unfold entry, coordinate. simpl. lra.
Qed.
Lemma hull_two d a b p th : 0 <= th <= 1 ->
  (forall j, (j < d)%nat -> coordinate p j = (1 - th) * coordinate a j + th * coordinate b j) ->
  convex_hull d [a; b] p.
Proof.
  intros T H. exists (fun k => match k with O => 1 - th | _ => th end).
  split; [intros [|k] _; lra|]. simpl. split; [lra|]. intros j Hj. rewrite H by auto. unfold entry, coordinate. simpl. lra.
Qed.

Lemma translate_len u e v : length (translate u e v) = length u.
Proof. unfold translate. now rewrite map_length, seq_length. Qed.
Lemma translate_coord u e v j : (j < length u)%nat ->
  coordinate (translate u e v) j = coordinate v j + IZR (e j) * coordinate u j.
Proof.
  intros Hj. unfold translate. unfold coordinate at 1.
  rewrite (nth_map_lt _ _ _ 0%nat) by (rewrite seq_length; auto). now rewrite seq_nth by auto.
Qed.

(** Moving the point instead of the simplex. *)
Lemma hull_translate u e vs p : Forall (fun v => length v = length u) vs -> length p = length u ->
  convex_hull (length u) (map (translate u e) vs) p ->
  convex_hull (length u) vs (translate u (fun j => (- e j)%Z) p).
Proof.
  intros LV Lp (lam & P & S1 & SP). rewrite map_length in *. exists lam. split; [auto|]. split; [auto|].
  intros j Hj. rewrite translate_coord, SP by auto. rewrite opp_IZR.
  rewrite (sumn_ext _ _ (fun k => lam k * entry vs k j + lam k * (IZR (e j) * coordinate u j))).
  - rewrite sumn_plus, sumn_scal_r, S1. lra.
  - intros k Hk. unfold entry. rewrite (nth_map_lt _ _ _ []) by auto.
    change (nth j (translate u e (nth k vs [])) 0) with (coordinate (translate u e (nth k vs [])) j).
    rewrite translate_coord by auto. unfold coordinate. ring.
Qed.

Lemma vec_eq (d : nat) (a b : vec) : length a = d -> length b = d ->
  (forall j, (j < d)%nat -> coordinate a j = coordinate b j) -> a = b.
Proof. intros La Lb H. apply (nth_ext _ _ 0 0); [congruence|]. intros j Hj. apply H. congruence. Qed.

(** A shift that leaves a point common to two boxes. *)
Lemma shift_cases w z (x : R) : 0 < w -> 0 <= x <= w -> 0 <= x - IZR z * w <= w ->
  z = 0%Z \/ (z = 1%Z /\ x = w) \/ (z = (-1)%Z /\ x = 0).
Proof.
  intros W X Y.
  assert (z <= 1)%Z.
  { apply Znot_gt_le. intros G. assert (2 <= IZR z) by (apply IZR_le; lia). nra. }
  assert (-1 <= z)%Z.
  { apply Znot_gt_le. intros G. assert (IZR z <= -2) by (apply IZR_le; lia). nra. }
  assert (z = 0 \/ z = 1 \/ z = -1)%Z as [->|[->| ->]] by lia; [now left| |]; right; [left|right]; split; auto; lra.
Qed.

Section Two.
Variable u : vec.
Hypothesis U : positive u.
Variables vs vs' : list vec.
Hypothesis BC : Forall (box_corner u) vs.
Hypothesis BC' : Forall (box_corner u) vs'.

(** One axis. *)
Lemma share_1 e : length u = 1%nat -> share_faces 1 vs vs' -> share_faces 1 vs (map (translate u e) vs').
Proof.
  intros Lu F p Lp H1 H2. rewrite <- Lu in *.
  assert (LV' : Forall (fun v => length v = length u) vs') by (eapply Forall_impl; [|exact BC']; intros v Hv; apply Hv).
  pose proof (hull_translate u e vs' p LV' Lp H2) as H2'.
  set (p' := translate u (fun j => (- e j)%Z) p) in *.
  pose proof (hull_box u U vs BC p H1 0%nat ltac:(lia)) as B.
  pose proof (hull_box u U vs' BC' p' H2' 0%nat ltac:(lia)) as B'.
  assert (E' : coordinate p' 0 = coordinate p 0 - IZR (e 0%nat) * coordinate u 0).
  { unfold p'. rewrite translate_coord by lia. rewrite opp_IZR. lra. }
  rewrite E' in B'. pose proof (U 0%nat ltac:(lia)) as U0.
  assert (EQ : forall a b : vec, length a = length u -> length b = length u -> coordinate a 0 = coordinate b 0 -> a = b).
  { intros a b La Lb E. apply (vec_eq (length u)); auto. intros j Hj. assert (j = 0)%nat by lia. now subst j. }
  assert (ONE : forall v v', In v vs -> In v' vs' -> coordinate v 0 = coordinate p 0 -> coordinate v' 0 = coordinate p' 0 ->
      exists c, incl c vs /\ incl c (map (translate u e) vs') /\ convex_hull (length u) c p).
  { intros v v' Hv Hv' Ev Ev'. exists [p]. rewrite Forall_forall in BC, LV'.
    assert (v = p) by (apply EQ; auto; apply (BC v Hv)). subst v.
    split; [intros a [<-|[]]; auto|]. split; [|apply hull_one].
    intros a [<-|[]]. apply in_map_iff. exists v'. split; [|auto]. apply EQ; auto.
    - apply translate_len.
    - rewrite translate_coord by lia. rewrite Ev', E'. lra. }
  destruct (shift_cases _ _ _ U0 B B') as [Z|[[Z X]|[Z X]]].
  - assert (p' = p).
    { apply EQ; auto; [unfold p'; now rewrite translate_len|]. rewrite E', Z. lra. }
    rewrite H in H2'. rewrite Lu in *. destruct (F p Lp H1 H2') as (c & I1 & I2 & I3). exists c. split; [auto|]. split; [|auto].
    intros v Hv. apply in_map_iff. exists v. split; [|auto]. rewrite Forall_forall in LV'.
    apply EQ; auto; [now rewrite translate_len|]. rewrite translate_coord by lia. rewrite Z. lra.
  - destruct (side_upper u U vs BC p 0 0 H1 ltac:(lia) ltac:(lia) ltac:(auto) ltac:(lra)) as (v & I & _ & Ev & _).
    destruct (side_lower u U vs' BC' p' 0 0 H2' ltac:(lia) ltac:(lia)) as (v' & I' & _ & Ev' & _).
    + left. rewrite E', Z, X. lra.
    + rewrite E', Z, X. lra.
    + eapply ONE; eauto.
  - destruct (side_lower u U vs BC p 0 0 H1 ltac:(lia) ltac:(lia) ltac:(auto) ltac:(lra)) as (v & I & _ & Ev & _).
    destruct (side_upper u U vs' BC' p' 0 0 H2' ltac:(lia) ltac:(lia)) as (v' & I' & _ & Ev' & _).
    + right. rewrite E', Z, X. lra.
    + rewrite E', Z, X. lra.
    + eapply ONE; eauto.
Qed.

(** Two axes, the shift is along axis [j] and perhaps along the other axis [i]. *)
Lemma share_2_moved e i j : length u = 2%nat -> (i < 2)%nat -> (j < 2)%nat -> i <> j -> e j <> 0%Z ->
  share_faces 2 vs (map (translate u e) vs').
Proof.
  intros Lu Hi Hj Nij Ne p Lp H1 H2. rewrite <- Lu in *.
  assert (LV' : Forall (fun v => length v = length u) vs') by (eapply Forall_impl; [|exact BC']; intros v Hv; apply Hv).
  pose proof (hull_translate u e vs' p LV' Lp H2) as H2'.
  set (p' := translate u (fun j => (- e j)%Z) p) in *.
  assert (E' : forall j, (j < length u)%nat -> coordinate p' j = coordinate p j - IZR (e j) * coordinate u j).
  { intros k Hk. unfold p'. rewrite translate_coord by auto. rewrite opp_IZR. lra. }
  assert (SC : forall k, (k < length u)%nat -> e k = 0%Z \/ (e k = 1%Z /\ coordinate p k = coordinate u k) \/
                                   (e k = (-1)%Z /\ coordinate p k = 0)).
  { intros k Hk. apply shift_cases; [now apply U|now apply (hull_box u U vs BC p H1)|].
    rewrite <- E' by auto. now apply (hull_box u U vs' BC' p' H2'). }
  assert (EQ : forall a b : vec, length a = length u -> length b = length u ->
             coordinate a i = coordinate b i -> coordinate a j = coordinate b j -> a = b).
  { intros a b La Lb Ei Ej. apply (vec_eq (length u)); auto. intros k Hk.
    assert (k = i \/ k = j) as [->| ->] by lia; auto. }
  assert (PJ : coordinate p j = 0 \/ coordinate p j = coordinate u j).
  { destruct (SC j Hj) as [|[[]|[]]]; auto; contradiction. }
  assert (PJ' : coordinate p' j = 0 \/ coordinate p' j = coordinate u j).
  { rewrite E' by auto. destruct (SC j Hj) as [?|[[E X]|[E X]]]; [contradiction| |]; rewrite E, X; [left|right]; lra. }
  (* a corner v of vs and a corner v' of vs' that meet *)
  assert (MEET : forall v' a, In v' vs' -> length a = length u -> coordinate a j = coordinate p j ->
      coordinate v' j = coordinate p' j -> coordinate v' i + IZR (e i) * coordinate u i = coordinate a i ->
      In a (map (translate u e) vs')).
  { intros v' a I La Aj Vj Vi. apply in_map_iff. exists v'. split; [|auto].
    apply EQ; auto; [apply translate_len| |]; rewrite translate_coord by auto; [auto|].
    rewrite Vj, E', Aj by auto. lra. }
  pose proof (hull_box u U vs BC p H1 i Hi) as Bi. pose proof (U i Hi) as Ui.
  assert (LV : forall v, In v vs -> length v = length u).
  { intros v Hv. rewrite Forall_forall in BC. apply (BC v Hv). }
  destruct (Req_EM_T (coordinate p i) 0) as [Z|NZ]; [|destruct (Req_EM_T (coordinate p i) (coordinate u i)) as [T|NT]].
  - (* p is a corner *)
    destruct (side_lower u U vs BC p i j H1 Hi Hj PJ ltac:(lra)) as (v & I & Lv & Vj & Vi).
    assert (v = p) by (apply EQ; auto; lra). subst v.
    exists [p]. split; [intros a [<-|[]]; auto|]. split; [|apply hull_one]. intros a [<-|[]].
    destruct (SC i Hi) as [X|[[X Y]|[X Y]]]; [| lra |].
    + destruct (side_lower u U vs' BC' p' i j H2' Hi Hj PJ') as (v' & I' & Lv' & Vj' & Vi').
      { rewrite E', X by auto. lra. }
      apply (MEET v'); auto. rewrite Vi', X, Z. lra.
    + destruct (side_upper u U vs' BC' p' i j H2' Hi Hj PJ') as (v' & I' & Lv' & Vj' & Vi').
      { rewrite E', X by auto. lra. }
      apply (MEET v'); auto. rewrite Vi', X, Z. lra.
  - destruct (side_upper u U vs BC p i j H1 Hi Hj PJ ltac:(lra)) as (v & I & Lv & Vj & Vi).
    assert (v = p) by (apply EQ; auto; lra). subst v.
    exists [p]. split; [intros a [<-|[]]; auto|]. split; [|apply hull_one]. intros a [<-|[]].
    destruct (SC i Hi) as [X|[[X Y]|[X Y]]]; [| | lra].
    + destruct (side_upper u U vs' BC' p' i j H2' Hi Hj PJ') as (v' & I' & Lv' & Vj' & Vi').
      { rewrite E', X by auto. lra. }
      apply (MEET v'); auto. rewrite Vi', X, T. lra.
    + destruct (side_lower u U vs' BC' p' i j H2' Hi Hj PJ') as (v' & I' & Lv' & Vj' & Vi').
      { rewrite E', X by auto. lra. }
      apply (MEET v'); auto. rewrite Vi', X, T. lra.
  - (* p is inside an edge *)
    destruct (SC i Hi) as [X|[[X Y]|[X Y]]]; [| lra | lra].
    destruct (side_lower u U vs BC p i j H1 Hi Hj PJ ltac:(lra)) as (a & Ia & La & Aj & Ai).
    destruct (side_upper u U vs BC p i j H1 Hi Hj PJ ltac:(lra)) as (b & Ib & Lb & Bj & Bi').
    destruct (side_lower u U vs' BC' p' i j H2' Hi Hj PJ') as (a' & Ia' & La' & Aj' & Ai').
    { rewrite E', X by auto. lra. }
    destruct (side_upper u U vs' BC' p' i j H2' Hi Hj PJ') as (b' & Ib' & Lb' & Bj' & Bi'').
    { rewrite E', X by auto. lra. }
    exists [a; b]. split; [intros v [<-|[<-|[]]]; auto|]. split.
    + intros v [<-|[<-|[]]].
      * apply (MEET a'); auto. rewrite Ai', X, Ai. lra.
      * apply (MEET b'); auto. rewrite Bi'', X, Bi'. lra.
    + apply (hull_two _ a b p (coordinate p i / coordinate u i)).
      * split; [apply Rmult_le_pos; [lra|apply Rlt_le, Rinv_0_lt_compat; lra]|].
        apply Rmult_le_reg_r with (coordinate u i); [lra|].
        replace (coordinate p i / coordinate u i * coordinate u i) with (coordinate p i) by (field; lra). lra.
      * intros k Hk. assert (k = i \/ k = j) as [->| ->] by lia.
        -- rewrite Ai, Bi'. field. lra.
        -- rewrite Aj, Bj. ring.
Qed.

Lemma share_2 e : length u = 2%nat -> share_faces 2 vs vs' -> share_faces 2 vs (map (translate u e) vs').
Proof.
  intros Lu F. destruct (Z.eq_dec (e 0%nat) 0) as [Z0|N0]; [destruct (Z.eq_dec (e 1%nat) 0) as [Z1|N1]|].
  - replace (map (translate u e) vs') with vs'; auto.
    rewrite <- (map_id vs') at 1. apply map_ext_in. intros v Hv.
    rewrite Forall_forall in BC'. destruct (BC' v Hv) as [Lv _].
    apply (vec_eq (length u)); auto; [apply translate_len|]. intros j Hj. rewrite translate_coord by auto.
    assert (j = 0 \/ j = 1)%nat as [->| ->] by lia; [rewrite Z0|rewrite Z1]; lra.
  - apply (share_2_moved e 0 1); auto; lia.
  - apply (share_2_moved e 1 0); auto; lia.
Qed.
End Two.

(** For grids with at most two axes a triangulation of the cell is enough. *)
Lemma matching_low dl inv g values m project t : setup dl inv g values m project t ->
  dims g = 1%nat \/ dims g = 2%nat /\ face_to_face (unit_maxes g) (t_dl t) ->
  matching (unit_maxes g) (t_dl t).
Proof.
  intros SU HD. pose proof (su_grid _ _ _ _ _ _ _ SU) as V.
  pose proof (proj1 (setup_wf _ _ _ _ _ _ _ SU)) as W.
  pose proof (wf_dl _ _ W) as (DP & DS & _). rewrite Forall_forall in DS.
  assert (U : positive (unit_maxes g)).
  { intros j Hj. rewrite (unit_len g V) in Hj. unfold coordinate. rewrite (unit_nth g V) by auto. now apply spacing_pos. }
  assert (BC : forall s, In s (dl_simplices (t_dl t)) -> Forall (box_corner (unit_maxes g)) (corner_points (t_dl t) s)).
  { intros s Hs. apply Forall_forall. intros v Hv. unfold corner_points in Hv. apply in_map_iff in Hv as (k & <- & Hk).
    destruct (DS s Hs) as (_ & F & _). rewrite Forall_forall in F. rewrite DP.
    destruct (corner_nth g V k (F k Hk)) as [Lc Cc]. split; [rewrite (unit_len g V); auto|].
    rewrite (unit_len g V). intros j Hj. unfold coordinate at 3. rewrite (unit_nth g V) by auto. auto. }
  intros s s' e Hs Hs'. destruct HD as [D1|[D2 FF]].
  - rewrite (unit_len g V), D1. apply share_1; auto; [now rewrite (unit_len g V)|].
    intros p Lp H1 H2. exists (corner_points (t_dl t) s). split; [apply incl_refl|]. split; [|auto].
    assert (ONE : forall s, In s (dl_simplices (t_dl t)) -> s = [0; 1]%nat).
    { pose proof (su_made _ _ _ _ _ _ _ SU) as E. unfold make_tri in E.
      destruct (_ =? _)%Z; [|discriminate]. unfold dims in D1. unfold rectangle_corners in E. destruct (limits g) as [|l [|]]; try discriminate.
      destruct (delaunay1d _) as [D|] eqn:ED; [|discriminate]. cbn [bind] in E.
      destruct (simplex_indices g D); [|discriminate]. cbn [bind] in E. destruct (mapM _ _); [|discriminate].
      injection E as <-. simpl. unfold delaunay1d in ED. destruct (existsb _ _); [discriminate|].
      destruct (Nat.ltb _ _); [discriminate|]. injection ED as <-. simpl. intros s0 [<-|[]]. reflexivity. }
    rewrite (ONE s Hs), (ONE s' Hs'). apply incl_refl.
  - rewrite (unit_len g V), D2. apply share_2; auto; [now rewrite (unit_len g V)|].
    specialize (FF s s' Hs Hs'). now rewrite (unit_len g V), D2 in FF.
Qed.
