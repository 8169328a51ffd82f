(** A triangulation of the cube into five tetrahedra: it meets the contract of
    scipy.spatial.Delaunay, but copies of the cube do not fit together. *)
From Coq Require Import List ZArith Reals Lia Lra Bool Classical ClassicalEpsilon.
Import ListNotations.
From Verif Require Import Prelude ListFacts NumModel NumProofs GridModel GridSpec GridProofs
  TriModel TriSpec TriProofs TriProofs2 TriContSpec TriContProofs TriContProofs2.
Open Scope R_scope.

(** Some routine that inverts matrices. *)
Definition inv_any (d : nat) (M : mat) : res mat :=
  match excluded_middle_informative (exists H, inverse d M H) with
  | left E => Ok (proj1_sig (constructive_indefinite_description _ E))
  | right _ => Err OtherError
  end.
Lemma good_inv_any d : good_inv d (inv_any d).
Proof.
  intros M _ E. unfold inv_any. destruct excluded_middle_informative; [|contradiction].
  destruct (constructive_indefinite_description _ e) as [H I]. exists H. auto.
Qed.

(** Four corner tetrahedra around a central one. *)
Definition tets : list (list nat) :=
  [[9; 3; 2; 14]; [0; 9; 3; 2]; [12; 9; 3; 14]; [11; 9; 2; 14]; [5; 3; 2; 14]]%nat.
Definition find5 (p : vec) : Z :=
  let x := coordinate p 0 in let y := coordinate p 1 in let z := coordinate p 2 in
  if Rlt_dec (y + z) x then 1%Z else if Rlt_dec (x + z) y then 2%Z
  else if Rlt_dec (x + y) z then 3%Z else if Rlt_dec 2 (x + y + z) then 4%Z else 0%Z.
Definition dl5 (pts : list vec) : delaunay := Delaunay pts tets find5.

Definition g3 : grid := Grid [(0, 1); (0, 1); (0, 2)] [2; 2; 3]%Z.
Lemma g3_valid : valid_grid g3.
Proof. repeat constructor; simpl; lra || lia. Qed.
Lemma g3_unit : unit_maxes g3 = [1; 1; 1].
Proof. unfold unit_maxes; simpl. repeat (f_equal; try lra). Qed.
Lemma g3_spacing j : (j < 3)%nat -> spacing g3 j = 1.
Proof.
  intros Hj. rewrite <- (unit_nth g3 g3_valid) by exact Hj. rewrite g3_unit.
  destruct j as [|[|[|]]]; [reflexivity..|lia].
Qed.
Lemma EPS_tiny : 0 < EPS /\ EPS < 1 / 100.
Proof.
  split; [apply EPS_pos|]. unfold EPS. apply Rmult_lt_reg_r with (2 ^ 52); [apply pow_lt; lra|].
  rewrite Rinv_l by (apply pow_nonzero; lra).
  assert (2 ^ 10 <= 2 ^ 52) by (apply Rle_pow; [lra|lia]).
  assert (2 ^ 10 = 1024) by (simpl; lra). lra.
Qed.
Lemma g3_coarse : coarse g3.
Proof. intros j Hj. rewrite g3_spacing by exact Hj. pose proof EPS_tiny. lra. Qed.

Definition cube : list vec := meshgrid_ij (diag [1; 1; 1]).
Lemma g3_corners : rectangle_corners g3 = cube.
Proof. unfold rectangle_corners, cube. rewrite g3_unit. reflexivity. Qed.

(** Four weights. *)
Definition wt4 (a b c e : R) (k : nat) : R :=
  match k with O => a | S O => b | S (S O) => c | _ => e end.

Lemma good_dl5 : good_dl g3 dl5.
Proof.
  intros _. rewrite g3_unit, g3_corners. split; [reflexivity|]. split.
  - unfold dl5, tets. cbn [dl_simplices]. 
    repeat (constructor; [split; [reflexivity|split; [repeat constructor; cbv; lia|]]|]); [..|constructor].
    + exists [[1 / 2; 1 / 2; -1 / 2]; [1 / 2; -1 / 2; 1 / 2]; [-1 / 2; 1 / 2; 1 / 2]].
      cbn. split; [split; [reflexivity|repeat constructor]|]. split; [split; [reflexivity|repeat constructor]|].
      intros [|[|[|i]]] [|[|[|k]]] Hi Hk; try lia; unfold entry, delta; simpl; lra.
    + exists [[-1; 0; 0]; [0; 1; 0]; [0; 0; 1]].
      cbn. split; [split; [reflexivity|repeat constructor]|]. split; [split; [reflexivity|repeat constructor]|].
      intros [|[|[|i]]] [|[|[|k]]] Hi Hk; try lia; unfold entry, delta; simpl; lra.
    + exists [[0; 1; 0]; [-1; 0; 0]; [0; 0; 1]].
      cbn. split; [split; [reflexivity|repeat constructor]|]. split; [split; [reflexivity|repeat constructor]|].
      intros [|[|[|i]]] [|[|[|k]]] Hi Hk; try lia; unfold entry, delta; simpl; lra.
    + exists [[0; 1; 0]; [0; 0; 1]; [-1; 0; 0]].
      cbn. split; [split; [reflexivity|repeat constructor]|]. split; [split; [reflexivity|repeat constructor]|].
      intros [|[|[|i]]] [|[|[|k]]] Hi Hk; try lia; unfold entry, delta; simpl; lra.
    + exists [[0; 0; -1]; [0; -1; 0]; [-1; 0; 0]].
      cbn. split; [split; [reflexivity|repeat constructor]|]. split; [split; [reflexivity|repeat constructor]|].
      intros [|[|[|i]]] [|[|[|k]]] Hi Hk; try lia; unfold entry, delta; simpl; lra.
  - intros p [Lp B]. destruct p as [|x [|y [|z [|]]]]; try discriminate.
    pose proof (B 0%nat ltac:(simpl; lia)) as Bx. pose proof (B 1%nat ltac:(simpl; lia)) as By.
    pose proof (B 2%nat ltac:(simpl; lia)) as Bz. clear B Lp.
    unfold coordinate in Bx, By, Bz; simpl in Bx, By, Bz.
    unfold dl5; cbn [dl_find dl_simplices]. unfold find5. cbn [coordinate nth].
    destruct Rlt_dec; [|destruct Rlt_dec; [|destruct Rlt_dec; [|destruct Rlt_dec]]].
    + exists 1%nat. eexists. split; [reflexivity|]. split; [reflexivity|].
      exists (wt4 (x - y - z) (1 - x) (y) (z)).
      split; [intros [|[|[|k]]] _; cbn [wt4]; lra|]. split; [simpl; lra|].
      intros [|[|[|j]]] Hj; simpl in Hj; try lia; unfold coordinate, entry; simpl; lra.
    + exists 2%nat. eexists. split; [reflexivity|]. split; [reflexivity|].
      exists (wt4 (y - x - z) (1 - y) (x) (z)).
      split; [intros [|[|[|k]]] _; cbn [wt4]; lra|]. split; [simpl; lra|].
      intros [|[|[|j]]] Hj; simpl in Hj; try lia; unfold coordinate, entry; simpl; lra.
    + exists 3%nat. eexists. split; [reflexivity|]. split; [reflexivity|].
      exists (wt4 (z - x - y) (1 - z) (x) (y)).
      split; [intros [|[|[|k]]] _; cbn [wt4]; lra|]. split; [simpl; lra|].
      intros [|[|[|j]]] Hj; simpl in Hj; try lia; unfold coordinate, entry; simpl; lra.
    + exists 4%nat. eexists. split; [reflexivity|]. split; [reflexivity|].
      exists (wt4 (x + y + z - 2) (1 - z) (1 - y) (1 - x)).
      split; [intros [|[|[|k]]] _; cbn [wt4]; lra|]. split; [simpl; lra|].
      intros [|[|[|j]]] Hj; simpl in Hj; try lia; unfold coordinate, entry; simpl; lra.
    + exists 0%nat. eexists. split; [reflexivity|]. split; [reflexivity|].
      exists (wt4 (1 - (x + y + z) / 2) ((x + y - z) / 2) ((x - y + z) / 2) ((- x + y + z) / 2)).
      split; [intros [|[|[|k]]] _; cbn [wt4]; lra|]. split; [simpl; lra|].
      intros [|[|[|j]]] Hj; simpl in Hj; try lia; unfold coordinate, entry; simpl; lra.
Qed.

(** Dropping corners with weight zero. *)
Lemma hull_filter {A} (f : A -> vec) keep : forall (s : list A) lam,
  (forall k a, nth_error s k = Some a -> keep a = false -> lam k = 0) ->
  (forall k, (k < length s)%nat -> 0 <= lam k) ->
  exists mu, (forall k, (k < length (filter keep s))%nat -> 0 <= mu k) /\
    sumn (length (filter keep s)) mu = sumn (length s) lam /\
    forall j, sumn (length (filter keep s)) (fun k => mu k * entry (map f (filter keep s)) k j)
            = sumn (length s) (fun k => lam k * entry (map f s) k j).
Proof.
  induction s as [|a s IH]; intros lam Z P; [exists lam; simpl; auto|].
  destruct (IH (fun k => lam (S k))) as (mu & P1 & S1 & SP).
  { intros k b Hb. apply (Z (S k) b). exact Hb. }
  { intros k Hk. apply P. simpl. lia. }
  cbn [filter]. destruct (keep a) eqn:K.
  - exists (fun k => match k with O => lam O | S k' => mu k' end).
    cbn [length map]. split; [intros [|k] Hk; [apply P; simpl; lia|apply P1; lia]|]. split.
    + rewrite !sumn_S_l. f_equal. exact S1.
    + intros j. rewrite !sumn_S_l. f_equal. apply SP.
  - exists mu. split; [auto|]. pose proof (Z 0%nat a eq_refl K) as Z0. cbn [length map].
    split; [rewrite sumn_S_l, Z0, S1; lra|]. intros j. rewrite sumn_S_l, Z0, SP.
    change (fun i => lam (S i) * entry (f a :: map f s) (S i) j) with (fun i => lam (S i) * entry (map f s) i j). lra.
Qed.

Definition mem (l : list nat) (k : nat) : bool := existsb (Nat.eqb k) l.

Lemma dl5_face_to_face : face_to_face [1; 1; 1] (dl5 cube).
Proof.
  intros s s' Hs Hs' p Lp (lam & P & S1 & SP) (mu & Q & T1 & TP).
  cbn [length] in *.
  assert (Z : forall k a, nth_error s k = Some a -> mem s' a = false -> lam k = 0).
  { unfold dl5, tets in Hs, Hs'. cbn [dl_simplices] in Hs, Hs'.
    pose proof (SP 0%nat ltac:(lia)) as X0. pose proof (SP 1%nat ltac:(lia)) as X1. pose proof (SP 2%nat ltac:(lia)) as X2.
    pose proof (TP 0%nat ltac:(lia)) as Y0. pose proof (TP 1%nat ltac:(lia)) as Y1. pose proof (TP 2%nat ltac:(lia)) as Y2.
    clear SP TP.
    assert (P0 := P 0%nat). assert (P1 := P 1%nat). assert (P2 := P 2%nat). assert (P3 := P 3%nat).
    assert (Q0 := Q 0%nat). assert (Q1 := Q 1%nat). assert (Q2 := Q 2%nat). assert (Q3 := Q 3%nat). clear P Q.
    simpl In in Hs, Hs'.
    repeat (destruct Hs as [Hs|Hs]; [subst s|]); [..|contradiction];
    (repeat (destruct Hs' as [Hs'|Hs']; [subst s'|]); [..|contradiction];
     unfold corner_points, dl5, cube in *; simpl in *; unfold entry in *; simpl in *;
     specialize (P0 ltac:(lia)); specialize (P1 ltac:(lia)); specialize (P2 ltac:(lia)); specialize (P3 ltac:(lia));
     specialize (Q0 ltac:(lia)); specialize (Q1 ltac:(lia)); specialize (Q2 ltac:(lia)); specialize (Q3 ltac:(lia));
     intros [|[|[|[|k]]]] a Ha Hm; simpl in Ha; try (injection Ha as <-); simpl in Hm; try discriminate; try lra;
     destruct k; discriminate). }
  assert (P' : forall k, (k < length s)%nat -> 0 <= lam k).
  { intros k Hk. apply P. unfold corner_points. now rewrite map_length. }
  destruct (hull_filter (fun k => nth k cube []) (mem s') s lam Z P') as (nu & N1 & N2 & N3).
  exists (map (fun k => nth k cube []) (filter (mem s') s)). split; [|split].
  - intros v Hv. apply in_map_iff in Hv as (k & <- & Hk). apply filter_In in Hk as [Hk _].
    unfold corner_points. apply in_map_iff. exists k. auto.
  - intros v Hv. apply in_map_iff in Hv as (k & <- & Hk). apply filter_In in Hk as [_ Hk].
    unfold mem in Hk. apply existsb_exists in Hk as (k' & Hk' & E). apply Nat.eqb_eq in E. subst k'.
    unfold corner_points. apply in_map_iff. exists k. auto.
  - exists nu. rewrite map_length. split; [auto|]. unfold corner_points in S1, SP. rewrite map_length in S1, SP.
    split; [now rewrite N2|]. intros j Hj. rewrite N3. apply SP; auto.
Qed.

(** Values that are 1 at the grid point (0, 0, 1) and 0 at the neighbours used here. *)
Definition bump (v : vec) : R :=
  (1 - coordinate v 0) * (1 - coordinate v 1) * coordinate v 2 * (2 - coordinate v 2).
Definition v3 : mat := map (fun v => [bump v]) (all_points g3).

Lemma v3_values i s : index_to_state g3 i = Ok s -> value_at v3 0 i = bump s.
Proof.
  intros E. pose proof (index_range g3 i s E) as R.
  pose proof (all_points_nth g3 g3_valid i R) as P. rewrite E in P. injection P as ->.
  unfold value_at, v3. rewrite (nth_map_lt _ _ _ []); [reflexivity|].
  pose proof (all_points_length g3 g3_valid). lia.
Qed.

Lemma t3 project : exists t, setup dl5 (inv_any 3) g3 v3 1 project t.
Proof.
  destruct (make_tri_ok g3 g3_valid dl5 (inv_any 3) good_dl5 (good_inv_any 3) v3 project) as (t & E & _).
  - unfold v3. rewrite map_length. apply (all_points_length g3 g3_valid).
  - exists t. constructor; auto using g3_valid, g3_coarse, good_dl5. apply good_inv_any.
    unfold columns, v3. apply Forall_forall. intros r Hr. apply in_map_iff in Hr as (v & <- & _). reflexivity.
Qed.

Lemma value_hull dl inv g values m project t o p id verts vp w G c q y r lam phi :
  setup dl inv g values m project t -> (o < m)%nat ->
  located g t p id verts vp w G c q y r -> length p = dims g -> inside g p ->
  (forall i s, index_to_state g i = Ok s -> value_at values o i = phi s) ->
  sumn (S (dims g)) lam = 1 ->
  (forall j, (j < dims g)%nat -> coordinate p j = sumn (S (dims g)) (fun k => lam k * entry vp k j)) ->
  value t o p = sumn (S (dims g)) (fun k => lam k * phi (nth k vp [])).
Proof.
  intros SU Ho Lo Lp Ip Hphi S1 SP.
  rewrite (value_located dl inv g values m project t SU o Ho _ _ _ _ _ _ _ _ _ _ Lo).
  pose proof (query_inside g (t_project t) p y Lp Ip (lo_query _ _ _ _ _ _ _ _ _ _ _ _ Lo)) as Ey. subst y.
  rewrite (piece_combination g t _ _ _ _ _ _ _ _ _ _ _ p lam Lo Lp S1 SP).
  destruct (mapM_nth_ok _ _ _ 0%Z [] (lo_states _ _ _ _ _ _ _ _ _ _ _ _ Lo)) as [Lvp NV].
  rewrite (lo_len _ _ _ _ _ _ _ _ _ _ _ _ Lo) in NV.
  apply sumn_ext. intros k Hk. f_equal. apply Hphi. now apply NV.
Qed.

(** Just below and just above the centre of the face z = 1. *)
Lemma below_above t project h : setup dl5 (inv_any 3) g3 v3 1 project t -> 0 < h <= 1 / 10 ->
  value t 0 [1 / 2; 1 / 2; 1 - h] = 0 /\ value t 0 [1 / 2; 1 / 2; 1 + h] = (1 - h) / 2.
Proof.
  intros SU Hh. pose proof (proj1 (setup_wf _ _ _ _ _ _ _ SU)) as W. pose proof EPS_tiny as HE.
  assert (ANY : forall z, 1 - 1 / 10 <= z <= 1 + 1 / 10 -> z <> 1 ->
    exists id verts vp w G c q y r, located g3 t [1 / 2; 1 / 2; z] id verts vp w G c q y r /\
      exists lo, (lo = 0 /\ z < 1 \/ lo = 1 /\ 1 < z) /\
        vp = [[0; 0; lo]; [1; 1; lo]; [1; 0; lo + 1]; [0; 1; lo + 1]]).
  { intros z Hz Nz. assert (Lp : length [1 / 2; 1 / 2; z] = dims g3) by reflexivity.
    assert (WI : well_inside g3 [1 / 2; 1 / 2; z]).
    { intros [|[|[|j]]] Hj; [| | |cbv in Hj; lia]; unfold lower, upper, coordinate; simpl; lra. }
    destruct (find _ _ _ _ _ _ _ SU _ Lp) as (id & verts & vp & w & G & c & q & y & r & Lo).
    exists id, verts, vp, w, G, c, q, y, r. split; [auto|].
    pose proof (lo_hull _ _ _ _ _ _ _ _ _ _ _ _ Lo) as HQ.
    rewrite (margin_well_inside g3 _ q Lp WI (lo_margin _ _ _ _ _ _ _ _ _ _ _ _ Lo)) in HQ.
    destruct (located_cell g3 g3_valid t W _ _ _ _ _ _ _ _ _ _ Lo) as (rs & s & M & Is & Fs & Evp).
    apply (multi_rect_nth g3 g3_valid) in M as [Lr M].
    destruct rs as [|a [|b [|k [|]]]]; try discriminate.
    pose proof (M 0%nat ltac:(cbv; lia)) as M0. pose proof (M 1%nat ltac:(cbv; lia)) as M1.
    pose proof (M 2%nat ltac:(cbv; lia)) as M2. unfold npts in M0, M1, M2; simpl in M0, M1, M2.
    assert (a = 0%Z) by lia. assert (b = 0%Z) by lia. subst a b.
    assert (ST : state_of g3 [0%Z; 0%Z; k] = [0; 0; IZR k]).
    { apply (nth_ext _ _ 0 0); [reflexivity|]. intros [|[|[|j]]] Hj; [| | |cbv in Hj; lia];
      match goal with |- nth ?j _ _ = _ => change (coordinate (state_of g3 [0%Z; 0%Z; k]) j = nth j [0; 0; IZR k] 0) end;
      rewrite (state_of_nth g3 g3_valid) by (cbv; lia); rewrite g3_spacing by lia; unfold lower; simpl; lra. }
    assert (DL : dl_simplices (t_dl t) = tets).
    { pose proof (su_made _ _ _ _ _ _ _ SU) as E. unfold make_tri in E.
      destruct (_ =? _)%Z; [|discriminate]. cbn [limits g3 bind] in E.
      destruct (simplex_indices _ _); [|discriminate]. cbn [bind] in E. destruct (mapM _ _); [|discriminate].
      injection E as <-. reflexivity. }
    rewrite DL in Is. subst vp. unfold verts_pos in *. rewrite ST, g3_corners in *.
    destruct HQ as (lam & P & S1 & SP).
    pose proof (SP 0%nat ltac:(cbv; lia)) as X0. pose proof (SP 1%nat ltac:(cbv; lia)) as X1.
    pose proof (SP 2%nat ltac:(cbv; lia)) as X2. clear SP.
    assert (P0 := P 0%nat). assert (P1 := P 1%nat). assert (P2 := P 2%nat). assert (P3 := P 3%nat). clear P.
    assert (k = 0 \/ k = 1)%Z as [-> | ->] by lia;
    unfold tets in Is; simpl In in Is;
    (repeat (destruct Is as [Is|Is]; [subst s|]); [..|contradiction]);
    unfold cube in *; simpl in *; unfold entry, coordinate in *; simpl in *;
    specialize (P0 ltac:(lia)); specialize (P1 ltac:(lia)); specialize (P2 ltac:(lia)); specialize (P3 ltac:(lia));
    try (exfalso; lra).
    - exists 0. split; [left; split; [auto|lra]|]. unfold vadd; cbn [map2]. repeat (f_equal; try lra).
    - exists 1. split; [right; split; [auto|lra]|]. unfold vadd; cbn [map2]. repeat (f_equal; try lra). }
  split.
  - destruct (ANY (1 - h) ltac:(lra) ltac:(lra)) as (id & verts & vp & w & G & c & q & y & r & Lo & lo & [[-> _]|[_ ?]] & E); [|lra].
    rewrite (value_hull _ _ _ _ _ _ _ 0 _ _ _ _ _ _ _ _ _ _
      (wt4 (h / 2) (h / 2) ((1 - h) / 2) ((1 - h) / 2)) bump SU ltac:(lia) Lo eq_refl); auto using v3_values.
    + rewrite E. cbn. unfold bump, coordinate; simpl. lra.
    + intros [|[|[|j]]] Hj; [| | |cbv in Hj; lia]; unfold lower, upper, coordinate; simpl; lra.
    + cbn. lra.
    + rewrite E. intros [|[|[|j]]] Hj; [| | |cbv in Hj; lia]; cbn; unfold entry, coordinate; simpl; lra.
  - destruct (ANY (1 + h) ltac:(lra) ltac:(lra)) as (id & verts & vp & w & G & c & q & y & r & Lo & lo & [[_ ?]|[-> _]] & E); [lra|].
    rewrite (value_hull _ _ _ _ _ _ _ 0 _ _ _ _ _ _ _ _ _ _
      (wt4 ((1 - h) / 2) ((1 - h) / 2) (h / 2) (h / 2)) bump SU ltac:(lia) Lo eq_refl); auto using v3_values.
    + rewrite E. cbn. unfold bump, coordinate; simpl. lra.
    + intros [|[|[|j]]] Hj; [| | |cbv in Hj; lia]; unfold lower, upper, coordinate; simpl; lra.
    + cbn. lra.
    + rewrite E. intros [|[|[|j]]] Hj; [| | |cbv in Hj; lia]; cbn; unfold entry, coordinate; simpl; lra.
Qed.
