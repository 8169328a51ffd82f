(** Concrete routines meeting the contracts assumed of np.linalg.inv and
    scipy.spatial.Delaunay, for one and two dimensions. *)
From Coq Require Import List ZArith Reals Lia Lra Bool.
Import ListNotations.
From Verif Require Import Prelude NumModel NumProofs GridModel GridSpec GridProofs TriModel TriSpec TriProofs.
Open Scope R_scope.

Definition inv1 (M : mat) : res mat :=
  match M with
  | [[a]] => if Req_EM_T a 0 then Err OtherError else Ok [[/ a]]
  | _ => Err ValueError
  end.

Definition inv2 (M : mat) : res mat :=
  match M with
  | [[a; b]; [c; e]] =>
      let det := a * e - b * c in
      if Req_EM_T det 0 then Err OtherError else Ok [[e / det; - b / det]; [- c / det; a / det]]
  | _ => Err ValueError
  end.

Lemma good_inv1 : good_inv 1 inv1.
Proof.
  intros M [L F] (H & _ & _ & I). destruct M as [|[|a [|]] [|]]; try discriminate; try (inversion F; subst; discriminate).
  destruct (I 0%nat 0%nat ltac:(lia) ltac:(lia)) as [E _]. unfold entry, delta in E; simpl in E.
  assert (a <> 0) by (intros ->; lra). simpl. destruct Req_EM_T; [contradiction|].
  exists [[/ a]]. split; auto. split; [split; auto|]. split; [split; auto|].
  intros [|i] [|k] Hi Hk; try lia. unfold entry, delta; simpl. split; field; auto.
Qed.

Lemma good_inv2 : good_inv 2 inv2.
Proof.
  intros M [L F] (H & _ & _ & I).
  destruct M as [|r1 [|r2 [|]]]; try discriminate. inversion F as [|? ? L1 F1]; subst. inversion F1 as [|? ? L2 _]; subst.
  destruct r1 as [|a [|b [|]]]; try discriminate. destruct r2 as [|c [|e [|]]]; try discriminate.
  assert (D : a * e - b * c <> 0).
  { destruct (I 0%nat 0%nat ltac:(lia) ltac:(lia)) as [E00 _]. destruct (I 0%nat 1%nat ltac:(lia) ltac:(lia)) as [E01 _].
    destruct (I 1%nat 0%nat ltac:(lia) ltac:(lia)) as [E10 _]. destruct (I 1%nat 1%nat ltac:(lia) ltac:(lia)) as [E11 _].
    unfold entry, delta in *; simpl in *. intros D.
    set (h00 := nth 0 (nth 0 H []) 0) in *. set (h01 := nth 1 (nth 0 H []) 0) in *.
    set (h10 := nth 0 (nth 1 H []) 0) in *. set (h11 := nth 1 (nth 1 H []) 0) in *.
    assert ((a * e - b * c) * (h00 * h11 - h01 * h10) = 1); [|rewrite D in H0; lra].
    replace ((a * e - b * c) * (h00 * h11 - h01 * h10)) with
      ((0 + a * h00 + b * h10) * (0 + c * h01 + e * h11) - (0 + a * h01 + b * h11) * (0 + c * h00 + e * h10)) by ring.
    rewrite E00, E01, E10, E11. ring. }
  simpl. destruct Req_EM_T; [contradiction|]. eexists; split; [reflexivity|].
  split; [split; auto|]. split; [split; [reflexivity|repeat constructor]|].
  intros [|[|i]] [|[|k]] Hi Hk; try lia; unfold entry, delta; simpl; split; field; auto.
Qed.

(** Splitting the cell along the diagonal from (u0,0) to (0,u1), the split the
    unit tests of the project expect (test_functions.py). *)
Definition dl2 (pts : list vec) : delaunay :=
  let u0 := coordinate (nth 0 pts []) 0 in
  let u1 := coordinate (nth 3 pts []) 1 in
  Delaunay pts [[2; 3; 0]; [3; 0; 1]]%nat
    (fun p => if Rle_dec (u1 * coordinate p 0 + u0 * coordinate p 1) (u0 * u1) then 0%Z else 1%Z).

Lemma good_dl2 g : valid_grid g -> dims g = 2%nat -> good_dl g dl2.
Proof.
  intros V D _. pose proof (unit_len g V) as LU. rewrite D in LU.
  destruct (unit_maxes g) as [|u0 [|u1 [|]]] eqn:EU; try discriminate.
  assert (H0 : 0 < u0).
  { pose proof (spacing_pos g V 0 ltac:(lia)) as H. rewrite <- (unit_nth g V) in H by lia. rewrite EU in H. exact H. }
  assert (H1 : 0 < u1).
  { pose proof (spacing_pos g V 1 ltac:(lia)) as H. rewrite <- (unit_nth g V) in H by lia. rewrite EU in H. exact H. }
  assert (EC : rectangle_corners g = [[u0; 0]; [u0; u1]; [0; 0]; [0; u1]]).
  { unfold rectangle_corners. unfold dims in D. destruct (limits g) as [|? [|? [|]]]; try discriminate. now rewrite EU. }
  rewrite EC. split; [reflexivity|]. split.
  - constructor; [|constructor; [|constructor]].
    + split; [reflexivity|]. split; [repeat constructor|].
      exists [[0; / u0]; [/ u1; 0]]. cbn. split; [split; [reflexivity|repeat constructor]|].
      split; [split; [reflexivity|repeat constructor]|].
      intros [|[|i]] [|[|k]] Hi Hk; try lia; unfold entry, delta; simpl; split; field; lra.
    + split; [reflexivity|]. split; [repeat constructor|].
      exists [[0; / u0]; [- / u1; / u1]]. cbn. split; [split; [reflexivity|repeat constructor]|].
      split; [split; [reflexivity|repeat constructor]|].
      intros [|[|i]] [|[|k]] Hi Hk; try lia; unfold entry, delta; simpl; split; field; lra.
  - intros p [Lp B]. destruct p as [|x [|y [|]]]; try discriminate.
    pose proof (B 0%nat ltac:(simpl; lia)) as Bx. pose proof (B 1%nat ltac:(simpl; lia)) as By.
    unfold coordinate in Bx, By; simpl in Bx, By.
    assert (X : 0 <= x / u0 <= 1).
    { split; [apply Rmult_le_pos; [lra|apply Rlt_le, Rinv_0_lt_compat; lra]|].
      apply Rmult_le_reg_r with u0; [lra|]. replace (x / u0 * u0) with x by (field; lra). lra. }
    assert (Y : 0 <= y / u1 <= 1).
    { split; [apply Rmult_le_pos; [lra|apply Rlt_le, Rinv_0_lt_compat; lra]|].
      apply Rmult_le_reg_r with u1; [lra|]. replace (y / u1 * u1) with y by (field; lra). lra. }
    assert (S : u1 * x + u0 * y = u0 * u1 * (x / u0 + y / u1)) by (field; lra).
    cbn [dl2 dl_find dl_simplices coordinate nth]. rewrite S.
    assert (P : 0 < u0 * u1) by nra.
    destruct Rle_dec as [L|N].
    + exists 0%nat, [2; 3; 0]%nat. split; [reflexivity|]. split; [reflexivity|].
      exists (fun k => match k with O => 1 - x / u0 - y / u1 | 1%nat => y / u1 | _ => x / u0 end).
      assert (x / u0 + y / u1 <= 1) by (apply Rmult_le_reg_l with (u0 * u1); lra).
      split; [intros [|[|k]] _; lra|]. split; [simpl; lra|].
      intros [|[|j]] Hj; simpl in Hj; try lia; unfold coordinate, entry; simpl; field; lra.
    + exists 1%nat, [3; 0; 1]%nat. split; [reflexivity|]. split; [reflexivity|].
      exists (fun k => match k with O => 1 - x / u0 | 1%nat => 1 - y / u1 | _ => x / u0 + y / u1 - 1 end).
      assert (1 <= x / u0 + y / u1) by (apply Rmult_le_reg_l with (u0 * u1); lra).
      split; [intros [|[|k]] _; lra|]. split; [simpl; lra|].
      intros [|[|j]] Hj; simpl in Hj; try lia; unfold coordinate, entry; simpl; field; lra.
Qed.
