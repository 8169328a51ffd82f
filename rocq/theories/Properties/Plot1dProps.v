(** C104: the picture of a Lyapunov function in one dimension. *)
From Coq Require Import Reals List Bool Arith ZArith Lia Lra Psatz Permutation.
From Verif Require Import Prelude NumModel GridModel SafeModel CertModel Plot1dModel.
From Verif Require Import GridSpec GridProofs ListFacts SafeSpec SafeProofs SafeProofs2 CertSpec CertProofs Plot1dProofs.
From Verif.Properties Require Import SafeProps.
Import ListNotations.
Local Open Scope R_scope.

(** Horizontal position of grid state [k]. *)
Definition position (g : grid) (k : nat) : R := nth 0 (grid_point g k) 0.

Lemma states_nth g k : valid_grid g -> (Z.of_nat k < nindex g)%Z -> nth k (all_points g) [] = grid_point g k.
Proof. intros V H. now rewrite (proj2 (grid_point_vertex g k V H)). Qed.

Lemma abs_bounds a b : Rabs a <= b -> - b <= a <= b.
Proof. intros H. pose proof (Rle_abs a). pose proof (Rle_abs (- a)). rewrite Rabs_Ropp in *. lra. Qed.

Lemma plot_ok g first S td L P : plot_lyapunov_1d g first S td L = Ok P ->
  mapM (state_band_at first) (all_points g) = Ok (state_band P) /\
  P = {| state_band := state_band P;
        true_next := map (fun x => (nth 0 x 0, nth 0 (td x (policy first x)) 0)) (all_points g);
        change_band := map (change_band_at first) (all_points g);
        true_change := map (true_change_at first td) (all_points g);
        threshold_line := threshold S (nth 0 (all_points g) []) (tau S);
        unsafe_points := drawn (all_points g) (masked_where (l_safe L) (l_vals L));
        safe_points := drawn (all_points g) (masked_where (map negb (l_safe L)) (l_vals L));
        helper_lines := lines (all_points g) (l_safe L) (l_vals L) |}.
Proof.
  unfold plot_lyapunov_1d. destruct (mapM _ _) as [sb|]; [|discriminate]. cbn [bind]. intros E. injection E as <-.
  split; reflexivity.
Qed.

(** The red points are the graph of the Lyapunov function over the safe grid states,
    the blue ones over the others. *)
Theorem C104_colours : forall g first S td L P, valid_grid g ->
  consistent L -> Z.of_nat (size L) = nindex g -> plot_lyapunov_1d g first S td L = Ok P ->
  (forall p, In p (safe_points P) <-> exists k, (k < size L)%nat /\ safe L k /\ p = (position g k, value L k)) /\
  (forall p, In p (unsafe_points P) <-> exists k, (k < size L)%nat /\ ~ safe L k /\ p = (position g k, value L k)).
Proof.
  intros g first S td L P V C N E. apply plot_ok in E as (_ & ->). cbn [safe_points unsafe_points].
  pose proof (all_points_length g V) as AL. pose proof (cons_safe _ C) as CS. unfold size in *.
  split; intros p; (rewrite drawn_spec; [|rewrite ?map_length; lia|lia]); split; intros (k & Hk & Hs & ->); exists k;
    (split; [lia|]); rewrite ?(states_nth g k V) by lia; (split; [|reflexivity]).
  - unfold safe. rewrite (nth_indep _ true (negb true)) in Hs by (rewrite map_length; lia).
    rewrite (map_nth negb) in Hs. rewrite (nth_indep _ false true) by lia. destruct (nth k (l_safe L) true); auto. 
  - unfold safe in Hs. rewrite (nth_indep _ true (negb false)) by (rewrite map_length; lia).
    rewrite (map_nth negb), Hs. reflexivity.
  - unfold safe. rewrite (nth_indep _ false true), Hs by lia. discriminate.
  - unfold safe in Hs. rewrite (nth_indep _ true false) by lia. destruct (nth k (l_safe L) false); congruence.
Qed.
Print Assumptions C104_colours.

(** If the error bounds hold the black curves run inside of the bands. *)
Theorem C104_bands : forall g first S td L P k, valid_grid g -> dims g = 1%nat -> (Z.of_nat k < nindex g)%Z ->
  plot_lyapunov_1d g first S td L = Ok P ->
  model_right first (fun x => td x (policy first x)) (grid_point g k) ->
  let F := td (grid_point g k) (policy first (grid_point g k)) in
  length F = 1%nat ->
  (exists lo hi, nth k (state_band P) (0, 0, 0) = (position g k, lo, hi) /\
     nth k (true_next P) (0, 0) = (position g k, nth 0 F 0) /\ lo <= nth 0 F 0 <= hi) /\
  (exists lo hi dv, nth k (change_band P) (0, 0, 0) = (position g k, lo, hi) /\
     nth k (true_change P) (0, 0) = (position g k, dv) /\ lo <= dv <= hi /\
     hi = decrease first (grid_point g k) /\
     dv = lyapunov_function first F - lyapunov_function first (grid_point g k)).
Proof.
  intros g first S td L P k V D Hk E MR F LF. apply plot_ok in E as (EM & ->).
  pose proof (all_points_length g V) as AL.
  assert (KL : (k < length (all_points g))%nat) by lia.
  cbn [state_band true_next change_band true_change].
  assert (SB : state_band_at first (grid_point g k) = Ok (nth k (state_band P) (0, 0, 0))).
  { rewrite <- (states_nth g k V Hk). revert EM KL. generalize (state_band P) (all_points g) k. clear.
    intros sb l. revert sb. induction l as [|x l IH]; intros sb k EM KL; [cbn in KL; lia|].
    cbn [mapM] in EM. destruct (state_band_at first x) eqn:E1; [|discriminate]. cbn [bind] in EM.
    destruct (mapM (state_band_at first) l) eqn:E2; [|discriminate]. cbn [bind] in EM. injection EM as <-.
    destruct k as [|k]; [exact E1|]. cbn [nth]. apply IH; auto. cbn in KL. lia. }
  unfold state_band_at in SB. unfold model_right in MR.
  destruct (dynamics first (grid_point g k) (policy first (grid_point g k))) as [y|mean err] eqn:ED; [discriminate|].
  injection SB as SB. rewrite <- SB. destruct MR as (W & L1 & L2 & LV). split.
  - exists (nth 0 mean 0 - nth 0 err 0), (nth 0 mean 0 + nth 0 err 0). split; [reflexivity|].
    rewrite (nth_map_lt _ _ _ []) by auto. rewrite (states_nth g k V Hk). split; [reflexivity|].
    destruct W as (W1 & W2 & W3). specialize (W3 0%nat). fold F in W1, W3. rewrite <- W1, LF in W3.
    specialize (W3 ltac:(lia)). apply abs_bounds in W3. lra.
  - rewrite !(nth_map_lt _ _ _ []) by auto. rewrite (states_nth g k V Hk).
    unfold change_band_at, true_change_at. rewrite ED. cbn [v_decrease_confidence fst snd]. unfold band_at.
    do 3 eexists. split; [reflexivity|]. split; [reflexivity|].
    split; [|split; [unfold decrease, v_decrease_bound; rewrite ED; cbn; ring|reflexivity]].
    fold F in LV, W.
    assert (Q : Rabs (lyapunov_function first F - lyapunov_function first mean) <= weighted_error first mean err).
    { eapply Rle_trans; [exact LV|]. destruct W as (W1 & W2 & W3).
      rewrite weighted_error_constants by auto. unfold wdist. apply wsum_le; auto.
      - rewrite map2_length. lia.
      - intros j Hj. rewrite map2_length in Hj.
        rewrite nth_map2' with (da := 0) (db := 0) by lia. apply W3. lia. }
    apply abs_bounds in Q. fold F. lra.
Qed.
Print Assumptions C104_bands.

(** The bands and black curves are those of the first call for the object, also if its
    functions have been replaced since then; threshold and colours are not. *)
Theorem C104_first_call : forall g first S S' td L L' P P',
  plot_lyapunov_1d g first S td L = Ok P -> plot_lyapunov_1d g first S' td L' = Ok P' ->
  state_band P = state_band P' /\ true_next P = true_next P' /\
  change_band P = change_band P' /\ true_change P = true_change P'.
Proof.
  intros g first S S' td L L' P P' E E'. apply plot_ok in E as (A & ->). apply plot_ok in E' as (A' & ->).
  cbn. repeat split. congruence.
Qed.
Print Assumptions C104_first_call.

(** The labels "safe, dV <= L tau" and "unsafe, dV > L tau", after an update without
    refinement: the upper edge of the band is below the line at every red state that is
    not in the initial set; and for every blue state some state with at most its value
    has the edge not below the line. *)
Theorem C104_labels : forall g S lv lf sf td L L' P mr bs order, valid_grid g ->
  consistent L -> Z.of_nat (size L) = nindex g -> sorts (l_vals L) order ->
  l_adaptive L = false \/ (mr <= 1)%Z ->
  lip_v S = LvConst lv -> lip_f S = LfConst lf ->
  update_safe_set L (certificate S sf (grid_point g)) true mr bs order = Ok L' ->
  plot_lyapunov_1d g S S td L' = Ok P ->
  forall k, (k < size L)%nat ->
  (safe L' k -> ~ initially_safe L k ->
     decrease S (grid_point g k) < threshold_line P) /\
  (~ safe L' k -> exists j, (j < size L)%nat /\ value L j <= value L k /\
     threshold_line P <= decrease S (grid_point g j)).
Proof.
  intros g S lv lf sf td L L' P mr bs order V C N SO NA LV LF U E k Hk.
  apply plot_ok in E as (_ & ->). cbn [threshold_line].
  assert (TH : forall x y, threshold S x (tau S) = threshold S y (tau S)).
  { intros. unfold threshold, lv_scalar, lf_scalar. now rewrite LV, LF. }
  assert (NEG : forall j, neg (certificate S sf (grid_point g)) j = true <->
            decrease S (grid_point g j) < threshold S (nth 0 (all_points g) []) (tau S)).
  { intros j. cbn [certificate neg]. unfold Rltb. rewrite (TH (grid_point g j) (nth 0 (all_points g) [])).
    destruct (Rlt_dec _ _); split; intros; auto; discriminate || contradiction. }
  destruct (C15_sublevel_set L _ mr bs order L' C SO NA U k Hk) as (A & B). split.
  - intros S1 I1. destruct (B S1 I1) as (B1 & _). now apply NEG.
  - intros NS.
    destruct (Exists_dec (fun j => value L j <= value L k /\
        threshold S (nth 0 (all_points g) []) (tau S) <= decrease S (grid_point g j)) (seq 0 (size L))) as [EX|NX].
    + intros j. destruct (Rle_dec (value L j) (value L k)); [|right; tauto].
      destruct (Rle_dec (threshold S (nth 0 (all_points g) []) (tau S)) (decrease S (grid_point g j))); [left|right]; tauto.
    + apply Exists_exists in EX as (j & Hj & Q). apply in_seq in Hj. exists j. split; [lia|exact Q].
    + exfalso. apply NS, A. intros j Hj VL. left. apply NEG.
      destruct (Rlt_dec (decrease S (grid_point g j)) (threshold S (nth 0 (all_points g) []) (tau S))) as [|Q]; auto.
      exfalso. apply NX. apply Exists_exists. exists j. split; [apply in_seq; lia|]. split; [exact VL|lra].
Qed.
Print Assumptions C104_labels.

(** The helper lines are at x and -x for a safe state x of the largest value.  They
    enclose all safe states if larger values belong to states further from 0. *)
Theorem C104_lines : forall g first S td L P, valid_grid g ->
  consistent L -> Z.of_nat (size L) = nindex g -> plot_lyapunov_1d g first S td L = Ok P ->
  ((forall k, (k < size L)%nat -> ~ safe L k) -> helper_lines P = []) /\
  ((exists k, (k < size L)%nat /\ safe L k) ->
   exists k, (k < size L)%nat /\ safe L k /\ helper_lines P = [position g k; - position g k] /\
     (forall j, (j < size L)%nat -> safe L j -> value L j <= value L k) /\
     ((forall i j, (i < size L)%nat -> (j < size L)%nat -> value L i <= value L j ->
         Rabs (position g i) <= Rabs (position g j)) ->
      forall j, (j < size L)%nat -> safe L j ->
        - Rabs (position g k) <= position g j <= Rabs (position g k))).
Proof.
  intros g first S td L P V C N E. apply plot_ok in E as (_ & ->). cbn [helper_lines].
  pose proof (all_points_length g V) as AL. pose proof (cons_safe _ C) as CS. unfold size in *. split.
  - intros H. unfold lines. destruct (existsb _ _) eqn:X; [|reflexivity].
    apply existsb_exists in X as (b & I & ->). destruct (In_nth _ _ false I) as (k & Hk & Q).
    exfalso. apply (H k); [lia|exact Q].
  - intros (k0 & Hk0 & S0).
    destruct (lines_spec (all_points g) (l_safe L) (l_vals L) ltac:(lia) ltac:(lia)) as (k & Hk & Sk & M & ->).
    { exists k0. split; [lia|exact S0]. }
    exists k. rewrite (states_nth g k V) by lia. split; [lia|]. split; [exact Sk|]. split; [reflexivity|].
    assert (M' : forall j, (j < length (l_vals L))%nat -> safe L j -> value L j <= value L k).
    { intros j Hj Sj. apply M; auto. lia. }
    split; [exact M'|]. intros H j Hj Sj. apply abs_bounds. apply H; auto. lia.
Qed.
Print Assumptions C104_lines.

(** States -2, -1, 0, 1. *)
Definition g4 := Grid [(-2, 1)] [4%Z].
(** A Lyapunov function that is steeper on the right, and a model that jumps to 0. *)
Definition S4 : setup := {|
  lyapunov_function := fun x => Rmax (- nth 0 x 0) (3 * nth 0 x 0);
  policy := fun _ => [0];
  dynamics := fun _ _ => Uncertain [0] [0];
  lip_v := LvConst 3; lip_f := LfConst 0; tau := 0 |}.
Lemma g4_valid : valid_grid g4.
Proof. unfold valid_grid, g4; simpl; repeat constructor; simpl; lra || lia. Qed.
Lemma g4_points : all_points g4 = [[-2]; [-1]; [0]; [1]].
Proof. unfold all_points, discrete_points, g4; simpl. unfold linspace; simpl. repeat f_equal; field_simplify; lra. Qed.
Lemma g4_point k : (k < 4)%nat -> grid_point g4 k = nth k [[-2]; [-1]; [0]; [1]] [].
Proof. intros H. rewrite <- g4_points, (states_nth g4 k g4_valid); [reflexivity|]. change (nindex g4) with 4%Z. lia. Qed.
Definition L4' : lyap := {| l_init := Some [false; false; true; false]; l_adaptive := false; l_vals := [2; 1; 0; 3];
  l_safe := [false; false; true; false]; l_ref := [0; 0; 1; 0]%Z; l_cmax := 0 |}.
Lemma L4'_ok : lyap_init [2; 1; 0; 3] (Some [false; false; true; false]) false = Ok L4'.
Proof. reflexivity. Qed.
Lemma L4'_consistent : consistent L4'.
Proof. constructor; [reflexivity|reflexivity|]. intros m E. injection E as <-. reflexivity. Qed.
Lemma L4'_sorts : sorts (l_vals L4') [2; 1; 0; 3]%nat.
Proof.
  split.
  - apply NoDup_Permutation; [repeat constructor; simpl; intuition lia|apply seq_NoDup|].
    intros x. rewrite in_seq. simpl. intuition lia.
  - intros p q P Q. cbn [L4' l_vals length] in *.
    destruct p as [|[|[|p]]]; destruct q as [|[|[|[|q]]]]; simpl; lia || lra.
Qed.

(** The lines do not enclose the safe states in general: here all states are safe, the
    lines are at 1 and -1. *)
Theorem C104_lines_refuted : exists L' P,
  l_vals L4' = map (lyapunov_function S4) (all_points g4) /\
  update_safe_set L4' (certificate S4 1 (grid_point g4)) true 1 4 [2; 1; 0; 3]%nat = Ok L' /\
  plot_lyapunov_1d g4 S4 S4 (fun _ _ => [0]) L' = Ok P /\
  helper_lines P = [1; - (1)] /\ safe L' 0 /\ position g4 0 = -2.
Proof.
  destruct (C15_certified_prefix L4' (certificate S4 1 (grid_point g4)) 1 4 [2; 1; 0; 3]%nat
    L4'_consistent L4'_sorts ltac:(cbv; lia) ltac:(lia) (or_introl eq_refl)) as (L' & U & H).
  assert (NEG : forall k, (k < 4)%nat -> k <> 2%nat -> neg (certificate S4 1 (grid_point g4)) k = true).
  { intros k Hk N. cbn [certificate neg]. rewrite (g4_point k Hk). unfold Rltb, threshold, decrease, v_decrease_bound. cbn.
    destruct (Rlt_dec _ _) as [|Q]; [reflexivity|exfalso; apply Q].
    destruct k as [|[|[|[|k]]]]; try lia; cbn; unfold Rmax; repeat destruct (Rle_dec _ _); lra. }
  assert (SA : forall k, (k < 4)%nat -> safe L' k).
  { intros k Hk. apply H; [exact Hk|]. right.
    assert (I : forall y, (y < 4)%nat -> neg (certificate S4 1 (grid_point g4)) y = true \/ initially_safe L4' y).
    { intros y Hy. destruct (Nat.eq_dec y 2) as [->|]; [right; exists [false; false; true; false]; split; reflexivity|left; auto]. }
    exists (nth k [2; 1; 0; 3]%nat 0%nat). split.
    - split; destruct k as [|[|[|[|k]]]]; cbn; lia || reflexivity.
    - intros q y _ (Q1 & <-). apply I. destruct q as [|[|[|[|q]]]]; cbn in *; lia. }
  assert (VL : l_vals L4' = map (lyapunov_function S4) (all_points g4)).
  { rewrite g4_points. cbn. unfold Rmax. repeat destruct (Rle_dec _ _); repeat f_equal; lra. }
  destruct (update_run _ _ _ _ _ _ _ L4'_consistent L4'_sorts U) as (_ & _ & K & E & RO).
  pose proof (ro_cons _ _ _ _ _ _ _ _ _ RO) as C'. pose proof (ro_vals _ _ _ _ _ _ _ _ _ RO) as V'.
  destruct (plot_lyapunov_1d g4 S4 S4 (fun _ _ => [0]) L') as [P|] eqn:EP; cycle 1.
  { exfalso. revert EP. unfold plot_lyapunov_1d. rewrite g4_points. cbn. discriminate. }
  exists L', P. split; [exact VL|]. split; [exact U|]. split; [exact EP|].
  assert (SZ : size L' = 4%nat) by (unfold size; rewrite V'; reflexivity).
  destruct (C104_lines g4 S4 S4 (fun _ _ => [0]) L' P g4_valid C') as (_ & HL); [rewrite SZ; reflexivity|exact EP|].
  destruct HL as (k & Hk & _ & -> & M & _). { exists 0%nat. split; [lia|]. apply SA. lia. }
  rewrite SZ in *. specialize (M 3%nat ltac:(lia) (SA 3%nat ltac:(lia))).
  assert (k = 3%nat) as ->.
  { unfold value in M. rewrite V' in M. cbn [L4' l_vals] in M.
    destruct k as [|[|[|[|k]]]]; cbn in M; lia || lra. }
  unfold position. rewrite !g4_point by lia. cbn. repeat split; auto. apply SA. lia.
Qed.
Print Assumptions C104_lines_refuted.

(** Neither label is right in general: a red state of the initial set with dV above
    the line, and a blue state with dV below it. *)
Definition S4' : setup := {|
  lyapunov_function := fun x => Rmax (- nth 0 x 0) (3 * nth 0 x 0);
  policy := fun _ => [0];
  dynamics := fun x _ => Uncertain [if Rlt_dec (nth 0 x 0) (-3/2) then 0 else 1] [0];
  lip_v := LvConst 3; lip_f := LfConst 0; tau := 0 |}.

Theorem C104_labels_refuted : exists L' P,
  l_vals L4' = map (lyapunov_function S4') (all_points g4) /\
  update_safe_set L4' (certificate S4' 1 (grid_point g4)) true 1 4 [2; 1; 0; 3]%nat = Ok L' /\
  plot_lyapunov_1d g4 S4' S4' (fun _ _ => [0]) L' = Ok P /\
  safe L' 2 /\ threshold_line P < decrease S4' (grid_point g4 2) /\
  ~ safe L' 0 /\ decrease S4' (grid_point g4 0) < threshold_line P.
Proof.
  destruct (C15_certified_prefix L4' (certificate S4' 1 (grid_point g4)) 1 4 [2; 1; 0; 3]%nat
    L4'_consistent L4'_sorts ltac:(cbv; lia) ltac:(lia) (or_introl eq_refl)) as (L' & U & H).
  assert (TL : forall x, threshold S4' x (tau S4') = 0) by (intros; unfold threshold; cbn; ring).
  assert (D2 : decrease S4' (grid_point g4 2) = 3).
  { rewrite g4_point by lia. unfold decrease, v_decrease_bound. cbn. destruct (Rlt_dec 0 (-3/2)); [lra|].
    unfold Rmax; repeat destruct (Rle_dec _ _); lra. }
  assert (D1 : decrease S4' (grid_point g4 1) = 2).
  { rewrite g4_point by lia. unfold decrease, v_decrease_bound. cbn. destruct (Rlt_dec (-1) (-3/2)); [lra|].
    unfold Rmax; repeat destruct (Rle_dec _ _); lra. }
  assert (D0 : decrease S4' (grid_point g4 0) = -2).
  { rewrite g4_point by lia. unfold decrease, v_decrease_bound. cbn. destruct (Rlt_dec (-2) (-3/2)); [|lra].
    unfold Rmax; repeat destruct (Rle_dec _ _); lra. }
  assert (VL : l_vals L4' = map (lyapunov_function S4') (all_points g4)).
  { rewrite g4_points. cbn. unfold Rmax. repeat destruct (Rle_dec _ _); repeat f_equal; lra. }
  destruct (plot_lyapunov_1d g4 S4' S4' (fun _ _ => [0]) L') as [P|] eqn:EP; cycle 1.
  { exfalso. revert EP. unfold plot_lyapunov_1d. rewrite g4_points. cbn. discriminate. }
  exists L', P. split; [exact VL|]. split; [exact U|]. split; [exact EP|].
  apply plot_ok in EP as (_ & ->). cbn [threshold_line]. rewrite TL, D2, D0.
  split; [|split; [lra|split; [|lra]]].
  - apply H; [cbv; lia|]. left. exists [false; false; true; false]. split; reflexivity.
  - intros Q. apply H in Q; [|cbv; lia]. destruct Q as [(m & Em & Q)|(p & (Hp & Ep) & Q)].
    + injection Em as <-. discriminate.
    + assert (p = 2%nat) as -> by (destruct p as [|[|[|[|p]]]]; cbn in *; lia).
      destruct (Q 1%nat 1%nat ltac:(lia)) as [N|(m & Em & N)]; [split; [cbn; lia|reflexivity]| |].
      * cbn [certificate neg] in N. unfold Rltb in N. rewrite TL, D1 in N. destruct (Rlt_dec 2 0); [lra|discriminate].
      * injection Em as <-. discriminate.
Qed.
Print Assumptions C104_labels_refuted.

(** The hypotheses hold in the example above: the model is right about the closed loop
    that jumps to 0. *)
Example C104_ex : valid_grid g4 /\ consistent L4' /\ Z.of_nat (size L4') = nindex g4 /\
  sorts (l_vals L4') [2; 1; 0; 3]%nat /\
  (forall x, model_right S4 (fun _ => [0]) x) /\
  exists P, plot_lyapunov_1d g4 S4 S4 (fun _ _ => [0]) L4' = Ok P /\
    safe_points P = [(0, 0)] /\ unsafe_points P = [(-2, 2); (-1, 1); (1, 3)].
Proof.
  split; [exact g4_valid|]. split; [exact L4'_consistent|]. split; [reflexivity|]. split; [exact L4'_sorts|].
  split.
  - intros x. unfold model_right. cbn. repeat split; auto.
    + intros j Hj. cbn in Hj. assert (j = 0%nat) as -> by lia. cbn. rewrite Rminus_0_r, Rabs_R0. lra.
    + constructor; [lra|constructor].
    + unfold wdist. cbn. rewrite !Rminus_0_r. replace (_ - _) with 0 by ring. rewrite Rabs_R0. lra.
  - unfold plot_lyapunov_1d. rewrite g4_points. cbn. eexists. split; [reflexivity|]. split; reflexivity.
Qed.
