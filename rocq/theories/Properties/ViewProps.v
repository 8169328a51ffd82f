(** C99: the picture of the required refinement N(x); C100: the picture of the
    safe state-action pairs. *)
From Coq Require Import Reals List Bool Arith ZArith Lia Lra.
From Verif Require Import Prelude NumModel NumProofs GridModel GridSpec GridProofs SafeModel SafeSpec
  CertModel CertSpec CertProofs ViewModel ViewProofs.
Import ListNotations.
Local Open Scope R_scope.

(** ** C99 *)

(** Where the value decreases, the drawn number is the least refinement
    N >= 1 for which the decrease reaches the threshold of a grid refined N
    times; it is also what [update_safe_set] asks for (safety factor 1). *)
Theorem C99_least_refinement : forall S x,
  threshold S x (tau S) < 0 -> decrease S x < 0 ->
  exists N, needed_refinement S x = Some N /\ (1 <= N)%Z /\
    decrease S x <= threshold S x (tau S / IZR N) /\
    (forall M, (1 <= M < N)%Z -> threshold S x (tau S / IZR M) < decrease S x) /\
    n_req S 1 x = N.
Proof.
  intros S x Ht Hd. destruct (needed_neg _ _ Ht Hd) as [E N1].
  set (q := threshold S x (tau S) / decrease S x) in *. pose proof (ceilR_spec q) as C.
  assert (Pos : forall M, (1 <= M)%Z -> 0 < IZR M) by (intros M HM; apply IZR_lt; lia).
  exists (ceilR q). split; [exact E|]. split; [exact N1|]. split; [|split].
  - rewrite threshold_scale by auto. apply div_le_neg; auto. fold q. lra.
  - intros M HM. rewrite threshold_scale by (apply Pos; lia). apply Rnot_le_lt. intros G.
    apply div_le_neg in G; [|auto|apply Pos; lia]. fold q in G.
    assert (IZR (ceilR q) < IZR M + 1) by lra. rewrite <- plus_IZR in H. apply lt_IZR in H. lia.
  - unfold n_req. destruct Req_EM_T; [lra|]. rewrite (Rmax_left 1 1) by lra. rewrite Rmult_1_l.
    fold q. rewrite Rmax_left; auto. left. now apply neg_div.
Qed.

(** With the strict test of the certificate the drawn number suffices unless
    the quotient is an integer; then one more is needed. *)
Theorem C99_strict_test : forall S x N,
  threshold S x (tau S) < 0 -> decrease S x < 0 -> needed_refinement S x = Some N ->
  (decrease S x < threshold S x (tau S / IZR N) <->
   IZR N * decrease S x <> threshold S x (tau S)) /\
  decrease S x < threshold S x (tau S / IZR (N + 1)).
Proof.
  intros S x N Ht Hd E. destruct (C99_least_refinement S x Ht Hd) as (N' & E' & H1 & Le & _ & _).
  rewrite E in E'. injection E' as <-.
  assert (P : 0 < IZR N) by (apply IZR_lt; lia).
  rewrite !threshold_scale in * by (auto; apply IZR_lt; lia). split.
  - split; intros H.
    + intros G. rewrite <- G in H. replace (IZR N * decrease S x / IZR N) with (decrease S x) in H by (field; lra). lra.
    + destruct Le as [Le|Le]; auto. exfalso. apply H. rewrite Le at 1. field. lra.
  - assert (P' : 0 < IZR (N + 1)) by (apply IZR_lt; lia).
    apply div_lt_neg; auto. apply div_le_neg in Le; auto. rewrite plus_IZR. lra.
Qed.

(** Where the value does not decrease, -1 is drawn, and no refinement passes
    the test. *)
Theorem C99_no_refinement : forall S x,
  threshold S x (tau S) < 0 -> 0 <= decrease S x ->
  needed_refinement S x = Some (-1)%Z /\
  forall N, (1 <= N)%Z -> ~ decrease S x <= threshold S x (tau S / IZR N).
Proof.
  intros S x Ht Hd. split; [now apply needed_pos|]. intros N HN H.
  assert (P : 0 < IZR N) by (apply IZR_lt; lia). rewrite threshold_scale in H by auto.
  assert (threshold S x (tau S) / IZR N < 0) by (apply neg_pos_div; auto). lra.
Qed.

(** With a zero threshold (a Lipschitz constant 0, or [tau = 0]) a decrease
    needs no refinement and gets 0, a rest state gets -1, and an increase
    gets 0 as well. *)
Theorem C99_zero_threshold : forall S x,
  threshold S x (tau S) = 0 ->
  needed_refinement S x = Some (if Req_EM_T (decrease S x) 0 then -1 else 0)%Z.
Proof.
  intros S x H. unfold needed_refinement, needed. rewrite H.
  destruct Req_EM_T; [destruct Rlt_dec; [lra|auto]|]. cbv zeta.
  replace (0 / decrease S x) with 0 by (field; lra). destruct Rlt_dec; [lra|].
  f_equal. apply ceilR_int. simpl. lra.
Qed.

(** So an increase can be drawn like a decrease. *)
Definition line_setup (lv f : R) (t : R) : setup :=
  {| lyapunov_function := fun x => Rabs (nth 0 x 0);
     policy := fun _ => [];
     dynamics := fun x _ => Exact [f * nth 0 x 0];
     lip_v := LvConst lv; lip_f := LfConst 1; tau := t |}.

Theorem C99_increase_refuted : exists S x,
  0 < decrease S x /\ needed_refinement S x = Some 0%Z.
Proof.
  exists (line_setup 1 2 0), [1]. assert (D : decrease (line_setup 1 2 0) [1] = 1).
  { unfold decrease, v_decrease_bound, line_setup; simpl.
    rewrite !Rabs_right by lra. ring. }
  split; [lra|]. rewrite C99_zero_threshold.
  - destruct Req_EM_T; [lra|reflexivity].
  - unfold threshold, lv_scalar, lf_scalar, line_setup; simpl. ring.
Qed.

(** At an integer quotient the drawn number does not pass the strict test. *)
Theorem C99_strict_test_refuted : exists S x N,
  needed_refinement S x = Some N /\ (1 <= N)%Z /\
  ~ decrease S x < threshold S x (tau S / IZR N).
Proof.
  exists (line_setup 1 (1/2) (1/2)), [1], 2%Z.
  assert (D : decrease (line_setup 1 (1/2) (1/2)) [1] = - (1/2)).
  { unfold decrease, v_decrease_bound, line_setup; simpl. rewrite !Rabs_right by lra. field. }
  assert (T : threshold (line_setup 1 (1/2) (1/2)) [1] (1/2) = -1).
  { unfold threshold, lv_scalar, lf_scalar, line_setup; simpl. field. }
  split; [|split; [lia|]].
  - unfold needed_refinement. change (tau (line_setup 1 (1/2) (1/2))) with (1/2).
    rewrite D, T. destruct (needed_neg (-1) (-(1/2))) as [-> _]; try lra.
    f_equal. apply ceilR_int. replace (-1 / - (1/2)) with 2 by field. lra.
  - rewrite D. change (tau (line_setup 1 (1/2) (1/2))) with (1/2).
    rewrite threshold_scale by lra. rewrite T. lra.
Qed.

(** ** A case: half the distance per step, constants 1, tau = 0.3: a threshold
    of -0.6 against a decrease of 0.5 at the state 1 needs two refinements. *)
Example C99_ex :
  let S := line_setup 1 (1/2) (3/10) in
  threshold S [1] (tau S) < 0 /\ decrease S [1] < 0 /\
  needed_refinement S [1] = Some 2%Z /\
  decrease S [1] < threshold S [1] (tau S / 2) /\ ~ decrease S [1] < threshold S [1] (tau S).
Proof.
  intros S. assert (D : decrease S [1] = - (1/2)).
  { unfold decrease, v_decrease_bound, S, line_setup; simpl. rewrite !Rabs_right by lra. field. }
  assert (T : threshold S [1] (tau S) = - (6/10)).
  { unfold threshold, lv_scalar, lf_scalar, S, line_setup; simpl. field. }
  rewrite (threshold_scale S [1] (tau S) 2) by lra. rewrite D, T. repeat split; try lra.
  unfold needed_refinement. rewrite D, T. destruct (needed_neg (-(6/10)) (-(1/2))) as [-> _]; try lra.
  f_equal. apply ceilR_int. replace (- (6/10) / - (1/2)) with (6/5) by field. lra.
Qed.

(** ** C100 *)

(** The two arrays of [get_safe_sets] hold, for grid state [k] and action
    [j], exactly the two tests on that pair - for the states of the safe set
    and false elsewhere. *)
Theorem C100_pairs : forall S g lv c safe actions positive,
  valid_grid g -> length safe = length (all_points g) ->
  (forall x u, is_vertex g x -> In u actions ->
     exists mean err, dynamics S x u = Uncertain mean err /\ length mean = dims g) ->
  exists M D, get_safe_sets S g lv c safe actions positive = Ok (M, D) /\
    length M = length safe /\ length D = length safe /\
    forall k j, (k < length safe)%nat -> (j < length actions)%nat ->
      let x := nth k (all_points g) [] in
      let u := nth j actions [] in
      (nth j (nth k M []) false = true <->
         nth k safe false = true /\
         exists mean err, dynamics S x u = Uncertain mean err /\
           lyapunov_function S mean + lv * sum err < c /\
           (positive = false -> exists i, state_to_index g mean = Ok i /\ nth (Z.to_nat i) safe false = true)) /\
      (nth j (nth k D []) false = true <->
         nth k safe false = true /\
         v_decrease_bound S x (dynamics S x u) < threshold S x (tau S)).
Proof.
  intros S g lv c safe actions positive V L Dyn.
  assert (LZ : Z.of_nat (length safe) = nindex g) by (rewrite L; now apply all_points_length).
  assert (P0 : forall k, (k < length safe)%nat -> index_to_state g (Z.of_nat k) = Ok (nth k (all_points g) [])).
  { intros k Hk. rewrite (all_points_nth g V) by lia. now rewrite Nat2Z.id. }
  assert (PV : forall k, (k < length safe)%nat -> is_vertex g (nth k (all_points g) [])).
  { intros k Hk. apply all_points_In; auto. apply nth_In. lia. }
  set (pt := fun z : Z => nth (Z.to_nat z) (all_points g) ([] : list R)).
  assert (PM : mapM (index_to_state g) (where_from 0 safe) = Ok (map pt (where_from 0 safe))).
  { apply mapM_all. intros z Hz. apply where_from_bound in Hz as (k & Hk & -> & _).
    rewrite Nat.add_0_l, P0 by auto. unfold pt. now rewrite Nat2Z.id. }
  set (states := map pt (where_from 0 safe)) in *.
  assert (SV : forall p, In p (list_prod states actions) -> is_vertex g (fst p) /\ In (snd p) actions).
  { intros [x u] H. apply in_prod_iff in H as [Hx Hu]. split; auto. simpl.
    unfold states in Hx. apply in_map_iff in Hx as (z & <- & Hz).
    apply where_from_bound in Hz as (k & Hk & -> & _). unfold pt. rewrite Nat2Z.id, Nat.add_0_l. auto. }
  (* the tests as boolean functions *)
  set (inside := fun p : list R * list R => match dynamics S (fst p) (snd p) with
    | Uncertain mean err => Rltb (lyapunov_function S mean + lv * sum err) c | Exact _ => false end).
  set (expect := fun p : list R * list R => match dynamics S (fst p) (snd p) with
    | Uncertain mean _ => match state_to_index g mean with Ok i => nth (Z.to_nat i) safe false | Err _ => false end
    | Exact _ => false end).
  set (dec := fun p : list R * list R => decreases S (fst p) (snd p)).
  set (both := fun p => if positive then inside p else inside p && expect p).
  assert (M1 : mapM (fun p => maps_inside S c lv (fst p) (snd p)) (list_prod states actions) =
               Ok (map inside (list_prod states actions))).
  { apply mapM_all. intros p Hp. destruct (SV p Hp) as [Vx Hu]. destruct (Dyn _ _ Vx Hu) as (mean & err & E & _).
    unfold maps_inside, inside. now rewrite E. }
  assert (IX : forall mean, length mean = dims g -> exists i, state_to_index g mean = Ok i /\ (0 <= i < Z.of_nat (length safe))%Z).
  { intros mean Hm. destruct (index_of_ok g mean V Hm) as (E & H0 & Hi). exists (index_of g mean). split; auto. lia. }
  assert (M2 : mapM (fun p => safe_in_expectation S g safe (fst p) (snd p)) (list_prod states actions) =
               Ok (map expect (list_prod states actions))).
  { apply mapM_all. intros p Hp. destruct (SV p Hp) as [Vx Hu]. destruct (Dyn _ _ Vx Hu) as (mean & err & E & Lm).
    unfold safe_in_expectation, expect. rewrite E. destruct (IX mean Lm) as (i & -> & Hi). simpl.
    now apply py_nth_Z. }
  assert (G : get_safe_sets S g lv c safe actions positive =
    Ok (scatter (length actions) safe (reshape_rows (length states) (length actions) (map both (list_prod states actions))),
        scatter (length actions) safe (reshape_rows (length states) (length actions) (map dec (list_prod states actions))))).
  { unfold get_safe_sets. rewrite PM. cbn [bind]. fold states. rewrite M1. cbn [bind].
    destruct positive; [reflexivity|]. rewrite M2. cbn [bind]. rewrite map2_map. reflexivity. }
  assert (T : forall h : list R * list R -> bool,
    scatter (length actions) safe (reshape_rows (length states) (length actions) (map h (list_prod states actions))) =
    scatter (length actions) safe (map (fun z => map (fun u => h (pt z, u)) actions) (where_from 0 safe))).
  { intros h. rewrite map_list_prod, reshape_flat by (intros; apply map_length).
    unfold states. now rewrite map_map. }
  rewrite !T in G. eexists; eexists; split; [exact G|]. rewrite !scatter_length. split; [auto|]. split; [auto|].
  intros k j Hk Hj x u.
  rewrite !(scatter_nth _ (fun z => map (fun u => _ (pt z, u)) actions)) by auto.
  assert (PT : pt (Z.of_nat (0 + k)) = x) by (unfold pt; now rewrite Nat2Z.id).
  rewrite PT.
  assert (R : forall h : list R -> bool, nth j (if nth k safe false then map h actions else repeat false (length actions)) false =
     nth k safe false && h u).
  { intros h. destruct (nth k safe false); [|apply nth_repeat_false].
    rewrite (nth_indep _ false (h [])) by (rewrite map_length; auto). now rewrite map_nth. }
  rewrite (R (fun u => both (x, u))), (R (fun u => dec (x, u))).
  assert (Hu : In u actions) by (apply nth_In; auto).
  destruct (Dyn x u (PV k Hk) Hu) as (mean & err & E & Lm). rewrite !andb_true_iff. split.
  - destruct (IX mean Lm) as (i & Ei & Hi).
    assert (B : both (x, u) = true <-> lyapunov_function S mean + lv * sum err < c /\
              (positive = false -> nth (Z.to_nat i) safe false = true)).
    { unfold both, inside, expect. cbn [fst snd]. rewrite E, Ei.
      destruct positive; rewrite ?andb_true_iff, Rltb_true; intuition discriminate. }
    rewrite B. split.
    + intros (Hs & Hin & Hp). split; auto. exists mean, err. split; auto. split; auto.
      intros Q. exists i. auto.
    + intros (Hs & mean' & err' & E' & Hin & Hp). rewrite E in E'. injection E' as <- <-.
      split; auto. split; auto. intros Q. destruct (Hp Q) as (i' & Ei' & Ni). rewrite Ei in Ei'. now injection Ei' as <-.
  - unfold dec, decreases. cbn [fst snd]. now rewrite Rltb_true.
Qed.

(** What the two marks mean for the true system: a pair marked in the first
    array leads below the level [c], a pair marked in the second one lowers
    the Lyapunov function by the margin - for every successor within the
    error bounds, given the Lipschitz constant of the Lyapunov function. *)
Theorem C100_marked_pairs : forall S x u y mean err lv c,
  lip_v S = LvConst lv -> 0 <= lv ->
  dynamics S x u = Uncertain mean err -> CertSpec.within y mean err ->
  Rabs (lyapunov_function S y - lyapunov_function S mean) <= lv * dist1 y mean ->
  (maps_inside S c lv x u = Ok true -> lyapunov_function S y < c) /\
  (decreases S x u = true ->
     lyapunov_function S y - lyapunov_function S x < - lv * (1 + lf_scalar S x) * tau S).
Proof.
  intros S x u y mean err lv c Hlv Pos E W Lip.
  assert (Dist : dist1 y mean <= sum err).
  { destruct W as (L1 & L2 & W). clear -L1 L2 W. unfold dist1. revert y err L1 L2 W.
    induction mean as [|m mean IH]; intros [|a y] [|e err] L1 L2 W; try discriminate; simpl; [lra|].
    injection L1 as L1. injection L2 as L2. unfold sum in *. simpl.
    pose proof (W 0%nat ltac:(simpl; lia)) as W0. simpl in W0.
    assert (fold_right Rplus 0 (map2 (fun a b => Rabs (a - b)) y mean) <= fold_right Rplus 0 err).
    { apply IH; auto. intros j Hj. apply (W (S j)). simpl; lia. }
    lra. }
  assert (Up : lyapunov_function S y <= lyapunov_function S mean + lv * sum err).
  { pose proof (Rle_abs (lyapunov_function S y - lyapunov_function S mean)).
    assert (lv * dist1 y mean <= lv * sum err) by (apply Rmult_le_compat_l; auto). lra. }
  split.
  - unfold maps_inside. rewrite E. intros H. injection H as H. apply Rltb_true in H. lra.
  - unfold decreases. rewrite E. intros H. apply Rltb_true in H.
    unfold v_decrease_bound, v_decrease_confidence, weighted_error, threshold, lv_scalar in H. rewrite Hlv in H.
    assert (SM : sum (map (fun e => lv * e) err) = lv * sum err).
    { clear. induction err; simpl; [ring|]. unfold sum in *. simpl. rewrite IHerr. ring. }
    rewrite SM in H. lra.
Qed.

(** Marked pairs need not lower the Lyapunov function, and pairs that lower it
    need not be marked as mapping inside: the two arrays are independent. *)
Definition pair_setup : setup :=
  {| lyapunov_function := fun x => Rabs (nth 0 x 0);
     policy := fun _ => [0];
     dynamics := fun x u => Uncertain [nth 0 x 0 + nth 0 u 0] [1/10];
     lip_v := LvConst 1; lip_f := LfConst 0; tau := 1/10 |}.

Theorem C100_independent_refuted :
  (* level 1/2, state 0, action 1/4: mapped inside, although V grows *)
  maps_inside pair_setup (1/2) 1 [0] [1/4] = Ok true /\ decreases pair_setup [0] [1/4] = false /\
  (* state 1, action -1/4: V decreases, but the successor is outside *)
  maps_inside pair_setup (1/2) 1 [1] [-1/4] = Ok false /\ decreases pair_setup [1] [-1/4] = true.
Proof.
  assert (A : forall x, 0 <= x -> Rabs x = x) by (intros; apply Rabs_right; lra).
  repeat split; unfold maps_inside, decreases, v_decrease_bound, v_decrease_confidence, weighted_error, threshold,
    lv_scalar, lf_scalar, pair_setup, sum; simpl; rewrite ?A by lra; f_equal;
    try (apply Rltb_true; lra); apply Rltb_false; lra.
Qed.

(** ** A case: the states -1, 0, 1 of which 0 is safe, three actions. *)
Example C100_ex :
  let g := Grid [(-1, 1)] [3%Z] in
  let actions := [[-1]; [0]; [1/4]] in
  valid_grid g /\ length (all_points g) = 3%nat /\
  (forall x u, is_vertex g x -> In u actions ->
     exists mean err, dynamics pair_setup x u = Uncertain mean err /\ length mean = dims g) /\
  exists M D, get_safe_sets pair_setup g 1 (1/2) [false; true; false] actions true = Ok (M, D) /\
    nth 0 (nth 1 M []) false = false /\ nth 1 (nth 1 M []) false = true /\
    nth 2 (nth 1 M []) false = true /\ nth 1 (nth 0 M []) false = false.
Proof.
  intros g actions.
  assert (V : valid_grid g) by (unfold g, valid_grid; simpl; repeat constructor; simpl; lra || lia).
  assert (L : length (all_points g) = 3%nat) by (apply Nat2Z.inj; rewrite all_points_length by auto; reflexivity).
  assert (Dy : forall x u, is_vertex g x -> In u actions ->
     exists mean err, dynamics pair_setup x u = Uncertain mean err /\ length mean = dims g).
  { intros x u _ _. eexists; eexists; split; reflexivity. }
  split; [auto|]. split; [auto|]. split; [auto|].
  destruct (C100_pairs pair_setup g 1 (1/2) [false; true; false] actions true V ltac:(now rewrite L) Dy)
    as (M & D & E & _ & _ & H). exists M, D. split; [exact E|].
  assert (P1 : nth 1 (all_points g) [] = [0]).
  { simpl. f_equal. field. }
  assert (A : forall x, 0 <= x -> Rabs x = x) by (intros; apply Rabs_right; lra).
  assert (Q : forall k j b, (k < 3)%nat -> (j < 3)%nat -> (nth j (nth k M []) false = true <-> b = true) -> nth j (nth k M []) false = b).
  { intros k j b _ _ I. destruct (nth j (nth k M []) false), b; auto; intuition. }
  repeat split.
  - apply Q; try lia. rewrite (proj1 (H 1%nat 0%nat ltac:(simpl; lia) ltac:(simpl; lia))). split; [|discriminate].
    intros (_ & mean & err & E' & Lt & _). rewrite P1 in E'. simpl in E'. injection E' as <- <-.
    exfalso. unfold sum in Lt; simpl in Lt. replace (0 + -1) with (-(1)) in Lt by ring.
    rewrite Rabs_Ropp, A in Lt by lra. lra.
  - apply (H 1%nat 1%nat); try (simpl; lia). split; auto. rewrite P1. simpl. eexists; eexists; split; [reflexivity|].
    split; [|discriminate]. unfold sum; simpl. rewrite A by lra. lra.
  - apply (H 1%nat 2%nat); try (simpl; lia). split; auto. rewrite P1. simpl. eexists; eexists; split; [reflexivity|].
    split; [|discriminate]. unfold sum; simpl. rewrite A by lra. lra.
  - apply Q; try lia. rewrite (proj1 (H 0%nat 1%nat ltac:(simpl; lia) ltac:(simpl; lia))). split; [|discriminate].
    intros (N & _). discriminate N.
Qed.
