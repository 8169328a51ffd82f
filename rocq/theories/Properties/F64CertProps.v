(** C83: the decrease check in double precision. *)
From Coq Require Import List ZArith Reals Bool Permutation Lra Lia Psatz Arith.
From Flocq Require Import Core.
From Verif Require Import Prelude ListFacts FunModel QuadModel QuadProofs LipProofs F64Model F64Spec F64Facts F64Tri
  F64CertModel F64CertSpec F64CertProofs.
Import ListNotations.
Local Open Scope R_scope.

(** Whatever the order of summation, a computed sum of n products is within
    [dot_slack] of the exact sum. *)
Theorem C83_sum_in_any_order : forall n f g r,
  INR n <= 4503599627370496 -> fdot (pairs n f g) r ->
  Rabs (r - rsum n (fun k => f k * g k)) <= dot_slack n (rsum n (fun k => Rabs (f k * g k))).
Proof. exact fdot_pairs. Qed.
Print Assumptions C83_sum_in_any_order.

(** The computed decrease is within [decrease_slack] of V(F(x)) - V(x), for the
    exact closed loop F. *)
Theorem C83_decrease_error : forall P policy dynamics states actions next dec i,
  f_decrease P policy dynamics states actions next dec ->
  (i < rows states)%nat -> INR (cols states + cols actions) <= 4503599627370496 ->
  Rabs (entry dec i 0%nat -
        (quad P (cols states) (loop policy dynamics (cols states) (cols actions) (entry states i)) -
         quad P (cols states) (entry states i)))
    <= decrease_slack P policy dynamics (cols states) (cols actions)
         (entry states i) (entry actions i) (entry next i) (entry dec i 0%nat).
Proof.
  intros P K D st ac nx dec i (HK & (pts & HC & HD) & v & v' & HV' & HV & _ & _ & He) Hi Hd.
  rewrite (He i Hi). clear He. rewrite Rplus_0_r, (rnd_id (rnd _)) by apply rnd_format.
  assert (Hs : INR (cols st) <= 4503599627370496).
  { eapply Rle_trans; [ | exact Hd ]. apply le_INR. lia. }
  assert (Ep : rows pts = rows st /\ cols pts = (cols st + cols ac)%nat).
  { simpl in HC. unfold hcat2 in HC. destruct (Nat.eqb_spec (rows st) (rows ac)); [ | discriminate ].
    injection HC as <-. split; reflexivity. }
  assert (En : rows nx = rows st /\ cols nx = rows D).
  { destruct HD as (_ & A & B & _). simpl in B. rewrite (proj1 Ep) in A. auto. }
  assert (Ed : cols nx = cols st).
  { destruct HV as (l1 & (A1 & _) & A2 & _). destruct HV' as (l2 & (B1 & _) & B2 & _). congruence. }
  pose proof (f_quadratic_err P nx v' i HV' ltac:(lia) ltac:(rewrite Ed; exact Hs)) as E1.
  pose proof (f_quadratic_err P st v i HV Hi Hs) as E2.
  rewrite Ed in E1.
  assert (E3 := move_err P (cols st) (entry nx i) (loop K D (cols st) (cols ac) (entry st i))
    (next_slack K D (cols st) (cols ac) (entry st i) (entry ac i))
    ltac:(intros j Hj; apply (f_next_err K D st ac pts nx i j HK HC HD Hi); [ lia | exact Hd ])).
  pose proof (rnd_back (entry v' i 0%nat - entry v i 0%nat)) as E4.
  unfold decrease_slack.
  set (a := entry v' i 0%nat) in *. set (b := entry v i 0%nat) in *.
  set (qn := quad P (cols st) (entry nx i)) in *. set (qx := quad P (cols st) (entry st i)) in *.
  set (ql := quad P (cols st) (loop K D (cols st) (cols ac) (entry st i))) in *.
  replace (rnd (a - b) - (ql - qx)) with ((rnd (a - b) - (a - b)) + ((a - qn) + ((qn - ql) + - (b - qx)))) by ring.
  eapply Rle_trans; [ apply Rabs_triang | ].
  pose proof (Rabs_triang (a - qn) ((qn - ql) + - (b - qx))) as T1.
  pose proof (Rabs_triang (qn - ql) (- (b - qx))) as T2. rewrite Rabs_Ropp in T2.
  lra.
Qed.
Print Assumptions C83_decrease_error.

(** If the computed decrease stays below the computed threshold by the two error
    bounds, the exact closed loop decreases the exact function below the exact
    threshold. *)
Theorem C83_check_with_slack : forall P policy dynamics states actions next dec i lv lf tau,
  f_decrease P policy dynamics states actions next dec ->
  (i < rows states)%nat -> INR (cols states + cols actions) <= 4503599627370496 ->
  0 <= lv -> 0 <= lf -> 0 <= tau ->
  entry dec i 0%nat +
    decrease_slack P policy dynamics (cols states) (cols actions)
      (entry states i) (entry actions i) (entry next i) (entry dec i 0%nat) +
    threshold_slack lv lf tau < f_threshold lv lf tau ->
  quad P (cols states) (loop policy dynamics (cols states) (cols actions) (entry states i)) -
  quad P (cols states) (entry states i) < - lv * (1 + lf) * tau.
Proof.
  intros P K D st ac nx dec i lv lf tau H Hi Hd P1 P2 P3 Hlt.
  pose proof (C83_decrease_error P K D st ac nx dec i H Hi Hd) as A.
  pose proof (threshold_err lv lf tau P1 P2 P3) as B.
  apply Rabs_le_inv in A. apply Rabs_le_inv in B. lra.
Qed.
Print Assumptions C83_check_with_slack.

(** There is an evaluation for all tensors of matching shapes. *)
Definition fdot_left (l : list (R * R)) : R :=
  match l with [] => 0 | (a, b) :: l' => fold_left (fun r p => rnd (rnd (fst p * snd p) + r)) l' (rnd (a * b)) end.
Lemma fdot_left_ok l : l <> [] -> fdot l (fdot_left l).
Proof.
  destruct l as [ | (a, b) l ]; intros H; [ easy | ]. clear H. simpl.
  assert (G : forall l l0 r, fdot l0 r ->
    fdot (l0 ++ l) (fold_left (fun r p => rnd (rnd (fst p * snd p) + r)) l r)).
  { clear l. induction l as [ | (c, e) l IH ]; intros l0 r H; [ now rewrite app_nil_r | ].
    simpl. change ((c, e) :: l) with ([(c, e)] ++ l). rewrite app_assoc. apply IH.
    eapply fdot_perm; [ apply Permutation_app_comm | ]. apply (fdot_add [(c, e)] l0); [ constructor | exact H ]. }
  exact (G l [(a, b)] (rnd (a * b)) (fdot_one a b)).
Qed.
Lemma pairs_nonempty n f g : (1 <= n)%nat -> pairs n f g <> [].
Proof. destruct n; [ lia | discriminate ]. Qed.

Theorem C83_some_evaluation : forall P policy dynamics states,
  (1 <= cols states)%nat -> rows P = cols states -> cols P = cols states ->
  cols policy = cols states -> rows dynamics = cols states ->
  cols dynamics = (cols states + rows policy)%nat ->
  exists actions next dec, f_decrease P policy dynamics states actions next dec.
Proof.
  intros P K D st H1 H2 H3 H4 H5 H6.
  assert (MM : forall a b, cols a = rows b -> (1 <= cols a)%nat -> exists c, f_matmul a b c).
  { intros a b E N. exists {| rows := rows a; cols := cols b;
      entry := fun i j => fdot_left (pairs (cols a) (entry a i) (fun k => entry b k j)) |}.
    repeat split; auto. intros i j Hi Hj. apply fdot_left_ok. now apply pairs_nonempty. }
  assert (QQ : forall z, cols z = cols st -> exists v, f_quadratic P z v).
  { intros z E. destruct (MM z P) as (l & Hl); [ congruence | lia | ].
    exists {| rows := rows z; cols := 1;
      entry := fun i _ => fdot_left (pairs (cols z) (entry l i) (entry z i)) |}.
    exists l. repeat split; auto; try (apply Hl); try congruence.
    intros i Hi. apply fdot_left_ok. apply pairs_nonempty. lia. }
  destruct (MM st (transpose K)) as (ac & Ha); [ simpl; congruence | lia | ].
  assert (Ea : rows ac = rows st /\ cols ac = rows K) by (destruct Ha as (_ & A & B & _); auto).
  set (pts := {| rows := rows st; cols := cols st + cols ac;
          entry := fun i j => if Nat.ltb j (cols st) then entry st i j else entry ac i (j - cols st) |}).
  destruct (MM pts (transpose D)) as (nx & Hn).
  { simpl. lia. } { simpl. lia. }
  destruct (QQ nx) as (v' & Hv'). { destruct Hn as (_ & _ & B & _). simpl in B. congruence. }
  destruct (QQ st eq_refl) as (v & Hv).
  exists ac, nx, {| rows := rows st; cols := 1;
    entry := fun i _ => rnd (rnd (entry v' i 0%nat - entry v i 0%nat) + 0) |}.
  split; [ exact Ha | ]. split.
  - exists pts. split; [ | exact Hn ]. simpl. unfold hcat2.
    destruct (Nat.eqb_spec (rows st) (rows ac)); [ reflexivity | lia ].
  - exists v, v'. repeat split; auto; try (apply Hv); try (apply Hv').
Qed.
Print Assumptions C83_some_evaluation.

(** *** An instance: V = x^2, x+ = x + u, u = -x / 2, at x = 1, where the check asks for
    a decrease of 5/8 *)
Definition t11 (x : R) : tensor := {| rows := 1; cols := 1; entry := fun _ _ => x |}.
Definition t12 (x y : R) : tensor :=
  {| rows := 1; cols := 2; entry := fun _ j => match j with O => x | _ => y end |}.

Lemma fdot_1 a b r : fdot [(a, b)] r -> r = rnd (a * b).
Proof.
  intros H. remember [(a, b)] as l eqn:E. revert E.
  induction H as [ c e | c e l r H IH | l1 l2 r1 r2 H1 IH1 H2 IH2 | l l' r P H IH ]; intros E.
  - injection E as -> ->. reflexivity.
  - injection E as _ _ ->. apply fdot_nonempty in H. simpl in H. lia.
  - apply fdot_nonempty in H1, H2. apply (f_equal (@length _)) in E. rewrite app_length in E.
    simpl in E. lia.
  - subst l'. apply Permutation_sym, Permutation_length_1_inv in P. auto.
Qed.

Lemma fdot_2 p q r : fdot [p; q] r ->
  let x := fst p * snd p in let y := fst q * snd q in
  r = rnd (rnd x + rnd y) \/ r = rnd (x + rnd y) \/ r = rnd (rnd x + y).
Proof.
  intros H. remember [p; q] as l eqn:E. revert p q E.
  induction H as [ c e | c e l r H IH | l1 l2 r1 r2 H1 IH1 H2 IH2 | l l' r P H IH ]; intros p q E.
  - discriminate.
  - injection E as <- ->. destruct q as (a, b). apply fdot_1 in H. subst r. simpl. auto.
  - destruct l1 as [ | (a, b) [ | ? l1 ] ].
    + apply fdot_nonempty in H1. simpl in H1. lia.
    + injection E as <- ->. destruct q as (c, e). apply fdot_1 in H1, H2. subst. simpl. auto.
    + apply fdot_nonempty in H2. apply (f_equal (@length _)) in E. rewrite app_length in E. simpl in E. lia.
  - subst l'. apply Permutation_sym, Permutation_length_2_inv in P as [-> | ->].
    + now apply IH.
    + destruct (IH q p eq_refl) as [-> | [-> | ->]]; simpl.
      * left. f_equal. ring.
      * right; right. f_equal. ring.
      * right; left. f_equal. ring.
Qed.

Lemma scalar_decrease p k a b x ac nx dec :
  f_decrease (t11 p) (t11 k) (t12 a b) (t11 x) ac nx dec ->
  let u := rnd (x * k) in let y := entry nx 0%nat 0%nat in
  cols ac = 1%nat /\ entry ac 0%nat 0%nat = u /\
  (y = rnd (rnd (x * a) + rnd (u * b)) \/ y = rnd (x * a + rnd (u * b)) \/ y = rnd (rnd (x * a) + u * b)) /\
  entry dec 0%nat 0%nat = rnd (rnd (rnd (rnd (y * p) * y) - rnd (rnd (x * p) * x)) + 0).
Proof.
  intros ((_ & R1 & C1 & H1) & (pts & HC & (R2 & R3 & C2 & H2)) & v & v' & Q' & Q & _ & _ & He).
  simpl in R1, C1, C2. intros u y.
  assert (Eu : entry ac 0%nat 0%nat = u).
  { specialize (H1 0%nat 0%nat ltac:(simpl; lia) ltac:(simpl; lia)). simpl in H1. now apply fdot_1 in H1. }
  simpl in HC. unfold hcat2 in HC. simpl in HC. rewrite R1 in HC. simpl in HC. injection HC as <-.
  simpl in H2. rewrite C1 in H2.
  specialize (H2 0%nat 0%nat ltac:(lia) ltac:(lia)).
  change (fdot [(x, a); (entry ac 0%nat 0%nat, b)] (entry nx 0%nat 0%nat)) in H2.
  rewrite Eu in H2. apply fdot_2 in H2. cbn [fst snd] in H2. simpl in R3.
  assert (QE : forall z w, f_quadratic (t11 p) z w -> rows z = 1%nat -> cols z = 1%nat ->
    entry w 0%nat 0%nat = rnd (rnd (entry z 0%nat 0%nat * p) * entry z 0%nat 0%nat)).
  { intros z w (l & (_ & _ & _ & L) & _ & _ & _ & W) Rz Cz. rewrite Rz, Cz in *.
    specialize (W 0%nat ltac:(lia)). specialize (L 0%nat 0%nat ltac:(lia) ltac:(simpl; lia)).
    change (fdot [(entry z 0%nat 0%nat, p)] (entry l 0%nat 0%nat)) in L. apply fdot_1 in L.
    change (fdot [(entry l 0%nat 0%nat, entry z 0%nat 0%nat)] (entry w 0%nat 0%nat)) in W.
    apply fdot_1 in W. now rewrite W, L. }
  split; [ exact C1 | ]. split; [ exact Eu | ]. split; [ exact H2 | ].
  rewrite (He 0%nat ltac:(simpl; lia)). rewrite (QE _ _ Q' R3 C2), (QE _ _ Q eq_refl eq_refl). reflexivity.
Qed.

Lemma f64_small n : (Z.abs n < 2 ^ 53)%Z -> is_f64 (IZR n).
Proof. intros H. rewrite <- (Rmult_1_r (IZR n)). apply (f64_F2R n 0); [ exact H | lia ]. Qed.
Lemma f64_eighth n : (Z.abs n < 2 ^ 53)%Z -> is_f64 (IZR n / 8).
Proof. intros H. replace (IZR n / 8) with (IZR n * bpow radix2 (-3)) by (simpl bpow; unfold Rdiv; f_equal; f_equal; lra). apply f64_F2R; [ exact H | lia ]. Qed.

Lemma tiny : bpow radix2 (-52) <= / 1000000 /\ bpow radix2 (-51) <= / 1000000 /\
  0 < bpow radix2 (-1073) <= / 1000000 /\ 0 < bpow radix2 (-52) /\ 0 < bpow radix2 (-51).
Proof.
  assert (A : bpow radix2 (-52) <= / 1000000) by (simpl; lra).
  repeat split; try apply bpow_gt_0; auto; [ simpl; lra | ].
  eapply Rle_trans; [ | exact A ]. apply bpow_le. lia.
Qed.

Example C83_ex : exists ac nx dec,
  f_decrease (t11 1) (t11 (-1 / 2)) (t12 1 1) (t11 1) ac nx dec /\
  entry dec 0%nat 0%nat = - 3 / 4 /\
  entry dec 0%nat 0%nat +
    decrease_slack (t11 1) (t11 (-1 / 2)) (t12 1 1) 1 1 (fun _ => 1) (entry ac 0%nat) (entry nx 0%nat)
      (entry dec 0%nat 0%nat) + threshold_slack 2 (3 / 2) (1 / 8) < f_threshold 2 (3 / 2) (1 / 8) /\
  f_threshold 2 (3 / 2) (1 / 8) = - 5 / 8.
Proof.
  destruct (C83_some_evaluation (t11 1) (t11 (-1 / 2)) (t12 1 1) (t11 1)) as (ac & nx & dec & H);
    try reflexivity; try (simpl; lia).
  exists ac, nx, dec. split; [ exact H | ].
  destruct (scalar_decrease _ _ _ _ _ _ _ _ H) as (_ & Eu & Ey & Ed).
  assert (E1 : rnd (1 * (-1 / 2)) = -1 / 2).
  { replace (1 * (-1 / 2)) with (IZR (-4) / 8) by lra. rewrite rnd_id by (apply f64_eighth; lia). lra. }
  rewrite E1 in *. rewrite !Rmult_1_r in *.
  assert (E0 : rnd (-1 / 2) = -1 / 2).
  { replace (-1 / 2) with (IZR (-4) / 8) by lra. apply rnd_id, f64_eighth. lia. }
  assert (E2 : rnd 1 = 1) by (apply (rnd_id 1), (f64_small 1); lia).
  rewrite E0, E2 in *.
  assert (E3 : rnd (1 + -1 / 2) = 1 / 2).
  { replace (1 + -1 / 2) with (IZR 4 / 8) by lra. rewrite rnd_id by (apply f64_eighth; lia). lra. }
  rewrite E3 in Ey.
  assert (Ey' : entry nx 0%nat 0%nat = 1 / 2) by tauto. clear Ey. rewrite Ey' in *.
  assert (E4 : rnd (1 / 2) = 1 / 2).
  { replace (1 / 2) with (IZR 4 / 8) by lra. rewrite rnd_id by (apply f64_eighth; lia). lra. }
  assert (E5 : rnd (1 / 2 * (1 / 2)) = 1 / 4).
  { replace (1 / 2 * (1 / 2)) with (IZR 2 / 8) by lra. rewrite rnd_id by (apply f64_eighth; lia). lra. }
  rewrite E4, E5, E2 in Ed.
  assert (E6 : rnd (1 / 4 - 1) = - 3 / 4).
  { replace (1 / 4 - 1) with (IZR (-6) / 8) by lra. rewrite rnd_id by (apply f64_eighth; lia). lra. }
  assert (E7 : rnd (- 3 / 4) = - 3 / 4).
  { replace (- 3 / 4) with (IZR (-6) / 8) by lra. rewrite rnd_id by (apply f64_eighth; lia). lra. }
  rewrite E6, Rplus_0_r, E7 in Ed. split; [ exact Ed | ].
  assert (ET : f_threshold 2 (3 / 2) (1 / 8) = - 5 / 8).
  { unfold f_threshold. replace (1 + 3 / 2) with (IZR 20 / 8) by lra.
    rewrite (rnd_id (IZR 20 / 8)) by (apply f64_eighth; lia).
    replace (- (2) * (IZR 20 / 8)) with (IZR (-40) / 8) by lra.
    rewrite (rnd_id (IZR (-40) / 8)) by (apply f64_eighth; lia).
    replace (IZR (-40) / 8 * (1 / 8)) with (IZR (-5) / 8) by lra. rewrite rnd_id by (apply f64_eighth; lia). lra. }
  split; [ | exact ET ]. rewrite ET, Ed.
  unfold decrease_slack, threshold_slack, quad_slack, move_slack, next_slack, action_slack, join.
  unfold rsum. simpl seq. cbn [map fold_right Nat.ltb Nat.leb Nat.sub Nat.add t11 t12 entry rows cols].
  rewrite Eu, Ey'.
  rewrite !Rplus_0_r, !Rmult_1_r, !Rmult_1_l, !Rabs_R1.
  rewrite (Rabs_left (-1 / 2)), (Rabs_pos_eq (1 / 2)), (Rabs_left (- 3 / 4)) by lra.
  unfold dot_slack. simpl INR. 
  destruct tiny as (T1 & T2 & T3 & T4 & T5).
  set (w := bpow radix2 (-52)) in *. set (w1 := bpow radix2 (-51)) in *. set (h := bpow radix2 (-1073)) in *.
  clearbody w w1 h. clear - T1 T2 T3 T4 T5.
  assert (w * w <= / 1000000 * w) by (apply Rmult_le_compat_r; lra).
  assert (0 <= w * h <= / 1000000 * w) by (split; [ apply Rmult_le_pos; lra | rewrite Rmult_comm; apply Rmult_le_compat_r; lra ]).
  assert (h * h <= / 1000000 * h) by (apply Rmult_le_compat_r; lra).
  assert (0 <= w * w) by (apply Rmult_le_pos; lra). assert (0 <= h * h) by (apply Rmult_le_pos; lra).
  nra.
Qed.

(** *** Without slack: the closed loop x+ = a x + u, u = -k x with a - k = 1 leaves every
    state where it is.  At x = 9, whatever the order of summation, the computed next
    state is 8: the check passes with V = x^2 and the right constants, lv = 20 for
    |x| <= 10 and lf = 1. *)
Definition gain_a : R := 4003199668773776.
Definition gain_k : R := 4003199668773775.

Lemma bp3 : bpow radix2 3 = 8. Proof. reflexivity. Qed.
Lemma rnd_k : rnd (9 * - gain_k) = - (36028797018963976).
Proof.
  replace (9 * - gain_k) with (- (36028797018963975)) by (unfold gain_k; lra). rewrite rnd_opp.
  rewrite (rnd_near 4503599627370497 3); rewrite ?bp3.
  - lra.
  - split; [ discriminate | reflexivity ].
  - lia.
  - change (2 ^ 52)%Z with 4503599627370496%Z. lra.
  - apply Rabs_def1; lra.
Qed.
Lemma f64_a : is_f64 36028797018963984.
Proof. replace 36028797018963984 with (IZR 4503599627370498 * bpow radix2 3) by (rewrite bp3; lra). apply f64_F2R; lia. Qed.
Lemma f64_k : is_f64 (- (36028797018963976)).
Proof. replace (- (36028797018963976)) with (IZR (-4503599627370497) * bpow radix2 3) by (rewrite bp3; lra). apply f64_F2R; lia. Qed.

Theorem C83_fixed_points_pass_the_check : forall actions next dec,
  f_decrease (t11 1) (t11 (- gain_k)) (t12 gain_a 1) (t11 9) actions next dec ->
  entry dec 0%nat 0%nat = -17 /\ f_threshold 20 1 (1 / 4) = -10 /\
  forall x, loop (t11 (- gain_k)) (t12 gain_a 1) 1 1 x 0%nat = x 0%nat.
Proof.
  intros ac nx dec H. destruct (scalar_decrease _ _ _ _ _ _ _ _ H) as (_ & _ & Ey & Ed). clear H.
  rewrite rnd_k in Ey. rewrite !Rmult_1_r in *.
  rewrite (rnd_id (- (36028797018963976))) in Ey by apply f64_k.
  replace (9 * gain_a) with 36028797018963984 in Ey by (unfold gain_a; lra).
  rewrite (rnd_id 36028797018963984) in Ey by apply f64_a.
  replace (36028797018963984 + - (36028797018963976)) with 8 in Ey by lra.
  rewrite (rnd_id 8) in Ey by (apply (f64_small 8); lia).
  assert (E8 : entry nx 0%nat 0%nat = 8) by tauto. rewrite E8 in Ed. clear Ey E8.
  rewrite (rnd_id 8), (rnd_id 9) in Ed by (first [ apply (f64_small 8) | apply (f64_small 9) ]; lia).
  replace (8 * 8) with 64 in Ed by lra. replace (9 * 9) with 81 in Ed by lra.
  rewrite (rnd_id 64), (rnd_id 81) in Ed by (first [ apply (f64_small 64) | apply (f64_small 81) ]; lia).
  replace (64 - 81) with (-17) in Ed by lra. rewrite Rplus_0_r in Ed.
  rewrite !(rnd_id (-17)) in Ed by (apply (f64_small (-17)); lia).
  split; [ exact Ed | ]. split.
  - unfold f_threshold. replace (1 + 1) with 2 by lra. rewrite (rnd_id 2) by (apply (f64_small 2); lia).
    replace (- (20) * 2) with (-40) by lra. rewrite (rnd_id (-40)) by (apply (f64_small (-40)); lia).
    replace (-40 * (1 / 4)) with (-10) by lra. apply rnd_id, (f64_small (-10)). lia.
  - intros x. unfold loop, apply, join, rsum. simpl. unfold gain_a, gain_k. lra.
Qed.
Print Assumptions C83_fixed_points_pass_the_check.

Theorem C83_check_without_slack_refuted :
  ~ (forall P policy dynamics states actions next dec i lv lf tau,
     f_decrease P policy dynamics states actions next dec ->
     (i < rows states)%nat -> 0 < lv -> 0 < lf -> 0 < tau ->
     (forall x y, (forall j, (j < cols states)%nat -> Rabs (x j) <= 10 /\ Rabs (y j) <= 10) ->
        Rabs (quad P (cols states) x - quad P (cols states) y)
          <= lv * rsum (cols states) (fun j => Rabs (x j - y j)) /\
        rsum (cols states) (fun j =>
            Rabs (loop policy dynamics (cols states) (cols actions) x j -
                  loop policy dynamics (cols states) (cols actions) y j))
          <= lf * rsum (cols states) (fun j => Rabs (x j - y j))) ->
     entry dec i 0%nat < f_threshold lv lf tau ->
     quad P (cols states) (loop policy dynamics (cols states) (cols actions) (entry states i)) <
     quad P (cols states) (entry states i)).
Proof.
  intros H.
  destruct (C83_some_evaluation (t11 1) (t11 (- gain_k)) (t12 gain_a 1) (t11 9)) as (ac & nx & dec & HD);
    try reflexivity; try (simpl; lia).
  destruct (C83_fixed_points_pass_the_check ac nx dec HD) as (E1 & E2 & E3).
  destruct (scalar_decrease _ _ _ _ _ _ _ _ HD) as (Ec & _).
  specialize (H _ _ _ _ _ _ _ 0%nat 20 1 (1 / 4) HD ltac:(simpl; lia) ltac:(lra) ltac:(lra) ltac:(lra)).
  rewrite Ec in H. simpl cols in H. rewrite E1, E2 in H.
  assert (A : quad (t11 1) 1 (loop (t11 (- gain_k)) (t12 gain_a 1) 1 1 (entry (t11 9) 0%nat)) <
              quad (t11 1) 1 (entry (t11 9) 0%nat)).
  { apply H; [ | lra ]. intros x y HB. destruct (HB 0%nat ltac:(lia)) as (Hx & Hy). split.
    - unfold quad, rsum. simpl. rewrite !Rmult_1_r, !Rplus_0_r.
      set (s := x 0%nat) in *. set (t := y 0%nat) in *.
      replace (s * s - t * t) with ((s + t) * (s - t)) by ring. rewrite Rabs_mult.
      apply Rmult_le_compat_r; [ apply Rabs_pos | ].
      eapply Rle_trans; [ apply Rabs_triang | ]. lra.
    - unfold rsum. cbn [seq map fold_right]. rewrite !E3. lra. }
  unfold quad, rsum in A. cbn [seq map fold_right] in A. rewrite E3 in A. lra.
Qed.
Print Assumptions C83_check_without_slack_refuted.
