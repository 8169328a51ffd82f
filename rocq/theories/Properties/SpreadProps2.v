(** Property C122, continued: instances. *)
From Coq Require Import Reals List Bool Arith ZArith Lra Lia.
From Verif Require Import Prelude NumModel ListFacts GridModel SafeModel CertModel UtilModel SampleModel LoopModel.
From Verif Require Import GPModel GPSpec RField GPLoopModel.
From Verif Require Import GridSpec SafeSpec CertSpec SampleSpec LoopSpec GPLoopSpec RefineSpec.
From Verif Require Import GridProofs SafeProofs CertProofs SampleProofs LoopProofs LoopWidths CholProofs GPLoopProofs ExploreSpec ExploreProofs SpreadSpec SpreadProofs.
From Verif Require Import Properties.SafeProps Properties.CertProps Properties.SampleProps Properties.GridProps Properties.LoopProps Properties.RefineProps Properties.GPLoopProps Properties.ExploreProps Properties.ExploreProps2 Properties.SpreadProps.
Import ListNotations.
Local Open Scope R_scope.

(** A linear kernel, and four measurements at 1. *)
Definition slope : member :=
  {| me_kern := fun x z => nth 0 x 0 * nth 0 z 0; me_kdiag := fun x => nth 0 x 0 * nth 0 x 0; me_mean := fun _ => 0;
     me_noise := 1; me_scale := 1; me_beta := 2; me_chol := @cholesky R_realFieldType R_sqrt.sqrt |}.
Lemma combination_scale c h P : combination (fun x => c * h x) P = c * combination h P.
Proof. unfold combination. induction P as [|p P IH]; cbn; [ring|]. unfold sum in *. cbn. rewrite IH. ring. Qed.
Lemma sensible_slope : sensible slope.
Proof.
  destruct sensible11 as [K1 K2 K3 K4 K5 K6]. constructor; cbn; try lra; auto.
  - split; [intros; ring|]. intros P. unfold energy.
    replace (combination _ P) with (combination (fun x => combination (fun z => nth 0 z 0) P * nth 0 x 0) P).
    + rewrite combination_scale. apply Rle_0_sqr.
    + unfold combination at 1 3. f_equal. apply map_ext. intros p. rewrite combination_scale. ring.
  - intros x. lra.
Qed.
Definition ones : dataset := repeat ([1], [0]) 4.
Example C122_slope_ex : uncertainty (learner absV (fun _ => []) 1 1 1 [slope] ones) [3] [] <= 5 /\
  uncertainty (learner absV (fun _ => []) 1 1 1 [slope] []) [3] [] = 6.
Proof.
  assert (HS : forall me, In me [slope] -> sensible me) by (intros me [<-|[]]; apply sensible_slope).
  split.
  - assert (HT : (0 < 4 <= times_measured ones [1%R])%nat).
    { unfold times_measured, ones. cbn [repeat map fst count_occ]. destruct list_eq_dec as [_|N]; [lia|now elim N]. }
    apply Rle_trans with (1 := C122_near_measurements absV (fun _ => []) 1 1 1 [slope] ones [3] [] [1] 4 HS
      ltac:(intros me x [<-|[]]; reflexivity) HT).
    unfold noise_bound, stack_distance, kernel_distance, sum. cbn [map fold_right slope me_beta me_noise me_kern nth app].
    replace (1 / INR 4) with ((1 / 2) ^ 2) by (cbn; lra).
    replace (3 * 3 + 1 * 1 - 2 * (3 * 1)) with (2 ^ 2) by ring. rewrite !sqrt_pow2 by lra. lra.
  - unfold uncertainty, learner, stack_dynamics. cbn [dynamics stack_from map]. rewrite prior_eval by apply sensible_slope.
    unfold sum. cbn [snd fold_right slope me_beta me_kdiag nth app]. replace (3 * 3) with (3 ^ 2) by ring.
    rewrite sqrt_pow2 by lra. lra.
Qed.

(** The exploration of [C121_ex]: an update finds all states up to 3. *)
Example C122_ex : exists h log,
  explores rows_leb g9 1 1 [[1 / 8]] None ([], start9 me12) h log /\ length log = 100%nat /\
  exists h1 positive num draws h2 after,
    h = h1 ++ GetSafeSample (Perturbations 1 [[1 / 8]]) None positive num draws :: h2 /\
    step rows_leb g9 (run rows_leb g9 ([], start9 me12) h1) (UpdateSafeSet true 1 1 4 order9) = (after, Nothing) /\
    safe (book after) 1 /\ safe (book after) 7.
Proof.
  pose proof (explorer9 me12 sensible12) as X.
  assert (KD : no_white_noise [me12]) by (intros me x [<-|[]]; reflexivity).
  assert (NB : noise_bound [me12] 4 <= 17 / 1024).
  { unfold noise_bound. cbn [map me12 me_beta me_noise]. replace (1 / 1024 / INR 4) with ((1 / 64) ^ 2) by (cbn; lra).
    rewrite sqrt_pow2 by lra. unfold sum. cbn [fold_right]. lra. }
  destruct explored12 as (h & log & HX & HL & HD & HE & HC).
  exists (update9c :: h), log. split; [exact HX|]. split; [exact HL|].
  assert (NP : length (all_points g9) = 9%nat). { pose proof (all_points_length g9 g9_valid). change (nindex g9) with 9%Z in H. lia. }
  assert (ED : forall h1 h2, update9c :: h = h1 ++ h2 -> exact_data F11 (world (run rows_leb g9 ([], start9 me12) h1))).
  { intros h1 h2 E. rewrite E in HD. apply Forall_app in HD. destruct HD as (HD & _). apply world_run; [constructor|exact HD]. }
  assert (HV : forall y z, length y = dims g9 -> length z = dims g9 -> Rabs (absV y - absV z) <= 1 * dist1 y z).
  { intros y z Hy Hz. apply absV_lipschitz; assumption. }
  destruct (C122_exploration_expands _ _ _ _ _ _ _ _ _ _ _ _ _ _ _ (17 / 1024) 4 F11 rows_leb_order X KD HX ltac:(lia) NB)
    as (h1 & po & nu & dr & h2 & Eh & R); auto.
  { rewrite NP, HL. cbn [length]. lia. }
  { intros h1 h2 E. apply exact_measured. eauto. }
  { lra. }
  cbn zeta in R. set (now := run rows_leb g9 ([], start9 me12) h1) in *.
  destruct (HC _ _ _ _ _ Eh) as (-> & -> & HB1 & HB2). fold now in HB1, HB2.
  destruct (explores_program _ _ _ _ _ _ _ _ _ HX) as (HA & HU). rewrite Eh in HA, HU.
  apply Forall_app in HA, HU. destruct HA as (HA & _), HU as (HU & _).
  destruct (attributes_kept rows_leb g9 h1 ([], start9 me12) HA) as (_ & HI & _).
  change (l_init (book now) = Some mask9) in HI.
  pose proof (values_now rows_leb g9 absV _ _ _ _ _ _ _ _ _ X h1) as HVal.
  change (l_vals (book now) = map absV (all_points g9)) in HVal.
  assert (SZ : sized g9 (book now)) by (apply sized_run; auto; eapply sized_new; apply new9).
  destruct SZ as (HCo & _).
  assert (HSo : sorts (l_vals (book now)) order9) by (rewrite HVal; exact order9_sorts).
  assert (HSi : (0 < size (book now))%nat) by (unfold size; rewrite HVal, map_length, NP; lia).
  destruct (C71_reuse_invisible dataset rows_leb g9 [] S12 (Some mask9) false (start9 me12) h1 1 1 (new9 me12) HA HU (HE _ _ Eh)) as (A & _).
  specialize (A true 1%Z 4%nat order9). cbn zeta in A.
  change (match update_safe_set (book now) (certificate (S12 (world now)) 1 (grid_point g9)) true 1 4 order9 with
    | Ok L => snd (step rows_leb g9 now (UpdateSafeSet true 1 1 4 order9)) = Nothing /\
              book (fst (step rows_leb g9 now (UpdateSafeSet true 1 1 4 order9))) = L
    | Err e => snd (step rows_leb g9 now (UpdateSafeSet true 1 1 4 order9)) = Raised e /\
               book (fst (step rows_leb g9 now (UpdateSafeSet true 1 1 4 order9))) = book now end) in A.
  destruct (C15_certified_prefix (book now) (certificate (S12 (world now)) 1 (grid_point g9)) 1 4 order9 HCo HSo HSi ltac:(lia)
    ltac:(right; lia)) as (L' & EU & _). rewrite EU in A. destruct A as (A1 & A2).
  destruct (step rows_leb g9 now (UpdateSafeSet true 1 1 4 order9)) as [after o] eqn:ES. cbn [fst snd] in A1, A2. subst o.
  exists h1, true, None, dr, h2, after. split; [exact Eh|]. split; [exact ES|].
  specialize (R 1%Z 4%nat order9 after 3 3 0 ES HSo ltac:(right; lia) ltac:(lra)).
  assert (P : forall x, is_vertex g9 x -> absV x <= 3 -> initial_state g9 (book now) x \/
     (absV (F11 (x ++ [0])) - absV x <= - (3) /\
      exists s p, let u := limited None (map2 Rplus [0] p) in
        In s (tested g9 (book now) None dr) /\ In p [[1 / 8]] /\
        certified g9 (book now) (S12 (world now)) true s u /\
        stack_distance [me12] (x ++ [0]) (s ++ u) <= 0)).
  { intros x Hx Hc. apply (all_points_In g9 g9_valid) in Hx. destruct (In_nth _ _ [] Hx) as (k & Hk & E).
    destruct (grid_point_vertex g9 k g9_valid) as (_ & E').
    { rewrite <- (all_points_length g9 g9_valid). lia. }
    rewrite <- E', point9 in E by lia. rewrite NP in Hk.
    assert (IN : nth k mask9 false = true -> initial_state g9 (book now) x).
    { intros Hm. exists k. split; [|rewrite point9 by lia; exact E]. exists mask9. split; [exact HI|exact Hm]. }
    assert (OUT : x = [-3] \/ x = [3] -> absV (F11 (x ++ [0])) - absV x <= - (3)).
    { intros [-> | ->]; unfold F11, F9, absV; cbn [app nth]; destruct Rle_dec; try lra; unfold Rabs; repeat destruct Rcase_abs; lra. }
    assert (NEAR : exists s p, let u := limited None (map2 Rplus [0] p) in
        In s (tested g9 (book now) None dr) /\ In p [[1 / 8]] /\
        certified g9 (book now) (S12 (world now)) true s u /\
        stack_distance [me12] (x ++ [0]) (s ++ u) <= 0).
    { exists [0], [1 / 8]. cbn zeta. split; [now apply tested12|]. split; [now left|].
      split; [apply certified12; [exact (ED _ _ Eh)|rewrite HB2; apply cmax12]|].
      unfold stack_distance, kernel_distance, sum. cbn [map fold_right me12 me_kern me_beta].
      replace (1 / 1024 + 1 / 1024 - 2 * (1 / 1024)) with 0 by lra. rewrite sqrt_0. lra. }
    subst x. do 9 (destruct k as [|k]; [first [left; apply IN; reflexivity | exfalso; unfold absV in Hc; cbn in Hc; unfold Rabs in Hc; destruct Rcase_abs; lra
      | right; split; [|exact NEAR]; apply OUT; first [left; f_equal; cbn; lra | right; f_equal; cbn; lra]]|]). lia. }
  assert (P3 : forall k, k = 1%nat \/ k = 7%nat -> absV (grid_point g9 k) <= 3).
  { intros k [-> | ->]; rewrite point9 by lia; unfold absV; cbn; unfold Rabs; destruct Rcase_abs; lra. }
  split; apply (R P); try (rewrite NP; lia); apply P3; auto.
Qed.

(** Four measurements at 0 are enough as well. *)
Definition zeros : dataset := repeat ([0; 0], F11 [0; 0]) 4.
Example C122_measured_ex : exists after,
  step rows_leb g9 (zeros, start9 me12) (UpdateSafeSet true 1 1 4 order9) = (after, Nothing) /\
  safe (book after) 1 /\ safe (book after) 7.
Proof.
  pose proof (explorer9 me12 sensible12) as X.
  assert (KD : no_white_noise [me12]) by (intros me x [<-|[]]; reflexivity).
  assert (NB : noise_bound [me12] 4 <= 17 / 1024).
  { unfold noise_bound. cbn [map me12 me_beta me_noise]. replace (1 / 1024 / INR 4) with ((1 / 64) ^ 2) by (cbn; lra).
    rewrite sqrt_pow2 by lra. unfold sum. cbn [fold_right]. lra. }
  assert (NP : length (all_points g9) = 9%nat). { pose proof (all_points_length g9 g9_valid). change (nindex g9) with 9%Z in H. lia. }
  pose (h := [SetWorld zeros]).
  assert (HA : without is_assignment h) by (repeat constructor; intros []).
  assert (HU : Forall (uses 1 1) h) by repeat constructor.
  assert (HM : measured [me12] F11 zeros) by (apply exact_measured; repeat constructor).
  destruct (C71_reuse_invisible dataset rows_leb g9 [] S12 (Some mask9) false (start9 me12) h 1 1 (new9 me12) HA HU) as (A & _).
  { apply evaluates_iff. reflexivity. }
  specialize (A true 1%Z 4%nat order9). cbn zeta in A. change (run rows_leb g9 ([], start9 me12) h) with (zeros, start9 me12) in A.
  destruct (C15_certified_prefix (book (zeros, start9 me12)) (certificate (S12 zeros) 1 (grid_point g9)) 1 4 order9 L9_consistent order9_sorts
    ltac:(unfold size; change (0 < length vals9)%nat; rewrite vals9_length; lia) ltac:(lia) ltac:(right; lia)) as (L' & EU & _).
  change (world (zeros, start9 me12)) with zeros in A. rewrite EU in A. destruct A as (A1 & A2).
  destruct (step rows_leb g9 (zeros, start9 me12) (UpdateSafeSet true 1 1 4 order9)) as [after o] eqn:ES. cbn [fst snd] in A1, A2. subst o.
  exists after. split; [reflexivity|].
  assert (HV : forall y z, length y = dims g9 -> length z = dims g9 -> Rabs (absV y - absV z) <= 1 * dist1 y z).
  { intros y z Hy Hz. apply absV_lipschitz; assumption. }
  pose proof (C122_measured_region_is_safe rows_leb g9 absV (fun _ => [0]) 1 (24 / 5) (1 / 2) [me12] 1 1 [[1 / 8]] None ([], start9 me12) h F11
    1 4 order9 after 3 3 (17 / 1024) X KD HA HU ES order9_sorts ltac:(right; lia) ltac:(lra) HV ltac:(reflexivity) HM ltac:(lra)) as R.
  assert (P3 : forall k, k = 1%nat \/ k = 7%nat -> absV (grid_point g9 k) <= 3).
  { intros k [-> | ->]; rewrite point9 by lia; unfold absV; cbn; unfold Rabs; destruct Rcase_abs; lra. }
  split; apply R; try (rewrite NP; lia); try (apply P3; auto).
  all: intros x Hx Hc; apply (all_points_In g9 g9_valid) in Hx; destruct (In_nth _ _ [] Hx) as (k & Hk & E);
    destruct (grid_point_vertex g9 k g9_valid) as (_ & E'); [rewrite <- (all_points_length g9 g9_valid); lia|];
    rewrite <- E', point9 in E by lia; rewrite NP in Hk.
  all: assert (IN : nth k mask9 false = true -> initial_state g9 L9 x)
    by (intros Hm; exists k; split; [|rewrite point9 by lia; exact E]; exists mask9; split; [reflexivity|exact Hm]).
  all: assert (OUT : x = [-3] \/ x = [3] -> absV (F11 (x ++ [0])) - absV x <= - (3))
    by (intros [-> | ->]; unfold F11, F9, absV; cbn [app nth]; destruct Rle_dec; try lra; unfold Rabs; repeat destruct Rcase_abs; lra).
  all: assert (NEAR : exists z n, (0 < n <= times_measured zeros z)%nat /\ noise_bound [me12] n + stack_distance [me12] (x ++ [0]) z <= 17 / 1024).
  1,3: exists [0; 0], 4%nat; split;
    [unfold times_measured, zeros; cbn [repeat map fst count_occ]; destruct list_eq_dec as [_|N]; [lia|now elim N]|];
    unfold stack_distance, kernel_distance; cbn [map me12 me_kern me_beta];
    replace (1 / 1024 + 1 / 1024 - 2 * (1 / 1024)) with 0 by lra; rewrite sqrt_0; unfold sum; cbn [fold_right]; lra.
  all: subst x; do 9 (destruct k as [|k]; [first [left; apply IN; reflexivity | exfalso; unfold absV in Hc; cbn in Hc; unfold Rabs in Hc; destruct Rcase_abs; lra
      | right; split; [|exact NEAR]; apply OUT; first [left; f_equal; cbn; lra | right; f_equal; cbn; lra]]|]); lia.
Qed.
