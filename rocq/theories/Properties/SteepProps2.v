(** Property C123, continued: an instance. *)
From Coq Require Import FunctionalExtensionality Reals List Bool Arith ZArith Lra Lia.
From Verif Require Import Prelude NumModel ListFacts GridModel SafeModel CertModel UtilModel SampleModel LoopModel.
From Verif Require Import GPModel GPSpec RField GPLoopModel.
From Verif Require Import GridSpec SafeSpec CertSpec SampleSpec LoopSpec GPLoopSpec RefineSpec.
From Verif Require Import GridProofs SafeProofs CertProofs SampleProofs LoopProofs LoopWidths CholProofs GPLoopProofs ExploreSpec ExploreProofs SpreadSpec SpreadProofs.
From Verif Require Import Properties.SafeProps Properties.CertProps Properties.SampleProps Properties.GridProps Properties.LoopProps Properties.RefineProps Properties.GPLoopProps Properties.ExploreProps Properties.ExploreProps2 Properties.SpreadProps Properties.SpreadProps2.
From Verif Require Import KernelModel KernelSpec SteepSpec Properties.SteepProps.
Import ListNotations.
Local Open Scope R_scope.

(** The constant kernel of the model [me12] of [C121_ex]. *)
Definition kernel12 : kernel_object := RBF (1 / 1024) [] [].
(** Four measurements at 0, at a distance of 3. *)
Example C123_net_ex : exists after,
  step rows_leb g9 (zeros, start9 me12) (UpdateSafeSet true 1 1 4 order9) = (after, Nothing) /\
  safe (book after) 1 /\ safe (book after) 7.
Proof.
  pose proof (explorer9 me12 sensible12) as X.
  assert (KD : no_white_noise [me12]) by (intros me x [<-|[]]; reflexivity).
  assert (NB : noise_bound [me12] 4 <= 17 / 1024).
  { unfold noise_bound. cbn [map me12 me_beta me_noise]. replace (1 / 1024 / INR 4) with ((1 / 64) ^ 2) by (cbn; lra).
    rewrite sqrt_pow2 by lra. unfold sum. cbn [fold_right]. lra. }
  assert (NP : length (all_points g9) = 9%nat). { pose proof (all_points_length g9 g9_valid). change (nindex g9) with 9%Z in H. lia. }
  pose (h := [SetWorld zeros]).
  assert (HA : without is_assignment h) by (repeat constructor; intros []).
  assert (HU : Forall (uses 1 1) h) by repeat constructor.
  assert (HM : measured [me12] F11 zeros) by (apply exact_measured; repeat constructor).
  destruct (C71_reuse_invisible dataset rows_leb g9 [] S12 (Some mask9) false (start9 me12) h 1 1 (new9 me12) HA HU) as (A & _).
  { apply evaluates_iff. reflexivity. }
  specialize (A true 1%Z 4%nat order9). cbn zeta in A. change (run rows_leb g9 ([], start9 me12) h) with (zeros, start9 me12) in A.
  destruct (C15_certified_prefix (book (zeros, start9 me12)) (certificate (S12 zeros) 1 (grid_point g9)) 1 4 order9 L9_consistent order9_sorts
    ltac:(unfold size; change (0 < length vals9)%nat; rewrite vals9_length; lia) ltac:(lia) ltac:(right; lia)) as (L' & EU & _).
  change (world (zeros, start9 me12)) with zeros in A. rewrite EU in A. destruct A as (A1 & A2).
  destruct (step rows_leb g9 (zeros, start9 me12) (UpdateSafeSet true 1 1 4 order9)) as [after o] eqn:ES. cbn [fst snd] in A1, A2. subst o.
  exists after. split; [reflexivity|].
  assert (HV : forall y z, length y = dims g9 -> length z = dims g9 -> Rabs (absV y - absV z) <= 1 * dist1 y z).
  { intros y z Hy Hz. apply absV_lipschitz; assumption. }
  assert (HK : have_kernels 0 [me12] [kernel12]).
  { constructor; [|constructor]. cbn [me12 me_kern me_kdiag kernel12 K Kdiag]. split; [|reflexivity].
    apply functional_extensionality. intros x. apply functional_extensionality. intros z.
    unfold square_dist. cbn. replace (- 0 / 2) with 0 by lra. rewrite exp_0. lra. }
  assert (SL : stack_slope 10 [me12] [kernel12] = 0).
  { unfold stack_slope, sum. cbn [map combine fold_right fst snd]. replace (steepness 10 kernel12) with 0 by (cbn; lra). rewrite sqrt_0. lra. }
  assert (EX : stack_excess 0 10 [me12] [kernel12] = 0).
  { unfold stack_excess, sum. cbn [map combine fold_right fst snd excess kernel12]. rewrite sqrt_0. lra. }
  pose proof (C123_net rows_leb g9 absV (fun _ => [0]) 1 (24 / 5) (1 / 2) 0 [me12] [kernel12] 1 1 [[1 / 8]] None ([], start9 me12) h F11
    1 4 order9 after 3 3 4 10 3 X ltac:(lra) ltac:(intros kk [<-|[]]; cbn; repeat split; try lra; constructor) HK
    HA HU ES order9_sorts ltac:(right; lia) ltac:(lra) HV ltac:(reflexivity) HM ltac:(lia) ltac:(lra) ltac:(rewrite SL, EX; lra)) as R.
  assert (P3 : forall k, k = 1%nat \/ k = 7%nat -> absV (grid_point g9 k) <= 3).
  { intros k [-> | ->]; rewrite point9 by lia; unfold absV; cbn; unfold Rabs; destruct Rcase_abs; lra. }
  split; apply R; try (rewrite NP; lia); try (apply P3; auto).
  all: intros x Hx Hc; apply (all_points_In g9 g9_valid) in Hx; destruct (In_nth _ _ [] Hx) as (k & Hk & E);
    destruct (grid_point_vertex g9 k g9_valid) as (_ & E'); [rewrite <- (all_points_length g9 g9_valid); lia|];
    rewrite <- E', point9 in E by lia; rewrite NP in Hk.
  all: assert (IN : nth k mask9 false = true -> initial_state g9 L9 x)
    by (intros Hm; exists k; split; [|rewrite point9 by lia; exact E]; exists mask9; split; [reflexivity|exact Hm]).
  all: assert (OUT : x = [-3] \/ x = [3] -> absV (F11 (x ++ [0])) - absV x <= - (3))
    by (intros [-> | ->]; unfold F11, F9, absV; cbn [app nth]; destruct Rle_dec; try lra; unfold Rabs; repeat destruct Rcase_abs; lra).
  all: assert (NEAR : x = [-3] \/ x = [3] -> in_box 10 (x ++ [0]) /\
    exists z, (4 <= times_measured zeros z)%nat /\ in_box 10 z /\ close 3 (x ++ [0]) z).
  1,3: intros E3; split;
    [destruct E3 as [-> | ->]; intros [|[|[|j]]]; cbn; unfold Rabs; destruct Rcase_abs; lra|];
    exists [0; 0]; split;
    [unfold times_measured, zeros; cbn [repeat map fst count_occ]; destruct list_eq_dec as [_|N]; [lia|now elim N]|];
    split; [intros [|[|[|j]]]; cbn; unfold Rabs; destruct Rcase_abs; lra|];
    destruct E3 as [-> | ->]; intros [|[|[|j]]]; cbn; unfold Rabs; destruct Rcase_abs; lra.
  all: subst x; do 9 (destruct k as [|k]; [first [left; apply IN; reflexivity | exfalso; unfold absV in Hc; cbn in Hc; unfold Rabs in Hc; destruct Rcase_abs; lra
      | right; split; [apply OUT|apply NEAR]; first [left; f_equal; cbn; lra | right; f_equal; cbn; lra]]|]); lia.
Qed.
