(** Lemmas about the derivatives of the example systems. *)
From Coq Require Import Reals List Bool Arith Lia Lra.
From Coquelicot Require Import Coquelicot.
From Verif Require Import Prelude ListFacts QuadModel QuadProofs NNProofs AutoNetProofs2 DynModel DynSpec SimGradModel SimGradSpec.
Import ListNotations.
Local Open Scope R_scope.

(** A curve of rows with n entries through x, with rates v *)
Definition curve (n : nat) (x : row) (c : R -> row) (v : nat -> R) : Prop :=
  c 0 = x /\ (forall t, length (c t) = n) /\ forall k, (k < n)%nat -> is_derive (fun t => nth k (c t) 0) 0 (v k).
Definition wd (n : nat) (a : row) (v : nat -> R) : R := rsum n (fun k => nth k a 0 * v k).

(** An ode with right derivatives *)
Definition ode_derive (n : nat) (ode : row -> row -> res row) (dode : row -> row -> row -> res (row * row)) : Prop :=
  (forall x u, length x = n -> length u = 1%nat -> exists y, ode x u = Ok y /\ length y = n) /\
  forall x u dy, length x = n -> length u = 1%nat -> length dy = n ->
    exists gx gu, dode x u dy = Ok (gx, gu) /\ length gx = n /\ length gu = 1%nat /\
      forall xt ut vx vu, curve n x xt vx -> curve 1 u ut vu ->
        is_derive (fun t => weighted dy (ode (xt t) (ut t))) 0 (wd n gx vx + wd 1 gu vu).

Lemma rows2 (x : row) : length x = 2%nat -> x = [nth 0 x 0; nth 1 x 0].
Proof. destruct x as [|a [|b [|]]]; try discriminate. reflexivity. Qed.
Lemma rows1 (x : row) : length x = 1%nat -> x = [nth 0 x 0].
Proof. destruct x as [|a [|]]; try discriminate. reflexivity. Qed.
Lemma rows4 (x : row) : length x = 4%nat -> x = [nth 0 x 0; nth 1 x 0; nth 2 x 0; nth 3 x 0].
Proof. destruct x as [|a [|b [|c [|d [|]]]]]; try discriminate. reflexivity. Qed.

Lemma pendulum_derive p : ode_derive 2 (pendulum_ode p) (pendulum_ode_backprop p).
Proof.
  split.
  - intros x u Hx Hu. rewrite (rows2 x Hx), (rows1 u Hu). eexists. split; [reflexivity|]. reflexivity.
  - intros x u dy Hx Hu Hd. rewrite (rows2 x Hx), (rows1 u Hu), (rows2 dy Hd). eexists. eexists. split; [reflexivity|]. split; [reflexivity|]. split; [reflexivity|].
    intros xt ut vx vu (X0 & LX & DX) (U0 & LU & DU).
    pose proof (DX 0%nat ltac:(lia)) as D0. pose proof (DX 1%nat ltac:(lia)) as D1. pose proof (DU 0%nat ltac:(lia)) as DU0.
    set (a := fun t => nth 0 (xt t) 0) in *. set (w := fun t => nth 1 (xt t) 0) in *. set (q := fun t => nth 0 (ut t) 0) in *.
    set (d0 := nth 0 dy 0). set (d1 := nth 1 dy 0).
    apply (is_derive_ext (fun t => d0 * w t + d1 * (let r := gravity / arm p * sin (a t) + q t / inertia p in
       if Rlt_dec 0 (friction p) then r - friction p / inertia p * w t else r))).
    { intros t. rewrite (rows2 (xt t) (LX t)), (rows1 (ut t) (LU t)). fold (a t) (w t) (q t). cbn. unfold rsum. cbn [seq map fold_right]. cbn.
      match goal with |- ?l = ?r => change (l = r :> R) end. ring. }
    assert (a0 : a 0 = nth 0 x 0) by (unfold a; now rewrite X0). cbn zeta.
    assert (E0 : Derive (fun t => a t) 0 = vx 0%nat) by exact (is_derive_unique _ _ _ D0). assert (E1 : Derive (fun t => w t) 0 = vx 1%nat) by exact (is_derive_unique _ _ _ D1). assert (EU : Derive (fun t => q t) 0 = vu 0%nat) by exact (is_derive_unique _ _ _ DU0).
    destruct (Rlt_dec 0 (friction p)).
    + auto_derive.
      * repeat split; eexists; eassumption.
      * rewrite E0, E1, EU, a0. unfold wd, rsum. cbn. unfold Rdiv. ring.
    + auto_derive.
      * repeat split; eexists; eassumption.
      * rewrite E0, E1, EU, a0. unfold wd, rsum. cbn. unfold Rdiv. ring.
Qed.

Lemma cartpole_derive p : 0 < pole_mass p -> 0 < cart_mass p -> pole_length p <> 0 -> ode_derive 4 (cartpole_ode p) (cartpole_ode_backprop p).
Proof.
  intros Hm HM HL. split.
  - intros x u Hx Hu. rewrite (rows4 x Hx), (rows1 u Hu). eexists. split; [reflexivity|]. reflexivity.
  - intros x u dy Hx Hu Hd. rewrite (rows4 x Hx), (rows1 u Hu), (rows4 dy Hd). eexists. eexists. split; [reflexivity|]. split; [reflexivity|]. split; [reflexivity|].
    intros xt ut vx vu (X0 & LX & DX) (U0 & LU & DU).
    pose proof (DX 1%nat ltac:(lia)) as D1. pose proof (DX 2%nat ltac:(lia)) as D2. pose proof (DX 3%nat ltac:(lia)) as D3. pose proof (DU 0%nat ltac:(lia)) as DU0.
    set (th := fun t => nth 1 (xt t) 0) in *. set (v := fun t => nth 2 (xt t) 0) in *. set (om := fun t => nth 3 (xt t) 0) in *. set (q := fun t => nth 0 (ut t) 0) in *.
    set (d0 := nth 0 dy 0). set (d1 := nth 1 dy 0). set (d2 := nth 2 dy 0). set (d3 := nth 3 dy 0).
    set (m := pole_mass p) in *. set (M := cart_mass p) in *. set (L := pole_length p) in *. set (b := rot_friction p). set (g := gravity).
    apply (is_derive_ext (fun t => d0 * v t + d1 * om t +
       d2 * ((q t - m * L * (om t * om t) * sin (th t) - b * om t * cos (th t) + 1 / 2 * m * g * L * sin (2 * th t)) * L / (L * (M + m * (sin (th t) * sin (th t))))) +
       d3 * ((q t * cos (th t) - 1 / 2 * m * L * (om t * om t) * sin (2 * th t) - b * (m + M) * om t / (m * L) + (m + M) * g * sin (th t)) / (L * (M + m * (sin (th t) * sin (th t))))))).
    { intros t. rewrite (rows4 (xt t) (LX t)), (rows1 (ut t) (LU t)). fold (th t) (v t) (om t) (q t). cbn. unfold rsum. cbn [seq map fold_right]. cbn.
      match goal with |- ?l = ?r => change (l = r :> R) end. unfold Rsqr. fold m M L b g. ring. }
    assert (a1 : th 0 = nth 1 x 0) by (unfold th; now rewrite X0). assert (a3 : om 0 = nth 3 x 0) by (unfold om; now rewrite X0). assert (a4 : q 0 = nth 0 u 0) by (unfold q; now rewrite U0).
    assert (E1 : Derive (fun t => th t) 0 = vx 1%nat) by exact (is_derive_unique _ _ _ D1). assert (E2 : Derive (fun t => v t) 0 = vx 2%nat) by exact (is_derive_unique _ _ _ D2). assert (E3 : Derive (fun t => om t) 0 = vx 3%nat) by exact (is_derive_unique _ _ _ D3). assert (EU : Derive (fun t => q t) 0 = vu 0%nat) by exact (is_derive_unique _ _ _ DU0).
    assert (DT : forall s, M + m * (s * s) <> 0) by (intros s; pose proof (Rle_0_sqr s); unfold Rsqr in *; nra).
    auto_derive.
    + repeat split; try (eexists; eassumption); apply Rmult_integral_contrapositive_currified; auto.
    + rewrite E1, E2, E3, EU, a1, a3, a4. unfold wd, rsum. cbn.
      unfold Rsqr. fold m M L b g. field. repeat split; auto; try lra.
Qed.

(** ** Sums *)
Lemma weighted_wd n dy y : length dy = n -> weighted dy (Ok y) = wd n dy (fun j => nth j y 0).
Proof. intros <-. reflexivity. Qed.
Lemma wd_ext n a v w : (forall k, (k < n)%nat -> v k = w k) -> wd n a v = wd n a w.
Proof. intros H. apply rsum_ext. intros k Hk. now rewrite H. Qed.
Lemma wd_plus n a v w : wd n a (fun k => v k + w k) = wd n a v + wd n a w.
Proof. unfold wd. rewrite <- rsum_plus. apply rsum_ext. intros. ring. Qed.
Lemma nth_map2 {A B C} (f : A -> B -> C) x y k a b c : (k < length x)%nat -> length x = length y ->
  nth k (map2 f x y) c = f (nth k x a) (nth k y b).
Proof.
  revert y k. induction x as [|u x IH]; intros [|w y] [|k] H L; cbn in *; try lia; auto.
  apply IH; lia.
Qed.
Lemma wd_add n a b v : length a = n -> length b = n -> wd n (add a b) v = wd n a v + wd n b v.
Proof.
  intros La Lb. unfold wd. rewrite <- rsum_plus. apply rsum_ext. intros k Hk. unfold add. rewrite (nth_map2 Rplus a b k 0 0 0) by lia. ring.
Qed.
Lemma wd_scale n a b v : length a = n -> length b = n -> wd n (map2 Rmult a b) v = wd n a (fun k => nth k b 0 * v k).
Proof.
  intros La Lb. unfold wd. apply rsum_ext. intros k Hk. rewrite (nth_map2 Rmult a b k 0 0 0) by lia. ring.
Qed.
Lemma wd_mult n t a v : wd n (map (Rmult t) a) v = t * wd n a v.
Proof.
  unfold wd. rewrite <- rsum_scal. apply rsum_ext. intros k _. replace 0 with (t * 0) at 1 by ring. rewrite map_nth. ring.
Qed.
Lemma map2_length {A B C} (f : A -> B -> C) x y : length x = length y -> length (map2 f x y) = length x.
Proof. revert y. induction x as [|u x IH]; intros [|w y] L; cbn in *; try lia. rewrite IH; lia. Qed.
Lemma wd_derive n a (c : R -> row) (v : nat -> R) : length a = n -> (forall k, (k < n)%nat -> is_derive (fun t => nth k (c t) 0) 0 (v k)) ->
  is_derive (fun t => wd n a (fun k => nth k (c t) 0)) 0 (wd n a v).
Proof.
  intros L H. unfold wd. apply (dsum n (fun k t => nth k a 0 * nth k (c t) 0) (fun k => nth k a 0 * v k)).
  intros k Hk. apply dscal. auto.
Qed.
Definition unit_row (n j : nat) : row := map (fun k => if Nat.eqb k j then 1 else 0) (seq 0 n).
Lemma unit_length n j : length (unit_row n j) = n.
Proof. unfold unit_row. now rewrite map_length, seq_length. Qed.
Lemma wd_unit n j v : (j < n)%nat -> wd n (unit_row n j) v = v j.
Proof.
  intros H. unfold wd.
  rewrite (rsum_ext n _ (fun k => (if Nat.eqb k j then 1 else 0) * v k)).
  - rewrite (rsum_ext n _ (fun k => if Nat.eqb k j then v j else 0)).
    + clear -H. induction n as [|n IH]; [lia|]. rewrite rsum_S. destruct (Nat.eqb n j) eqn:E.
      * apply Nat.eqb_eq in E. subst. rewrite (rsum_ext _ _ (fun _ => 0)). { rewrite rsum_zero. ring. } intros k Hk. destruct (Nat.eqb k j) eqn:E; auto. apply Nat.eqb_eq in E. lia.
      * apply Nat.eqb_neq in E. rewrite IH by lia. ring.
    + intros k Hk. destruct (Nat.eqb k j) eqn:E; [apply Nat.eqb_eq in E; subst; ring | ring].
  - intros k Hk. f_equal. unfold unit_row. rewrite (nth_indep _ 0 ((fun k => if Nat.eqb k j then 1 else 0) 0%nat)) by (rewrite map_length, seq_length; lia).
    rewrite (map_nth (fun k => if Nat.eqb k j then 1 else 0)), seq_nth by lia. reflexivity.
Qed.

(** ** Euler steps *)
Definition get (r : res row) : row := match r with Ok y => y | Err _ => [] end.

Section Steps.
Variable n : nat.
Variable ode : row -> row -> res row.
Variable dode : row -> row -> row -> res (row * row).
Hypothesis OD : ode_derive n ode dode.

Lemma ode_get x u : length x = n -> length u = 1%nat -> ode x u = Ok (get (ode x u)) /\ length (get (ode x u)) = n.
Proof using OD. intros Hx Hu. destruct (proj1 OD x u Hx Hu) as (y & E & L). now rewrite E. Qed.
Lemma repeat_total k dt : forall x u, length x = n -> length u = 1%nat ->
  exists y, repeat_euler k dt (fun x => ode x u) x = Ok y /\ length y = n.
Proof using OD.
  induction k as [|k IH]; intros x u Hx Hu; cbn [repeat_euler]; [eauto|].
  destruct (ode_get x u Hx Hu) as (E & L). rewrite E. cbn [bind]. apply IH; auto. unfold euler. rewrite map2_length; lia.
Qed.
Lemma component_curve x u xt ut vx vu : curve n x xt vx -> curve 1 u ut vu ->
  exists w, curve n (get (ode x u)) (fun t => get (ode (xt t) (ut t))) w /\
    forall dy gx gu, length x = n -> length u = 1%nat -> length dy = n -> dode x u dy = Ok (gx, gu) -> wd n dy w = wd n gx vx + wd 1 gu vu.
Proof using OD.
  intros CX CU. pose proof CX as (X0 & LX & DX). pose proof CU as (U0 & LU & DU).
  assert (Hx : length x = n) by (now rewrite <- X0). assert (Hu : length u = 1%nat) by (now rewrite <- U0).
  assert (W : forall dy, length dy = n -> exists gx gu, dode x u dy = Ok (gx, gu) /\
     is_derive (fun t => wd n dy (fun j => nth j (get (ode (xt t) (ut t))) 0)) 0 (wd n gx vx + wd 1 gu vu)).
  { intros dy Hd. destruct (proj2 OD x u dy Hx Hu Hd) as (gx & gu & E & _ & _ & H). exists gx, gu. split; auto.
    apply (is_derive_ext (fun t => weighted dy (ode (xt t) (ut t)))); [|exact (H xt ut vx vu CX CU)].
    intros t. destruct (ode_get (xt t) (ut t) (LX t) (LU t)) as (E1 & _). rewrite E1 at 1. exact (weighted_wd n dy _ Hd). }
  assert (C : curve n (get (ode x u)) (fun t => get (ode (xt t) (ut t))) (fun j => Derive (fun t => nth j (get (ode (xt t) (ut t))) 0) 0)).
  { split; [now rewrite X0, U0|]. split; [intros t; apply ode_get; auto|].
    intros k Hk. apply Derive_correct. destruct (W (unit_row n k) (unit_length n k)) as (gx & gu & _ & H). eexists.
    eapply is_derive_ext; [|exact H]. intros t. exact (wd_unit n k _ Hk). }
  eexists. split; [exact C|]. intros dy gx gu _ _ Hd E. destruct (W dy Hd) as (gx' & gu' & E' & H). rewrite E in E'. injection E' as <- <-.
  rewrite <- (is_derive_unique _ _ _ H). symmetry. apply is_derive_unique. apply wd_derive; auto. apply C.
Qed.
Lemma euler_derive k dt : forall x u dy, length x = n -> length u = 1%nat -> length dy = n ->
  exists gx gu, euler_backprop k dt (fun x => ode x u) (fun x => dode x u) x dy = Ok (gx, gu) /\ length gx = n /\ length gu = 1%nat /\
    forall xt ut vx vu, curve n x xt vx -> curve 1 u ut vu ->
      is_derive (fun t => weighted dy (repeat_euler k dt (fun x => ode x (ut t)) (xt t))) 0 (wd n gx vx + wd 1 gu vu).
Proof using OD.
  induction k as [|k IH]; intros x u dy Hx Hu Hd; cbn [repeat_euler euler_backprop].
  - exists dy, [0]. split; [reflexivity|]. split; [exact Hd|]. split; [reflexivity|]. intros xt ut vx vu (X0 & LX & DX) _.
    apply (is_derive_ext (fun t => wd n dy (fun j => nth j (xt t) 0))); [intros t; symmetry; exact (weighted_wd n dy _ Hd)|].
    apply (dconv _ _ _ _ (wd_derive n dy xt vx Hd DX)). unfold wd at 3, rsum. cbn. ring.
  - destruct (ode_get x u Hx Hu) as (E & L). rewrite E. cbn [bind].
    assert (L' : length (euler dt x (get (ode x u))) = n) by (unfold euler; rewrite map2_length; lia).
    destruct (IH _ u dy L' Hu Hd) as (gx & gu & E1 & Lg & Lu & H). rewrite E1. cbn [bind fst snd].
    assert (Lm : length (map (Rmult dt) gx) = n) by now rewrite map_length.
    destruct (proj2 OD x u _ Hx Hu Lm) as (hx & hu & E2 & Lhx & Lhu & _). rewrite E2. cbn [bind fst snd].
    eexists. eexists. split; [reflexivity|]. unfold add at 1 2. rewrite !map2_length by lia. split; auto. split; auto.
    intros xt ut vx vu CX CU. destruct (component_curve x u xt ut vx vu CX CU) as (w & CW & HW).
    pose proof CX as (X0 & LX & DX). pose proof CU as (U0 & LU & DU).
    apply (is_derive_ext (fun t => weighted dy (repeat_euler k dt (fun x => ode x (ut t)) (euler dt (xt t) (get (ode (xt t) (ut t))))))).
    { intros t. destruct (ode_get (xt t) (ut t) (LX t) (LU t)) as (E3 & _). rewrite E3 at 2. reflexivity. }
    assert (CE : curve n (euler dt x (get (ode x u))) (fun t => euler dt (xt t) (get (ode (xt t) (ut t)))) (fun j => vx j + dt * w j)).
    { split; [now rewrite X0, U0|]. split; [intros t; unfold euler; rewrite map2_length; [apply LX|]; rewrite LX; symmetry; apply CW|].
      intros j Hj. apply (is_derive_ext (fun t => nth j (xt t) 0 + dt * nth j (get (ode (xt t) (ut t))) 0)).
      { intros t. unfold euler. symmetry. apply (nth_map2 (fun a b => a + dt * b)); rewrite LX; auto. symmetry. apply CW. }
      apply dplus; [auto|]. apply dscal. apply CW. exact Hj. }
    apply (dconv _ _ _ _ (H _ ut _ vu CE CU)).
    + rewrite !wd_add by auto. rewrite wd_plus. specialize (HW _ _ _ Hx Hu Lm E2). rewrite wd_mult in HW.
      assert (Q : wd n gx (fun j => dt * w j) = dt * wd n gx w). { unfold wd. rewrite <- rsum_scal. apply rsum_ext. intros. ring. }
      rewrite Q, HW. ring.
Qed.
End Steps.

(** ** Normalization *)
Lemma curve_scale n x c v T : length T = n -> curve n x c v -> curve n (map2 Rmult x T) (fun t => map2 Rmult (c t) T) (fun k => nth k T 0 * v k).
Proof.
  intros LT (C0 & LC & DC). split; [now rewrite C0|]. split; [intros t; rewrite map2_length; rewrite LC; auto|].
  intros k Hk. apply (is_derive_ext (fun t => nth k T 0 * nth k (c t) 0)).
  { intros t. rewrite (nth_map2 Rmult (c t) T k 0 0 0); [apply Rmult_comm|rewrite LC; exact Hk|rewrite LC; auto]. }
  apply dscal. auto.
Qed.
Lemma nth_firstn_lt {A} (d : A) n k (l : list A) : (k < n)%nat -> nth k (firstn n l) d = nth k l d.
Proof. revert k l. induction n as [|n IH]; intros [|k] [|a l] H; cbn; auto; try lia. apply IH. lia. Qed.
Lemma nth_skipn_plus {A} (d : A) n k (l : list A) : nth k (skipn n l) d = nth (n + k) l d.
Proof. revert l. induction n as [|n IH]; intros [|a l]; cbn; auto. destruct k; reflexivity. Qed.
Lemma curve_split n m x c v : curve (n + m) x c v ->
  curve n (firstn n x) (fun t => firstn n (c t)) v /\ curve m (skipn n x) (fun t => skipn n (c t)) (fun k => v (n + k)%nat).
Proof.
  intros (C0 & LC & DC). split; (split; [now rewrite C0|]); split.
  - intros t. rewrite firstn_length, LC. lia.
  - intros k Hk. eapply is_derive_ext; [|apply (DC k); lia]. intros t. symmetry. exact (nth_firstn_lt 0 n k (c t) Hk).
  - intros t. rewrite skipn_length, LC. lia.
  - intros k Hk. eapply is_derive_ext; [|apply (DC (n + k)%nat); lia]. intros t. symmetry. exact (nth_skipn_plus 0 n k (c t)).
Qed.
Lemma wd_app n m a b v : length a = n -> length b = m -> wd (n + m) (a ++ b) v = wd n a v + wd m b (fun k => v (n + k)%nat).
Proof.
  intros La Lb. unfold wd. rewrite rsum_app. f_equal; apply rsum_ext; intros k Hk.
  - now rewrite app_nth1 by lia.
  - rewrite app_nth2 by lia. now replace (n + k - length a)%nat with k by lia.
Qed.

Lemma inverse_length d : length (inverse d) = length d.
Proof. apply map_length. Qed.
Lemma run_derive n nm dt ode dode : ode_derive n ode dode -> fits n nm ->
  (forall xu, length xu = (n + 1)%nat -> exists y, run_model n nm dt ode xu = Ok y /\ length y = n) /\
  forall xu dy, length xu = (n + 1)%nat -> length dy = n ->
    exists g, run_backprop n nm dt ode dode xu dy = Ok g /\ length g = (n + 1)%nat /\
      forall c v, curve (n + 1) xu c v -> is_derive (fun t => weighted dy (run_model n nm dt ode (c t))) 0 (wd (n + 1) g v).
Proof.
  intros OD F.
  assert (SL : forall xu : row, length xu = (n + 1)%nat -> split1 n xu = Ok (firstn n xu, skipn n xu) /\ length (firstn n xu) = n /\ length (skipn n xu) = 1%nat).
  { intros xu L. unfold split1. rewrite L, Nat.eqb_refl, firstn_length, skipn_length, L. repeat split; lia. }
  destruct nm as [[Tx Tu]|].
  - destruct F as (LTx & LTu).
    assert (M : forall x T, length x = length T -> matmul_diag x T = Ok (map2 Rmult x T)).
    { intros x T L. unfold matmul_diag. now rewrite L, Nat.eqb_refl. }
    assert (RS : forall x u, length x = n -> length u = 1%nat -> rescale (Tx, Tu) x (Some u) = Ok (map2 Rmult x Tx, Some (map2 Rmult u Tu))).
    { intros x u Lx Lu. unfold rescale. cbn [fst snd]. rewrite M by lia. cbn [bind]. now rewrite M by lia. }
    assert (RN : forall x, length x = n -> normalize (Some (Tx, Tu)) x None = Ok (map2 Rmult x (inverse Tx), None)).
    { intros x Lx. unfold normalize, rescale. cbn [fst snd]. now rewrite M by (rewrite inverse_length; lia). }
    assert (RM : forall xu, length xu = (n + 1)%nat -> exists y, repeat_euler 10 (dt / 10) (fun x => ode x (map2 Rmult (skipn n xu) Tu)) (map2 Rmult (firstn n xu) Tx) = Ok y /\ length y = n /\
        run_model n (Some (Tx, Tu)) dt ode xu = Ok (map2 Rmult y (inverse Tx))).
    { intros xu L. destruct (SL xu L) as (E1 & L1 & L2). unfold run_model. rewrite E1. cbn [bind fst snd denormalize].
      rewrite RS by auto. cbn [bind fst snd].
      destruct (repeat_total n ode dode OD 10 (dt / 10) (map2 Rmult (firstn n xu) Tx) (map2 Rmult (skipn n xu) Tu)) as (y & E & Ly); [rewrite map2_length; lia..|].
      exists y. rewrite E. split; [reflexivity|]. split; [exact Ly|]. cbn [bind]. rewrite RN by auto. reflexivity. }
    split.
    + intros xu L. destruct (RM xu L) as (y & _ & Ly & E). rewrite E. eexists. split; [reflexivity|]. rewrite map2_length; [auto|rewrite inverse_length; lia].
    + intros xu dy L Hd. destruct (SL xu L) as (E1 & L1 & L2). unfold run_backprop. rewrite E1. cbn [bind fst snd denormalize].
      rewrite RS by auto. cbn [bind fst snd]. rewrite RN by auto. cbn [bind fst snd].
      destruct (euler_derive n ode dode OD 10 (dt / 10) (map2 Rmult (firstn n xu) Tx) (map2 Rmult (skipn n xu) Tu) (map2 Rmult dy (inverse Tx))) as (gx & gu & E & Lgx & Lgu & H);
        [rewrite map2_length; try rewrite inverse_length; lia..|].
      rewrite E. cbn [bind fst snd]. rewrite RS by auto. cbn [bind fst snd].
      eexists. split; [reflexivity|]. split; [rewrite app_length, !map2_length; lia|].
      intros c v C. destruct (curve_split n 1 xu c v C) as (C1 & C2). pose proof C as (C0 & LC & DC).
      apply (curve_scale _ _ _ _ Tx LTx) in C1. apply (curve_scale _ _ _ _ Tu LTu) in C2. specialize (H _ _ _ _ C1 C2).
      apply (is_derive_ext (fun t => weighted (map2 Rmult dy (inverse Tx)) (repeat_euler 10 (dt / 10) (fun x => ode x (map2 Rmult (skipn n (c t)) Tu)) (map2 Rmult (firstn n (c t)) Tx)))).
      { intros t. destruct (RM (c t) (LC t)) as (y & Ey & Ly & Er). rewrite Er, Ey.
        rewrite (weighted_wd n) by (rewrite map2_length; [auto|rewrite inverse_length; lia]). rewrite (weighted_wd n) by auto.
        rewrite wd_scale by (try rewrite inverse_length; auto). apply wd_ext. intros k Hk.
        rewrite (nth_map2 Rmult y (inverse Tx) k 0 0 0); [apply Rmult_comm|lia|rewrite inverse_length; lia]. }
      apply (dconv _ _ _ _ H). rewrite wd_app by (rewrite map2_length; lia). rewrite !wd_scale by auto. reflexivity.
  - assert (RM : forall xu, length xu = (n + 1)%nat -> exists y, repeat_euler 10 (dt / 10) (fun x => ode x (skipn n xu)) (firstn n xu) = Ok y /\ length y = n /\
        run_model n None dt ode xu = Ok y).
    { intros xu L. destruct (SL xu L) as (E1 & L1 & L2). unfold run_model. rewrite E1. cbn [bind fst snd denormalize].
      destruct (repeat_total n ode dode OD 10 (dt / 10) (firstn n xu) (skipn n xu)) as (y & E & Ly); auto.
      exists y. rewrite E. split; [reflexivity|]. split; [exact Ly|]. reflexivity. }
    split.
    + intros xu L. destruct (RM xu L) as (y & _ & Ly & E). eauto.
    + intros xu dy L Hd. destruct (SL xu L) as (E1 & L1 & L2). unfold run_backprop. rewrite E1. cbn [bind fst snd denormalize normalize].
      destruct (euler_derive n ode dode OD 10 (dt / 10) (firstn n xu) (skipn n xu) dy) as (gx & gu & E & Lgx & Lgu & H); auto.
      rewrite E. cbn [bind fst snd]. eexists. split; [reflexivity|]. split; [rewrite app_length; lia|].
      intros c v C. destruct (curve_split n 1 xu c v C) as (C1 & C2). pose proof C as (C0 & LC & DC). specialize (H _ _ _ _ C1 C2).
      apply (is_derive_ext (fun t => weighted dy (repeat_euler 10 (dt / 10) (fun x => ode x (skipn n (c t))) (firstn n (c t))))).
      { intros t. destruct (RM (c t) (LC t)) as (y & Ey & Ly & Er). now rewrite Er, Ey. }
      apply (dconv _ _ _ _ H). now rewrite wd_app by lia.
Qed.
