(** Properties C55 and C62: the example systems. *)
From Coq Require Import Reals List Bool Arith Lia Lra Psatz.
From Coquelicot Require Import Coquelicot.
From Verif Require Import Prelude DynModel DynSpec DynProofs.
Import List ListNotations.
Local Open Scope R_scope.

(** [normalize] and [denormalize] undo each other. *)
Theorem C55_inverse nm x u y v : nonzero nm ->
  (normalize nm x u = Ok (y, v) <-> denormalize nm y v = Ok (x, u)).
Proof. intros nz. split; [apply normalize_inv | apply denormalize_inv]; auto. Qed.
Theorem C55_vanderpol_inverse v x y : match vanderpol_norm v with Some d => Forall (fun t => t <> 0) d | None => True end ->
  (vdp_normalize v x = Ok y <-> vdp_denormalize v y = Ok x).
Proof.
  unfold vdp_normalize, vdp_denormalize. destruct (vanderpol_norm v) as [d|]; [|intros _; split; congruence].
  intros F. unfold matmul_diag. rewrite inverse_length. split.
  - destruct (Nat.eqb_spec (length x) (length d)) as [l|]; [|discriminate]. intros E. injection E as <-.
    destruct (scale_inverse x d l F) as (e1 & _ & _ & l1). rewrite l1, Nat.eqb_refl, e1. reflexivity.
  - destruct (Nat.eqb_spec (length y) (length d)) as [l|]; [|discriminate]. intros E. injection E as <-.
    destruct (scale_inverse y d l F) as (_ & e1 & l1 & _). rewrite l1, Nat.eqb_refl, e1. reflexivity.
Qed.

(** They accept all arrays of the right width. *)
Theorem C55_total n nm (x u : row) : fits n nm -> length x = n -> length u = 1%nat ->
  exists y v, normalize nm x (Some u) = Ok (y, Some v) /\ length y = n /\ length v = 1%nat.
Proof.
  destruct nm as [[Tx Tu]|]; cbn [fits normalize]; [|eauto]. intros [lx lu] ex eu.
  unfold rescale, matmul_diag. cbn [fst snd]. rewrite !inverse_length, ex, eu, lx, lu, !Nat.eqb_refl. cbn [bind].
  assert (L : forall a b : row, length a = length b -> length (map2 Rmult a (inverse b)) = length a).
  { induction a as [|? a IH]; intros [|? b] Hl; try discriminate; [reflexivity|]. cbn. f_equal. apply IH. auto. }
  eexists; eexists. split; [reflexivity|]. rewrite !L; lia.
Qed.

(** A normalised system is the physical system in other units. *)
Theorem C55_units_pendulum p (x u : row) : length x = 2%nat -> length u = 1%nat ->
  pendulum_eval p (x ++ u) =
  (do xu <- denormalize (pendulum_norm p) x (Some u);
   match xu with
   | (x', Some u') => do y <- pendulum_eval (pendulum_with p None (pendulum_dt p)) (x' ++ u');
                      do y' <- normalize (pendulum_norm p) y None; Ok (fst y')
   | (_, None) => Err TypeError
   end).
Proof. intros lx lu. apply (run_scaled 2 (pendulum_norm p) (pendulum_dt p) (pendulum_ode p)); auto. Qed.
Theorem C55_units_cartpole p (x u : row) : length x = 4%nat -> length u = 1%nat ->
  cartpole_eval p (x ++ u) =
  (do xu <- denormalize (cartpole_norm p) x (Some u);
   match xu with
   | (x', Some u') => do y <- cartpole_eval (cartpole_with p None (cartpole_dt p)) (x' ++ u');
                      do y' <- normalize (cartpole_norm p) y None; Ok (fst y')
   | (_, None) => Err TypeError
   end).
Proof. intros lx lu. apply (run_scaled 4 (cartpole_norm p) (cartpole_dt p) (cartpole_ode p)); auto. Qed.
Theorem C55_units_vanderpol v (x u : row) : length x = 2%nat -> length u = 1%nat ->
  vanderpol_eval v (x ++ u) =
  (do x' <- vdp_denormalize v x;
   do y <- vanderpol_eval (vanderpol_with v None (vanderpol_dt v)) (x' ++ u);
   vdp_normalize v y).
Proof.
  intros lx lu. unfold vanderpol_eval. rewrite split1_app by auto. cbn [bind fst snd].
  destruct (vdp_denormalize v x) as [x'|] eqn:D; [|reflexivity]. cbn [bind].
  assert (lx' : length x' = 2%nat).
  { revert D. unfold vdp_denormalize. destruct (vanderpol_norm v) as [d|]; [|intros E; injection E as <-; auto].
    unfold matmul_diag. destruct (Nat.eqb_spec (length x) (length d)) as [l|]; [|discriminate]. intros E. injection E as <-.
    destruct x as [|a [|b [|? ?]]]; try discriminate. destruct d as [|? [|? [|? ?]]]; try discriminate. reflexivity. }
  rewrite split1_app by auto. cbn [bind fst snd]. unfold vdp_denormalize at 1, vdp_normalize at 2. cbn [vanderpol_norm vanderpol_with bind].
  change (vanderpol_ode (vanderpol_with v None (vanderpol_dt v))) with (vanderpol_ode v).
  cbn [vanderpol_dt vanderpol_with]. destruct (repeat_euler 10 _ _ _); reflexivity.
Qed.

(** At rest without action the pendulum stays where its angle has sine zero, ... *)
Theorem C55_pendulum_equilibrium p (x u : row) theta : nonzero (pendulum_norm p) ->
  mass p <> 0 -> arm p <> 0 ->
  denormalize (pendulum_norm p) x (Some u) = Ok ([theta; 0], Some [0]) -> sin theta = 0 ->
  pendulum_eval p (x ++ u) = Ok x.
Proof.
  intros nz nm na D S. destruct (denorm_lengths _ _ _ _ _ D) as (lx & w & E & lu). injection E as <-.
  apply run_fixed with [theta; 0] [0]; auto. cbn [pendulum_ode length repeat]. f_equal. f_equal. rewrite S.
  destruct (Rlt_dec 0 (friction p)); unfold Rdiv; (replace (_ :: [])%list with [0] || f_equal); f_equal; ring.
Qed.
(** ... so does the cart-pole anywhere along its track, ... *)
Theorem C55_cartpole_equilibrium p (x u : row) pos theta : nonzero (cartpole_norm p) ->
  pole_mass p <> 0 -> cart_mass p <> 0 -> pole_length p <> 0 ->
  denormalize (cartpole_norm p) x (Some u) = Ok ([pos; theta; 0; 0], Some [0]) -> sin theta = 0 ->
  cartpole_eval p (x ++ u) = Ok x.
Proof.
  intros nz nm nM nL D S. destruct (denorm_lengths _ _ _ _ _ D) as (lx & w & E & lu). injection E as <-.
  apply run_fixed with [pos; theta; 0; 0] [0]; auto. cbn [cartpole_ode length repeat].
  rewrite sin_2a, S. unfold Rsqr, Rdiv. f_equal. do 2 f_equal. f_equal; [ring|]. f_equal. ring.
Qed.
(** ... and the origin is a fixed point of the oscillator, whatever the action is. *)
Theorem C55_vanderpol_equilibrium v (x u : row) :
  match vanderpol_norm v with Some d => Forall (fun t => t <> 0) d | None => True end ->
  vdp_denormalize v x = Ok [0; 0] -> length u = 1%nat ->
  vanderpol_eval v (x ++ u) = Ok x.
Proof.
  intros nz D lu. unfold vanderpol_eval.
  assert (lx : length x = 2%nat).
  { revert D. unfold vdp_denormalize. destruct (vanderpol_norm v) as [d|]; [|intros E; injection E as ->; auto].
    unfold matmul_diag. destruct (Nat.eqb_spec (length x) (length d)) as [l|]; [|discriminate].
    destruct x as [|? [|? [|? ?]]], d as [|? [|? [|? ?]]]; try discriminate; reflexivity. }
  rewrite split1_app by auto. cbn [bind fst snd]. rewrite D. cbn [bind].
  rewrite repeat_euler_fixed. 2:{ cbn. f_equal. f_equal; [ring|]. f_equal. ring. }
  cbn [bind]. apply (proj2 (C55_vanderpol_inverse v [0; 0] x nz)). exact D.
Qed.

(** A hanging pendulum in normalised units, and a cart-pole off the origin. *)
Example C55_ex1 :
  pendulum_eval {| mass := 1; arm := 1 / 2; friction := 1 / 10; pendulum_dt := 1 / 80;
                   pendulum_norm := Some ([PI; 2], [3]) |} [1; 0; 0] = Ok [1; 0].
Proof.
  apply (C55_pendulum_equilibrium _ [1; 0] [0] PI); cbn [mass arm pendulum_norm]; try lra.
  - split; repeat constructor; try lra. apply PI_neq0.
  - cbn. do 2 f_equal; repeat (f_equal; try ring).
  - apply sin_PI.
Qed.
Example C55_ex2 :
  cartpole_eval {| pole_mass := 1; cart_mass := 2; pole_length := 1 / 2; rot_friction := 1 / 10;
                   cartpole_dt := 1 / 100; cartpole_norm := None |} [7; 0; 0; 0; 0] = Ok [7; 0; 0; 0].
Proof. apply (C55_cartpole_equilibrium _ [7; 0; 0; 0] [0] 7 0); cbn; try lra; auto. apply sin_0. Qed.

(** The step is first order consistent with the equations of motion: it does
    nothing for step size zero and changes at the rate given by [ode]. *)
Theorem C55_pendulum_rate p (x u y : row) : length x = 2%nat -> length u = 1%nat ->
  pendulum_ode p x u = Ok y ->
  pendulum_eval (pendulum_with p None 0) (x ++ u) = Ok x /\
  forall i, derivable_pt_lim (fun dt => component i (pendulum_eval (pendulum_with p None dt) (x ++ u))) 0 (nth i y 0).
Proof.
  intros lx lu E. split.
  - apply (run_value 2 (pendulum_ode p) x u); auto. apply pendulum_smooth; auto.
  - intros i. apply (run_consistent 2 (pendulum_ode p) x u y i); auto. apply pendulum_smooth; auto.
Qed.
Theorem C55_cartpole_rate p (x u y : row) : length x = 4%nat -> length u = 1%nat ->
  pole_length p <> 0 -> 0 < cart_mass p -> 0 <= pole_mass p ->
  cartpole_ode p x u = Ok y ->
  cartpole_eval (cartpole_with p None 0) (x ++ u) = Ok x /\
  forall i, derivable_pt_lim (fun dt => component i (cartpole_eval (cartpole_with p None dt) (x ++ u))) 0 (nth i y 0).
Proof.
  intros lx lu nL pM pm E.
  assert (nd : cart_mass p + pole_mass p * Rsqr (sin (nth 1 x 0)) <> 0).
  { pose proof (Rle_0_sqr (sin (nth 1 x 0))). nra. }
  split.
  - apply (run_value 4 (cartpole_ode p) x u); auto. apply cartpole_smooth; auto.
  - intros i. apply (run_consistent 4 (cartpole_ode p) x u y i); auto. apply cartpole_smooth; auto.
Qed.
Theorem C55_vanderpol_rate v (x u y : row) : length x = 2%nat -> length u = 1%nat ->
  vanderpol_ode v x = Ok y ->
  vanderpol_eval (vanderpol_with v None 0) (x ++ u) = Ok x /\
  forall i, derivable_pt_lim (fun dt => component i (vanderpol_eval (vanderpol_with v None dt) (x ++ u))) 0 (nth i y 0).
Proof.
  intros lx lu E.
  destruct (euler_consistent _ _ _ 10 (vanderpol_smooth v x lx) E (fun _ => x) (fun _ => 0)) as (h & eh & h0 & _ & dh); auto.
  { intros j. apply (is_derive_const (nth j x 0) 0). }
  assert (V : forall t, vanderpol_eval (vanderpol_with v None t) (x ++ u) = Ok (h t)).
  { intros t. unfold vanderpol_eval. rewrite split1_app by auto. cbn [bind fst snd vdp_denormalize vanderpol_norm vanderpol_with].
    cbn [vanderpol_dt vanderpol_with]. change (vanderpol_ode (vanderpol_with v None t)) with (vanderpol_ode v).
    rewrite eh. reflexivity. }
  split; [rewrite V, h0; reflexivity|]. intros i. apply is_derive_Reals.
  apply is_derive_ext with (fun t => nth i (h t) 0); [intros t; rewrite V; reflexivity|].
  specialize (dh i). replace (nth i y 0) with (0 + INR 10 / 10 * nth i y 0) by (simpl; field). exact dh.
Qed.

(** The oscillator has no action but wants one in its input. *)
Theorem C55_vanderpol_state_only_refuted v (x : row) : length x = 2%nat ->
  vanderpol_eval v x = Err ValueError.
Proof. intros lx. unfold vanderpol_eval, split1. rewrite lx. reflexivity. Qed.

(** [linearize] discretizes the derivative of the equations of motion at the
    origin, in normalised units. *)
Ltac side := rewrite ?Rmult_0_l, ?sin_0, ?Rmult_0_r, ?Rplus_0_r, ?Rmult_1_l; auto.
Ltac derive := apply is_derive_Reals; auto_derive;
  [repeat split; auto; try side | rewrite ?Rmult_0_l, ?Rmult_0_r, ?sin_0, ?cos_0; try field; auto].

Theorem C62_pendulum p : fits 2 (pendulum_norm p) -> nonzero (pendulum_norm p) ->
  mass p <> 0 -> arm p <> 0 -> 0 <= friction p ->
  exists A B, (forall discretize, pendulum_linearize discretize p = discretize A B (pendulum_dt p)) /\
    is_jacobian (in_normal_units 2 (pendulum_norm p) (pendulum_ode p)) [0; 0; 0] (map2 (@app R) A B).
Proof.
  intros F nz nm na pf.
  assert (ni : inertia p <> 0) by (unfold inertia; apply Rmult_integral_contrapositive_currified; [auto|apply pow_nonzero; auto]).
  unfold pendulum_linearize. eexists; eexists. split; [reflexivity|].
  destruct (pendulum_norm p) as [[Tx Tu]|]; cbn [fits] in F.
  - destruct F as [lx lu]. destruct Tx as [|t0 [|t1 [|? ?]]]; try discriminate. destruct Tu as [|s0 [|? ?]]; try discriminate.
    destruct nz as [nx nu]. inversion nx as [|? ? n0 nx']; subst. inversion nx' as [|? ? n1 nx'']; subst. inversion nu as [|? ? n2 ?]; subst.
    split; [eexists; split; reflexivity|]. split; [repeat constructor|].
    intros i j Hi Hj. cbn in Hi, Hj.
    destruct (Rlt_dec 0 (friction p)) as [P|N] eqn:RD; [|assert (f0 : friction p = 0) by lra];
    (destruct i as [|[|i]]; [| |lia]; (destruct j as [|[|[|j]]]; [| | |lia]); cbn; rewrite ?RD, ?f0; derive).
  - split; [eexists; split; reflexivity|]. split; [repeat constructor|].
    intros i j Hi Hj. cbn in Hi, Hj.
    destruct (Rlt_dec 0 (friction p)) as [P|N] eqn:RD; [|assert (f0 : friction p = 0) by lra];
    (destruct i as [|[|i]]; [| |lia]; (destruct j as [|[|[|j]]]; [| | |lia]); cbn; rewrite ?RD, ?f0; derive).
Qed.

(** For the cart-pole this holds if the pole has length one, ... *)
Theorem C62_cartpole p : fits 4 (cartpole_norm p) -> nonzero (cartpole_norm p) ->
  pole_mass p <> 0 -> cart_mass p <> 0 -> pole_length p = 1 ->
  exists A B, (forall discretize, cartpole_linearize discretize p = discretize A B (cartpole_dt p)) /\
    is_jacobian (in_normal_units 4 (cartpole_norm p) (cartpole_ode p)) [0; 0; 0; 0; 0] (map2 (@app R) A B).
Proof.
  intros F nz nm nM L1. unfold cartpole_linearize. eexists; eexists. split; [reflexivity|]. unfold cartpole_ode. rewrite L1.
  destruct (cartpole_norm p) as [[Tx Tu]|]; cbn [fits] in F.
  - destruct F as [lx lu]. destruct Tx as [|t0 [|t1 [|t2 [|t3 [|? ?]]]]]; try discriminate. destruct Tu as [|s0 [|? ?]]; try discriminate.
    destruct nz as [nx nu]. inversion nx as [|? ? n0 nx0]; subst. inversion nx0 as [|? ? n1 nx1]; subst.
    inversion nx1 as [|? ? n2 nx2]; subst. inversion nx2 as [|? ? n3 nx3]; subst. inversion nu as [|? ? n4 ?]; subst.
    split; [eexists; split; reflexivity|]. split; [repeat constructor|].
    intros i j Hi Hj. cbn in Hi, Hj. unfold Rsqr.
    destruct i as [|[|[|[|i]]]]; [| | | |lia]; (destruct j as [|[|[|[|[|j]]]]]; [| | | | |lia]); cbn; derive.
  - split; [eexists; split; reflexivity|]. split; [repeat constructor|].
    intros i j Hi Hj. cbn in Hi, Hj. unfold Rsqr.
    destruct i as [|[|[|[|i]]]]; [| | | |lia]; (destruct j as [|[|[|[|[|j]]]]]; [| | | | |lia]); cbn; derive.
Qed.
(** ... for other lengths the row of the cart's acceleration in the state matrix
    has to be multiplied by the length, everything else is right, ... *)
Theorem C62_cartpole_any_length p : fits 4 (cartpole_norm p) -> nonzero (cartpole_norm p) ->
  pole_mass p <> 0 -> cart_mass p <> 0 -> pole_length p <> 0 ->
  exists A B, (forall discretize, cartpole_linearize discretize p = discretize A B (cartpole_dt p)) /\
    is_jacobian (in_normal_units 4 (cartpole_norm p) (cartpole_ode p)) [0; 0; 0; 0; 0]
      (map2 (@app R) [nth 0 A []; nth 1 A []; map (Rmult (pole_length p)) (nth 2 A []); nth 3 A []] B).
Proof.
  intros F nz nm nM L1. unfold cartpole_linearize. eexists; eexists. split; [reflexivity|]. unfold cartpole_ode.
  destruct (cartpole_norm p) as [[Tx Tu]|]; cbn [fits] in F.
  - destruct F as [lx lu]. destruct Tx as [|t0 [|t1 [|t2 [|t3 [|? ?]]]]]; try discriminate. destruct Tu as [|s0 [|? ?]]; try discriminate.
    destruct nz as [nx nu]. inversion nx as [|? ? n0 nx0]; subst. inversion nx0 as [|? ? n1 nx1]; subst.
    inversion nx1 as [|? ? n2 nx2]; subst. inversion nx2 as [|? ? n3 nx3]; subst. inversion nu as [|? ? n4 ?]; subst.
    split; [eexists; split; reflexivity|]. split; [repeat constructor|].
    intros i j Hi Hj. cbn in Hi, Hj. unfold Rsqr.
    destruct i as [|[|[|[|i]]]]; [| | | |lia]; (destruct j as [|[|[|[|[|j]]]]]; [| | | | |lia]); cbn; derive.
  - split; [eexists; split; reflexivity|]. split; [repeat constructor|].
    intros i j Hi Hj. cbn in Hi, Hj. unfold Rsqr.
    destruct i as [|[|[|[|i]]]]; [| | | |lia]; (destruct j as [|[|[|[|[|j]]]]]; [| | | | |lia]); cbn; derive.
Qed.
(** ... and without that it is false for all other lengths, ... *)
Theorem C62_cartpole_length_refuted p : cartpole_norm p = None ->
  pole_mass p <> 0 -> cart_mass p <> 0 -> pole_length p <> 0 -> pole_length p <> 1 ->
  let AB := cartpole_linearize (fun A B _ => (A, B)) p in
  ~ is_jacobian (in_normal_units 4 None (cartpole_ode p)) [0; 0; 0; 0; 0] (map2 (@app R) (fst AB) (snd AB)).
Proof.
  intros nn nm nM nL n1 AB (_ & _ & J). subst AB. specialize (J 2%nat 1%nat).
  unfold cartpole_linearize in J. rewrite nn in J. cbn in J. specialize (J ltac:(lia) ltac:(lia)).
  assert (D : derivable_pt_lim (fun t => component 2 (in_normal_units 4 None (cartpole_ode p) [0; t; 0; 0; 0])) 0
                (gravity * pole_mass p * pole_length p / cart_mass p)).
  { cbn. unfold Rsqr. apply is_derive_Reals. auto_derive.
    - repeat split. rewrite sin_0, !Rmult_0_r, Rplus_0_r. apply Rmult_integral_contrapositive_currified; auto.
    - rewrite ?Rmult_0_l, ?Rmult_0_r, ?sin_0, ?cos_0. field. auto. }
  cbn in D. pose proof (uniqueness_limite _ _ _ _ J D) as E.
  assert (G : gravity <> 0) by (unfold gravity; lra).
  assert (gravity * pole_mass p * (pole_length p - 1) = 0).
  { apply (Rmult_eq_compat_r (cart_mass p)) in E. unfold Rdiv in E. rewrite !Rmult_assoc in E.
    rewrite (Rinv_l _ nM) in E. lra. }
  apply Rmult_integral in H. destruct H as [H|H]; [|lra]. apply Rmult_integral in H. tauto.
Qed.

(** ... and for the oscillator with damping one, but not another one. *)
Theorem C62_vanderpol v : damping v = 1 ->
  match vanderpol_norm v with Some d => length d = 2%nat /\ Forall (fun t => t <> 0) d | None => True end ->
  exists A, (forall discretize, vanderpol_linearize discretize v = fst (discretize A [[0]; [0]] (vanderpol_dt v))) /\
    is_jacobian (vanderpol_units v) [0; 0] A.
Proof.
  intros d1 F. unfold vanderpol_linearize. eexists. split; [reflexivity|].
  unfold vanderpol_units, vdp_denormalize, vdp_normalize, vanderpol_ode. rewrite d1.
  destruct (vanderpol_norm v) as [d|].
  - destruct F as [l F]. destruct d as [|t0 [|t1 [|? ?]]]; try discriminate.
    inversion F as [|? ? n0 F']; subst. inversion F' as [|? ? n1 F'']; subst.
    split; [eexists; split; reflexivity|]. split; [repeat constructor|].
    intros i j Hi Hj. cbn in Hi, Hj.
    destruct i as [|[|i]]; [| |lia]; (destruct j as [|[|j]]; [| |lia]); cbn; derive.
  - split; [eexists; split; reflexivity|]. split; [repeat constructor|].
    intros i j Hi Hj. cbn in Hi, Hj.
    destruct i as [|[|i]]; [| |lia]; (destruct j as [|[|j]]; [| |lia]); cbn; derive.
Qed.
Theorem C62_vanderpol_damping_refuted v : damping v <> 1 -> vanderpol_norm v = None ->
  ~ is_jacobian (vanderpol_units v) [0; 0] (vanderpol_linearize (fun A B _ => (A, B)) v).
Proof.
  intros n1 nn (_ & _ & J). specialize (J 1%nat 1%nat). unfold vanderpol_linearize in J.
  rewrite nn in J. cbn [fst length] in J. specialize (J ltac:(lia) ltac:(lia)).
  assert (D : derivable_pt_lim (fun t => component 1 (vanderpol_units v (replace_nth 1 t [0; 0]))) (nth 1 [0; 0] 0) (- damping v)).
  { unfold vanderpol_units, vdp_denormalize, vdp_normalize. rewrite nn. cbn. apply is_derive_Reals. auto_derive; [auto|ring]. }
  pose proof (uniqueness_limite _ _ _ _ J D) as E. cbn in E. lra.
Qed.

(** Friction is not damped away when it is negative: the equations ignore it,
    the linearization does not. *)
Theorem C62_pendulum_negative_friction_refuted p : pendulum_norm p = None ->
  mass p <> 0 -> arm p <> 0 -> friction p < 0 ->
  let AB := pendulum_linearize (fun A B _ => (A, B)) p in
  ~ is_jacobian (in_normal_units 2 None (pendulum_ode p)) [0; 0; 0] (map2 (@app R) (fst AB) (snd AB)).
Proof.
  intros nn nm na nf AB (_ & _ & J). subst AB. specialize (J 1%nat 1%nat).
  unfold pendulum_linearize in J. rewrite nn in J. cbn in J. specialize (J ltac:(lia) ltac:(lia)).
  destruct (Rlt_dec 0 (friction p)) as [P|N] in J; [lra|].
  assert (D : derivable_pt_lim (fun t => gravity / arm p * sin 0 + 0 / inertia p) 0 0) by apply derivable_pt_lim_const.
  pose proof (uniqueness_limite _ _ _ _ J D) as E.
  assert (ni : inertia p <> 0) by (unfold inertia; apply Rmult_integral_contrapositive_currified; [auto|apply pow_nonzero; auto]).
  apply (Rmult_eq_compat_r (inertia p)) in E. unfold Rdiv in E. rewrite Rmult_assoc, Rinv_l in E; lra.
Qed.

Example C62_ex :
  let p := {| mass := 15 / 100; arm := 1 / 2; friction := 1 / 10; pendulum_dt := 1 / 80;
              pendulum_norm := Some ([1 / 2; 4], [1 / 3]) |} in
  exists A B, (forall discretize, pendulum_linearize discretize p = discretize A B (1 / 80)) /\
    is_jacobian (in_normal_units 2 (pendulum_norm p) (pendulum_ode p)) [0; 0; 0] (map2 (@app R) A B).
Proof.
  intros p. apply (C62_pendulum p); cbn; try lra; auto.
  split; repeat constructor; lra.
Qed.
Example C62_ex2 :
  let p := {| pole_mass := 1; cart_mass := 1; pole_length := 1 / 2; rot_friction := 0;
              cartpole_dt := 1 / 100; cartpole_norm := None |} in
  let AB := cartpole_linearize (fun A B _ => (A, B)) p in
  ~ is_jacobian (in_normal_units 4 None (cartpole_ode p)) [0; 0; 0; 0; 0] (map2 (@app R) (fst AB) (snd AB)).
Proof. intros p. apply (C62_cartpole_length_refuted p); cbn; auto; lra. Qed.
