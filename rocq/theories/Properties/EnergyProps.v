(** Property C86: the example systems are the mechanical systems they are named
    after - except for the cart, unless the pole has length 1. *)
From Coq Require Import Reals List Lra Lia.
From Coquelicot Require Import Coquelicot.
From Verif Require Import Prelude DynModel DynSpec EnergySpec.
Import ListNotations.
Local Open Scope R_scope.

(** ** The pendulum *)

(** Angular momentum: torque of gravity, of the motor, and friction. *)
Theorem C86_pendulum_torque p theta omega u : mass p <> 0 -> arm p <> 0 -> 0 <= friction p ->
  exists alpha, pendulum_ode p [theta; omega] [u] = Ok [omega; alpha] /\
    mass p * arm p ^ 2 * alpha = mass p * earth * arm p * sin theta + u - friction p * omega.
Proof.
  intros Hm Hl Hf. unfold pendulum_ode. eexists. split; [reflexivity|].
  unfold inertia, gravity, earth. destruct Rlt_dec as [|N].
  - field. auto.
  - replace (friction p) with 0 by lra. field. auto.
Qed.

(** The energy changes by the work of the motor minus the loss by friction. *)
Theorem C86_pendulum_energy p theta omega u t : mass p <> 0 -> arm p <> 0 -> 0 <= friction p ->
  follows (pendulum_ode p) [theta; omega] u t ->
  is_derive (fun s => pendulum_energy p (theta s) (omega s)) t (u * omega t - friction p * omega t ^ 2).
Proof.
  intros Hm Hl Hf (y & E & D). destruct (C86_pendulum_torque p (theta t) (omega t) u Hm Hl Hf) as (al & E' & T).
  simpl map in E. rewrite E' in E. injection E as <-.
  inversion D as [|? ? ? ? D1 D']; subst. inversion D' as [|? ? ? ? D2 _]; subst.
  unfold pendulum_energy. auto_derive; [repeat split; eexists; eauto|].
  replace (Derive (fun x => theta x) t) with (omega t) by (symmetry; now apply is_derive_unique).
  replace (Derive (fun x => omega x) t) with al by (symmetry; now apply is_derive_unique).
  replace (u * omega t - friction p * omega t ^ 2)
    with (omega t * (mass p * arm p ^ 2 * al - mass p * earth * arm p * sin (theta t))) by (rewrite T; ring).
  field.
Qed.

(** ** The cart-pole *)

(** The two equations determine the accelerations. *)
Lemma motion_unique p theta omega u a alpha a' alpha' :
  0 < cart_mass p -> 0 < pole_mass p -> pole_length p <> 0 ->
  cartpole_motion p theta omega u a alpha -> cartpole_motion p theta omega u a' alpha' ->
  a = a' /\ alpha = alpha'.
Proof.
  intros HM Hm HL (E1 & E2) (E1' & E2'). set (m := pole_mass p) in *. set (M := cart_mass p) in *. set (L := pole_length p) in *.
  assert (C : Rsqr (sin theta) + Rsqr (cos theta) = 1) by apply sin2_cos2. unfold Rsqr in C.
  set (s := sin theta) in *. set (c := cos theta) in *.
  assert (F1 : (M + m) * (a - a') = m * L * c * (alpha - alpha')) by lra.
  assert (F2 : m * L * (L * (alpha - alpha') - c * (a - a')) = 0) by (replace 0 with (- rot_friction p * omega - - rot_friction p * omega) by ring; rewrite <- E2 at 1; rewrite <- E2'; ring).
  apply Rmult_integral in F2 as [F2|F2]; [apply Rmult_integral in F2 as [|]; lra|].
  assert (F3 : (M + m * (s * s)) * (a - a') = 0).
  { replace (M + m * (s * s)) with (M + m - m * (c * c)) by (rewrite <- (Rmult_1_r m) at 1; rewrite <- C; ring).
    transitivity (m * c * (L * (alpha - alpha') - c * (a - a'))); [|rewrite F2; ring]. lra. }
  assert (0 <= s * s) by apply Rle_0_sqr.
  assert (P : 0 < M + m * (s * s)) by nra.
  apply Rmult_integral in F3 as [F3|F3]; [lra|].
  split; [lra|]. rewrite F3 in F2. assert (L * (alpha - alpha') = 0) as F4 by lra. apply Rmult_integral in F4 as [|]; lra.
Qed.

Section CartPole.
Variable p : cartpole.
Hypotheses (HM : 0 < cart_mass p) (Hm : 0 < pole_mass p) (HL : pole_length p <> 0).
Local Notation m := (pole_mass p).
Local Notation M := (cart_mass p).
Local Notation L := (pole_length p).
Local Notation b := (rot_friction p).

(** What the cart's acceleration is too large by. *)
Definition cart_error (theta omega : R) : R :=
  (L - 1) * (m * earth * sin theta - b * omega / L) * cos theta / (M + m * sin theta ^ 2).

Lemma cart_solution theta v omega x u :
  exists a alpha, cartpole_ode p [x; theta; v; omega] [u] = Ok [v; omega; a; alpha] /\
    cartpole_motion p theta omega u (a - cart_error theta omega) alpha.
Proof using HM Hm HL.
  unfold cartpole_ode. do 2 eexists. split; [reflexivity|].
  assert (C : Rsqr (sin theta) + Rsqr (cos theta) = 1) by apply sin2_cos2. unfold Rsqr in *.
  unfold cartpole_motion, cart_error. rewrite sin_2a. unfold gravity, earth.
  set (s := sin theta) in *. set (c := cos theta) in *.
  assert (0 <= s * s) by apply Rle_0_sqr.
  assert (P : M + m * (s * s) <> 0) by nra.
  assert (P' : M + m * s ^ 2 <> 0) by (simpl; now rewrite Rmult_1_r).
  assert (C2 : c ^ 2 = 1 - s ^ 2) by (simpl; lra).
  split; field_simplify_eq; auto; try (repeat split; auto; lra).
all: rewrite C2; ring.
Qed.

Theorem C86_cartpole_motion theta v omega x u :
  exists a alpha, cartpole_ode p [x; theta; v; omega] [u] = Ok [v; omega; a; alpha] /\
    (forall a' alpha', cartpole_motion p theta omega u a' alpha' ->
       alpha = alpha' /\ a = a' + cart_error theta omega) /\
    (L = 1 -> cartpole_motion p theta omega u a alpha).
Proof using HM Hm HL.
  destruct (cart_solution theta v omega x u) as (a & al & E & S). exists a, al. split; [exact E|]. split.
  - intros a' al' S'. destruct (motion_unique p theta omega u _ _ _ _ HM Hm HL S S'). split; auto; lra.
  - intros L1. replace (cart_error theta omega) with 0 in S by (unfold cart_error; rewrite L1; unfold Rdiv; ring).
    now rewrite Rminus_0_r in S.
Qed.

(** The energy changes by the work of the force minus the loss by friction, plus the work
    of the error times the momentum. *)
Theorem C86_cartpole_energy x theta v omega u t :
  follows (cartpole_ode p) [x; theta; v; omega] u t ->
  is_derive (fun s => cartpole_energy p (theta s) (v s) (omega s)) t
    (u * v t - b * omega t ^ 2
     + cart_error (theta t) (omega t) * ((M + m) * v t - m * L * omega t * cos (theta t))).
Proof using HM Hm HL.
  intros (y & E & D). destruct (cart_solution (theta t) (v t) (omega t) (x t) u) as (a & al & E' & (S1 & S2)).
  simpl map in E. rewrite E' in E. injection E as <-.
  inversion D as [|? ? ? ? D1 D']; subst. clear D. inversion D' as [|? ? ? ? D2 D]; subst. clear D'.
  inversion D as [|? ? ? ? D3 D']; subst. clear D. inversion D' as [|? ? ? ? D4 D]; subst. clear D' D.
  unfold cartpole_energy. auto_derive; [repeat split; eexists; eauto|].
  replace (Derive (fun x => theta x) t) with (omega t) by (symmetry; now apply is_derive_unique).
  replace (Derive (fun x => v x) t) with a by (symmetry; now apply is_derive_unique).
  replace (Derive (fun x => omega x) t) with al by (symmetry; now apply is_derive_unique).
  assert (C : Rsqr (sin (theta t)) + Rsqr (cos (theta t)) = 1) by apply sin2_cos2. unfold Rsqr in C.
  set (er := cart_error (theta t) (omega t)) in *. clearbody er.
  set (s := sin (theta t)) in *. set (c := cos (theta t)) in *. set (w := omega t) in *. set (vv := v t) in *.
  clearbody s c w vv. clear D1 D2 D3 D4 E'. 
  assert (C2 : c * c = 1 - s * s) by lra.
  transitivity (vv * ((M + m) * (a - er) - m * L * (al * c - w ^ 2 * s) + (M + m) * er)
    + w * (m * L ^ 2 * al - m * L * (a - er) * c - m * earth * L * s - m * L * er * c)).
  2: rewrite S2; ring.
  transitivity (vv * ((M + m) * (a - er) - m * L * (al * c - w ^ 2 * s) + (M + m) * er)
    + w * (m * L ^ 2 * al * (c * c + s * s) - m * L * (a - er) * c - m * earth * L * s - m * L * er * c)).
  2: rewrite C2; ring. clear S2 C C2. field.
Qed.
End CartPole.

(** ** The linearization of the cart-pole *)

Lemma jacobian_ext (f g : row -> res row) x J : (forall y, length y = length x -> f y = g y) ->
  is_jacobian f x J -> is_jacobian g x J.
Proof.
  intros E ((y & F & L) & W & D). split; [|split; auto].
  - exists y. now rewrite <- E.
  - intros i j Hi Hj. apply is_derive_Reals. eapply is_derive_ext; [|apply is_derive_Reals, (D i j Hi Hj)].
    intros t. cbv beta. rewrite E; auto. clear. revert j. induction x; destruct j; simpl; auto.
Qed.

(** A differential equation with the right accelerations. *)
Definition physical (p : cartpole) (ode : row -> row -> res row) : Prop :=
  forall x theta v omega u, exists a alpha,
    ode [x; theta; v; omega] [u] = Ok [v; omega; a; alpha] /\ cartpole_motion p theta omega u a alpha.

Definition corrected_ode (p : cartpole) (s w : row) : res row :=
  match cartpole_ode p s w with
  | Ok [v; omega; a; alpha] => Ok [v; omega; a - cart_error p (nth 1 s 0) (nth 3 s 0); alpha]
  | r => r
  end.
Lemma corrected (p : cartpole) : 0 < cart_mass p -> 0 < pole_mass p -> pole_length p <> 0 ->
  physical p (corrected_ode p).
Proof.
  intros HM Hm HL x theta v omega u.
  destruct (cart_solution p HM Hm HL theta v omega x u) as (a & al & E & S).
  exists (a - cart_error p theta omega), al. split; auto. unfold corrected_ode. rewrite E. reflexivity.
Qed.

(** linearize discretizes the matrices of the right equation, for every length. *)
Theorem C86_linearize_cartpole p ode : cartpole_norm p = None ->
  0 < cart_mass p -> 0 < pole_mass p -> pole_length p <> 0 -> physical p ode ->
  exists A B, (forall discretize, cartpole_linearize discretize p = discretize A B (cartpole_dt p)) /\
    is_jacobian (fun xu => ode (firstn 4 xu) (skipn 4 xu)) [0; 0; 0; 0; 0] (map2 (@app R) A B).
Proof.
  intros N HM Hm HL P. unfold cartpole_linearize. rewrite N. eexists; eexists. split; [reflexivity|].
  apply (jacobian_ext (fun xu => corrected_ode p (firstn 4 xu) (skipn 4 xu))).
  { intros y Y. destruct y as [|x [|th [|v [|w [|u [|? ?]]]]]]; try discriminate Y. simpl firstn. simpl skipn.
    destruct (corrected p HM Hm HL x th v w u) as (a & al & E & S). destruct (P x th v w u) as (a' & al' & E' & S').
    destruct (motion_unique _ _ _ _ _ _ _ _ HM Hm HL S S') as (-> & ->). rewrite E'. exact E. }
  cbn [normalize_system fst snd]. unfold corrected_ode, cartpole_ode, cart_error.
  split; [eexists; split; reflexivity|]. split; [repeat constructor|].
  assert (N1 : cart_mass p <> 0) by lra. assert (N2 : pole_mass p <> 0) by lra.
  intros i j Hi Hj. cbn in Hi, Hj. unfold Rsqr.
  destruct i as [|[|[|[|i]]]]; [| | | |lia]; (destruct j as [|[|[|[|[|j]]]]]; [| | | | |lia]); cbn; apply is_derive_Reals; auto_derive.
  all: try (rewrite ?Rmult_0_l, ?Rmult_0_r, ?sin_0, ?cos_0; unfold gravity, earth; field; auto).
  all: repeat split; auto; rewrite sin_0, ?Rmult_0_l, !Rmult_0_r, Rplus_0_r; auto.
  all: apply Rmult_integral_contrapositive_currified; auto.
Qed.

(** For length 1 the power of the force minus the loss by friction. *)
Theorem C86_cartpole_energy_unit p x theta v omega u t :
  0 < cart_mass p -> 0 < pole_mass p -> pole_length p = 1 ->
  follows (cartpole_ode p) [x; theta; v; omega] u t ->
  is_derive (fun s => cartpole_energy p (theta s) (v s) (omega s)) t
    (u * v t - rot_friction p * omega t ^ 2).
Proof.
  intros HM Hm L1 F. assert (HL : pole_length p <> 0) by (rewrite L1; lra).
  pose proof (C86_cartpole_energy p HM Hm HL _ _ _ _ _ _ F) as D.
  unfold cart_error in D. rewrite L1 in D.
  match goal with |- is_derive _ _ ?e => match type of D with is_derive _ _ ?e' =>
    replace e with e' by (unfold Rdiv; ring) end end.
  exact D.
Qed.

(** For every other length there are motions without friction and without a force on which
    the energy is not constant: the cart moves with velocity 1 and the pole is at 45
    degrees, at rest relative to the cart. *)
Theorem C86_cartpole_energy_refuted p x theta v omega t :
  0 < cart_mass p -> 0 < pole_mass p -> pole_length p <> 0 -> pole_length p <> 1 -> rot_friction p = 0 ->
  theta t = PI / 4 -> v t = 1 -> omega t = 0 ->
  follows (cartpole_ode p) [x; theta; v; omega] 0 t ->
  ~ is_derive (fun s => cartpole_energy p (theta s) (v s) (omega s)) t 0.
Proof.
  intros HM Hm HL L1 B T V O F D'.
  pose proof (C86_cartpole_energy p HM Hm HL _ _ _ _ _ _ F) as D.
  apply is_derive_unique in D. apply is_derive_unique in D'. rewrite D' in D. clear D'.
  rewrite T, V, O in D. unfold cart_error in D. rewrite B in D.
  assert (S4 : 0 < sin (PI / 4)) by (rewrite sin_PI4; apply Rdiv_lt_0_compat; [lra|apply sqrt_lt_R0; lra]).
  assert (C4 : 0 < cos (PI / 4)) by (rewrite cos_PI4; apply Rdiv_lt_0_compat; [lra|apply sqrt_lt_R0; lra]).
  set (s := sin (PI / 4)) in *. set (c := cos (PI / 4)) in *.
  assert (Dn : 0 < cart_mass p + pole_mass p * s ^ 2) by (assert (0 < pole_mass p * s ^ 2) by (apply Rmult_lt_0_compat; auto; apply pow_lt; auto); lra).
  assert (E : 0 = (pole_length p - 1) * ((pole_mass p * earth * s * c * (cart_mass p + pole_mass p)) / (cart_mass p + pole_mass p * s ^ 2))).
  { rewrite D. field. split; lra. }
  assert (P : 0 < (pole_mass p * earth * s * c * (cart_mass p + pole_mass p)) / (cart_mass p + pole_mass p * s ^ 2)).
  { apply Rdiv_lt_0_compat; auto. repeat apply Rmult_lt_0_compat; auto; unfold earth; lra. }
  symmetry in E. apply Rmult_integral in E. destruct E; lra.
Qed.

(** ** The Van der Pol oscillator *)

(** Run backwards, every solution is one of the oscillator: X'' = damping (1 - X^2) X' - X. *)
Theorem C86_vanderpol_reverse (o : vanderpol) (x y : R -> R) :
  (forall t, follows (fun s _ => vanderpol_ode o s) [x; y] 0 t) ->
  let X := fun t => x (- t) in
  forall t, is_derive (Derive X) t (damping o * (1 - X t ^ 2) * Derive X t - X t).
Proof.
  intros F X.
  assert (D : forall t, is_derive x t (- y t) /\ is_derive y t (x t + damping o * (x t ^ 2 - 1) * y t)).
  { intros t. destruct (F t) as (z & E & D). simpl in E. injection E as <-.
    inversion D as [|? ? ? ? D1 D']; subst. inversion D' as [|? ? ? ? D2 _]; subst. split.
    - exact D1.
    - match type of D2 with is_derive _ _ ?e => replace (x t + damping o * (x t ^ 2 - 1) * y t) with e by ring end. exact D2. }
  assert (DX : forall t, is_derive X t (y (- t))).
  { intros t. unfold X. replace (y (- t)) with (scal (-1) (- y (- t))) by (unfold scal; simpl; unfold mult; simpl; ring).
    apply (is_derive_comp x (fun t => - t)); [apply D|]. auto_derive; auto; ring. }
  intros t. rewrite (is_derive_unique _ _ _ (DX t)).
  apply (is_derive_ext (fun t => y (- t))). { intros s. symmetry. apply is_derive_unique, DX. }
  destruct (D (- t)) as (_ & D2). unfold X.
  replace (damping o * (1 - x (- t) ^ 2) * y (- t) - x (- t))
    with (scal (-1) (x (- t) + damping o * (x (- t) ^ 2 - 1) * y (- t))) by (unfold scal; simpl; unfold mult; simpl; ring).
  apply (is_derive_comp y (fun t => - t)); auto. auto_derive; auto; ring.
Qed.

(** ** Curves that meet the hypotheses *)

Lemma is_derive_line (x0 v t : R) : is_derive (fun s => x0 + v * (s - t)) t v.
Proof. auto_derive; auto; ring. Qed.

(** A pendulum of mass 2 and arm 1/2 that falls from the horizontal: the motor gives power
    u omega = 0, the energy is stationary. *)
Example C86_pendulum_ex :
  let p := {| mass := 2; arm := 1 / 2; friction := 0; pendulum_dt := 1 / 80; pendulum_norm := None |} in
  let theta := fun s => PI / 2 + 3 * (s - 0) in let omega := fun s => 3 + (2 * earth + 2) * (s - 0) in
  follows (pendulum_ode p) [theta; omega] 1 0 /\
  is_derive (fun s => pendulum_energy p (theta s) (omega s)) 0 3.
Proof.
  intros p theta omega.
  assert (F : follows (pendulum_ode p) [theta; omega] 1 0).
  { eexists. split; [reflexivity|]. repeat apply Forall2_cons; [| |constructor].
    - match goal with |- is_derive _ _ ?e => replace e with 3 by (unfold omega; ring) end. apply is_derive_line.
    - match goal with |- is_derive _ _ ?e => replace e with (2 * earth + 2) end; [apply is_derive_line|].
      unfold theta, gravity, inertia, earth. simpl. rewrite Rminus_0_r, Rmult_0_r, Rplus_0_r, sin_PI2.
      destruct Rlt_dec; [exfalso; lra|]. field. }
  split; auto.
  pose proof (C86_pendulum_energy p theta omega 1 0 ltac:(simpl; lra) ltac:(simpl; lra) ltac:(simpl; lra) F) as D.
  match type of D with is_derive _ _ ?e => replace 3 with e by (unfold omega; simpl; ring) end. exact D.
Qed.

(** Every state of the cart-pole is passed by a curve that follows the equation there. *)
Lemma cartpole_curve p x0 th0 v0 w0 u t : exists x theta v omega,
  x t = x0 /\ theta t = th0 /\ v t = v0 /\ omega t = w0 /\ follows (cartpole_ode p) [x; theta; v; omega] u t.
Proof.
  destruct (cartpole_ode p [x0; th0; v0; w0] [u]) as [y|e] eqn:E; [|discriminate E].
  assert (Y : exists y1 y2 y3 y4, y = [y1; y2; y3; y4]) by (simpl in E; injection E as <-; eauto 8).
  destruct Y as (y1 & y2 & y3 & y4 & ->).
  exists (fun s => x0 + y1 * (s - t)), (fun s => th0 + y2 * (s - t)), (fun s => v0 + y3 * (s - t)), (fun s => w0 + y4 * (s - t)).
  repeat (split; [ring|]). exists [y1; y2; y3; y4]. split.
  - simpl map. rewrite <- E. f_equal. repeat f_equal; ring.
  - repeat apply Forall2_cons; [..|constructor]; apply is_derive_line.
Qed.

Definition small_pole (l : R) : cartpole :=
  {| pole_mass := 1 / 4; cart_mass := 1; pole_length := l; rot_friction := 0; cartpole_dt := 1 / 100; cartpole_norm := None |}.

(** With length 1 the energy is kept at 45 degrees, with length 1/2 it is not. *)
Example C86_cartpole_energy_ex l : exists x theta v omega,
  theta 0 = PI / 4 /\ v 0 = 1 /\ omega 0 = 0 /\
  follows (cartpole_ode (small_pole l)) [x; theta; v; omega] 0 0 /\
  (l = 1 -> is_derive (fun s => cartpole_energy (small_pole l) (theta s) (v s) (omega s)) 0 0) /\
  (l = 1 / 2 -> ~ is_derive (fun s => cartpole_energy (small_pole l) (theta s) (v s) (omega s)) 0 0).
Proof.
  destruct (cartpole_curve (small_pole l) 0 (PI / 4) 1 0 0 0) as (x & th & v & w & _ & T & V & W & F).
  exists x, th, v, w. repeat (split; [assumption|]). split.
  - intros ->. pose proof (C86_cartpole_energy_unit (small_pole 1) x th v w 0 0 ltac:(simpl; lra) ltac:(simpl; lra) eq_refl F) as D.
    rewrite W in D. simpl rot_friction in D. replace (0 * v 0 - 0 * 0 ^ 2) with 0 in D by ring. exact D.
  - intros ->. apply (C86_cartpole_energy_refuted _ x); simpl; auto; lra.
Qed.

(** Without damping the circle is a solution. *)
Example C86_vanderpol_ex :
  let o := {| damping := 0; vanderpol_dt := 1 / 100; vanderpol_norm := None |} in
  forall t, follows (fun s _ => vanderpol_ode o s) [cos; sin] 0 t.
Proof.
  intros o t. eexists. split; [reflexivity|]. repeat apply Forall2_cons; [| |constructor].
  - apply is_derive_Reals, derivable_pt_lim_cos.
  - match goal with |- is_derive _ _ ?e => replace e with (cos t) by (simpl; ring) end.
    apply is_derive_Reals, derivable_pt_lim_sin.
Qed.

(** The hypotheses of [C86_linearize_cartpole] hold for a pole of length 1/2. *)
Example C86_linearize_ex : physical (small_pole (1 / 2)) (corrected_ode (small_pole (1 / 2))) /\
  cartpole_linearize (fun A B _ => (A, B)) (small_pole (1 / 2)) =
  ([[0; 0; 1; 0]; [0; 0; 0; 1]; [0; gravity * (1 / 4) / 1; 0; - 0 / (1 * (1 / 2))];
    [0; gravity * (1 / 4 + 1) / (1 / 2 * 1); 0; - 0 * (1 / 4 + 1) / (1 / 4 * 1 * (1 / 2) ^ 2)]],
   [[0]; [0]; [1 / 1]; [1 / (1 * (1 / 2))]]).
Proof. split; [apply corrected; simpl; lra|reflexivity]. Qed.

Print Assumptions C86_cartpole_motion.
Print Assumptions C86_cartpole_energy_refuted.
