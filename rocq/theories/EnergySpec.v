(** Mechanics of the example systems, for the statements about their differential
    equations: energies, and curves that follow a differential equation. *)
From Coq Require Import Reals List.
From Coquelicot Require Import Coquelicot.
From Verif Require Import Prelude DynModel.
Import ListNotations.
Local Open Scope R_scope.

(** The curve [xs] (one function per coordinate) has at time [t] the velocity that
    [ode] gives for the action [u]. *)
Definition follows (ode : row -> row -> res row) (xs : list (R -> R)) (u t : R) : Prop :=
  exists y, ode (map (fun x => x t) xs) [u] = Ok y /\ List.Forall2 (fun x dx => is_derive x t dx) xs y.

(** 9.81 m/s^2 *)
Definition earth : R := 981 / 100.

(** A point mass on a massless rod of length [arm p], at the angle [theta] from
    upright: kinetic and potential energy, with the acceleration [earth]. *)
Definition pendulum_energy (p : pendulum) (theta omega : R) : R :=
  / 2 * mass p * (arm p * omega) ^ 2 + mass p * earth * (arm p * cos theta).

(** A cart at [x] with velocity [v], and a point mass at (x - L sin theta, L cos theta):
    its velocity is (v - L omega cos theta, - L omega sin theta). *)
Definition cartpole_energy (p : cartpole) (theta v omega : R) : R :=
  / 2 * cart_mass p * v ^ 2
  + / 2 * pole_mass p * ((v - pole_length p * omega * cos theta) ^ 2
                         + (- pole_length p * omega * sin theta) ^ 2)
  + pole_mass p * earth * (pole_length p * cos theta).

(** The equations of Lagrange for this cart and mass, with the force [u] on the cart and
    the friction [b omega] in the joint: horizontal momentum of both, and angular momentum
    of the mass about the joint. *)
Definition cartpole_motion (p : cartpole) (theta omega u a alpha : R) : Prop :=
  let m := pole_mass p in let M := cart_mass p in let L := pole_length p in
  (M + m) * a - m * L * (alpha * cos theta - omega ^ 2 * sin theta) = u /\
  m * L ^ 2 * alpha - m * L * a * cos theta - m * earth * L * sin theta = - rot_friction p * omega.
