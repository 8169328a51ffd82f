(** Vocabulary for the properties of the example systems. *)
From Coq Require Import Reals List Bool Arith.
From Verif Require Import Prelude DynModel.
Import ListNotations.
Local Open Scope R_scope.

(** No entry of the normalization is zero. *)
Definition nonzero (nm : normalization) : Prop :=
  match nm with
  | None => True
  | Some (Tx, Tu) => Forall (fun t => t <> 0) Tx /\ Forall (fun t => t <> 0) Tu
  end.

(** The same system without normalization, and with another step size. *)
Definition pendulum_with (p : pendulum) (nm : normalization) (dt : R) : pendulum :=
  {| mass := mass p; arm := arm p; friction := friction p; pendulum_dt := dt; pendulum_norm := nm |}.
Definition cartpole_with (p : cartpole) (nm : normalization) (dt : R) : cartpole :=
  {| pole_mass := pole_mass p; cart_mass := cart_mass p; pole_length := pole_length p;
     rot_friction := rot_friction p; cartpole_dt := dt; cartpole_norm := nm |}.
Definition vanderpol_with (v : vanderpol) (nm : option row) (dt : R) : vanderpol :=
  {| damping := damping v; vanderpol_dt := dt; vanderpol_norm := nm |}.

(** The i-th entry of a result, if there is one. *)
Definition component (i : nat) (r : res row) : R :=
  match r with Ok x => nth i x 0 | Err _ => 0 end.

(** x with its j-th entry replaced. *)
Fixpoint replace_nth (j : nat) (t : R) (x : row) : row :=
  match x, j with
  | [], _ => []
  | _ :: x', O => t :: x'
  | a :: x', S j' => a :: replace_nth j' t x'
  end.
(** J is the matrix of the partial derivatives of f at x. *)
Definition is_jacobian (f : row -> res row) (x : row) (J : list row) : Prop :=
  (exists y, f x = Ok y /\ length y = length J) /\ Forall (fun r => length r = length x) J /\
  forall i j, (i < length J)%nat -> (j < length x)%nat ->
    derivable_pt_lim (fun t => component i (f (replace_nth j t x))) (nth j x 0) (nth j (nth i J []) 0).

(** A time derivative in normalised coordinates: state and action (n entries and
    one entry) are converted to physical units, and the derivative back. *)
Definition in_normal_units (n : nat) (nm : normalization) (ode : row -> row -> res row) (xu : row) : res row :=
  do p <- denormalize nm (firstn n xu) (Some (skipn n xu));
  match snd p with
  | Some u => do dx <- ode (fst p) u; do q <- normalize nm dx None; Ok (fst q)
  | None => Err TypeError
  end.

(** The normalization fits a system with n states and one action. *)
Definition fits (n : nat) (nm : normalization) : Prop :=
  match nm with None => True | Some (Tx, Tu) => length Tx = n /\ length Tu = 1%nat end.
Definition vanderpol_units (v : vanderpol) (x : row) : res row :=
  do y <- vdp_denormalize v x; do dy <- vanderpol_ode v y; vdp_normalize v dy.
