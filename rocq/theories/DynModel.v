(** Model of the example systems [InvertedPendulum], [CartPole] and [VanDerPol]
    (examples/utilities.py, lines 144-519).

    Simplifications.  All operations act on the rows of a batch separately, so one
    row is modelled; states and actions that [concatenate_inputs] has joined are
    one row.  The entries are real numbers, with exact division.  [normalization]
    is a pair of 1d arrays (one array for [VanDerPol]); a product with [np.diag]
    scales the entries.  The conversion to discrete time of scipy ([to_discrete],
    [cont2discrete]) is an argument. *)
From Coq Require Import Reals List Bool Arith.
From Verif Require Import Prelude.
Import ListNotations.
Local Open Scope R_scope.

Definition row := list R.

(** [tf.matmul(x, np.diag(d))] *)
Definition matmul_diag (x d : row) : res row :=
  if Nat.eqb (length x) (length d) then Ok (map2 Rmult x d) else Err ValueError.
(** [tf.split(x, [n, 1], axis=1)] *)
Definition split1 (n : nat) (x : row) : res (row * row) :=
  if Nat.eqb (length x) (n + 1) then Ok (firstn n x, skipn n x) else Err ValueError.
(** [norm ** -1] *)
Definition inverse (d : row) : row := map (fun x => / x) d.
(** [state + dt * state_derivative] *)
Definition euler (dt : R) (x dx : row) : row := map2 (fun a b => a + dt * b) x dx.
Fixpoint repeat_euler (n : nat) (dt : R) (f : row -> res row) (x : row) : res row :=
  match n with
  | O => Ok x
  | S n' => do dx <- f x; repeat_euler n' dt f (euler dt x dx)
  end.
(** [np.linalg.multi_dot((np.diag(l), A, np.diag(r)))] *)
Definition scale (l : row) (A : list row) (r : row) : list row :=
  map2 (fun a As => map2 (fun x b => a * x * b) As r) l A.

Definition normalization := option (row * row).

(** [normalize] and [denormalize], lines 181-205 and 326-350. *)
Definition rescale (d : row * row) (state : row) (action : option row) : res (row * option row) :=
  do x <- matmul_diag state (fst d);
  match action with
  | Some u => do u' <- matmul_diag u (snd d); Ok (x, Some u')
  | None => Ok (x, None)
  end.
Definition denormalize (nm : normalization) (state : row) (action : option row) : res (row * option row) :=
  match nm with None => Ok (state, action) | Some d => rescale d state action end.
Definition normalize (nm : normalization) (state : row) (action : option row) : res (row * option row) :=
  match nm with
  | None => Ok (state, action)
  | Some d => rescale (inverse (fst d), inverse (snd d)) state action
  end.

(** [InvertedPendulum], lines 160-179. *)
Record pendulum := { mass : R; arm : R; friction : R; pendulum_dt : R; pendulum_norm : normalization }.
Definition gravity : R := 981 / 100.
Definition inertia (p : pendulum) : R := mass p * arm p ^ 2.

(** [ode], lines 257-289, for states with two entries. *)
Definition pendulum_ode (p : pendulum) (state action : row) : res row :=
  match state, action with
  | [angle; velocity], [u] =>
      let x_ddot := gravity / arm p * sin angle + u / inertia p in
      let x_ddot := if Rlt_dec 0 (friction p)
                    then x_ddot - friction p / inertia p * velocity else x_ddot in
      Ok [velocity; x_ddot]
  | _, _ => Err ValueError
  end.

(** [build_evaluation], lines 242-255; the action is not [None] after [split1]. *)
Definition run_model (n : nat) (nm : normalization) (dt : R) (ode : row -> row -> res row)
    (state_action : row) : res row :=
  do xu <- split1 n state_action;
  do xu <- denormalize nm (fst xu) (Some (snd xu));
  match snd xu with
  | Some u =>
      do x <- repeat_euler 10 (dt / 10) (fun x => ode x u) (fst xu);
      do xu <- normalize nm x None;
      Ok (fst xu)
  | None => Err TypeError
  end.
Definition pendulum_eval (p : pendulum) : row -> res row :=
  run_model 2 (pendulum_norm p) (pendulum_dt p) (pendulum_ode p).

(** Lines 232-236 and 377-381. *)
Definition normalize_system (nm : normalization) (A B : list row) : list row * list row :=
  match nm with
  | None => (A, B)
  | Some d => (scale (inverse (fst d)) A (fst d), scale (inverse (fst d)) B (snd d))
  end.

Section Linearize.
Variable discretize : list row -> list row -> R -> list row * list row.

(** [linearize], lines 207-240. *)
Definition pendulum_linearize (p : pendulum) : list row * list row :=
  let A := [[0; 1]; [gravity / arm p; - friction p / inertia p]] in
  let B := [[0]; [1 / inertia p]] in
  let AB := normalize_system (pendulum_norm p) A B in
  discretize (fst AB) (snd AB) (pendulum_dt p).
End Linearize.

(** [CartPole], lines 308-324. *)
Record cartpole := {
  pole_mass : R; cart_mass : R; pole_length : R; rot_friction : R; cartpole_dt : R;
  cartpole_norm : normalization
}.

(** [ode], lines 402-437. *)
Definition cartpole_ode (p : cartpole) (state action : row) : res row :=
  let m := pole_mass p in let M := cart_mass p in let L := pole_length p in
  let b := rot_friction p in let g := gravity in
  match state, action with
  | [x; theta; v; omega], [u] =>
      let det := L * (M + m * Rsqr (sin theta)) in
      let v_dot := (u - m * L * Rsqr omega * sin theta - b * omega * cos theta
                    + 1 / 2 * m * g * L * sin (2 * theta)) * L / det in
      let omega_dot := (u * cos theta - 1 / 2 * m * L * Rsqr omega * sin (2 * theta)
                        - b * (m + M) * omega / (m * L) + (m + M) * g * sin theta) / det in
      Ok [v; omega; v_dot; omega_dot]
  | _, _ => Err ValueError
  end.
(** [build_evaluation], lines 387-400. *)
Definition cartpole_eval (p : cartpole) : row -> res row :=
  run_model 4 (cartpole_norm p) (cartpole_dt p) (cartpole_ode p).

Section LinearizeCartPole.
Variable discretize : list row -> list row -> R -> list row * list row.
(** [linearize], lines 352-385. *)
Definition cartpole_linearize (p : cartpole) : list row * list row :=
  let m := pole_mass p in let M := cart_mass p in let L := pole_length p in
  let b := rot_friction p in let g := gravity in
  let A := [[0; 0; 1; 0];
            [0; 0; 0; 1];
            [0; g * m / M; 0; - b / (M * L)];
            [0; g * (m + M) / (L * M); 0; - b * (m + M) / (m * M * L ^ 2)]] in
  let B := [[0]; [0]; [1 / M]; [1 / (M * L)]] in
  let AB := normalize_system (cartpole_norm p) A B in
  discretize (fst AB) (snd AB) (cartpole_dt p).
End LinearizeCartPole.

(** [VanDerPol], lines 443-469. *)
Record vanderpol := { damping : R; vanderpol_dt : R; vanderpol_norm : option row }.
Definition vdp_denormalize (v : vanderpol) (state : row) : res row :=
  match vanderpol_norm v with None => Ok state | Some d => matmul_diag state d end.
Definition vdp_normalize (v : vanderpol) (state : row) : res row :=
  match vanderpol_norm v with None => Ok state | Some d => matmul_diag state (inverse d) end.

(** [ode], lines 501-519, for states with two entries. *)
Definition vanderpol_ode (v : vanderpol) (state : row) : res row :=
  match state with
  | [x; y] => Ok [- y; x + damping v * (x ^ 2 - 1) * y]
  | _ => Err ValueError
  end.
(** [build_evaluation], lines 489-499. *)
Definition vanderpol_eval (v : vanderpol) (state_action : row) : res row :=
  do xu <- split1 2 state_action;
  do x <- vdp_denormalize v (fst xu);
  do x <- repeat_euler 10 (vanderpol_dt v / 10) (vanderpol_ode v) x;
  vdp_normalize v x.

Section LinearizeVanDerPol.
Variable discretize : list row -> list row -> R -> list row * list row.
(** [linearize], lines 471-487. *)
Definition vanderpol_linearize (v : vanderpol) : list row :=
  let A := [[0; - 1]; [1; - 1]] in
  let A := match vanderpol_norm v with None => A | Some d => scale (inverse d) A d end in
  fst (discretize A [[0]; [0]] (vanderpol_dt v)).
End LinearizeVanDerPol.
