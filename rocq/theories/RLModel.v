(** Model of [PolicyIteration] (safe_learning/reinforcement_learning.py).

    Simplifications.
    - The value function is a [Triangulation] with one output; the rewards of a
      state and an action are one number.
    - Tensors are the values they evaluate to, row by row; the cached graph of
      [discrete_policy_optimization] (lines 237-260) is the functions it was built
      from.
    - The linear program solver of cvxpy is an argument: it answers with a vector
      (status OPTIMAL) or with another status.
    - [stop_gradient] (line 130) does not change values; see [bellmann_frozen]. *)
From Coq Require Import Reals List Bool Arith ZArith.
From Verif Require Import Prelude NumModel GridModel TriModel SafeModel CertModel.
Import ListNotations.
Local Open Scope nat_scope.
Local Open Scope R_scope.

(** Lines 46-63. *)
Record learner := {
  rl_policy : list R -> list R;
  rl_dynamics : list R -> list R -> prediction;
  rl_reward : list R -> list R -> R;
  rl_value : tf_tri;
  rl_gamma : R
}.
Definition with_values (P : learner) (v : list R) : learner :=
  {| rl_policy := rl_policy P; rl_dynamics := rl_dynamics P; rl_reward := rl_reward P;
     rl_value := tf_assign (rl_value P) (map (fun x => [x]) v); rl_gamma := rl_gamma P |}.
(** Line 58-59. *)
Definition state_space (P : learner) : list (list R) :=
  all_points (t_grid (tf_inner (rl_value P))).

(** The value function at a state (one output). *)
Definition value_at_state (T : tf_tri) (x : list R) : res R :=
  do row <- tf_eval1 T x;
  match row with [v] => Ok v | _ => Err ValueError end.

(** [future_values], lines 89-114, for one state.  A Lyapunov object comes with
    the Lagrange multiplier.  [var] is undefined for deterministic dynamics. *)
Definition future_value (P : learner) (policy : option (list R -> list R))
    (action : option (list R)) (lyapunov : option (setup * R)) (s : list R) : res R :=
  let a := match action with
           | Some a => a
           | None => match policy with Some p => p s | None => rl_policy P s end
           end in
  let '(next, var) := match rl_dynamics P s a with
                      | Exact y => (y, None)
                      | Uncertain mean err => (mean, Some err)
                      end in
  do v <- value_at_state (rl_value P) next;
  let updated := rl_reward P s a + rl_gamma P * v in
  match lyapunov with
  | None => Ok updated
  | Some (L, multiplier) =>
    match var with
    | None => Err NameError
    | Some err =>
      let decrease := v_decrease_bound L s (Uncertain next err) in
      Ok (updated - multiplier * (decrease - threshold L s (tau L)))
    end
  end.

(** [bellmann_error], lines 128-133. *)
Definition bellmann_error (P : learner) (states : list (list R)) : res R :=
  do target <- mapM (future_value P None None None) states;
  do values <- mapM (value_at_state (rl_value P)) states;
  Ok (sum (map2 (fun t v => (t - v) * (t - v)) target values)).

(** The function of the vertex values that is differentiated in the gradient of
    [bellmann_error]: the target is a constant (line 130). *)
Definition bellmann_frozen (P : learner) (states : list (list R)) (v : list R) : res R :=
  do target <- mapM (future_value P None None None) states;
  do values <- mapM (value_at_state (rl_value (with_values P v))) states;
  Ok (sum (map2 (fun t v => (t - v) * (t - v)) target values)).

(** [value_iteration], lines 138-140: the new vertex values. *)
Definition value_iteration (P : learner) : res learner :=
  do v <- mapM (future_value P None None None) (state_space P);
  Ok (with_values P v).
Fixpoint value_iterations (n : nat) (P : learner) : res learner :=
  match n with
  | O => Ok P
  | S n' => do P' <- value_iterations n' P; value_iteration P'
  end.

(** [_run_cvx_optimization] and [optimize_value_function], lines 143-211. *)
Inductive lp_result := Optimal (v : list R) | NotOptimal.
Definition mean_next (P : learner) (s : list R) : list R :=
  match rl_dynamics P s (rl_policy P s) with Exact y => y | Uncertain mean _ => mean end.
Definition optimize_value_function (solver : list R -> R -> coo -> lp_result) (P : learner)
    : res learner :=
  let next_states := map (mean_next P) (state_space P) in
  let rewards := map (fun s => rl_reward P s (rl_policy P s)) (state_space P) in
  do value_matrix <- parameter_derivative (tf_inner (rl_value P)) next_states;
  match solver rewards (rl_gamma P) value_matrix with
  | Optimal v => Ok (with_values P v)
  | NotOptimal => Err OptimizationError
  end.

(** [discrete_policy_optimization], lines 214-279.  An entry of the value table is
    a number, or [None] for -inf. *)
Definition xltb (a b : option R) : bool :=
  match a, b with
  | _, None => false
  | None, Some _ => true
  | Some x, Some y => Rltb x y
  end.
(** [np.argmax] of a row: the first largest entry. *)
Fixpoint xargmax_from (best : option R) (at_ i : nat) (l : list (option R)) : nat :=
  match l with
  | [] => at_
  | x :: t => if xltb best x then xargmax_from x i (S i) t else xargmax_from best at_ (S i) t
  end.
Definition xargmax (l : list (option R)) : res nat :=
  match l with [] => Err ValueError | x :: t => Ok (xargmax_from x 0 1 t) end.

(** Column [i] of the table, lines 265-275: the option is taken in every state.
    The constraint is called with the array of actions and returns one slack per
    state (another number of slacks cannot be used as a mask). *)
Definition option_values (P : learner) (constraint : option (list (list R) -> list R))
    (states : list (list R)) (action : list R) : res (list (option R)) :=
  do values <- mapM (future_value P None (Some action) None) states;
  match constraint with
  | None => Ok (map Some values)
  | Some f =>
    let slack := f (repeat action (length states)) in
    if (length slack =? length states)%nat
    then Ok (map2 (fun v s => if Rltb s 0 then None else Some v) values slack)
    else Err IndexError
  end.

(** Lines 227-279; the result are the new parameters of the policy, one row for
    every point of the discretization [gp] of the policy. *)
Definition discrete_policy_optimization (P : learner) (gp : grid)
    (action_space : list (list R)) (constraint : option (list (list R) -> list R))
    : res (list (list R)) :=
  let states := all_points gp in
  do columns <- mapM (option_values P constraint states) action_space;
  mapM (fun k =>
          do i <- xargmax (map (fun c => nth k c None) columns);
          Ok (nth i action_space []))
       (seq 0 (length states)).
