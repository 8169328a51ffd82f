(** Double precision versions of [value_iteration]
    (safe_learning/reinforcement_learning.py, lines 65-114 and 135-140) and
    [discrete_policy_optimization] (lines 214-279) with a
    TensorFlow [Triangulation] as value function (safe_learning/functions.py,
    lines 1442-1499).

    Every operation is the exact one followed by rounding ([rnd]).
    Simplifications: those of F64Model and RLModel; the policy, the dynamics and
    the reward function of the learner return the computed (rounded) numbers;
    [reduce_sum] adds from left to right (the order makes no difference in one
    dimension, where it adds at most two numbers).                            *)
From Coq Require Import List ZArith Reals Bool.
From Verif Require Import Prelude NumModel GridModel TriModel SafeModel CertModel RLModel F64Model.
Import ListNotations.
Local Open Scope R_scope.

(** functions.py:1442-1471, one point. *)
Definition f_get_hyperplanes (t : tri) (p : vec) : res (vec * mat * list Z) :=
  do id <- f_find_simplex t p;
  do simp <- simplices t id;
  do o <- py_nth simp 0;
  do origin <- f_index_to_state (t_grid t) o;
  do H <- py_nth (t_hyper t) (id mod dl_nsimplex (t_dl t))%Z;
  Ok (origin, H, simp).

(** functions.py:1473-1499, one point; minimum and maximum are exact. *)
Definition f_tf_eval1 (T : tf_tri) (p : vec) : res vec :=
  let t := tf_inner T in
  let g := t_grid t in
  do ohs <- f_get_hyperplanes t p;
  let '(origin, H, simp) := ohs in
  let p' := if t_project t
            then map2 (fun x l => Rmin (Rmax x (fst l)) (snd l)) p (limits g) else p in
  let off := map2 (fun a b => rnd (a - b)) p' origin in
  let w1 := map (fun j => f_sum (map2 (fun x row => rnd (x * nth j row 0)) off H)) (seq 0 (ndim g)) in
  let w0 := rnd (1 - f_sum w1) in
  do rows <- mapM (py_nth (tf_var T)) simp;
  Ok (map (fun j => f_sum (map2 (fun w row => rnd (w * nth j row 0)) (w0 :: w1) rows))
          (seq 0 (length (nth 0 (tf_var T) [])))).

(** reinforcement_learning.py:89-104, one state, for an action or the policy of the
    learner, without Lyapunov object. *)
Definition f_future_value (P : learner) (action : option (list R)) (s : list R) : res R :=
  let a := match action with Some a => a | None => rl_policy P s end in
  let next := match rl_dynamics P s a with Exact y => y | Uncertain mean _ => mean end in
  do row <- f_tf_eval1 (rl_value P) next;
  match row with
  | [v] => Ok (rnd (rl_reward P s a + rnd (rl_gamma P * v)))
  | _ => Err ValueError
  end.

(** reinforcement_learning.py:58-59 and 138-140: new values at all grid states. *)
Definition f_value_iteration (P : learner) : res learner :=
  do v <- mapM (f_future_value P None) (f_all_points (t_grid (tf_inner (rl_value P))));
  Ok (with_values P v).
Fixpoint f_value_iterations (n : nat) (P : learner) : res learner :=
  match n with
  | O => Ok P
  | S n' => do P' <- f_value_iterations n' P; f_value_iteration P'
  end.

(** reinforcement_learning.py:265-275, one column of the table. *)
Definition f_option_values (P : learner) (constraint : option (list (list R) -> list R))
    (states : list (list R)) (action : list R) : res (list (option R)) :=
  do values <- mapM (f_future_value P (Some action)) states;
  match constraint with
  | None => Ok (map Some values)
  | Some f =>
    let slack := f (repeat action (length states)) in
    if (length slack =? length states)%nat
    then Ok (map2 (fun v s => if Rltb s 0 then None else Some v) values slack)
    else Err IndexError
  end.
(** reinforcement_learning.py:227-279; comparisons are exact. *)
Definition f_discrete_policy_optimization (P : learner) (gp : grid)
    (action_space : list (list R)) (constraint : option (list (list R) -> list R))
    : res (list (list R)) :=
  let states := f_all_points gp in
  do columns <- mapM (f_option_values P constraint states) action_space;
  mapM (fun k =>
          do i <- xargmax (map (fun c => nth k c None) columns);
          Ok (nth i action_space []))
       (seq 0 (length states)).
