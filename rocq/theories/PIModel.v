(** Model of programs that use one [PolicyIteration] object
    (safe_learning/reinforcement_learning.py): the operations that
    [value_iteration] and [optimize_value_function] return are evaluated later, the
    graph of [discrete_policy_optimization] is stored, and attributes may be
    assigned in between.

    Simplifications, beside those of RLModel.
    - The policy and the value function are two [Triangulation]s that stay the
      same objects; their parameters are TensorFlow variables, i.e. the operations
      and the stored graph read the current parameters.
    - One program runs in one session; a call that fails ends the program. *)
From Coq Require Import Reals List Bool Arith ZArith.
From Verif Require Import Prelude NumModel GridModel TriModel SafeModel CertModel RLModel.
Import ListNotations.
Local Open Scope nat_scope.
Local Open Scope R_scope.

(** The attributes that may be assigned, lines 52-55. *)
Record attributes := {
  at_dynamics : list R -> list R -> prediction;
  at_reward : list R -> list R -> R;
  at_gamma : R
}.

(** What the operations returned by [value_iteration] (lines 135-140) and by
    [optimize_value_function] (lines 180-211) remember: the functions that were
    called while the graph was built. *)
Inductive operation :=
| Sweep (built : attributes)
| Solve (built : attributes).

(** The object (lines 46-63), the parameters of its two functions, the operations
    that the program has created, and the attributes at the time when the stored
    graph (lines 237-260) was built. *)
Record agent := {
  ag_now : attributes;
  ag_value : tf_tri;
  ag_policy : tf_tri;
  ag_ops : list operation;
  ag_stored : option attributes
}.

(** A triangulation as a policy.  (An evaluation fails only for a state with a
    wrong number of columns.) *)
Definition policy_of (T : tf_tri) (s : list R) : list R :=
  match tf_eval1 T s with Ok a => a | Err _ => [] end.

(** The learner of RLModel for some attributes and the current parameters. *)
Definition learner_with (a : attributes) (A : agent) : learner :=
  {| rl_policy := policy_of (ag_policy A); rl_dynamics := at_dynamics a;
     rl_reward := at_reward a; rl_value := ag_value A; rl_gamma := at_gamma a |}.
Definition learner_of (A : agent) : learner := learner_with (ag_now A) A.

Definition set_value (A : agent) (T : tf_tri) : agent :=
  {| ag_now := ag_now A; ag_value := T; ag_policy := ag_policy A; ag_ops := ag_ops A;
     ag_stored := ag_stored A |}.
Definition set_ops (A : agent) (l : list operation) : agent :=
  {| ag_now := ag_now A; ag_value := ag_value A; ag_policy := ag_policy A; ag_ops := l;
     ag_stored := ag_stored A |}.

(** Evaluation of an operation.  [_run_cvx_optimization] (lines 142-178) is a
    Python function that runs when the operation is evaluated: it reads
    [self.gamma] then (line 168), whereas the next states and the rewards are
    tensors built from the attributes at the time of the call (lines 197-205).
    [value_iteration] uses the attributes at the time of the call only. *)
Definition evaluate (solver : list R -> R -> coo -> lp_result) (o : operation) (A : agent)
    : res agent :=
  match o with
  | Sweep built =>
    do P <- value_iteration (learner_with built A);
    Ok (set_value A (rl_value P))
  | Solve built =>
    let mixed := {| at_dynamics := at_dynamics built; at_reward := at_reward built;
                    at_gamma := at_gamma (ag_now A) |} in
    do P <- optimize_value_function solver (learner_with mixed A);
    Ok (set_value A (rl_value P))
  end.

(** [discrete_policy_optimization], lines 227-279.  The placeholders and the
    policy parameters have one column per action coordinate: the shape of the
    options must match (the graph is not built, line 247, or cannot be fed). *)
Definition improve (options : list (list R)) (constraint : option (list (list R) -> list R))
    (A : agent) : res agent :=
  let built := match ag_stored A with Some a => a | None => ag_now A end in
  if forallb (fun a => length a =? length (nth 0 (tf_var (ag_policy A)) []))%nat options
  then
    do actions <- discrete_policy_optimization (learner_with built A)
                    (t_grid (tf_inner (ag_policy A))) options constraint;
    Ok {| ag_now := ag_now A; ag_value := ag_value A;
          ag_policy := tf_assign (ag_policy A) actions; ag_ops := ag_ops A;
          ag_stored := Some built |}
  else Err ValueError.

(** The statements of a program. *)
Inductive call :=
| Assign (a : attributes)   (* rl.gamma = ..., rl.dynamics = ..., rl.reward_function = ... *)
| MakeSweep                 (* op = rl.value_iteration() *)
| MakeSolve                 (* op = rl.optimize_value_function() *)
| Eval (i : nat)            (* ops[i].eval() *)
| Improve (options : list (list R)) (constraint : option (list (list R) -> list R)).

Definition step (solver : list R -> R -> coo -> lp_result) (c : call) (A : agent) : res agent :=
  match c with
  | Assign a => Ok {| ag_now := a; ag_value := ag_value A; ag_policy := ag_policy A;
                      ag_ops := ag_ops A; ag_stored := ag_stored A |}
  | MakeSweep => Ok (set_ops A (ag_ops A ++ [Sweep (ag_now A)]))
  | MakeSolve => Ok (set_ops A (ag_ops A ++ [Solve (ag_now A)]))
  | Eval i => match nth_error (ag_ops A) i with
              | Some o => evaluate solver o A
              | None => Err IndexError
              end
  | Improve options constraint => improve options constraint A
  end.
Fixpoint run (solver : list R -> R -> coo -> lp_result) (p : list call) (A : agent) : res agent :=
  match p with
  | [] => Ok A
  | c :: p' => do B <- step solver c A; run solver p' B
  end.

(** The loops of examples/1d_example.ipynb:408-411 and of
    examples/basic_dynamic_programming.ipynb:124-129 (there the greedy improvement
    and value iteration are the commented alternatives). *)
Fixpoint rounds (n : nat) (body : list call) : list call :=
  match n with O => [] | S n' => rounds n' body ++ body end.
