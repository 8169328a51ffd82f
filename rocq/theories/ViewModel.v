(** Model of two pictures of the notebooks that judge states with the
    certificate of a [Lyapunov] object: the required refinement N(x)
    (adaptive_safety_verification.ipynb, "Visualize Discretization Effects")
    and the safe state-action pairs ([get_safe_sets] in 1d_example.ipynb). *)
From Coq Require Import Reals List Bool Arith ZArith.
From Verif Require Import Prelude NumModel GridModel SafeModel CertModel.
Import ListNotations.
Local Open Scope R_scope.

(** ** N(x) *)

(** examples/adaptive_safety_verification.ipynb, cell "Visualize Discretization
    Effects": [N = (threshold / dv).eval(); N[np.isnan(N)] = -1; N[N < 0] = -1;
    N = np.ceil(N)] for one state.  [None] stands for infinity.  A quotient
    0 / 0 is nan; a negative (positive) threshold over 0 is -inf (+inf): the
    difference of two equal values is +0. *)
Definition needed (th dv : R) : option Z :=
  if Req_EM_T dv 0 then (if Rlt_dec 0 th then None else Some (-1)%Z)
  else let q := th / dv in
       if Rlt_dec q 0 then Some (-1)%Z else Some (ceilR q).

(** examples/adaptive_safety_verification.ipynb, same cell, the tensors: [dv = future_values - values] for the true
    dynamics and [threshold(states, tau)]. *)
Definition needed_refinement (S : setup) (x : list R) : option Z :=
  needed (threshold S x (tau S)) (decrease S x).

(** ** Safe state-action pairs *)

(** examples/1d_example.ipynb, [get_safe_sets]: [maps_inside]: [squeeze(V(mean)) + lv * reduce_sum(bound) < c_max] for one
    state-action pair.  Simplification: the constant of the Lyapunov function
    is a number, as in the notebook (a column would be broadcast against the
    row of values); the dynamics return a tuple, other dynamics raise when
    they are unpacked, modelled as ValueError. *)
Definition maps_inside (S : setup) (c : R) (lv : R) (x u : list R) : res bool :=
  match dynamics S x u with
  | Uncertain mean bound => Ok (Rltb (lyapunov_function S mean + lv * sum bound) c)
  | Exact _ => Err ValueError
  end.
(** examples/1d_example.ipynb, [get_safe_sets]: [decreases = tf.less(v_decrease_bound(state, next_states), threshold(state))]. *)
Definition decreases (S : setup) (x u : list R) : bool :=
  Rltb (v_decrease_bound S x (dynamics S x u)) (threshold S x (tau S)).
(** examples/1d_example.ipynb, [get_safe_sets], [positive=False]: [safe_set[state_to_index(mean)]]. *)
Definition safe_in_expectation (S : setup) (g : grid) (safe : list bool) (x u : list R) : res bool :=
  match dynamics S x u with
  | Uncertain mean _ => do i <- state_to_index g mean; py_nth safe i
  | Exact _ => Err ValueError
  end.

(** examples/1d_example.ipynb, [get_safe_sets]: [total = np.zeros(num_points, dtype=bool); total[safe_set, :] = rows]. *)
Fixpoint scatter (width : nat) (safe : list bool) (rows : list (list bool)) : list (list bool) :=
  match safe with
  | [] => []
  | true :: safe' => hd [] rows :: scatter width safe' (tl rows)
  | false :: safe' => repeat false width :: scatter width safe' rows
  end.

(** examples/1d_example.ipynb, [get_safe_sets]: [maps_inside.reshape(len(safe_states), len(safe_actions))]: the evaluated
    list of pairs, state by state. *)
Fixpoint reshape_rows {A} (n w : nat) (l : list A) : list (list A) :=
  match n with O => [] | S n' => firstn w l :: reshape_rows n' w (skipn w l) end.

(** examples/1d_example.ipynb, [get_safe_sets]: [np.where(safe_set)]: the positions of the true entries. *)
Fixpoint where_from (k : nat) (l : list bool) : list Z :=
  match l with
  | [] => []
  | true :: l' => Z.of_nat k :: where_from (S k) l'
  | false :: l' => where_from (S k) l'
  end.

(** examples/1d_example.ipynb: [get_safe_sets(lyapunov, positive)].  [actions] are the points of the action
    grid; [state_actions] holds the pairs of the safe states with all
    actions, state by state. *)
Definition get_safe_sets (S : setup) (g : grid) (lv c : R) (safe : list bool)
    (actions : list (list R)) (positive : bool) : res (list (list bool) * list (list bool)) :=
  do safe_states <- mapM (index_to_state g) (where_from 0 safe);
  let pairs := list_prod safe_states actions in
  do inside <- mapM (fun p => maps_inside S c lv (fst p) (snd p)) pairs;
  let dec := map (fun p => decreases S (fst p) (snd p)) pairs in
  do inside' <- (if positive then Ok inside
                 else do e <- mapM (fun p => safe_in_expectation S g safe (fst p) (snd p)) pairs;
                      Ok (map2 andb inside e));
  let n := length safe_states in
  let w := length actions in
  Ok (scatter w safe (reshape_rows n w inside'), scatter w safe (reshape_rows n w dec)).
