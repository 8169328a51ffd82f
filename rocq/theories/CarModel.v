(** The mountain car of examples/basic_dynamic_programming.ipynb. *)
From Coq Require Import Reals List Bool Arith.
From Verif Require Import Prelude.
Import ListNotations.
Local Open Scope R_scope.

(** examples/basic_dynamic_programming.ipynb, cell 2, [dynamics]: one row of the
    batch, the state (position, velocity) and the action. *)
Definition car_next (s : R * R) (u : R) : R * R :=
  (fst s + snd s, snd s + 0.001 * u - 0.0025 * cos (3 * fst s)).

(** examples/basic_dynamic_programming.ipynb, cell 2, [reward_function]: one row
    of the batch; [terminal_reward] is 1 - gamma, the action is ignored. *)
Definition car_reward (gamma : R) (s : R * R) (u : R) : R :=
  if Rlt_dec 0.6 (fst s) then 1 - gamma else 0.

(** examples/basic_dynamic_programming.ipynb, cell 11: the rows after the first of
    [states]; [pi] is the policy evaluated in one state.  From the first row whose
    position is at least 0.6 on, all rows are that row. *)
Fixpoint fill_rows (pi : R * R -> R) (n : nat) (s : R * R) : list (R * R) :=
  match n with
  | O => []
  | S m => let s' := car_next s (pi s) in
           if Rle_dec 0.6 (fst s') then repeat s' n else s' :: fill_rows pi m s'
  end.
(** examples/basic_dynamic_programming.ipynb, cells 10 and 11: [states] with
    [S n] rows (the notebook has 1000 and starts in (-0.5, 0)). *)
Definition car_trajectory (pi : R * R -> R) (n : nat) (start : R * R) : list (R * R) :=
  start :: fill_rows pi n start.

(** examples/basic_dynamic_programming.ipynb, cell 5, [value_change] and
    [actions_change]: np.max(np.abs(old - new)). *)
Definition largest_change (old new : list R) : R :=
  fold_right Rmax 0 (map2 (fun a b => Rabs (a - b)) old new).
(** examples/basic_dynamic_programming.ipynb, cell 5: the loop.  [results] are the
    parameters that session.run returns in the iterations; the result is the
    number of iterations in the message "converged after", or [None]. *)
Fixpoint learn_until (i : nat) (old : list R * list R) (results : list (list R * list R)) : option nat :=
  match results with
  | [] => None
  | new :: rest =>
      if Rle_dec (largest_change (fst old) (fst new)) 0.1 then
        if Rle_dec (largest_change (snd old) (snd new)) 0.1 then Some (i + 1)%nat
        else learn_until (i + 1) new rest
      else learn_until (i + 1) new rest
  end.
