(** Model of [reward_rollout], [compute_closedloop_response] and [compute_roa]
    (examples/utilities.py, lines 522-545, 602-636 and 654-686).

    Simplifications.  A batch is a list of rows of real numbers; [grid] is given by
    its points.  The dynamics, rewards and policies are arguments; broadcasting of
    single rows over batches is left out, except for the equilibrium.  What is
    printed is left out.  The array of trajectories is a list of batches, one
    for each time. *)
From Coq Require Import String Reals List Bool Arith.
From Verif Require Import Prelude.
Import ListNotations.
Local Open Scope R_scope.

Notation row := (list R).
Notation batch := (list (list R)).

(** [np.max(np.abs(l))] *)
Definition max_abs (l : row) : res R :=
  match l with
  | [] => Err ValueError
  | x :: l' => Ok (fold_left (fun m y => Rmax m (Rabs y)) l' (Rabs x))
  end.

(** [reward_rollout], lines 531-540: the loop from time t on, and the whole. *)
Fixpoint rollout_loop (n t : nat) (dynamics : batch -> res batch) (reward : batch -> res row)
    (discount tol : R) (states : batch) (rollout : row) : res row :=
  match n with
  | O => Ok rollout
  | S n' =>
      do r <- reward states;
      let temp := map (fun x => discount ^ t * x) r in
      if Nat.eqb (length temp) (length rollout) then
        let rollout := map2 Rplus rollout temp in
        do m <- max_abs temp;
        if Rlt_dec m tol then Ok rollout
        else do next <- dynamics states; rollout_loop n' (S t) dynamics reward discount tol next rollout
      else Err ValueError
  end.
Definition reward_rollout (points : batch) (dynamics : batch -> res batch) (reward : batch -> res row)
    (discount : R) (horizon : nat) (tol : R) : res row :=
  rollout_loop horizon 0 dynamics reward discount tol points (repeat 0 (length points)).

(** [compute_closedloop_response], lines 606-612: the reference signal; any other
    name leaves [r] undefined. *)
Definition reference_signal (name : string) (steps action_dim : nat) (dt const : R) : res batch :=
  if String.eqb name "impulse"%string then
    Ok (repeat (1 / dt) action_dim :: repeat (repeat 0 action_dim) steps)
  else if String.eqb name "step"%string then Ok (repeat (repeat const action_dim) (steps + 1))
  else if String.eqb name "zero"%string then Ok (repeat (repeat 0 action_dim) (steps + 1))
  else Err NameError.

(** Lines 621-634: [states] and [actions] are filled one row after the other; rows
    must have the declared widths. *)
Definition check_width (n : nat) (x : row) : res row :=
  if Nat.eqb (length x) n then Ok x else Err ValueError.
Fixpoint response_loop (dynamics : row -> row -> res row) (policy : row -> res row)
    (state_dim action_dim : nat) (refs : batch) (state : row) : res (batch * batch) :=
  match refs with
  | [] => Ok ([], [])
  | r :: refs' =>
      do u <- policy state; do u <- check_width action_dim u;
      do next <- dynamics state (map2 Rplus u r);
      do next <- match refs' with [] => Ok next | _ => check_width state_dim next end;
      do rest <- response_loop dynamics policy state_dim action_dim refs' next;
      Ok (state :: fst rest, u :: snd rest)
  end.

(** The whole function, lines 602-636; results: states, actions, times, r. *)
Definition closedloop_response (dynamics : row -> row -> res row) (policy : row -> res row)
    (state_dim action_dim steps : nat) (dt : R) (reference : string) (const : R) (ic : option row)
    : res (batch * batch * row * batch) :=
  do r <- reference_signal reference steps action_dim dt const;
  let times := map (fun i => dt * INR i) (seq 0 (steps + 1)) in
  do x0 <- match ic with None => Ok (repeat 0 state_dim) | Some x => check_width state_dim x end;
  do out <- response_loop dynamics policy state_dim action_dim r x0;
  Ok (fst out, snd out, times, r).

(** [compute_roa], lines 665-676: simulation without and with trajectories. *)
Fixpoint simulate (n : nat) (dynamics : batch -> res batch) (states : batch) : res batch :=
  match n with
  | O => Ok states
  | S n' => do next <- dynamics states; simulate n' dynamics next
  end.
Definition check_shape (n d : nat) (b : batch) : res batch :=
  if andb (Nat.eqb (length b) n) (forallb (fun x => Nat.eqb (length x) d) b) then Ok b else Err ValueError.
Fixpoint trajectories (n : nat) (nindex ndim : nat) (dynamics : batch -> res batch) (states : batch)
    : res (list batch) :=
  match n with
  | O => Ok [states]
  | S n' =>
      do next <- dynamics states; do next <- check_shape nindex ndim next;
      do rest <- trajectories n' nindex ndim dynamics next;
      Ok (states :: rest)
  end.

(** Lines 678-682: the 2-norm of the difference to the equilibrium. *)
Definition norm_diff (x e : row) : R :=
  sqrt (fold_right Rplus 0 (map2 (fun a b => Rsqr (a - b)) x e)).
Definition near (tol : R) (e : row) (states : batch) : res (list bool) :=
  mapM (fun x => if Nat.eqb (length x) (length e)
                 then Ok (if Rle_dec (norm_diff x e) tol then true else false) else Err ValueError) states.

(** [compute_roa], lines 654-686. *)
Definition compute_roa (points : batch) (ndim : nat) (dynamics : batch -> res batch) (horizon : nat)
    (tol : R) (equilibrium : option row) : res (list bool) :=
  do ends <- simulate (horizon - 1) dynamics points;
  near tol (match equilibrium with None => repeat 0 ndim | Some e => e end) ends.
Definition compute_roa_trajectories (points : batch) (ndim : nat) (dynamics : batch -> res batch)
    (horizon : nat) (tol : R) (equilibrium : option row) : res (list bool * list batch) :=
  match horizon with
  | O => Err IndexError
  | S h =>
      do traj <- trajectories h (length points) ndim dynamics points;
      do roa <- near tol (match equilibrium with None => repeat 0 ndim | Some e => e end)
                     (last traj []);
      Ok (roa, traj)
  end.
