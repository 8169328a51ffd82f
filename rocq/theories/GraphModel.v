(** Model of the feed dictionaries (one per TensorFlow graph, utilities.py lines
    475-493) and of [compute_trajectory] (lines 519-583) over a sequence of calls in
    one Python process, with the graph that is built at the first call for a pair of
    dynamics and policy and stored for the whole process (lines 546-563).

    TensorFlow 1 looks at every entry of the feed dictionary, in the order in which
    the keys were inserted, before it evaluates anything: a key that is no tensor of
    the graph of the session is a TypeError, a value that does not fit the shape of
    its placeholder is a ValueError.  Entries that fit but are not needed have no
    effect.

    Simplifications.
    - A session is entered with [with], i.e. its graph is the default graph, and it
      is not empty.
    - Function objects are numbered; what they compute depends on the variables and
      data [W], but not on the graph (an object that owns variables could not be
      called in another graph at all).  [accepts d p n]: the shapes of dynamics,
      policy and a state of [n] coordinates fit together, else building the graph
      raises ValueError (lines 553-555).
    - Evaluations by other objects of the library are the command [Evaluate]: the
      caller writes one array into the feed dictionary of the current graph and
      evaluates.  Placeholders have two axes, and one array has one row.          *)
From Coq Require Import Reals List Bool Arith ZArith.
From Verif Require Import Prelude UtilModel.
Import ListNotations.
Local Open Scope nat_scope.

(** Who created a placeholder: [compute_trajectory] for a pair of functions, or
    another object. *)
Inductive owner := Pair (d p : nat) | Other (k : nat).
Record placeholder := { ph_owner : owner; ph_graph : nat; ph_width : nat }.
Definition owner_eq (a b : owner) : bool :=
  match a, b with
  | Pair d p, Pair d' p' => (d =? d') && (p =? p')
  | Other k, Other k' => k =? k'
  | _, _ => false
  end.
(** Placeholders are compared as objects. *)
Definition ph_eq (a b : placeholder) : bool :=
  owner_eq (ph_owner a) (ph_owner b) && (ph_graph a =? ph_graph b) && (ph_width a =? ph_width b).

(** A feed dictionary; assigning to a key keeps its position. *)
Definition dict := list (placeholder * list R).
Fixpoint feed_set (D : dict) (ph : placeholder) (row : list R) : dict :=
  match D with
  | [] => [(ph, row)]
  | (q, r) :: D' => if ph_eq q ph then (q, row) :: D' else (q, r) :: feed_set D' ph row
  end.
(** The checks of [session.run] in a session of graph [gr]. *)
Fixpoint check (gr : nat) (D : dict) : option exn :=
  match D with
  | [] => None
  | (q, r) :: D' =>
    if negb (ph_graph q =? gr) then Some TypeError
    else if negb (length r =? ph_width q) then Some ValueError
    else check gr D'
  end.

Section Graph.
  Variable W : Type.
  Variable dynamics : W -> nat -> list R -> list R -> list R.
  Variable policies : W -> nat -> list R -> list R.
  Variable output_dim : nat -> nat.
  Variable accepts : nat -> nat -> nat -> bool.

  (** Variables and data, the graph of the session, the feed dictionaries, and the
      entry of [_STORAGE] for [compute_trajectory]: the placeholder of each pair. *)
  Record process := {
    pr_world : W;
    pr_graph : nat;
    pr_dicts : nat -> dict;
    pr_store : list ((nat * nat) * placeholder)
  }.
  Definition stored (P : process) (d p : nat) : option placeholder :=
    option_map snd (find (fun e => (fst (fst e) =? d) && (snd (fst e) =? p)) (pr_store P)).
  Definition with_dict (P : process) (D : dict) : process :=
    {| pr_world := pr_world P; pr_graph := pr_graph P;
       pr_dicts := fun gr => if gr =? pr_graph P then D else pr_dicts P gr;
       pr_store := pr_store P |}.

  (** The loop of lines 578-581, [n] steps from state [x]; [w] is the width of
      [states].  Result: the feed dictionary, and what was written. *)
  Fixpoint simulate_in (world : W) (gr d p : nat) (ph : placeholder) (w n : nat) (x : list R)
      (D : dict) : dict * res (list (list R) * list (list R)) :=
    match n with
    | O => (D, Ok ([], []))
    | S n' =>
      let D := feed_set D ph x in
      match check gr D with
      | Some e => (D, Err e)
      | None =>
        let act := policies world p x in
        match (do next <- assign_row w (dynamics world d x act);
               do act <- assign_row (output_dim p) act;
               Ok (next, act)) with
        | Err e => (D, Err e)
        | Ok (next, act) =>
          let '(D, r) := simulate_in world gr d p ph w n' next D in
          (D, do sa <- r; Ok (next :: fst sa, act :: snd sa))
        end
      end
    end.

  (** Lines 542-583 for an initial state with one row. *)
  Definition trajectory (P : process) (d p : nat) (initial : list R) (num_steps : Z)
      : process * res (list (list R) * list (list R)) :=
    let found :=
      match stored P d p with
      | Some ph => Ok (P, ph)
      | None =>
        if accepts d p (length initial) then
          let ph := {| ph_owner := Pair d p; ph_graph := pr_graph P; ph_width := length initial |} in
          Ok ({| pr_world := pr_world P; pr_graph := pr_graph P; pr_dicts := pr_dicts P;
                 pr_store := ((d, p), ph) :: pr_store P |}, ph)
        else Err ValueError
      end in
    match found with
    | Err e => (P, Err e)
    | Ok (P, ph) =>
      if (num_steps <=? 0)%Z then (P, Err ValueError)
      else
        let '(D, r) := simulate_in (pr_world P) (pr_graph P) d p ph (length initial)
                         (Z.to_nat num_steps - 1) initial (pr_dicts P (pr_graph P)) in
        (with_dict P D, do sa <- r; Ok (initial :: fst sa, snd sa))
    end.

  (** An evaluation by another object, with placeholder [k] of [width] columns. *)
  Definition evaluate (P : process) (k width : nat) (row : list R) : process * option exn :=
    let ph := {| ph_owner := Other k; ph_graph := pr_graph P; ph_width := width |} in
    let D := feed_set (pr_dicts P (pr_graph P)) ph row in
    (with_dict P D, check (pr_graph P) D).

  (** Programs. *)
  Inductive command :=
  | SetVariables (w : W)
  | EnterSession (gr : nat)
  | Trajectory (d p : nat) (initial : list R) (num_steps : Z)
  | Evaluate (k width : nat) (row : list R).
  Inductive outcome :=
  | Done
  | Raised (e : exn)
  | Returned (states actions : list (list R)).
  Definition step (P : process) (c : command) : process * outcome :=
    match c with
    | SetVariables w =>
      ({| pr_world := w; pr_graph := pr_graph P; pr_dicts := pr_dicts P; pr_store := pr_store P |}, Done)
    | EnterSession gr =>
      ({| pr_world := pr_world P; pr_graph := gr; pr_dicts := pr_dicts P; pr_store := pr_store P |}, Done)
    | Trajectory d p x n =>
      let '(P, r) := trajectory P d p x n in
      (P, match r with Ok (s, a) => Returned s a | Err e => Raised e end)
    | Evaluate k width row =>
      let '(P, e) := evaluate P k width row in
      (P, match e with None => Done | Some e => Raised e end)
    end.
  Definition run (P : process) (cs : list command) : process :=
    fold_left (fun P c => fst (step P c)) cs P.

  (** A new process. *)
  Definition start (w : W) (gr : nat) : process :=
    {| pr_world := w; pr_graph := gr; pr_dicts := fun _ => []; pr_store := [] |}.
End Graph.
Arguments pr_world {W}. Arguments pr_graph {W}. Arguments pr_dicts {W}. Arguments pr_store {W}.
Arguments SetVariables {W}. Arguments EnterSession {W}. Arguments Trajectory {W}. Arguments Evaluate {W}.
Arguments stored {W}. Arguments with_dict {W}. Arguments start {W}. Arguments evaluate {W}.
