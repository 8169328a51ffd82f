(** Vocabulary for programs that evaluate tensors with the shared feed
    dictionaries. *)
From Coq Require Import Reals List Bool Arith ZArith.
From Verif Require Import Prelude UtilModel GraphModel.
Import ListNotations.
Local Open Scope nat_scope.

Section Spec.
  Context {W : Type}.
  Variable dynamics : W -> nat -> list R -> list R -> list R.
  Variable policies : W -> nat -> list R -> list R.
  Variable output_dim : nat -> nat.
  Variable accepts : nat -> nat -> nat -> bool.
  Notation step := (step W dynamics policies output_dim accepts).

  (** [Q] holds for every command of the program, in the state it is executed in. *)
  Fixpoint throughout (Q : process W -> command W -> Prop) (P : process W) (cs : list (command W)) : Prop :=
    match cs with
    | [] => True
    | c :: cs => Q P c /\ throughout Q (fst (step P c)) cs
    end.

  (** Every pair of dynamics [d] and policy [p] is used in one graph [home d p] and
      with states of one dimension [dim d p], and all other arrays have the number
      of columns that their placeholder has. *)
  Definition orderly (home dim : nat -> nat -> nat) (P : process W) (c : command W) : Prop :=
    match c with
    | Trajectory d p x _ => pr_graph P = home d p /\ length x = dim d p /\ accepts d p (length x) = true
    | Evaluate _ width row => length row = width
    | _ => True
    end.

  (** The outcome that does not depend on anything that happened before. *)
  Definition expected (P : process W) (c : command W) : outcome :=
    match c with
    | Trajectory d p x n =>
      match compute_trajectory (dynamics (pr_world P) d) (policies (pr_world P) p) (output_dim p) x n with
      | Ok (states, actions) => Returned states actions
      | Err e => Raised e
      end
    | _ => Done
    end.

  (** Commands that evaluate tensors, in the graph of the session. *)
  Definition evaluation (c : command W) : Prop :=
    match c with
    | Trajectory _ _ _ n => (2 <= n)%Z
    | Evaluate _ _ _ => True
    | _ => False
    end.
  (** Commands without evaluations, and commands in a session of a graph in [G]. *)
  Definition inside (G : nat -> Prop) (P : process W) (c : command W) : Prop :=
    match c with Trajectory _ _ _ _ | Evaluate _ _ _ => G (pr_graph P) | _ => True end.
  (** A call of [compute_trajectory] for the pair with [k] state coordinates. *)
  Definition calls (d p k : nat) (c : command W) : Prop :=
    match c with Trajectory d' p' x _ => d' = d /\ p' = p /\ length x = k | _ => False end.
  Definition without (kind : command W -> Prop) (cs : list (command W)) : Prop :=
    Forall (fun c => ~ kind c) cs.
End Spec.
