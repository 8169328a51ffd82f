(** Vocabulary for the variables of function objects. *)
From Coq Require Import List Ascii String Arith Bool.
From Verif Require Import Prelude ScopeModel.
Import ListNotations.

(** A name without slashes and dots. *)
Definition plain (n : name) : Prop := n <> [] /\ ~ In "/"%char n /\ ~ In "."%char n.

(** What the programs do that are considered: plain names; functions with
    variables of their own are not constructed inside of a [tf.variable_scope]; the
    variables of one network have different names. *)
Definition allowed (st : state) (c : command) : Prop :=
  match c with
  | New n (Network ws) => plain n /\ variable_scope st = [] /\ NoDup ws
  | New n (Saturated _) => plain n /\ variable_scope st = []
  | New n _ | EnterName n | EnterVariable n => plain n
  | _ => True
  end.
Inductive history : state -> state -> Prop :=
| h_nil st : history st st
| h_step st st1 c st2 : history st st1 -> allowed st1 c -> step st1 c = Ok st2 -> history st st2.

Definition is_kind (st : state) (i : nat) (k : kind) : Prop :=
  exists o, nth_error (objs st) i = Some o /\ o_kind o = k.

(** The function inside of all saturations. *)
Inductive core (st : state) : nat -> nat -> Prop :=
| core_here i k : is_kind st i k -> (forall a, k <> Saturated a) -> core st i i
| core_sat i a r : is_kind st i (Saturated a) -> core st a r -> core st i r.

(** Functions in which no saturation is applied to a network with variables. *)
Inductive ordinary (st : state) : nat -> Prop :=
| ord_network i ws : is_kind st i (Network ws) -> ordinary st i
| ord_triang i : is_kind st i Triang -> ordinary st i
| ord_sum i a b : is_kind st i (Sum a b) -> ordinary st a -> ordinary st b -> ordinary st i
| ord_sat i a r : is_kind st i (Saturated a) -> core st a r ->
    (is_kind st r Triang \/ is_kind st r (Network [])) -> ordinary st i.

Definition disjoint (l m : list nat) : Prop := forall v, In v l -> In v m -> False.
