(** Vocabulary for the statements about programs around [PolicyIteration]. *)
From Coq Require Import Reals List Bool Arith ZArith.
From Verif Require Import Prelude NumModel GridModel GridSpec SparseSpec TriModel TriSpec SafeModel
  CertModel RLModel RLSpec PIModel.
Import ListNotations.
Local Open Scope nat_scope.
Local Open Scope R_scope.

(** An action that may be taken at state number [k] of [n]. *)
Definition permitted (options : list (list R)) (constraint : option (list (list R) -> list R))
    (n k : nat) (a : list R) : Prop :=
  In a options /\ allowed constraint n a k.

(** A policy that takes permitted actions at the grid states. *)
Definition permitted_policy (g : grid) options constraint (p : list R -> list R) : Prop :=
  forall k s, index_to_state g (Z.of_nat k) = Ok s ->
    permitted options constraint (Z.to_nat (nindex g)) k (p s).

(** [e] is the interpolation of the table [v] at [x]. *)
Definition reads (T : tf_tri) (v : list R) (x : list R) (e : R) : Prop :=
  tf_eval (tf_assign T (map (fun x => [x]) v)) [x] = Ok [[e]].

(** [v] solves the Bellman optimality equation: at every grid state no permitted
    action promises more than [v], and one promises as much. *)
Definition optimal (P : learner) (g : grid) options constraint (v : list R) : Prop :=
  table g v /\
  forall k s, index_to_state g (Z.of_nat k) = Ok s ->
    let n := Z.to_nat (nindex g) in
    (forall a, permitted options constraint n k a ->
       exists e, reads (rl_value P) v (successor P a s) e /\
         rl_reward P s a + rl_gamma P * e <= nth k v 0) /\
    exists a e, permitted options constraint n k a /\
      reads (rl_value P) v (successor P a s) e /\
      nth k v 0 = rl_reward P s a + rl_gamma P * e.

(** A planning problem: value function and policy are triangulations on the grid
    [g], every option leads to a place where the interpolation weights are not
    negative, and some option is permitted in every state. *)
Record plans (dl dl' : list (list R) -> delaunay) (inv : list (list R) -> res (list (list R)))
    (g : grid) (project project' : bool) (t t' : tri) (m : nat)
    (options : list (list R)) (constraint : option (list (list R) -> list R)) (A : agent)
    : Prop := {
  pl_value_tri : exists values, TriSpec.setup dl inv g values 1 project t;
  pl_value : exists v, ag_value A = TfTri (map (fun x => [x]) v) t /\ table g v;
  pl_policy_tri : exists values, TriSpec.setup dl' inv g values m project' t';
  pl_policy : exists actions, ag_policy A = TfTri actions t' /\
    Z.of_nat (length actions) = nindex g /\ Forall (fun a => length a = m) actions;
  pl_resolution : sumn (dims g) (fun j => 2 * EPS / spacing g j) < 1;
  pl_gamma : 0 <= at_gamma (ag_now A) < 1;
  pl_options : forall a, In a options -> length a = m;
  pl_slack : match constraint with
             | None => True
             | Some f => forall a, In a options ->
                 length (f (repeat a (Z.to_nat (nindex g)))) = Z.to_nat (nindex g)
             end;
  pl_next : forall s a, is_vertex g s -> In a options ->
    let y := successor (learner_of A) a s in
    length y = dims g /\ weights_nonnegative t y;
  pl_some : forall k, (k < Z.to_nat (nindex g))%nat ->
    exists a, permitted options constraint (Z.to_nat (nindex g)) k a;
  pl_stored : ag_stored A = None \/ ag_stored A = Some (ag_now A)
}.

(** The table of the value function. *)
Definition has_values (A : agent) (t : tri) (v : list R) : Prop :=
  ag_value A = TfTri (map (fun x => [x]) v) t.

(** Every entry of [u] is at most the one of [v], and misses it by at most [D]. *)
Definition below_by (D : R) (u v : list R) : Prop :=
  length u = length v /\ forall k, (k < length v)%nat -> 0 <= nth k v 0 - nth k u 0 <= D.

(** A program that never assigns attributes. *)
Definition assigns (c : call) : Prop := match c with Assign _ => True | _ => False end.

(** An object that was just created. *)
Definition just_created (A : agent) : Prop := ag_ops A = [] /\ ag_stored A = None.
