(** Vocabulary for policy optimization by gradient descent. *)
From Coq Require Import Reals List Bool Arith ZArith.
From Coquelicot Require Import Coquelicot.
From Verif Require Import Prelude NumModel GridModel GridSpec TriModel TriSpec SafeModel CertModel RLModel AutoTriModel AutoTriSpec PolGradModel.
Import ListNotations.
Local Open Scope R_scope.

(** [d] is the gradient of [f] at [a], for points with [n] coordinates: along every
    curve through [a] the rate of [f] is the product with the rates of the coordinates. *)
Definition is_gradient (n : nat) (f : list R -> R) (a d : list R) : Prop :=
  length d = n /\
  forall (c : R -> list R) (v : nat -> R), c 0 = a -> (forall t, length (c t) = n) ->
    (forall k, (k < n)%nat -> is_derive (fun t => coordinate (c t) k) 0 (v k)) ->
    is_derive (fun t => f (c t)) 0 (sumn n (fun k => coordinate d k * v k)).

(** The (mean) next state *)
Definition next_of (P : learner) (s a : list R) : list R :=
  match rl_dynamics P s a with Exact y => y | Uncertain mean _ => mean end.

(** In state [s] with action [a], the given derivatives of rewards and dynamics are
    right, one simplex of the value function surrounds the next state, and with
    projection the next state is not exactly on a limit. *)
Record smooth_state (P : learner) (D : rates) (g : grid) (t : tri) (n : nat) (s a : list R) : Prop := {
  ss_reward : is_gradient n (rl_reward P s) a (d_reward D s a);
  ss_length : forall a', length a' = n -> length (next_of P s a') = dims g;
  ss_dynamics : forall d, length d = dims g ->
    is_gradient n (fun a' => sumn (dims g) (fun j => coordinate d j * coordinate (next_of P s a') j)) a (d_dynamics D s a d);
  ss_simplex : exists id r, 0 < r /\ forall x, length x = dims g ->
    (forall j, (j < dims g)%nat -> Rabs (coordinate x j - coordinate (next_of P s a) j) < r) -> find_simplex t x = Ok id;
  ss_limits : t_project t = true -> forall j, (j < dims g)%nat ->
    coordinate (next_of P s a) j <> lower g j /\ coordinate (next_of P s a) j <> upper g j
}.

(** Vertex values moved by [z] times [dvalues]. *)
Definition moved_values (z : R) (values dvalues : mat) : mat := map2 (map2 (fun a b => a + z * b)) values dvalues.
(** What slices say about the derivative with respect to the value of output [o] at grid index [i]. *)
Definition vertex_derivative (s : slices) (i : nat) (o : nat) : R :=
  slices_dot s (fun j => if Nat.eqb (Z.to_nat j) i then 1 else 0) o.
