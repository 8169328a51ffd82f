(** Vocabulary for the statements about policy iteration. *)
From Coq Require Import Reals List Bool Arith ZArith.
From Verif Require Import Prelude NumModel GridModel GridSpec SparseSpec TriModel TriSpec SafeModel
  CertModel RLModel.
Import ListNotations.
Local Open Scope nat_scope.
Local Open Scope R_scope.

(** The expected next state. *)
Definition successor (P : learner) (a : list R) (s : list R) : list R :=
  match rl_dynamics P s a with Exact y => y | Uncertain mean _ => mean end.

(** One value per grid state. *)
Definition table (g : grid) (v : list R) : Prop := Z.of_nat (length v) = nindex g.

(** [v] solves the Bellman equation of the policy: taking the policy action and
    then collecting the (interpolated) values [v] gives [v]. *)
Definition bellman (P : learner) (g : grid) (v : list R) : Prop :=
  table g v /\
  forall k s, index_to_state g (Z.of_nat k) = Ok s ->
    exists e, tf_eval (tf_assign (rl_value P) (map (fun x => [x]) v)) [successor P (rl_policy P s) s]
                = Ok [[e]] /\
      nth k v 0 = rl_reward P s (rl_policy P s) + rl_gamma P * e.

(** A learner on grid [g] with a usable triangulation, whose expected next states
    have the right dimension. *)
Record learns (dl : list (list R) -> delaunay) (inv : list (list R) -> res (list (list R)))
    (g : grid) (project : bool) (t : tri) (P : learner) : Prop := {
  ln_tri : exists values, TriSpec.setup dl inv g values 1 project t;
  ln_value : exists v, rl_value P = TfTri (map (fun x => [x]) v) t /\ table g v;
  ln_next : forall s, is_vertex g s -> length (successor P (rl_policy P s) s) = dims g
}.

(** The interpolation weights at [x] are not negative, or have at most the total
    absolute weight [c]. *)
Definition weights_bounded (t : tri) (c : R) (x : list R) : Prop :=
  exists w verts, get_weights t x = Ok (w, verts) /\
    sumn (length w) (fun k => Rabs (coordinate w k)) <= c.
Definition weights_nonnegative (t : tri) (x : list R) : Prop :=
  exists w verts, get_weights t x = Ok (w, verts) /\
    forall k, (k < length w)%nat -> 0 <= coordinate w k.

(** Largest distance of two tables. *)
Definition distance_at_most (D : R) (u v : list R) : Prop :=
  length u = length v /\ forall k, (k < length v)%nat -> Rabs (nth k u 0 - nth k v 0) <= D.

(** The linear program: maximise the sum of the values subject to
    v <= r + gamma M v. *)
Definition lp_feasible (r : list R) (gamma : R) (M : coo) (v : list R) : Prop :=
  length v = length r /\
  forall k, (k < length r)%nat ->
    nth k v 0 <= nth k r 0 + gamma * coo_dot M (fun i => nth (Z.to_nat i) v 0) (Z.of_nat k).
Definition lp_optimal (r : list R) (gamma : R) (M : coo) (v : list R) : Prop :=
  lp_feasible r gamma M v /\
  forall v', lp_feasible r gamma M v' -> sum v' <= sum v.
(** A solver that only claims optima, and finds one if there is one. *)
Definition sound_solver (solver : list R -> R -> coo -> lp_result) : Prop :=
  forall r gamma M v, solver r gamma M = Optimal v -> lp_optimal r gamma M v.
Definition complete_solver (solver : list R -> R -> coo -> lp_result) : Prop :=
  forall r gamma M, (exists v, lp_optimal r gamma M v) -> exists v, solver r gamma M = Optimal v.

(** The option [a] satisfies the constraint at state number [k] of [n] (a
    constraint maps the actions in all states to one slack per state). *)
Definition allowed (constraint : option (list (list R) -> list R)) (n : nat) (a : list R) (k : nat) : Prop :=
  match constraint with None => True | Some f => 0 <= nth k (f (repeat a n)) 0 end.
(** The learner with another policy. *)
Definition with_policy (P : learner) (p : list R -> list R) : learner :=
  {| rl_policy := p; rl_dynamics := rl_dynamics P; rl_reward := rl_reward P;
     rl_value := rl_value P; rl_gamma := rl_gamma P |}.
