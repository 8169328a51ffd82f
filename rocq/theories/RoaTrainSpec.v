(** Vocabulary for the training of a Lyapunov network. *)
From Coq Require Import Reals List Bool Arith ZArith.
From Verif Require Import Prelude GridModel GridSpec SafeModel SafeSpec CertModel CertSpec LoopModel RoaTrainModel.
Import ListNotations.
Local Open Scope R_scope.

(** The order of a call sorts the values of the grid states. *)
Definition sorted_call {W} (g : grid) (S : W -> setup) (call : W * nat * list nat) : Prop :=
  sorts (map (lyapunov_function (S (fst (fst call)))) (all_points g)) (snd call).

(** [ts] are the states of a training run: after the preparation and after every round
    with any parameters. *)
Definition training {W} (g : grid) (F : list R -> list R) (S : W -> setup) (ini : option (list bool))
    (mult : R) (horizon : nat) (ts : list (trainer W)) : Prop :=
  exists w0 calls rounds t,
    calls <> [] /\ Forall (sorted_call g S) calls /\ Forall (sorted_call g S) rounds /\
    initialize g S ini w0 calls = Ok t /\ train g F mult horizon rounds t = Ok ts.

(** The Lyapunov function and the level of the state of a run; its labels and safe set. *)
Definition value_of {W} (S : W -> setup) (t : trainer W) (x : list R) : R :=
  lyapunov_function (S (tr_params t)) x.
Definition level {W} (t : trainer W) : R := l_cmax (ob_lyap (tr_object t)).
Definition marked {W} (t : trainer W) (k : nat) : Prop := nth k (tr_estimate t) false = true.
Definition in_safe_set {W} (t : trainer W) (k : nat) : Prop := safe (ob_lyap (tr_object t)) k.

(** State [t] of the run would label [x]: outside of the level set, inside of the
    larger one, and in the level set after the simulation. *)
Definition labels_gap {W} (S : W -> setup) (F : list R -> list R) (mult : R) (horizon : nat)
    (t : trainer W) (x : list R) : Prop :=
  level t < value_of S t x <= mult * level t /\ value_of S t (iterate horizon F x) <= level t.

(** The trajectory from [x] visits a state whose nearest grid state is in the initial set. *)
Definition reaches_initial (g : grid) (F : list R -> list R) (ini : option (list bool)) (x : list R) : Prop :=
  exists m n k, ini = Some m /\ state_to_index g (iterate n F x) = Ok (Z.of_nat k) /\ nth k m false = true.
