(** Vocabulary for the derivatives of triangulations. *)
From Coq Require Import List ZArith Reals.
From Verif Require Import Prelude NumModel GridModel GridSpec TriModel TriSpec AutoTriModel.
Import ListNotations.
Local Open Scope R_scope.

(** The wrapper [T] computes with the object [t] and the values [values]; the values
    stored in the wrapped object do not matter. *)
Definition wraps (T : tf_tri) (t : tri) (values : mat) : Prop :=
  tf_var T = values /\ exists old, tf_inner T = with_params t old.

(** What the slices contribute: column [o] of the rows, weighted with [f]. *)
Definition slices_dot (s : slices) (f : Z -> R) (o : nat) : R :=
  fold_right Rplus 0 (map (fun iv => coordinate (snd iv) o * f (fst iv)) s).

(** Coordinate [j] of [x] is within the limits, ends included. *)
Definition within_limits (g : grid) (x : vec) (j : nat) : Prop :=
  lower g j <= coordinate x j <= upper g j.

(** The weighted sum of the outputs at a point. *)
Definition objective (t : tri) (m : nat) (dy x : vec) : R :=
  match tri_eval t [x] with
  | Ok [out] => sumn m (fun o => coordinate dy o * coordinate out o)
  | _ => 0
  end.

(** The point with coordinate [j] replaced. *)
Definition replaced (x : vec) (j : nat) (s : R) : vec := set_nth j s x.
