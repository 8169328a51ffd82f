(** Vocabulary for the statements about radial basis function networks. *)
From Coq Require Import Reals List Bool Arith ZArith.
From Verif Require Import Prelude FunModel QuadModel GridModel GridSpec.
Import ListNotations.
Local Open Scope R_scope.

(** Euclidean distance. *)
Definition distance (n : nat) (x y : list R) : R := sqrt (rsum n (fun d => (nth d x 0 - nth d y 0) ^ 2)).
(** The bell of width [sigma] around [c]. *)
Definition bell (n : nat) (sigma : R) (c x : list R) : R :=
  exp (- (distance n x c ^ 2) / (2 * sigma ^ 2)).
(** The sum of the sizes of the weights. *)
Definition total_weight (w : list R) : R := rsum (length w) (fun k => Rabs (nth k w 0)).
(** The smallest distance of neighbouring grid states along an axis. *)
Definition finest (g : grid) (s : R) : Prop :=
  (forall j, (j < dims g)%nat -> s <= spacing g j) /\ exists j, (j < dims g)%nat /\ spacing g j = s.
