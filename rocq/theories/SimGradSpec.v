(** Vocabulary for the derivatives of the example systems. *)
From Coq Require Import Reals List Bool Arith.
From Verif Require Import Prelude QuadModel.
Import ListNotations.
Local Open Scope R_scope.

(** The sum of the entries of a result with weights. *)
Definition weighted (w : list R) (r : res (list R)) : R :=
  match r with Ok y => rsum (length w) (fun j => nth j w 0 * nth j y 0) | Err _ => 0 end.
