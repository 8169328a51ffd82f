(** Model of [QuadraticFunction] and [LinearSystem]
    (safe_learning/functions.py, lines 1513-1583).

    Simplifications.  Tensors as in [FunModel]: two axes, real entries; a graph is
    represented by the value it computes.  [np.hstack] gets the list of converted
    matrices (Python 2's [map]). *)
From Coq Require Import Reals List Bool Arith.
From Verif Require Import Prelude FunModel.
Import ListNotations.
Local Open Scope R_scope.

(** What a user may pass as a matrix. *)
Inductive array := Scalar (x : R) | Vector (n : nat) (v : nat -> R) | Matrix (t : tensor).
Definition atleast_2d (a : array) : tensor :=
  match a with
  | Scalar x => {| rows := 1; cols := 1; entry := fun _ _ => x |}
  | Vector n v => {| rows := 1; cols := n; entry := fun _ j => v j |}
  | Matrix t => t
  end.
(** Iterating over a 2d array gives its rows. *)
Definition iterate (t : tensor) : list array :=
  map (fun i => Vector (cols t) (entry t i)) (seq 0 (rows t)).

Definition rsum (n : nat) (f : nat -> R) : R := fold_right Rplus 0 (map f (seq 0 n)).
Definition transpose (t : tensor) : tensor :=
  {| rows := cols t; cols := rows t; entry := fun i j => entry t j i |}.
Definition matmul (a b : tensor) : res tensor :=
  if Nat.eqb (cols a) (rows b) then
    Ok {| rows := rows a; cols := cols b;
          entry := fun i j => rsum (cols a) (fun k => entry a i k * entry b k j) |}
  else Err ValueError.
Definition as_tensor (v : value) : tensor :=
  match v with
  | Tensor t => t
  | Number x => {| rows := 1; cols := 1; entry := fun _ _ => x |}
  end.

(** [QuadraticFunction]: constructor, lines 1525-1530, [build_evaluation], lines
    1534-1539, [gradient], lines 1541-1543. *)
Definition quadratic_function (matrix : array) : tensor := atleast_2d matrix.
Definition quadratic_eval (P : tensor) (args : list tensor) : res tensor :=
  do points <- hcat args;
  do linear_form <- matmul points P;
  do quadratic <- op2 Rmult (Tensor linear_form) (Tensor points);
  let q := as_tensor quadratic in
  Ok {| rows := rows q; cols := 1; entry := fun i _ => rsum (cols q) (fun j => entry q i j) |}.
Definition quadratic_gradient (P points : tensor) : res tensor :=
  do sym <- op2 Rplus (Tensor P) (Tensor (transpose P));
  matmul points (as_tensor sym).

(** [LinearSystem]: constructor, lines 1559-1565, and [build_evaluation], lines
    1567-1584. *)
Definition linear_system (matrices : list array) : res tensor := hcat (map atleast_2d matrices).
Definition linear_eval (M : tensor) (args : list tensor) : res tensor :=
  do points <- hcat args;
  matmul points (transpose M).
