(** Model of the polynomial Lyapunov candidate of
    examples/lyapunov_function_learning.ipynb, lines 271-319.

    Simplifications.  The functions act on the rows of a batch separately, so one
    row is modelled; the entries are real numbers.  [np.argsort] is an argument of
    [sos_level]. *)
From Coq Require Import Reals List Bool Arith.
From Verif Require Import Prelude DynModel ExUtilModel.
Import ListNotations.
Local Open Scope R_scope.

Definition dot (x y : list R) : R := fold_right Rplus 0 (map2 Rmult x y).
Definition column_of (Q : list (list R)) (j : nat) : list R := map (fun r => nth j r 0) Q.

(** Lines 272-275 and 283-286: [x *= state_norm] with the global [state_norm]; the
    argument [norm] only says whether to do it. *)
Definition sos_denormalize (state_norm : list R) (x : list R) (norm : option (list R)) : res (list R) :=
  match norm with
  | None => Ok x
  | Some _ => matmul_diag x state_norm
  end.
(** [linear_form = np.matmul(M, Q)] for a square matrix [Q]; else the products
    below fail. *)
Definition sos_linear_form (M : list R) (Q : list (list R)) : res (list R) :=
  if (Nat.eqb (length M) (length Q) && forallb (fun r => Nat.eqb (length r) (length M)) Q)%bool
  then Ok (map (fun j => dot M (column_of Q j)) (seq 0 (length M))) else Err ValueError.

(** [lyapunov_sos], lines 271-279. *)
Definition lyapunov_sos (state_norm x : list R) (Q : list (list R)) (norm : option (list R)) : res R :=
  do x <- sos_denormalize state_norm x norm;
  do M <- monomials x 3;
  do linear_form <- sos_linear_form M Q;
  Ok (dot linear_form M).

(** [lyapunov_sos_derivative], lines 282-291. *)
Definition lyapunov_sos_derivative (state_norm x : list R) (Q : list (list R)) (norm : option (list R)) : res (list R) :=
  do x <- sos_denormalize state_norm x norm;
  do M <- monomials x 3;
  do dM <- derivative_monomials x 3;
  do linear_form <- sos_linear_form M Q;
  Ok (map (fun k => dot linear_form (column_of dM k)) (seq 0 (length x))).

(** The matrix of lines 294-302. *)
Definition sos_Q : list (list R) :=
  [[4.09; 0.09225; -5.609e-9; 2.132e-9; 6.079e-10; 2.11; 0.006847; 0.0937; -0.0271];
   [0.09225; 0.2055; 2.132e-9; 6.079e-10; 1.731e-9; 0.006847; 0.0937; -0.0271; 0.03769];
   [-5.609e-9; 2.132e-9; 2.11; 0.006847; 0.0937; -6.223e-8; -1.307e-9; -3.692e-9; -5.893e-10];
   [2.132e-9; 6.079e-10; 0.006847; 0.0937; -0.0271; -1.307e-9; -3.692e-9; -5.893e-10; 4.724e-10];
   [6.079e-10; 1.731e-9; 0.0937; -0.0271; 0.03769; -3.692e-9; -5.893e-10; 4.724e-10; 2.836e-10];
   [2.11; 0.006847; -6.223e-8; -1.307e-9; -3.692e-9; 5.913; 0.2135; 0.1824; 0.009201];
   [0.006847; 0.0937; -1.307e-9; -3.692e-9; -5.893e-10; 0.2135; 0.1824; 0.009201; 0.01684];
   [0.0937; -0.0271; -3.692e-9; -5.893e-10; 4.724e-10; 0.1824; 0.009201; 0.01684; 0.02061];
   [-0.0271; 0.03769; -5.893e-10; 4.724e-10; 2.836e-10; 0.009201; 0.01684; 0.02061; 0.01081]].

(** [dvdt], lines 305-309, at the normalised state [x] with the normalised action
    [u]; [state_norm] is the one of the pendulum. *)
Definition sos_dvdt (p : pendulum) (x u : list R) (Q : list (list R)) : res R :=
  match pendulum_norm p with
  | None => Err TypeError
  | Some (Tx, Tu) =>
      do dvdx <- lyapunov_sos_derivative Tx x Q (Some Tx);
      do xu <- denormalize (pendulum_norm p) x (Some u);
      match snd xu with
      | None => Err TypeError
      | Some u' => do f <- pendulum_ode p (fst xu) u'; Ok (dot dvdx f)
      end
  end.

(** The index of the first [False], as [np.argmin] returns it. *)
Fixpoint first_false (l : list bool) : nat :=
  match l with
  | true :: l' => S (first_false l')
  | _ => O
  end.
(** [cmax_sos], lines 311-319. *)
Definition sos_level (order : list nat) (values dvdt : list R) : res R :=
  let certificate := map (fun i => if Rlt_dec (nth i dvdt 0) 0 then true else false) (tl order) in
  let ordered_idx := if forallb (fun b => b) certificate then (length certificate + 1)%nat
                     else (first_false certificate + 1)%nat in
  match nth_error order (ordered_idx - 1) with
  | Some max_idx => Ok (nth max_idx values 0)
  | None => Err IndexError
  end.
