(** Model of the dynamics of a [Lyapunov] object that are a [FunctionStack] of
    [GaussianProcess] objects with one output each (functions.py lines 254-308 and
    461-541), as in the examples, over the real numbers.  The predictions are those
    of [GPModel]; the world of the programs of [LoopModel] is the data set.

    Simplifications.  The data are complete rows, as
    [FunctionStack.add_data_point] makes them from one measurement at a time (see
    C47 and C48).  If computing the cache failed, the constructor or
    [add_data_point] would have raised; the value given here for this case, zero, is
    never reached for the models that the theorems speak about (see C49). *)
From Coq Require Import Reals List.
From mathcomp Require Import all_ssreflect all_algebra.
From Verif Require Import Prelude CertModel GPModel RField.
Set Implicit Arguments.
Unset Strict Implicit.
Unset Printing Implicit Defensive.
Local Open Scope ring_scope.

(** One [GaussianProcess] with a [GPRCached] model: kernel ([K] and [Kdiag]), mean function, noise
    variance, scale, beta, and the Cholesky decomposition. *)
Record member := {
  me_kern : list R -> list R -> R;
  me_kdiag : list R -> R;
  me_mean : list R -> R;
  me_noise : R;
  me_scale : R;
  me_beta : R;
  me_chol : forall n, 'M[R]_n -> res 'M[R]_n
}.
Definition params (me : member) : gp_params R_realFieldType (list R) 1 :=
  {| kern := me_kern me; kdiag := me_kdiag me;
     mean := fun x => const_mx (me_mean me x); noise := me_noise me; scale := me_scale me |}.

(** Measurements: a row of states and actions, and the row of successor states. *)
Definition dataset : Type := list (list R * list R).
Definition measurement (w : dataset) (i : nat) : list R * list R := List.nth i w (nil, nil).
(** The columns that member number [k] gets, functions.py lines 293-307. *)
Definition inputs (w : dataset) : 'I_(length w) -> list R := fun i => (measurement w i).1.
Definition outputs (k : nat) (w : dataset) : 'M[R]_(length w, 1) :=
  \matrix_(i, j) List.nth k (measurement w i).2 R0.

(** Mean and error bound at one point. *)
Definition member_eval (k : nat) (me : member) (w : dataset) (x : list R) : R * R :=
  match compute_cache (params me) (@me_chol me (length w)) (@inputs w) (outputs k w) with
  | Ok cache =>
    match evaluate (params me) R_sqrt.sqrt (me_beta me) cache (@inputs w) (fun _ : 'I_1 => x) with
    | Ok (M, B) => (M 0 0, B 0 0)
    | Err _ => (R0, R0)
    end
  | Err _ => (R0, R0)
  end.

(** The stack at a state and an action: the inputs are concatenated, the outputs of
    the members stand side by side, functions.py lines 279-291. *)
Fixpoint stack_from (k : nat) (ms : list member) (w : dataset) (x : list R) : list (R * R) :=
  match ms with
  | nil => nil
  | cons me ms' => cons (member_eval k me w x) (stack_from k.+1 ms' w x)
  end.
Definition stack_dynamics (ms : list member) (w : dataset) (s u : list R) : prediction :=
  let outs := stack_from 0 ms w (List.app s u) in
  Uncertain (List.map fst outs) (List.map snd outs).
