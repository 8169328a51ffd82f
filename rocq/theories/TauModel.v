(** Model of the quotient [self.tau / n_req] of safe_learning/lyapunov.py:475,
    where [n_req] is an int32 tensor (line 462): TensorFlow (versions 1.6 to 1.12,
    requirements.txt:7) converts the left operand of a division to the type of the
    tensor before it divides.  [CertModel.certificate] has the exact quotient.

    Simplifications.  Exact arithmetic; tau is below 2^31.  As for all of the
    TensorFlow library, its rule for the conversion is not taken from the
    repository. *)
From Coq Require Import Reals List Bool Arith ZArith.
From Verif Require Import Prelude NumModel GridModel SafeModel CertModel.
Import ListNotations.
Local Open Scope R_scope.

(** The kind of number that was passed as [tau] (lyapunov.py:164-165, 195). *)
Inductive number_kind := PythonInt | PythonFloat | NumpyFloat | FloatTensor.

(** [astype(int32)]: towards zero. *)
Definition trunc (x : R) : Z := if Rle_dec 0 x then Int_part x else (- Int_part (- x))%Z.

(** [tf.convert_to_tensor(tau, dtype=tf.int32)], implied by lyapunov.py:475: integers are
    taken as they are, numpy numbers are cast, a Python float or a float tensor is
    refused. *)
Definition as_int32 (k : number_kind) (x : R) : res Z :=
  match k with
  | PythonInt | NumpyFloat => Ok (trunc x)
  | PythonFloat | FloatTensor => Err TypeError
  end.

(** The certificate of [CertModel] with the converted [tau] in the refined check,
    lyapunov.py:459-478. *)
Definition typed_certificate (S : setup) (q : Z) (safety_factor : R) (pt : nat -> list R) : cert :=
  {| neg := neg (certificate S safety_factor pt);
     nreq := nreq (certificate S safety_factor pt);
     passes := fun j k n =>
       Rltb (decrease S (pt j)) (threshold S (pt k) (IZR q / IZR n)) |}.

(** lyapunov.py:408-606, [update_safe_set]: the graph with the division is only built for
    adaptive objects (line 445), before any attribute is changed. *)
Definition update_typed (S : setup) (k : number_kind) (safety_factor : R) (pt : nat -> list R)
    (L : lyap) (can_shrink : bool) (max_refinement : Z) (bs : nat) (order : list nat) : res lyap :=
  do q <- (if l_adaptive L then as_int32 k (tau S) else Ok 0%Z);
  update_safe_set L (typed_certificate S q safety_factor pt) can_shrink max_refinement bs order.
