(** A [ring] tactic for the elements of a real field of mathcomp. *)
From mathcomp Require Import all_ssreflect all_algebra.
Set Implicit Arguments.
Unset Strict Implicit.
Import GRing.Theory.
Local Open Scope ring_scope.

Section Ring.
Variable F : realFieldType.
Definition radd (x y : F) : F := x + y.
Definition rmul (x y : F) : F := x * y.
Definition rsub (x y : F) : F := x - y.
Definition ropp (x : F) : F := - x.
Definition rzero : F := 0.
Definition rone : F := 1.
Lemma F_ring : ring_theory rzero rone radd rmul rsub ropp eq.
Proof.
  constructor; [exact: add0r|exact: addrC|exact: addrA|exact: mul1r|exact: mulrC
    |exact: mulrA|exact: mulrDl|by []|exact: addrN].
Qed.
End Ring.

Ltac fold_ring F :=
  repeat match goal with
  | |- context [@GRing.add ?V ?x ?y] => change (@GRing.add V x y) with (@radd F x y)
  | |- context [@GRing.opp ?V ?x] => change (@GRing.opp V x) with (@ropp F x)
  | |- context [@GRing.mul ?V ?x ?y] => change (@GRing.mul V x y) with (@rmul F x y)
  | |- context [GRing.zero ?V] => change (GRing.zero V) with (rzero F)
  | |- context [GRing.one ?V] => change (GRing.one V) with (rone F)
  end;
  match goal with |- @eq _ ?x ?y => change (@eq (Num.RealField.sort F) x y) end.
