(** Meaning of a COO sparse matrix: duplicate triplets add up. *)
From Coq Require Import List ZArith Reals Bool.
Import ListNotations.
From Verif Require Import Prelude GridModel.

Definition sumR (l : list R) : R := fold_right Rplus 0%R l.

(** The entry of the matrix at row [r], column [c]. *)
Definition coo_entry (M : coo) (r c : Z) : R :=
  sumR (map (fun t => if ((fst (snd t) =? r) && (snd (snd t) =? c))%Z then fst t else 0%R) (coo_data M)).

(** Row [r] of the product with the column vector [f]. *)
Definition coo_dot (M : coo) (f : Z -> R) (r : Z) : R :=
  sumR (map (fun t => if (fst (snd t) =? r)%Z then (fst t * f (snd (snd t)))%R else 0%R) (coo_data M)).

(** All triplets are inside the declared shape. *)
Definition coo_wf (M : coo) : Prop :=
  Forall (fun t => (0 <= fst (snd t) < coo_rows M)%Z /\ (0 <= snd (snd t) < coo_cols M)%Z) (coo_data M).

(** Column [o] of a matrix of vertex values given by rows. *)
Definition column (values : list (list R)) (o : nat) (i : Z) : R :=
  nth o (nth (Z.to_nat i) values []) 0%R.
