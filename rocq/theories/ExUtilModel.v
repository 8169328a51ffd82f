(** Model of the helpers [constrained_batch_sampler], [get_parameter_change],
    [gridify], [find_nearest], [balanced_confusion_weights],
    [balanced_class_weights], [monomials] and [derivative_monomials]
    (examples/utilities.py, lines 548-599, 639-651 and 703-811).

    Simplifications.  Arrays are lists of real numbers or booleans, batches are lists
    of rows, arithmetic is exact.  The random batch is an argument. *)
From Coq Require Import String ZArith Reals List Bool Arith.
From Verif Require Import Prelude GridModel.
Import ListNotations.
Local Open Scope R_scope.
Local Open Scope nat_scope.
Local Open Scope R_scope.

Notation row := (list R).
Notation batch := (list (list R)).

(** ** [constrained_batch_sampler], lines 548-567 *)

(** [tf.gather(batch, tf.squeeze(tf.where(mask)))]: [tf.squeeze] turns a single
    index into a scalar, so one row is returned as a vector. *)
Inductive sampled := Rows (b : batch) | Single (x : row).
Definition gather_where (keep : list bool) (b : batch) : sampled :=
  match Prelude.mask keep b with
  | [x] => Single x
  | l => Rows l
  end.
Definition within (c : R) (x : row) : bool :=
  forallb (fun a => andb (if Rle_dec (- c) a then true else false) (if Rle_dec a c then true else false)) x.

(** The number of rows is not known when the graph is built, so the comparison
    with 0 in line 562 never holds; the paddings in line 565 are for two axes. *)
Definition constrained_batch (b : batch) (policy : batch -> res batch)
    (dynamics : batch -> batch -> res batch) (action_limit : option R) (state_dim zero_pad : nat)
    : res sampled :=
  do actions <- policy b;
  do future <- dynamics b actions;
  let constrained := gather_where (map (within 1) future) b in
  let constrained := match action_limit with
                     | None => constrained
                     | Some c => gather_where (map (within (Rabs c)) actions) b
                     end in
  if Nat.ltb 0 zero_pad then
    match constrained with
    | Rows l => Ok (Rows (l ++ repeat (repeat 0 state_dim) zero_pad))
    | Single _ => Err OtherError
    end
  else Ok constrained.

(** ** [get_parameter_change], lines 570-599; lists of parameters, each one
    flattened. *)
Inductive norm_order := OrdString (s : string) | OrdInf | OrdMinusInf | OrdOne | OrdTwo.
Definition vec_norm (ord : norm_order) (x : row) : res R :=
  match ord, x with
  | OrdString _, _ => Err ValueError
  | (OrdInf | OrdMinusInf), [] => Err ValueError
  | OrdInf, a :: l => Ok (fold_left (fun m y => Rmax m (Rabs y)) l (Rabs a))
  | OrdMinusInf, a :: l => Ok (fold_left (fun m y => Rmin m (Rabs y)) l (Rabs a))
  | OrdOne, _ => Ok (fold_right (fun y s => Rabs y + s) 0 x)
  | OrdTwo, _ => Ok (sqrt (fold_right (fun y s => Rsqr y + s) 0 x))
  end.
(** [new_params - old_params] for 1d arrays. *)
Definition subtract (x y : row) : res row :=
  match x, y with
  | [a], _ => Ok (map (fun b => a - b) y)
  | _, [b] => Ok (map (fun a => a - b) x)
  | _, _ => if Nat.eqb (List.length x) (List.length y) then Ok (map2 Rminus x y) else Err ValueError
  end.
Definition get_parameter_change (old_params new_params : list row) (ord : norm_order) : res R :=
  let ord := match ord with
             | OrdString s => if String.eqb s "inf" then OrdInf
                              else if String.eqb s "-inf" then OrdMinusInf else ord
             | _ => ord
             end in
  match old_params, new_params with
  | [], _ | _, [] => Err ValueError
  | _, _ => do d <- subtract (List.concat new_params) (List.concat old_params); vec_norm ord d
  end.

(** ** [gridify], lines 639-651, for arrays of the same length. *)
Definition gridify (norms : row) (maxes : option row) (num_points : npoints_arg) : res grid :=
  let maxes := match maxes with None => norms | Some m => m end in
  if Nat.eqb (List.length maxes) (List.length norms) then
    let lims := map2 (fun m n => (- m / n, m / n)) maxes norms in
    make_grid lims (match num_points with
                    | Scalar n => Vector (repeat n (List.length norms))
                    | v => v
                    end)
  else Err ValueError.

(** ** [find_nearest], lines 703-710 *)

(** [np.searchsorted(.., side='left')] is a binary search. *)
Fixpoint search_left (fuel : nat) (a : row) (v : R) (lo hi : nat) : nat :=
  match fuel with
  | O => lo
  | S fuel' =>
      if Nat.ltb lo hi then
        let mid := (lo + Nat.div (hi - lo) 2)%nat in
        if Rlt_dec (nth mid a 0) v then search_left fuel' a v (S mid) hi
        else search_left fuel' a v lo mid
      else lo
  end.
Definition searchsorted (a : row) (v : R) : nat := search_left (List.length a) a v 0 (List.length a).
(** [np.sort] *)
Fixpoint insert_sorted (x : R) (l : row) : row :=
  match l with
  | [] => [x]
  | y :: l' => if Rle_dec x y then x :: l else y :: insert_sorted x l'
  end.
Definition np_sort (l : row) : row := fold_right insert_sorted [] l.

Definition find_nearest (array : row) (value : R) (sorted_1d : bool) : res (nat * R) :=
  let array := if sorted_1d then array else np_sort array in
  let idx := searchsorted array value in
  let idx := if Nat.ltb 0 idx then
               if Nat.eqb idx (List.length array) then (idx - 1)%nat
               else if Rlt_dec (Rabs (value - nth (idx - 1) array 0)) (Rabs (value - nth idx array 0))
                    then (idx - 1)%nat else idx
             else idx in
  match nth_error array idx with
  | Some x => Ok (idx, x)
  | None => Err IndexError
  end.

(** ** [balanced_class_weights], lines 737-750 *)
Definition count (l : list bool) : nat := List.length (filter (fun b => b) l).
(** [weights[mask] /= c] *)
Definition divide_where (sel : list bool) (c : R) (w : row) : row :=
  map2 (fun (b : bool) x => if b then x / c else x) sel w.
Definition balanced_class_weights (y : list bool) (scale_by_total : bool) : row * list nat :=
  let nP := count y in
  let nN := (List.length y - count y)%nat in
  let w := repeat 1 (List.length y) in
  let w := divide_where y (INR nP) w in
  let w := divide_where (map negb y) (INR nN) w in
  let w := if scale_by_total then map (fun x => x * INR (List.length y)) w else w in
  (w, [nN; nP]).

(** [balanced_confusion_weights], lines 713-734, for arrays of the same size. *)
Definition conf_mask (p q : bool) (y y_true : list bool) : list bool :=
  map2 (fun a b => andb (Bool.eqb a p) (Bool.eqb b q)) y y_true.
Definition balanced_confusion_weights (y y_true : list bool) (scale_by_total : bool)
    : res (row * list (list nat)) :=
  if Nat.eqb (List.length y) (List.length y_true) then
    let TP := count (conf_mask true true y y_true) in
    let TN := count (conf_mask false false y y_true) in
    let FP := count (conf_mask true false y y_true) in
    let FN := count (conf_mask false true y y_true) in
    let w := repeat 1 (List.length y) in
    let w := divide_where (conf_mask true true y y_true) (INR TP) w in
    let w := divide_where (conf_mask false false y y_true) (INR TN) w in
    let w := divide_where (conf_mask true false y y_true) (INR FP) w in
    let w := divide_where (conf_mask false true y y_true) (INR FN) w in
    let w := if scale_by_total then map (fun x => x * INR (List.length y)) w else w in
    Ok (w, [[TN; FN]; [FP; TP]])
  else Err ValueError.

(** ** [monomials], lines 753-782, and [derivative_monomials], lines 785-811, for
    one row x. *)
Definition column (x : row) (k : nat) : res R :=
  match nth_error x k with Some a => Ok a | None => Err IndexError end.
Definition monomials (x : row) (deg : nat) : res row :=
  do z2 <- (if Nat.leb 2 deg then
              do a <- column x 0; do b <- column x 1; Ok [a ^ 2; a * b; b ^ 2]
            else Ok []);
  do z3 <- (if Nat.leb 3 deg then
              do a <- column x 0; do b <- column x 1;
              Ok [a ^ 3; a ^ 2 * b; a * b ^ 2; b ^ 3]
            else Ok []);
  do z4 <- (if Nat.leb 4 deg then
              do a <- column x 0; do b <- column x 1;
              Ok [a ^ 4; a ^ 3 * b; a ^ 2 * b ^ 2; a * b ^ 3; b ^ 4]
            else Ok []);
  Ok (x ++ z2 ++ z3 ++ z4).

(** A row of zeros of width [dim] with the given entries in columns 0 and 1. *)
Definition feature (dim : nat) (d0 d1 : R) : row :=
  map (fun k => match k with O => d0 | 1%nat => d1 | _ => 0 end) (seq 0 dim).
Definition derivative_monomials (x : row) (deg : nat) : res (list row) :=
  let dim := List.length x in
  do a <- column x 0; do b <- column x 1;
  Ok ([feature dim 1 0; feature dim 0 1]
      ++ (if Nat.leb 2 deg then
            [feature dim (2 * a) 0; feature dim b a; feature dim 0 (2 * b)] else [])
      ++ (if Nat.leb 3 deg then
            [feature dim (3 * a ^ 2) 0; feature dim (2 * a * b) (a ^ 2);
             feature dim (b ^ 2) (2 * a * b); feature dim 0 (3 * b ^ 2)] else [])).
