(** Model of the helpers in [safe_learning/utilities.py]: [concatenate_inputs]
    (lines 123-159), [add_weight_constraint], [gradient_clipping] (162-221),
    [batchify] (224-249), [combinations], [linearly_spaced_combinations]
    (252-296), [get_storage], [set_storage] (411-472), [unique_rows] (496-516)
    and [compute_trajectory] (519-583).

    Simplifications: arrays are lists (of rows); float64 values are real numbers
    unless a definition is generic in the type of the entries; numpy arrays with
    more than two dimensions are not modelled (except inside [combinations]). *)
From Coq Require Import String Reals List Bool Arith ZArith Lia.
From Verif Require Import Prelude NumModel.
Import ListNotations.
Local Open Scope nat_scope.

(** ** [batchify], lines 224-249 *)

(** Python slicing [a[i:j]] for arbitrary integers. *)
Definition py_slice {A} (i j : Z) (l : list A) : list A :=
  let n := Z.of_nat (length l) in
  let norm := fun k => (Z.min (if k <? 0 then Z.max (k + n) 0 else k) n)%Z in
  slice (Z.to_nat (norm i)) (Z.to_nat (norm j)) l.

(** The generator from offset [i] on: the yielded pairs (offset, batches).  The
    fuel bounds the number of iterations; [None] means that it was not enough.
    An empty list of arrays raises IndexError (line 246). Rows have at least
    one entry, so that [size] is 0 exactly for arrays without rows. *)
Fixpoint batches_from {A} (fuel : nat) (arrays : list (list A)) (bs i : Z)
    : option (res (list (Z * list (list A)))) :=
  match fuel with
  | O => None
  | S fuel' =>
    match map (py_slice i (i + bs)%Z) arrays with
    | [] => Some (Err IndexError)
    | [] :: _ => Some (Ok [])
    | b =>
      match batches_from fuel' arrays bs (i + bs)%Z with
      | Some (Ok rest) => Some (Ok ((i, b) :: rest))
      | other => other
      end
    end
  end.
Definition batchify {A} (fuel : nat) (arrays : list (list A)) (bs : Z) :=
  batches_from fuel arrays bs 0%Z.

(** ** [combinations], lines 252-264 *)

(** An n-dimensional array: shape and entries. *)
Record nd (A : Type) := { shape : list Z; at_index : list Z -> A }.
Arguments shape {A}. Arguments at_index {A}.

(** Exchange of the first two axes. *)
Definition swap01 {B} (l : list B) : list B :=
  match l with a :: b :: t => b :: a :: t | _ => l end.

(** Output number [k] of [np.meshgrid( *arrays)] (indexing 'xy'): the first two
    axes are swapped. *)
Definition meshgrid_xy {A} (d : A) (arrays : list (list A)) (k : nat) : nd A :=
  {| shape := swap01 (map (fun a => Z.of_nat (length a)) arrays);
     at_index := fun j => nth (Z.to_nat (nth k (swap01 j) 0%Z)) (nth k arrays []) d |}.
(** [np.array(list of equally shaped arrays)]. *)
Definition stack {A} (n : nat) (outs : nat -> nd A) : nd A :=
  {| shape := Z.of_nat n :: shape (outs 0);
     at_index := fun j => at_index (outs (Z.to_nat (nth 0 j 0%Z))) (tl j) |}.
(** [.T]. *)
Definition transpose_nd {A} (a : nd A) : nd A :=
  {| shape := rev (shape a); at_index := fun j => at_index a (rev j) |}.
(** [.reshape(-1, n)] for n > 0. *)
Definition reshape_rows {A} (n : nat) (a : nd A) : list (list A) :=
  map (fun r => map (fun c => at_index a (unravel (Z.of_nat (r * n + c)) (shape a))) (seq 0 n))
      (seq 0 (Z.to_nat (prodZ (shape a) / Z.of_nat n))).

(** Line 264.  For no arrays, [reshape(-1, 0)] raises ValueError. *)
Definition combinations {A} (d : A) (arrays : list (list A)) : res (list (list A)) :=
  match arrays with
  | [] => Err ValueError
  | _ => Ok (reshape_rows (length arrays)
               (transpose_nd (stack (length arrays) (meshgrid_xy d arrays))))
  end.

(** [num_samples]: an integer or an integer array, line 289. *)
Inductive samples_arg := Samples (n : Z) | SamplesArr (ns : list Z).
Definition broadcast_samples (a : samples_arg) (d : nat) : res (list Z) :=
  match a with
  | Samples n => Ok (repeat n d)
  | SamplesArr ns =>
    if length ns =? d then Ok ns
    else if length ns =? 1 then Ok (repeat (nth 0 ns 0%Z) d)
    else Err ValueError
  end.

(** [np.linspace] raises ValueError for a negative number of samples; for one
    sample it is [[low]]. *)
Definition np_linspace (b : R * R) (n : Z) : res (list R) :=
  if (n <? 0)%Z then Err ValueError
  else if (n =? 1)%Z then Ok [fst b]
  else Ok (linspace (fst b) (snd b) n).

(** Lines 267-296. *)
Definition linearly_spaced_combinations (bounds : list (R * R)) (a : samples_arg)
    : res (list (list R)) :=
  do ns <- broadcast_samples a (length bounds);
  do inputs <- mapM (fun bn => np_linspace (fst bn) (snd bn)) (combine bounds ns);
  combinations 0%R inputs.

(** ** [unique_rows], lines 496-516 *)

(** [np.unique(..., return_index=True)] on the rows viewed as byte strings: a
    stable argsort, then the first row of every run of equal rows.  [leb] is the
    order of the byte strings. *)
Fixpoint insert {B} (leb : B -> B -> bool) (x : B) (l : list B) : list B :=
  match l with
  | [] => [x]
  | y :: t => if leb x y then x :: y :: t else y :: insert leb x t
  end.
Definition isort {B} (leb : B -> B -> bool) (l : list B) : list B :=
  fold_right (insert leb) [] l.
Fixpoint run_starts {B} (leb : B -> B -> bool) (prev : option B) (l : list B) : list B :=
  match l with
  | [] => []
  | x :: t =>
    match prev with
    | Some p => if leb p x && leb x p then run_starts leb (Some x) t
                else x :: run_starts leb (Some x) t
    | None => x :: run_starts leb (Some x) t
    end
  end.
Definition unique_index {B} (leb : B -> B -> bool) (d : B) (rows : list B) : list nat :=
  let leb' := fun i j => leb (nth i rows d) (nth j rows d) in
  run_starts leb' None (isort leb' (seq 0 (length rows))).
Definition unique_rows {B} (leb : B -> B -> bool) (d : B) (rows : list B) : list B :=
  map (fun i => nth i rows d) (unique_index leb d rows).

(** Lexicographic order of byte strings ([memcmp]). *)
Fixpoint bytes_leb (a b : list Z) : bool :=
  match a, b with
  | [], _ => true
  | _ :: _, [] => false
  | x :: a', y :: b' => if (x <? y)%Z then true else if (y <? x)%Z then false else bytes_leb a' b'
  end.
(** The bytes of a 64 bit word in memory (little endian). *)
Fixpoint le_bytes (n : nat) (w : Z) : list Z :=
  match n with O => [] | S n' => (w mod 256)%Z :: le_bytes n' (w / 256)%Z end.

(** ** Storage, lines 411-472 *)

(** Keys are indices and names (both hashable Python objects); entries of a
    dictionary are stored values or dictionaries, in insertion order. *)
Section Storage.
  Context {K P : Type} (eqK : forall a b : K, {a = b} + {a <> b}).

  Inductive obj := Value (p : P) | Dict (l : list (K * obj)).

  Fixpoint dict_get (l : list (K * obj)) (k : K) : option obj :=
    match l with
    | [] => None
    | (k', o) :: t => if eqK k k' then Some o else dict_get t k
    end.
  Fixpoint dict_set (l : list (K * obj)) (k : K) (o : obj) : list (K * obj) :=
    match l with
    | [] => [(k, o)]
    | (k', o') :: t => if eqK k k' then (k', o) :: t else (k', o') :: dict_set t k o
    end.
  (** [OrderedDict(name_value)]. *)
  Definition ordered_dict (nv : list (K * P)) : list (K * obj) :=
    fold_left (fun d kv => dict_set d (fst kv) (Value (snd kv))) nv [].

  (** The outer dictionary maps the name of the calling function to the
      storage. *)
  Definition store := list (string * list (K * obj)).
  Fixpoint store_get (s : store) (f : string) : option (list (K * obj)) :=
    match s with
    | [] => None
    | (f', d) :: t => if string_dec f f' then Some d else store_get t f
    end.
  Fixpoint store_set (s : store) (f : string) (d : list (K * obj)) : store :=
    match s with
    | [] => [(f, d)]
    | (f', d') :: t => if string_dec f f' then (f', d) :: t else (f', d') :: store_set t f d
    end.

  (** Lines 409-441; the result is [None] or a Python object. *)
  Definition get_storage (s : store) (caller : string) (index : option K) : option obj :=
    match index with
    | None => option_map Dict (store_get s caller)
    | Some i =>
      match store_get s caller with
      | None => None
      | Some d => dict_get d i
      end
    end.

  (** Lines 444-471. *)
  Definition set_storage (s : store) (caller : string) (nv : list (K * P))
      (index : option K) : store :=
    let d := ordered_dict nv in
    match index with
    | None => store_set s caller d
    | Some i =>
      let s := match store_get s caller with None => store_set s caller [] | Some _ => s end in
      match store_get s caller with
      | Some inner => store_set s caller (dict_set inner i (Dict d))
      | None => s
      end
    end.
End Storage.
Arguments obj : clear implicits.

(** ** [compute_trajectory], lines 519-583 *)

(** Assignment of one row to a row of length [d]: rows of length 1 are
    broadcast. *)
Definition assign_row (d : nat) (row : list R) : res (list R) :=
  if length row =? d then Ok row
  else if length row =? 1 then Ok (repeat (nth 0 row 0%R) d)
  else Err ValueError.

(** The loop of lines 578-581 for [n] steps from state [x]: the states and
    actions written.  [d] and [m] are the widths of the two arrays. *)
Fixpoint simulate (dyn : list R -> list R -> list R) (pol : list R -> list R)
    (d m : nat) (n : nat) (x : list R) : res (list (list R) * list (list R)) :=
  match n with
  | O => Ok ([], [])
  | S n' =>
    do next <- assign_row d (dyn x (pol x));
    do act <- assign_row m (pol x);
    do r <- simulate dyn pol d m n' next;
    Ok (next :: fst r, act :: snd r)
  end.

(** [dyn] and [pol] are the functions evaluated by the graph (one state per
    call, deterministic dynamics), [m] is [policy.output_dim].  The initial
    state has one row; for [num_steps <= 0], [np.empty] with a negative
    dimension raises ValueError (line 569). *)
Definition compute_trajectory (dyn : list R -> list R -> list R) (pol : list R -> list R)
    (m : nat) (initial : list R) (num_steps : Z)
    : res (list (list R) * list (list R)) :=
  if (num_steps <=? 0)%Z then Err ValueError
  else
    do r <- simulate dyn pol (length initial) m (Z.to_nat num_steps - 1) initial;
    Ok (initial :: fst r, snd r).

(** ** Constrained optimisation, lines 162-221 *)

(** The values of all variables, as flat arrays, by variable number. *)
Definition vars := nat -> list R.
Definition set_var (e : vars) (v : nat) (x : list R) : vars :=
  fun w => if w =? v then x else e w.

(** [tf.clip_by_value]. *)
Definition tf_clip (lo hi x : R) : R := Rmax (Rmin x hi) lo.

(** One run of the list of assign operations returned by
    [add_weight_constraint], lines 180-186.  The clip operation runs after the
    optimization, but the tensor through which TensorFlow 1 reads a reference
    variable is created outside of the [control_dependencies] block; so it is
    left open ([late]) whether the variable is read before or after the
    optimization step. *)
Definition add_weight_constraint (late : nat -> bool) (optimization : vars -> vars)
    (var_list : list nat) (bound_list : list (R * R)) (e : vars) : vars :=
  let e1 := optimization e in
  fold_left (fun e' vb =>
      let '(v, (lo, hi)) := vb in
      set_var e' v (map (tf_clip lo hi) ((if late v then e1 else e) v)))
    (combine var_list bound_list) e1.

(** [gradient_clipping], lines 215-221.  [grads] are the pairs returned by
    [optimizer.compute_gradients] (the gradient is None if the loss does not
    depend on the variable, and then [clip_by_value] raises ValueError). The
    result is the list that is passed on to [optimizer.apply_gradients]. *)
Definition clipped_gradients (grads : list (option (list R) * nat)) (limits : list (R * R))
    : res (list (list R * nat)) :=
  mapM (fun gl =>
      let '((g, v), (lo, hi)) := gl in
      match g with
      | Some g => Ok (map (tf_clip lo hi) g, v)
      | None => Err ValueError
      end) (combine grads limits).
Definition gradient_clipping (apply : list (list R * nat) -> vars -> vars)
    (grads : list (option (list R) * nat)) (limits : list (R * R)) (e : vars) : res vars :=
  do cs <- clipped_gradients grads limits; Ok (apply cs e).

(** ** [concatenate_inputs], lines 123-159 *)

(** Positional arguments: numbers, arrays with one or two axes, and tensors with
    one or two axes. *)
Inductive arg (A : Type) :=
| Num (x : A) | Arr1 (v : list A) | Arr2 (m : list (list A))
| Ten1 (v : list A) | Ten2 (m : list (list A)).
Arguments Num {A}. Arguments Arr1 {A}. Arguments Arr2 {A}.
Arguments Ten1 {A}. Arguments Ten2 {A}.

Definition is_tensor {A} (a : arg A) : bool :=
  match a with Ten1 _ | Ten2 _ => true | _ => false end.

(** [np.atleast_2d]. *)
Definition atleast_2d {A} (a : arg A) : list (list A) :=
  match a with
  | Num x => [[x]] | Arr1 v => [v] | Arr2 m => m | Ten1 v => [v] | Ten2 m => m
  end.
(** Concatenation of matrices along axis 1; the numbers of rows must agree. *)
Fixpoint hcat {A} (n : nat) (ms : list (list (list A))) : list (list A) :=
  match ms with
  | [] => repeat [] n
  | m :: t => map2 (@app A) m (hcat n t)
  end.
Definition hstack {A} (ms : list (list (list A))) : res (list (list A)) :=
  match ms with
  | [] => Err ValueError
  | m :: t => if forallb (fun m' => length m' =? length m) t
              then Ok (hcat (length m) ms) else Err ValueError
  end.
(** [tf.concat(args, axis=1)]: all arguments need two axes. *)
Definition tf_concat {A} (args : list (arg A)) : res (list (list A)) :=
  do ms <- mapM (fun a => match a with Arr2 m | Ten2 m => Ok m | _ => Err ValueError end) args;
  hstack ms.

(** The arguments passed on to the wrapped function. *)
Definition concatenate_inputs {A} (start : nat) (args : list (arg A)) : res (list (arg A)) :=
  let rest := skipn start args in
  let nargs := (Z.of_nat (length args) - Z.of_nat start)%Z in
  if existsb is_tensor rest then
    if (nargs =? 1)%Z then Ok args
    else do m <- tf_concat rest; Ok (firstn start args ++ [Ten2 m])
  else
    let ms := map atleast_2d rest in
    if (nargs =? 1)%Z then Ok (firstn start args ++ map Arr2 ms)
    else do m <- hstack ms; Ok (firstn start args ++ [Arr2 m]).
