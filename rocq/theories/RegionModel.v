(** Model of [smallest_boundary_value] and [get_lyapunov_region]
    ([safe_learning/lyapunov.py] lines 22-139).

    Simplifications.
    - The TensorFlow function is a function [f] from states to real numbers.
    - [heapq] is a list from which the least entry is taken; entries are
      compared by (value, tiebreaker), the tiebreakers are distinct.
    - The boolean array [visited] is a function on multi-indices; numpy's
      wrap-around of negative indices is [wrap].
    - [init_node] has one entry per dimension (a shorter tuple would select a
      sub-array in numpy).                                                    *)
From Coq Require Import Reals List Bool Arith ZArith.
From Verif Require Import Prelude NumModel GridModel.
Import ListNotations.
Local Open Scope nat_scope.

(** ** lines 22-56 *)

(** Minimum with [np.inf], written [None]. *)
Definition omin (a b : option R) : option R :=
  match a, b with
  | None, x | x, None => x
  | Some x, Some y => Some (Rmin x y)
  end.
(** [tf.reduce_min]. *)
Definition reduce_min (l : list R) : option R :=
  fold_right (fun x acc => omin (Some x) acc) None l.

(** [discrete_points[i][[0, -1]]], line 46. *)
Definition ends (l : list R) : list R := [nth 0 l 0%R; last l 0%R].

(** The points checked for axis [i], lines 45-50. *)
Definition boundary_points (g : grid) (i : nat) : list (list R) :=
  let d := discrete_points g in
  meshgrid_ij (set_nth i (ends (nth i d [])) d).

(** Lines 39-56. *)
Definition smallest_boundary_value (f : list R -> R) (g : grid) : option R :=
  fold_left (fun m i => omin m (reduce_min (map f (boundary_points g i))))
            (seq 0 (ndim g)) None.

(** ** lines 59-139 *)

Inductive python := Py2 | Py3.

(** The starting node is a tuple, all later nodes are numpy arrays. *)
Inductive node := Tup (ks : list Z) | Arr (ks : list Z).
Definition node_ks (n : node) : list Z := match n with Tup ks | Arr ks => ks end.

(** [np.any(0 == next_node) or np.any(next_node == num_points - 1)], line 107.
    Comparing a tuple with the number 0 is just [False]. *)
Definition at_boundary (ns : list Z) (n : node) : bool :=
  (match n with Tup _ => false | Arr ks => existsb (Z.eqb 0) ks end)
  || existsb (fun b => b) (map2 (fun k m => (k =? m - 1)%Z) (node_ks n) ns).

(** An index into an axis of length [n]; negative ones count from the end. *)
Definition wrap (n k : Z) : res Z :=
  if (0 <=? k)%Z && (k <? n)%Z then Ok k
  else if (- n <=? k)%Z && (k <? 0)%Z then Ok (k + n)%Z
  else Err IndexError.
Definition wrap_node (ns ks : list Z) : res (list Z) :=
  if length ks =? length ns then mapM (fun p => wrap (fst p) (snd p)) (combine ns ks)
  else Err IndexError.

(** Lines 88-90: [itertools.product] of (0, -1, 1) without the first one. *)
Definition neighbor_indeces (d : nat) : list (list Z) :=
  tl (meshgrid_ij (repeat [0; -1; 1]%Z d)).

Definition visited_array := list Z -> bool.
Definition set_visited (v : visited_array) (x : list Z) (b : bool) : visited_array :=
  fun y => if list_eq_dec Z.eq_dec x y then b else v y.

(** Queue entries: value, tiebreaker, node. *)
Definition entry : Type := R * nat * node.
Definition e_val (e : entry) : R := fst (fst e).
Definition e_count (e : entry) : nat := snd (fst e).
Definition e_node (e : entry) : node := snd e.
Definition before (a b : entry) : bool :=
  if Rlt_dec (e_val a) (e_val b) then true
  else if Rlt_dec (e_val b) (e_val a) then false
  else e_count a <=? e_count b.

(** [heappop]. *)
Fixpoint pop_min (q : list entry) : option (entry * list entry) :=
  match q with
  | [] => None
  | e :: t =>
    match pop_min t with
    | None => Some (e, [])
    | Some (m, r) => if before e m then Some (e, t) else Some (m, e :: r)
    end
  end.

(** [heappush] of the new neighbours, lines 131-132. *)
Fixpoint push_all (q : list entry) (count : nat) (vs : list R) (nbs : list (list Z))
    : list entry * nat :=
  match vs, nbs with
  | v :: vs', nb :: nbs' => push_all ((v, count, Arr nb) :: q) (S count) vs' nbs'
  | _, _ => (q, count)
  end.

(** The loop of lines 101-132; [val] gives the entries of [lyapunov_values].
    The fuel is only there for the termination checker of Coq. *)
Fixpoint search (fuel : nat) (ns : list Z) (val : list Z -> R)
    (visited : visited_array) (queue : list entry) (count : nat) (last_value : R)
    : res (visited_array * list entry) :=
  match fuel with
  | O => Err OtherError
  | S fuel' =>
    match pop_min queue with
    | None => Ok (visited, queue)
    | Some (e, queue) =>
      let ks := node_ks (e_node e) in
      if at_boundary ns (e_node e) then
        do w <- wrap_node ns ks;
        Ok (set_visited visited w false, queue)
      else if Rlt_dec (e_val e) last_value then Ok (visited, queue)
      else
        let neighbors := map (map2 Z.add ks) (neighbor_indeces (length ns)) in
        do ws <- mapM (wrap_node ns) neighbors;
        let is_new := map (fun w => negb (visited w)) ws in
        let neighbors := mask is_new neighbors in
        let ws := mask is_new ws in
        let visited := fold_left (fun v w => set_visited v w true) ws visited in
        let (queue, count) := push_all queue count (map val ws) neighbors in
        search fuel' ns val visited queue count (e_val e)
    end
  end.

(** Lines 59-139.  [tiebreaker.next()] (line 99) exists in Python 2 only. *)
Definition get_lyapunov_region (py : python) (f : list R -> R) (g : grid)
    (init : list Z) : res visited_array :=
  let ns := num_points g in
  let values := map f (all_points g) in
  let val := fun w => nth (Z.to_nat (ravel w ns)) values 0%R in
  do w0 <- wrap_node ns init;
  let visited := set_visited (fun _ => false) w0 true in
  match py with
  | Py3 => Err AttributeError
  | Py2 =>
    do r <- search (S (length values)) ns val visited
                   [(val w0, 0, Tup init)] 1 (val w0);
    let (visited, queue) := r in
    do ws <- mapM (fun e => wrap_node ns (node_ks (e_node e))) queue;
    Ok (fold_left (fun v w => set_visited v w false) ws visited)
  end.
