(** Model of the safe-set bookkeeping of [safe_learning/lyapunov.py], class
    [Lyapunov]: lines 177-225 ([__init__]), 290-303 ([is_safe], combined with
    the grid in [IsSafeModel]), 305-322 ([update_values]) and 407-606
    ([update_safe_set]).

    Simplifications.
    - The TensorFlow graph is replaced by the values that the graph evaluates
      to.  [cert] collects them: [neg x] is the entry of [tf_negative] for grid
      state number [x] (line 441), [nreq x] the entry of [tf_n_req] (line 454),
      and [passes j k n] the entry for fed state [j] of
      [tf.less(decrease, self.threshold(center k, tau / n))] (lines 474-476).
      All graph outputs are assumed to be row-wise: the entry of a state does
      not depend on which other states are in the batch.  [CertModel] defines
      these three functions from the dynamics, policy and Lyapunov function.
    - [np.argsort] (unstable quicksort) is an argument [order] of the call,
      constrained by [sorts_values] in [SafeSpec].
    - [initial_set] is a boolean mask, as documented in lines 169-170; index
      lists and index arrays are in [InitialModel].
    - Views into numpy arrays are modelled by writing the batch back.          *)
From Coq Require Import Reals List Bool Arith ZArith Lia.
From Verif Require Import Prelude.
Import ListNotations.

Record cert := {
  neg : nat -> bool;
  nreq : nat -> Z;
  passes : nat -> nat -> Z -> bool
}.

(** The mutable attributes of a [Lyapunov] instance, lines 183-221:
    [initial_safe_set], [adaptive], [values], [safe_set], [_refinement] and the
    value fed for the placeholder [c_max]. *)
Record lyap := {
  l_init : option (list bool);
  l_adaptive : bool;
  l_vals : list R;
  l_safe : list bool;
  l_ref : list Z;
  l_cmax : R
}.

(** [a[mask] = x], numpy boolean-mask assignment; raises [IndexError] if the
    mask does not have the length of the array. *)
Definition assign_mask {A} (a : list A) (m : list bool) (x : A) : res (list A) :=
  if length a =? length m
  then Ok (map2 (fun y (b : bool) => if b then x else y) a m)
  else Err IndexError.

(** [a[m] = x] for an optional mask: the pattern
    [if initial_set is not None: a[initial_set] = x]. *)
Definition assign_opt {A} (a : list A) (m : option (list bool)) (x : A)
    : res (list A) :=
  match m with None => Ok a | Some m => assign_mask a m x end.

(** [__init__], lines 177-225; [vals] is what [update_values] evaluates. *)
Definition lyap_init (vals : list R) (ini : option (list bool))
    (adaptive : bool) : res lyap :=
  let n := length vals in
  do s <- assign_opt (repeat false n) ini true;
  do r <- assign_opt (repeat 0%Z n) ini 1%Z;
  Ok {| l_init := ini; l_adaptive := adaptive; l_vals := vals;
        l_safe := s; l_ref := r; l_cmax := 0%R |}.

(** [update_values], lines 305-322: only [self.values] changes. *)
Definition update_values (L : lyap) (vals : list R) : lyap :=
  {| l_init := l_init L; l_adaptive := l_adaptive L; l_vals := vals;
     l_safe := l_safe L; l_ref := l_ref L; l_cmax := l_cmax L |}.

(** [a[idx]] with an integer index array. *)
Definition gather {A} (d : A) (a : list A) (idx : list nat) : list A :=
  map (fun i => nth i a d) idx.

(** [a[idx] = b] with an integer index array: assignments in order. *)
Definition scatter {A} (a : list A) (idx : list nat) (b : list A) : list A :=
  fold_left (fun acc p => set_nth (fst p) (snd p) acc) (combine idx b) a.

(** Outcome of one pass through the body of the loop, lines 524-587: new
    [safe_batch], [refine_batch], the local variables [bound] and
    [refine_bound], and whether the pass ended with [break]. *)
Record pass := {
  p_safe : list bool;
  p_ref : list Z;
  p_bound : nat;
  p_rbound : nat;
  p_break : bool
}.

(** [len(a) if np.all(a) else np.argmin(a)], lines 557-560 and 571-574. *)
Definition prefix_len (a : list bool) : nat :=
  if forallb (fun b => b) a then length a else argmin_bool a.

(** [a[k:] = x]. *)
Definition fill_from {A} (k : nat) (x : A) (a : list A) : list A :=
  firstn k a ++ repeat x (length a - k).

(** Lines 524-587, for a non-empty batch. *)
Definition batch_pass (C : cert) (adaptive : bool) (ini : option (list bool))
    (max_refinement : Z) (indices : list nat) (safe_batch : list bool)
    (refine_batch : list Z) : res pass :=
  let negative := map (neg C) indices in
  let safe1 := map2 orb safe_batch negative in
  let ref1 := map2 (fun r (b : bool) => if b then 1%Z else r)
                   refine_batch negative in
  let bound := argmin_bool safe1 in
  if (0 <? bound) || negb (nth 0 safe1 false) then
    if adaptive && (1 <? max_refinement)%Z then
      let ref2 := firstn bound ref1 ++ map (nreq C) (skipn bound indices) in
      match ini with
      | None => Err TypeError
      | Some m =>
        if negb (forallb (fun i => i <? length m) indices) then Err IndexError else
        let idx_safe := map2 orb negative (gather false m indices) in
        let ref3 := map2 (fun r (b : bool) => if b then 1%Z else r)
                         ref2 idx_safe in
        let check := skipn bound
              (map (fun r => (1 <=? r)%Z && (r <=? max_refinement)%Z) ref3) in
        let stop := prefix_len check in
        let fed := firstn stop (skipn bound indices) in
        let ns := firstn stop (skipn bound ref3) in
        let refined :=
          map2 (fun k n => forallb (fun j => passes C j k n) fed) fed ns in
        let rbound := if 0 <? stop then prefix_len refined else 0 in
        let safe2 := firstn bound safe1 ++ repeat true rbound
                     ++ skipn (bound + rbound) safe1 in
        if (stop <? length check) || (rbound <? stop) then
          Ok {| p_safe := fill_from (bound + rbound) false safe2;
                p_ref := fill_from (bound + rbound) 0%Z ref3;
                p_bound := bound; p_rbound := rbound; p_break := true |}
        else
          Ok {| p_safe := safe2; p_ref := ref3;
                p_bound := bound; p_rbound := rbound; p_break := false |}
      end
    else
      Ok {| p_safe := fill_from bound false safe1;
            p_ref := fill_from bound 0%Z ref1;
            p_bound := bound; p_rbound := 0; p_break := true |}
  else
    Ok {| p_safe := safe1; p_ref := ref1;
          p_bound := bound; p_rbound := 0; p_break := false |}.

(** [utilities.batchify], utilities.py lines 224-249, for a natural batch size:
    the start positions of the batches.  A batch size 0 yields nothing, because
    the first slice [a[0:0]] is empty. *)
Definition starts (n bs : nat) : list nat :=
  if bs =? 0 then [] else map (fun k => k * bs) (seq 0 ((n + bs - 1) / bs)).

(** The loop of lines 524-587.  [last] holds the values of the local variables
    [i], [bound] and [refine_bound] after the most recent pass; they are
    unbound if there was no pass. *)
Fixpoint verify (C : cert) (adaptive : bool) (ini : option (list bool))
    (max_refinement : Z) (order : list nat) (bs : nat)
    (batches : list nat) (safe : list bool) (ref : list Z)
    (last : option (nat * nat * nat))
    : res (list bool * list Z * option (nat * nat * nat)) :=
  match batches with
  | [] => Ok (safe, ref, last)
  | i :: rest =>
    do p <- batch_pass C adaptive ini max_refinement (slice i (i + bs) order)
              (slice i (i + bs) safe) (slice i (i + bs) ref);
    let safe' := splice safe i (p_safe p) in
    let ref' := splice ref i (p_ref p) in
    let last' := Some (i, p_bound p, p_rbound p) in
    if p_break p then Ok (safe', ref', last')
    else verify C adaptive ini max_refinement order bs rest safe' ref' last'
  end.

(** Lines 500-510: the starting safe set and refinement. *)
Definition start_sets (L : lyap) (can_shrink : bool)
    : res (list bool * list Z) :=
  if can_shrink then
    do s <- assign_opt (repeat false (length (l_safe L))) (l_init L) true;
    do r <- assign_opt (repeat 0%Z (length (l_ref L))) (l_init L) 1%Z;
    Ok (s, r)
  else Ok (l_safe L, l_ref L).

(** [update_safe_set], lines 497-602: the new safe set, refinement and [c_max],
    before the initial set is added again.  [max_index] may be negative, in which
    case numpy indexing wraps around. *)
Definition verified (L : lyap) (C : cert) (can_shrink : bool)
    (max_refinement : Z) (bs : nat) (order : list nat)
    : res (list bool * list Z * R) :=
  do sr <- start_sets L can_shrink;
  let safe0 := gather false (fst sr) order in
  let ref0 := gather 0%Z (snd sr) order in
  do w <- verify C (l_adaptive L) (l_init L) max_refinement order bs
            (starts (length order) bs) safe0 ref0 None;
  let '(safe, ref, last) := w in
  match last with
  | None => Err NameError
  | Some (i, bound, rbound) =>
    let max_index := (Z.of_nat (i + bound + rbound) - 1)%Z in
    do k <- py_nth order max_index;
    do c <- py_nth (l_vals L) (Z.of_nat k);
    let safe_nodes := mask safe order in
    let s1 := scatter (repeat false (length (l_safe L))) safe_nodes
                      (repeat true (length safe_nodes)) in
    let r1 := scatter (l_ref L) order ref in
    Ok (s1, r1, c)
  end.

(** The object with another safe set, refinement and [c_max]. *)
Definition store (L : lyap) (s : list bool) (r : list Z) (c : R) : lyap :=
  {| l_init := l_init L; l_adaptive := l_adaptive L; l_vals := l_vals L;
     l_safe := s; l_ref := r; l_cmax := c |}.

(** [update_safe_set], lines 497-606, for a call that returns. *)
Definition update_safe_set (L : lyap) (C : cert) (can_shrink : bool)
    (max_refinement : Z) (bs : nat) (order : list nat) : res lyap :=
  do f <- verified L C can_shrink max_refinement bs order;
  let '(s1, r1, c) := f in
  do s2 <- assign_opt s1 (l_init L) true;
  do r2 <- assign_opt r1 (l_init L) 1%Z;
  Ok (store L s2 r2 c).

(** [update_safe_set], lines 497-606, for any call: the object afterwards and the
    exception, if any.  No attribute is assigned before line 595; an exception in
    lines 605-606 comes after [c_max], [safe_set] and [_refinement] were assigned. *)
Definition update_effect (L : lyap) (C : cert) (can_shrink : bool)
    (max_refinement : Z) (bs : nat) (order : list nat) : lyap * option exn :=
  match verified L C can_shrink max_refinement bs order with
  | Err e => (L, Some e)
  | Ok (s1, r1, c) =>
    match assign_opt s1 (l_init L) true with
    | Err e => (store L s1 r1 c, Some e)
    | Ok s2 =>
      match assign_opt r1 (l_init L) 1%Z with
      | Err e => (store L s2 r1 c, Some e)
      | Ok r2 => (store L s2 r2 c, None)
      end
    end
  end.

(** A public call on the object.  The certificate may be different in every
    call (new data in the dynamics model, new policy), and the Lyapunov values
    change through [update_values]. *)
Inductive call :=
| CallValues (vals : list R)
| CallSafe (C : cert) (can_shrink : bool) (max_refinement : Z) (bs : nat)
           (order : list nat).

(** Executing a call: the resulting state of the object and the exception, if
    any. *)
Definition exec (L : lyap) (c : call) : lyap * option exn :=
  match c with
  | CallValues vals => (update_values L vals, None)
  | CallSafe C sh mr bs order =>
    update_effect L C sh mr bs order
  end.

Fixpoint exec_all (L : lyap) (cs : list call) : lyap :=
  match cs with
  | [] => L
  | c :: cs' => exec_all (fst (exec L c)) cs'
  end.
