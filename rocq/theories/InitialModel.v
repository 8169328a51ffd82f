(** Model of the ways to give an initial safe set to [safe_learning/lyapunov.py],
    class [Lyapunov]: lines 190-192 and 222-225 ([__init__]), 504-506, 546-549 and
    604-606 ([update_safe_set]).  The documentation (lines 169-170) asks for a boolean
    array; numpy indexing also accepts lists and arrays of indices, and the unit tests
    of the repository use lists of indices.

    The definitions are those of [SafeModel], with the two uses of the initial set,
    [a[initial_set] = x] and [initial_set[indices]], as functions.  The initial set is
    the argument [ini]; the field [l_init] of the record is not used here.

    Simplifications: as in [SafeModel]; a boolean mask is an array, not a list, and an
    array of indices is one-dimensional. *)
From Coq Require Import Reals List Bool Arith ZArith.
From Verif Require Import Prelude SafeModel.
Import ListNotations.

(** A boolean array, or indices: in an array ([array = true]) or in a list. *)
Inductive initial :=
| Mask (m : list bool)
| Indices (array : bool) (l : list Z).

(** An index of numpy: negative ones count from the end. *)
Definition position (n : nat) (z : Z) : res nat :=
  if ((0 <=? z) && (z <? Z.of_nat n))%Z then Ok (Z.to_nat z)
  else if ((- Z.of_nat n <=? z) && (z <? 0))%Z then Ok (Z.to_nat (z + Z.of_nat n))
  else Err IndexError.

(** [a[initial_set] = x], lines 192, 225, 505, 506, 605, 606; all indices are checked
    before the first assignment. *)
Definition assign_initial {A} (a : list A) (ini : option initial) (x : A) : res (list A) :=
  match ini with
  | None => Ok a
  | Some (Mask m) => assign_mask a m x
  | Some (Indices _ l) =>
    do ks <- mapM (position (length a)) l;
    Ok (fold_left (fun acc k => set_nth k x acc) ks a)
  end.

(** [self.initial_safe_set[indices]] in line 548, as truth values: [None] and a list
    cannot be indexed with an array, and an array of indices gives those of its
    entries that have the numbers [indices]. *)
Definition lookup_initial (ini : option initial) (indices : list nat) : res (list bool) :=
  match ini with
  | None => Err TypeError
  | Some (Mask m) =>
    if negb (forallb (fun i => i <? length m) indices) then Err IndexError
    else Ok (gather false m indices)
  | Some (Indices false _) => Err TypeError
  | Some (Indices true l) =>
    do zs <- mapM (fun i => py_nth l (Z.of_nat i)) indices;
    Ok (map (fun z => negb (z =? 0)%Z) zs)
  end.

(** [__init__], lines 177-225, as [SafeModel.lyap_init]. *)
Definition any_init (vals : list R) (ini : option initial) (adaptive : bool) : res lyap :=
  let n := length vals in
  do s <- assign_initial (repeat false n) ini true;
  do r <- assign_initial (repeat 0%Z n) ini 1%Z;
  Ok {| l_init := None; l_adaptive := adaptive; l_vals := vals;
        l_safe := s; l_ref := r; l_cmax := 0%R |}.

(** Lines 524-587, as [SafeModel.batch_pass]. *)
Definition any_pass (C : cert) (adaptive : bool) (ini : option initial)
    (max_refinement : Z) (indices : list nat) (safe_batch : list bool)
    (refine_batch : list Z) : res pass :=
  let negative := map (neg C) indices in
  let safe1 := map2 orb safe_batch negative in
  let ref1 := map2 (fun r (b : bool) => if b then 1%Z else r)
                   refine_batch negative in
  let bound := argmin_bool safe1 in
  if (0 <? bound) || negb (nth 0 safe1 false) then
    if adaptive && (1 <? max_refinement)%Z then
      let ref2 := firstn bound ref1 ++ map (nreq C) (skipn bound indices) in
      do known <- lookup_initial ini indices;
      let idx_safe := map2 orb negative known in
      let ref3 := map2 (fun r (b : bool) => if b then 1%Z else r)
                       ref2 idx_safe in
      let check := skipn bound
            (map (fun r => (1 <=? r)%Z && (r <=? max_refinement)%Z) ref3) in
      let stop := prefix_len check in
      let fed := firstn stop (skipn bound indices) in
      let ns := firstn stop (skipn bound ref3) in
      let refined :=
        map2 (fun k n => forallb (fun j => passes C j k n) fed) fed ns in
      let rbound := if 0 <? stop then prefix_len refined else 0 in
      let safe2 := firstn bound safe1 ++ repeat true rbound
                   ++ skipn (bound + rbound) safe1 in
      if (stop <? length check) || (rbound <? stop) then
        Ok {| p_safe := fill_from (bound + rbound) false safe2;
              p_ref := fill_from (bound + rbound) 0%Z ref3;
              p_bound := bound; p_rbound := rbound; p_break := true |}
      else
        Ok {| p_safe := safe2; p_ref := ref3;
              p_bound := bound; p_rbound := rbound; p_break := false |}
    else
      Ok {| p_safe := fill_from bound false safe1;
            p_ref := fill_from bound 0%Z ref1;
            p_bound := bound; p_rbound := 0; p_break := true |}
  else
    Ok {| p_safe := safe1; p_ref := ref1;
          p_bound := bound; p_rbound := 0; p_break := false |}.

(** The loop of lines 524-587, as [SafeModel.verify]. *)
Fixpoint any_verify (C : cert) (adaptive : bool) (ini : option initial)
    (max_refinement : Z) (order : list nat) (bs : nat)
    (batches : list nat) (safe : list bool) (ref : list Z)
    (last : option (nat * nat * nat))
    : res (list bool * list Z * option (nat * nat * nat)) :=
  match batches with
  | [] => Ok (safe, ref, last)
  | i :: rest =>
    do p <- any_pass C adaptive ini max_refinement (slice i (i + bs) order)
              (slice i (i + bs) safe) (slice i (i + bs) ref);
    let safe' := splice safe i (p_safe p) in
    let ref' := splice ref i (p_ref p) in
    let last' := Some (i, p_bound p, p_rbound p) in
    if p_break p then Ok (safe', ref', last')
    else any_verify C adaptive ini max_refinement order bs rest safe' ref' last'
  end.

(** Lines 500-510, as [SafeModel.start_sets]. *)
Definition any_start (ini : option initial) (L : lyap) (can_shrink : bool)
    : res (list bool * list Z) :=
  if can_shrink then
    do s <- assign_initial (repeat false (length (l_safe L))) ini true;
    do r <- assign_initial (repeat 0%Z (length (l_ref L))) ini 1%Z;
    Ok (s, r)
  else Ok (l_safe L, l_ref L).

(** [update_safe_set], lines 497-602, as [SafeModel.verified]. *)
Definition any_verified (ini : option initial) (L : lyap) (C : cert) (can_shrink : bool)
    (max_refinement : Z) (bs : nat) (order : list nat)
    : res (list bool * list Z * R) :=
  do sr <- any_start ini L can_shrink;
  let safe0 := gather false (fst sr) order in
  let ref0 := gather 0%Z (snd sr) order in
  do w <- any_verify C (l_adaptive L) ini max_refinement order bs
            (starts (length order) bs) safe0 ref0 None;
  let '(safe, ref, last) := w in
  match last with
  | None => Err NameError
  | Some (i, bound, rbound) =>
    let max_index := (Z.of_nat (i + bound + rbound) - 1)%Z in
    do k <- py_nth order max_index;
    do c <- py_nth (l_vals L) (Z.of_nat k);
    let safe_nodes := mask safe order in
    let s1 := scatter (repeat false (length (l_safe L))) safe_nodes
                      (repeat true (length safe_nodes)) in
    let r1 := scatter (l_ref L) order ref in
    Ok (s1, r1, c)
  end.

(** [update_safe_set], lines 497-606, as [SafeModel.update_effect]. *)
Definition any_update (ini : option initial) (L : lyap) (C : cert) (can_shrink : bool)
    (max_refinement : Z) (bs : nat) (order : list nat) : lyap * option exn :=
  match any_verified ini L C can_shrink max_refinement bs order with
  | Err e => (L, Some e)
  | Ok (s1, r1, c) =>
    match assign_initial s1 ini true with
    | Err e => (store L s1 r1 c, Some e)
    | Ok s2 =>
      match assign_initial r1 ini 1%Z with
      | Err e => (store L s2 r1 c, Some e)
      | Ok r2 => (store L s2 r2 c, None)
      end
    end
  end.
