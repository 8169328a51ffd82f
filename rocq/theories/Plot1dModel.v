(** Model of [plot_lyapunov_1d] (examples/plotting.py:18-133): the points, bands
    and lines that are handed to matplotlib.

    Simplifications.  Exact arithmetic.  Axis labels, colours, the crosses of the
    measurements (lines 80-83) and the two printed shapes are left out.  The
    dynamics return mean and error bounds; other dynamics raise when the result
    is unpacked (lines 74, 85), modelled as ValueError.  A number as Lipschitz
    constants, so that line 56 gives one threshold. *)
From Coq Require Import Reals List Bool Arith ZArith.
From Verif Require Import Prelude NumModel GridModel SafeModel CertModel.
Import ListNotations.
Local Open Scope R_scope.

(** examples/plotting.py:110-111, [np.ma.masked_where(mask, values)]: [None] is not drawn. *)
Definition masked_where (m : list bool) (values : list R) : list (option R) :=
  map2 (fun b v => if (b : bool) then None else Some v) m values.
(** examples/plotting.py:112-117, [ax2.plot(states, values)]: the points that are drawn. *)
Definition drawn (states : list (list R)) (values : list (option R)) : list (R * R) :=
  flat_map (fun p => match snd p with Some v => [(nth 0 (fst p) 0, v)] | None => [] end)
           (combine states values).

(** examples/plotting.py:75-78 and 89-92, [fill_between(states[:, 0], mean - bound, mean + bound)]. *)
Definition band_at (x mean bound : R) : R * R * R := (x, mean - bound, mean + bound).

(** examples/plotting.py:69-130: everything that is drawn. *)
Record plot : Type := {
  state_band : list (R * R * R);        (* first picture, blue band *)
  true_next : list (R * R);             (* first picture, black *)
  change_band : list (R * R * R);       (* second picture, blue band *)
  true_change : list (R * R);           (* second picture, black *)
  threshold_line : R;
  unsafe_points : list (R * R);
  safe_points : list (R * R);
  helper_lines : list R
}.

(** examples/plotting.py:74-78, [mean, bound = next_states] for one state. *)
Definition state_band_at (S : setup) (x : list R) : res (R * R * R) :=
  match dynamics S x (policy S x) with
  | Uncertain mean err => Ok (band_at (nth 0 x 0) (nth 0 mean 0) (nth 0 err 0))
  | Exact _ => Err ValueError
  end.
(** examples/plotting.py:85-92, the same for [v_bounds]. *)
Definition change_band_at (S : setup) (x : list R) : R * R * R :=
  let v := v_decrease_confidence S x (dynamics S x (policy S x)) in
  band_at (nth 0 x 0) (fst v) (snd v).
(** examples/plotting.py:40-42: the change of the Lyapunov function under the true dynamics. *)
Definition true_change_at (S : setup) (true_dynamics : list R -> list R -> list R) (x : list R) : R * R :=
  (nth 0 x 0, fst (v_decrease_confidence S x (Exact (true_dynamics x (policy S x))))).

(** [np.argmax] of a non-empty list: position of the first largest entry. *)
Fixpoint argmax_from (best : nat) (m : R) (k : nat) (l : list R) : nat :=
  match l with
  | [] => best
  | v :: l' => if Rlt_dec m v then argmax_from k v (S k) l' else argmax_from best m (S k) l'
  end.
Definition argmax (l : list R) : nat :=
  match l with [] => 0%nat | v :: l' => argmax_from 0 v 1 l' end.
(** examples/plotting.py:124-130. *)
Definition lines (states : list (list R)) (safe_set : list bool) (values : list R) : list R :=
  if existsb (fun b => b) safe_set then
    let x_safe := nth 0 (nth (argmax (mask safe_set values)) (mask safe_set states) []) 0 in
    [x_safe; - x_safe]
  else [].

(** examples/plotting.py:27-133.  [first] and [true_dynamics] are the functions at
    the first call for this object, [S] those of the object at this call. *)
Definition plot_lyapunov_1d (g : grid) (first S : setup) (true_dynamics : list R -> list R -> list R)
    (L : lyap) : res plot :=
  let states := all_points g in
  do sb <- mapM (state_band_at first) states;
  Ok {| state_band := sb;
        true_next := map (fun x => (nth 0 x 0, nth 0 (true_dynamics x (policy first x)) 0)) states;
        change_band := map (change_band_at first) states;
        true_change := map (true_change_at first true_dynamics) states;
        threshold_line := threshold S (nth 0 states []) (tau S);
        unsafe_points := drawn states (masked_where (l_safe L) (l_vals L));
        safe_points := drawn states (masked_where (map negb (l_safe L)) (l_vals L));
        helper_lines := lines states (l_safe L) (l_vals L) |}.
