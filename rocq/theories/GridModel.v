(** Model of [GridWorld] and [PiecewiseConstant]
    (safe_learning/functions.py:575-932), exact arithmetic. *)
From Coq Require Import List ZArith Reals Lia Lra Bool.
Import ListNotations.
From Verif Require Import Prelude NumModel.

(** functions.py:28  [_EPS = np.finfo(float64).eps] = 2^-52. *)
Definition EPS : R := (/ 2 ^ 52)%R.

(** functions.py:591-620: the fields fixed by [GridWorld.__init__]; the
    derived ones are functions of these two and never change. *)
Record grid : Type := Grid {
  limits : list (R * R);
  num_points : list Z
}.

(** [num_points] argument: a scalar or a vector (functions.py:596
    [np.broadcast_to(num_points, len(limits))]). *)
Inductive npoints_arg : Type := Scalar (n : Z) | Vector (ns : list Z).

Definition broadcast_np (a : npoints_arg) (d : nat) : res (list Z) :=
  match a with
  | Scalar n => Ok (repeat n d)
  | Vector [n] => Ok (repeat n d)
  | Vector ns => if Nat.eqb (length ns) d then Ok ns else Err ValueError
  end.

(** functions.py:591-601.  Simplification: limits is a list of (low, up)
    pairs, so shape errors of [limits] are not modelled. *)
Definition make_grid (lims : list (R * R)) (np : npoints_arg) : res grid :=
  do ns <- broadcast_np np (length lims);
  if existsb (fun n => (n <? 2)%Z) ns then Err DimensionError
  else Ok (Grid lims ns).

(** functions.py:604 *)
Definition offset (g : grid) : list R := map fst (limits g).
(** functions.py:605-606 *)
Definition unit_maxes (g : grid) : list R :=
  map2 (fun l n => ((snd l - fst l) / IZR (n - 1))%R) (limits g) (num_points g).
(** functions.py:607-609 *)
Definition offset_limits (g : grid) : list (R * R) :=
  map (fun l => (0, snd l - fst l)%R) (limits g).
(** functions.py:612-614 *)
Definition discrete_points (g : grid) : list (list R) :=
  map2 (fun l n => linspace (fst l) (snd l) n) (limits g) (num_points g).
(** functions.py:616-617 *)
Definition nrectangles (g : grid) : Z := prodZ (map (fun n => n - 1)%Z (num_points g)).
Definition nindex (g : grid) : Z := prodZ (num_points g).
(** functions.py:619 *)
Definition ndim (g : grid) : nat := length (limits g).

(** functions.py:622-638 (the cache [_all_points] is not modelled: it always
    holds this value). *)
Definition all_points (g : grid) : list (list R) := meshgrid_ij (discrete_points g).

(** functions.py:640-642 *)
Definition grid_len (g : grid) : Z := nindex g.

(** functions.py:644-659; [rand] is the draw of np.random.uniform, one row. *)
Definition sample_continuous (g : grid) (rand : list R) : list R :=
  map2 (fun r l => (r * (snd l - fst l) + fst l)%R) rand (limits g).

(** functions.py:679-689, one row of [states]. *)
Definition check_dimensions (g : grid) (state : list R) : res unit :=
  if Nat.eqb (length state) (ndim g) then Ok tt else Err DimensionError.

(** functions.py:691-712, one row. *)
Definition center_states (g : grid) (clip : bool) (state : list R) : list R :=
  let s := map2 Rminus state (offset g) in
  if clip then
    map2 (fun x l => clipR x (fst l + 2 * EPS) (snd l - 2 * EPS)) s (offset_limits g)
  else s.

(** functions.py:714-731, one index. *)
Definition index_to_state (g : grid) (idx : Z) : res (list R) :=
  do ijk <- np_unravel_index idx (num_points g);
  Ok (map3 (fun k u o => (IZR k * u + o)%R) ijk (unit_maxes g) (offset g)).

(** [np.random.choice(n, size=num, replace=replace)] for n > 0; [draws] is the draw. *)
Definition np_choice (n num : Z) (replace : bool) (draws : list Z) : res (list Z) :=
  if ((num <? 0)%Z || negb replace && (n <? num)%Z)%bool then Err ValueError else Ok draws.
(** functions.py:661-677 *)
Definition sample_discrete (g : grid) (num : Z) (replace : bool) (draws : list Z) : res (list (list R)) :=
  do idx <- np_choice (nindex g) num replace draws;
  mapM (index_to_state g) idx.

(** functions.py:733-752, one row.  The int32 cast is modelled as exact. *)
Definition state_to_index (g : grid) (state : list R) : res Z :=
  do _ <- check_dimensions g state;
  let s := map2 (fun x l => clipR x (fst l) (snd l)) state (limits g) in
  let s := map3 (fun x o u => ((x - o) * (1 / u))%R) s (offset g) (unit_maxes g) in
  np_ravel_multi_index (map rint s) (num_points g).

(** functions.py:754-776, one row; a row shorter than the grid raises
    IndexError at [states[:, i]], surplus columns are ignored. *)
Fixpoint rect_indices (state : list R) (discs : list (list R)) (ns : list Z) : res (list Z) :=
  match discs, ns with
  | disc :: discs', n :: ns' =>
      match state with
      | [] => Err IndexError
      | x :: xs => do ks <- rect_indices xs discs' ns';
                   Ok (clipZ (digitize x disc - 1) 0 (n - 2) :: ks)
      end
  | _, _ => Ok []
  end.
Definition state_to_rectangle (g : grid) (state : list R) : res Z :=
  do ind <- rect_indices state (discrete_points g) (num_points g);
  np_ravel_multi_index ind (map (fun n => n - 1)%Z (num_points g)).

(** functions.py:778-798, one index. *)
Definition rectangle_to_state (g : grid) (r : Z) : res (list R) :=
  do ijk <- np_unravel_index r (map (fun n => n - 1)%Z (num_points g));
  Ok (map3 (fun k u o => (IZR k * u + o)%R) ijk (unit_maxes g) (offset g)).

(** functions.py:800-817, one index. *)
Definition rectangle_corner_index (g : grid) (r : Z) : res Z :=
  do ijk <- np_unravel_index r (map (fun n => n - 1)%Z (num_points g));
  np_ravel_multi_index ijk (num_points g).

(** ** PiecewiseConstant, functions.py:820-932 *)

(** functions.py:832-840, 853-859: parameters are reshaped to (nindex, -1);
    modelled as a list of rows, a wrong number of rows raises ValueError. *)
Record pwc : Type := Pwc { pwc_grid : grid; pwc_params : list (list R) }.
Definition make_pwc (g : grid) (values : list (list R)) : res pwc :=
  if (Z.of_nat (length values) =? nindex g)%Z then Ok (Pwc g values) else Err ValueError.

(** functions.py:871-887, a batch of points. *)
Definition pwc_eval (f : pwc) (points : list (list R)) : res (list (list R)) :=
  do nodes <- mapM (state_to_index (pwc_grid f)) points;
  mapM (py_nth (pwc_params f)) nodes.

(** A [scipy.sparse.coo_matrix]: shape and the triplets (value, row, col). *)
Record coo : Type := Coo { coo_rows : Z; coo_cols : Z; coo_data : list (R * (Z * Z)) }.

(** functions.py:889-913 *)
Definition pwc_parameter_derivative (f : pwc) (points : list (list R)) : res coo :=
  do cols <- mapM (state_to_index (pwc_grid f)) points;
  Ok (Coo (Z.of_nat (length points)) (nindex (pwc_grid f))
          (map2 (fun r c => (1%R, (Z.of_nat r, c))) (seq 0 (length points)) cols)).

(** functions.py:915-932 *)
Definition pwc_gradient (f : pwc) (points : list (list R)) : list (list R) :=
  map (fun _ => repeat 0%R (ndim (pwc_grid f))) points.
