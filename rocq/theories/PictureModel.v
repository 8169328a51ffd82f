(** Model of the pictures of the examples: the arrays handed to matplotlib and
    where matplotlib draws their entries (examples/plotting.py:136-189 and the
    plotting cells of the notebooks). *)
From Coq Require Import List ZArith Reals Bool.
Import ListNotations.
From Verif Require Import Prelude NumModel GridModel.
Open Scope R_scope.

(** A two-dimensional array: numbers of rows and columns, entries. *)
Record image (A : Type) : Type := Image {
  height : nat; width : nat; pixel : nat -> nat -> A
}.
Arguments Image {A} _ _ _.
Arguments height {A} _.
Arguments width {A} _.
Arguments pixel {A} _ _ _.

(** [values.reshape(num_points)] for two axes (C order); a list of another
    length raises ValueError.  examples/plotting.py:175,
    reinforcement_learning_pendulum.ipynb (cells with [.reshape(grid.num_points)]).
    [d] stands for an entry that is never read. *)
Definition reshape {A} (d : A) (num : list Z) (values : list A) : res (image A) :=
  match num with
  | [n0; n1] =>
      if (Z.of_nat (length values) =? n0 * n1)%Z
      then Ok (Image (Z.to_nat n0) (Z.to_nat n1)
                 (fun i j => nth (i * Z.to_nat n1 + j) values d))
      else Err ValueError
  | _ => Err ValueError
  end.

(** [z.T] and [z[::-1]]. *)
Definition transpose {A} (z : image A) : image A :=
  Image (width z) (height z) (fun i j => pixel z j i).
Definition flip {A} (z : image A) : image A :=
  Image (height z) (width z) (fun i j => pixel z (height z - 1 - i) j).

(** An axis-parallel rectangle of the picture. *)
Record rect : Type := Rect { left : R; right : R; bottom : R; top : R }.

(** [imshow(z, origin=..., extent=(l, r, b, t))]: matplotlib divides the
    extent into as many equal rectangles as [z] has entries; row 0 is the
    lowest one for origin 'lower' and the highest one for 'upper'. *)
Inductive origin : Type := Lower | Upper.
Definition pixel_rect (o : origin) (l r b t : R) (h w i j : nat) : rect :=
  let dx := (r - l) / INR w in
  let dy := (t - b) / INR h in
  let k := match o with Lower => i | Upper => (h - 1 - i)%nat end in
  Rect (l + INR j * dx) (l + INR (S j) * dx) (b + INR k * dy) (b + INR (S k) * dy).
Definition imshow {A} (o : origin) (l r b t : R) (z : image A) : list (rect * A) :=
  flat_map (fun i => map (fun j => (pixel_rect o l r b t (height z) (width z) i j, pixel z i j))
                         (seq 0 (width z)))
           (seq 0 (height z)).

(** [imshow(z.T, origin='lower', extent=plot_limits.ravel())] with
    [z = values.reshape(grid.num_points)] and the limits in physical units,
    that is multiplied by [s0], [s1]:
    reinforcement_learning_pendulum.ipynb, lyapunov_function_learning.ipynb,
    adaptive_safety_verification.ipynb, inverted_pendulum.ipynb. *)
Definition show_values {A} (d : A) (g : grid) (s0 s1 : R) (values : list A) : res (list (rect * A)) :=
  do z <- reshape d (num_points g) values;
  match limits g with
  | [(l, r); (b, t)] => Ok (imshow Lower (s0 * l) (s0 * r) (s1 * b) (s1 * t) (transpose z))
  | _ => Err ValueError
  end.

(** examples/plotting.py:172-178, the two-dimensional branch of
    [plot_triangulation].  The option interpolation='bilinear' only smooths
    the colours between the rectangles and is not modelled. *)
Definition show_triangulation {A} (d : A) (g : grid) (values : list A) : res (list (rect * A)) :=
  do z <- reshape d (num_points g) values;
  match limits g with
  | [(l, r); (b, t)] => Ok (imshow Upper l r b t (flip (transpose z)))
  | _ => Err ValueError
  end.

(** [np.meshgrid(a, b)] with its default indexing 'xy': both arrays have
    [len(b)] rows and [len(a)] columns. *)
Definition meshgrid_xy (a b : list R) : image R * image R :=
  (Image (length b) (length a) (fun _ j => nth j a 0),
   Image (length b) (length a) (fun i _ => nth i b 0)).

(** [ax.plot_surface(xx, yy, z)]: the three arrays must have one shape
    (broadcasting of axes of length one is not modelled, no grid has such an
    axis); one vertex per entry. *)
Definition plot_surface (xx yy z : image R) : res (list (R * R * R)) :=
  if ((height xx =? height z) && (width xx =? width z)
      && (height yy =? height z) && (width yy =? width z))%nat%bool
  then Ok (flat_map (fun i => map (fun j => (pixel xx i j, pixel yy i j, pixel z i j))
                                  (seq 0 (width z)))
                    (seq 0 (height z)))
  else Err ValueError.

(** reinforcement_learning_pendulum.ipynb, "Visually compare the true value
    function" and the later surface plots:
    [xx, yy = np.meshgrid( *scaled_discrete_points)],
    [plot_surface(xx, yy, values.reshape(grid.num_points))]; [contourf] gets
    the same arrays. *)
Definition show_surface (g : grid) (s0 s1 : R) (values : list R) : res (list (R * R * R)) :=
  do z <- reshape 0 (num_points g) values;
  match discrete_points g with
  | [a; b] => let m := meshgrid_xy (map (Rmult s0) a) (map (Rmult s1) b) in
              plot_surface (fst m) (snd m) z
  | _ => Err ValueError
  end.

(** reinforcement_learning_cartpole.ipynb, [grid_slices] and
    [grid.all_points[mask]]: the grid points whose coordinates [p0], [p1] are
    those of the pivot state. *)
Definition Reqb (x y : R) : bool := if Req_EM_T x y then true else false.
Definition grid_slice (g : grid) (p0 p1 : nat) (pivot : list R) : list (list R) :=
  filter (fun x => Reqb (nth p0 x 0) (nth p0 pivot 0) && Reqb (nth p1 x 0) (nth p1 pivot 0))
         (all_points g).

(** Comparison of two regions of attraction, reinforcement_learning_pendulum.ipynb
    (cells "Compare ROAs"): [z = roa.astype(int) + new_roa.astype(int)]. *)
Definition roa_sum (roa new_roa : list bool) : list Z :=
  map2 (fun a b => (Z.b2z a + Z.b2z b)%Z) roa new_roa.

(** [imshow(z, cmap=ListedColormap([transparent, green, red]))] without vmin
    and vmax: matplotlib scales the smallest entry to 0 and the largest to 1
    and picks colour [int(3 * scaled)], at most the last one; an array of one
    value gets the first colour. *)
Inductive colour : Type := Transparent | Green | Red.
Definition list_min (l : list Z) : Z := fold_right Z.min (hd 0%Z l) l.
Definition list_max (l : list Z) : Z := fold_right Z.max (hd 0%Z l) l.
Definition listed_colour (z : list Z) (v : Z) : colour :=
  let lo := list_min z in let hi := list_max z in
  let k := (if hi =? lo then 0 else Z.min 2 (3 * (v - lo) / (hi - lo)))%Z in
  if (k =? 0)%Z then Transparent else if (k =? 1)%Z then Green else Red.
Definition roa_colours (roa new_roa : list bool) : list colour :=
  let z := roa_sum roa new_roa in map (listed_colour z) z.

(** "Sub-sample discretization for faster and clearer plotting":
    [skip = int(num_points[0] / N_traj)],
    [sub_idx = np.arange(nindex).reshape(num_points)[::skip, ::skip].ravel()]
    (lyapunov_function_learning.ipynb, reinforcement_learning_pendulum.ipynb);
    a slice with step 0 raises ValueError. *)
Definition every {A} (step : nat) (l : list A) (d : A) : list A :=
  map (fun k => nth (k * step) l d) (seq 0 ((length l + step - 1) / step)).
Definition sub_idx (n0 n1 n_traj : nat) : res (list nat) :=
  let skip := (n0 / n_traj)%nat in
  if (skip =? 0)%nat then Err ValueError
  else Ok (flat_map (fun i => map (fun j => (i * n1 + j)%nat) (every skip (seq 0 n1) 0%nat))
                    (every skip (seq 0 n0) 0%nat)).
