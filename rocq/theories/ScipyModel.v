(** Model of the points of [ScipyDelaunay] in [safe_learning/functions.py], lines
    549-572.

    Simplifications: float64 is exact; the triangulation of [scipy.spatial.Delaunay]
    itself is not modelled, only the points that it is given (line 572), whose
    order numbers the vertices of its simplices. *)
From Coq Require Import Reals List ZArith.
From Verif Require Import Prelude NumModel.
Import ListNotations.

(** The rows [np.array([par.ravel() for par in output]).T] with
    [output = np.meshgrid( *params )], lines 570-571: with the default indexing 'xy'
    the arrays have the shape (n1, n0, n2, ...), that is, the first two axes change
    places. *)
Definition meshgrid_xy {A} (axes : list (list A)) : list (list A) :=
  match axes with
  | a :: b :: t =>
    map (fun p => match p with y :: x :: q => x :: y :: q | _ => p end)
        (meshgrid_ij (b :: a :: t))
  | _ => meshgrid_ij axes
  end.

(** [points], lines 566-571. *)
Definition scipy_points (limits : list (R * R)) (num_points : list Z) : list (list R) :=
  meshgrid_xy (map2 (fun l n => linspace (fst l) (snd l) n) limits num_points).
