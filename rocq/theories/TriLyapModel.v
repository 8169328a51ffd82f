(** Triangulations as Lyapunov functions, as the notebooks use them. *)
From Coq Require Import List ZArith Reals.
Import ListNotations.
From Verif Require Import Prelude GridModel GridSpec TriModel CertModel.
Open Scope R_scope.

(** The value of a triangulation with one output at one state: examples/1d_example.ipynb:133-135 and
    1d_region_of_attraction_estimate.ipynb:135-136 pass the object itself,
    examples/inverted_pendulum.ipynb:293 its negative, [Function.__neg__]
    (safe_learning/functions.py:120-122), which multiplies the values by -1. *)
Definition triangulated (t : tri) (x : vec) : R :=
  match tri_eval t [x] with Ok [out] => nth 0 out 0 | _ => 0 end.
Definition neg_triangulated (t : tri) (x : vec) : R := triangulated t x * -1.

(** examples/inverted_pendulum.ipynb:294-295: [tf.reduce_max(tf.abs(gradient(x)), axis=1, keepdims=True)]. *)
Definition largest_gradient (t : tri) : lip_lyapunov :=
  LvFun (fun x => match gradient t [x] with
    | Ok [[row]] => [fold_right Rmax 0 (map Rabs row)]
    | _ => [0]
    end).
