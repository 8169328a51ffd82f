(** Model of the data handling of [GaussianProcess] and [GPRCached] and of
    [FunctionStack] (safe_learning/functions.py, lines 254-307, 394-416, 461-548).

    Simplifications.  Arrays are lists of rows with a number of columns.  The
    numerical part of [_compute_cache] is an argument which may fail; what is
    modelled here is which shapes it accepts.  What a graph computes is determined
    by the feed dictionary, i.e. by the data, cache and hyperparameters at the last
    [update_feed_dict]; hyperparameters are left out as these functions do not
    change them. *)
From Coq Require Import Reals List Bool Arith.
From Verif Require Import Prelude FunModel.
Import ListNotations.
Local Open Scope R_scope.

(** Inputs: numbers, vectors and 2d arrays. *)
Record arr2 := { ncol : nat; data : list (list R) }.
Inductive nd := Scal (x : R) | Vec (l : list R) | Arr (a : arr2).
Definition atleast_2d (x : nd) : arr2 :=
  match x with
  | Scal x => {| ncol := 1; data := [[x]] |}
  | Vec l => {| ncol := length l; data := [l] |}
  | Arr a => a
  end.
Definition vstack (a b : arr2) : res arr2 :=
  if Nat.eqb (ncol a) (ncol b) then Ok {| ncol := ncol a; data := data a ++ data b |}
  else Err ValueError.

Section GP.
Context {C : Type} (compute : list (list R) -> list (list R) -> res C).

(** The model: data, cached values, and what is in the feed dictionary. *)
Record gp := { gX : arr2; gY : arr2; cache : C; fed : arr2 * arr2 * C }.

(** [_compute_cache], lines 395-411: [self.Y - self.mean_function(self.X)]
    broadcasts a single row of [Y]; all other differences in the number of rows
    are errors. *)
Definition compute_cache (X Y : arr2) : res C :=
  if Nat.eqb (length (data Y)) (length (data X)) then compute (data X) (data Y)
  else if Nat.eqb (length (data Y)) 1 then
    compute (data X) (repeat (nth 0 (data Y) []) (length (data X)))
  else Err ValueError.

(** [add_data_point], lines 526-548. *)
Definition add_data_point (g : gp) (x y : nd) : gp * res unit :=
  match vstack (gX g) (atleast_2d x) with
  | Err e => (g, Err e)
  | Ok X =>
      let g1 := {| gX := X; gY := gY g; cache := cache g; fed := fed g |} in
      match vstack (gY g) (atleast_2d y) with
      | Err e => (g1, Err e)
      | Ok Y =>
          let g2 := {| gX := X; gY := Y; cache := cache g; fed := fed g |} in
          match compute_cache X Y with
          | Err e => (g2, Err e)
          | Ok c => ({| gX := X; gY := Y; cache := c; fed := (X, Y, c) |}, Ok tt)
          end
      end
  end.

(** [y.squeeze()] followed by iteration: axes of size one disappear. *)
Definition squeezed (y : arr2) : res (list nd) :=
  match data y, ncol y with
  | [r], 1 => Err TypeError
  | [r], _ => Ok (map Scal r)
  | l, 1 => Ok (map (fun r => Scal (nth 0 r 0)) l)
  | l, _ => Ok (map Vec l)
  end.

(** [FunctionStack.add_data_point], lines 293-307. *)
Fixpoint add_each (fs : list gp) (x : nd) (ys : list nd) : list gp * res unit :=
  match fs, ys with
  | f :: fs', y :: ys' =>
      match add_data_point f x y with
      | (f', Err e) => (f' :: fs', Err e)
      | (f', Ok _) => let '(fs'', r) := add_each fs' x ys' in (f' :: fs'', r)
      end
  | _, _ => (fs, Ok tt)
  end.
Definition stack_add (fs : list gp) (x : nd) (y : arr2) : list gp * res unit :=
  match squeezed y with
  | Err e => (fs, Err e)
  | Ok ys => add_each fs x ys
  end.
End GP.

(** [FunctionStack.build_evaluation], lines 278-291, and [to_mean_function],
    lines 209-230.  A member is its evaluation. *)
Definition member := tensor -> res (tensor * tensor).
Definition stack_eval (fs : list member) (points : tensor) : res (tensor * tensor) :=
  do outs <- mapM (fun f => f points) fs;
  do mean <- hcat (map fst outs);
  do error <- hcat (map snd outs);
  Ok (mean, error).
Definition to_mean_function (f : member) (points : tensor) : res tensor :=
  do out <- f points; Ok (fst out).

(** [FunctionStack.parameters], lines 273-276: Python's [sum] starts at 0, and
    0 + list is an error. *)
Definition stack_parameters {V : Type} (members : list (list V)) : res nat :=
  match members with [] => Ok 0%nat | _ :: _ => Err TypeError end.
