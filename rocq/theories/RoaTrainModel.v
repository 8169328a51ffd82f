(** Model of the training of a Lyapunov network in
    [examples/lyapunov_function_learning.ipynb]: the objects of lines 339-378, the
    graph of lines 525-553, the initialization of lines 571-582 and the loop of lines
    621-672.

    Simplifications.
    - [W] are the parameters of the network.  What the gradient steps make of them
      (lines 647-660) is an argument of every round: the statements hold for all
      parameters.
    - [F] is the tensor [tf_future_states] (lines 363-365) as a function of one state;
      policy and dynamics do not depend on the network.
    - The [Lyapunov] object is that of [LoopModel].  The result of [np.argsort] and the
      batch size of the configuration are arguments of every call.
    - An exception ends the run.  Arithmetic is exact.                          *)
From Coq Require Import Reals List Bool Arith ZArith.
From Verif Require Import Prelude NumModel GridModel SafeModel CertModel LoopModel ExUtilModel.
Import ListNotations.
Local Open Scope R_scope.

(** [values <= c] *)
Definition at_most (c : R) (v : R) : bool := if Rle_dec v c then true else false.

(** [a[m] |= b] for a boolean mask [m]: one entry of [b] for every [True] of [m]. *)
Fixpoint or_where (m b a : list bool) : list bool :=
  match m, a with
  | true :: m', x :: a' => match b with
                           | y :: b' => (x || y)%bool :: or_where m' b' a'
                           | [] => a
                           end
  | false :: m', x :: a' => x :: or_where m' b a'
  | _, _ => a
  end.

(** Lines 632-633: [horizon] steps of the closed loop for a batch of states. *)
Fixpoint simulate (F : list R -> list R) (horizon : nat) (states : list (list R)) : list (list R) :=
  match horizon with
  | O => states
  | S h => simulate F h (map F states)
  end.

(** [astype(OPTIONS.np_dtype)] *)
Definition to_float (b : bool) : R := if b then 1 else 0.

Section Train.
  Context {W : Type}.
  Variable g : grid.
  Variable F : list R -> list R.

  (** [update_values()] and [update_safe_set()] with the default arguments (lines
      352-353, 572-573 and 663-664) after the parameters became [w]. *)
  Definition refresh (w : W) (bs : nat) (order : list nat) (o : object W) : res (object W) :=
    let '(o1, e1) := ob_update_values g w o in
    match e1 with
    | Some e => Err e
    | None =>
      let '(o2, e2) := ob_update_safe_set g w o1 true 1 1 bs order in
      match e2 with Some e => Err e | None => Ok o2 end
    end.

  (** The parameters, the object and [roa_estimate]. *)
  Record trainer := { tr_params : W; tr_object : object W; tr_estimate : list bool }.

  (** The object of line 351 and the calls before the training: parameters, batch
      size and order for each of them. *)
  Fixpoint prepare (calls : list (W * nat * list nat)) (w : W) (o : object W) : res (W * object W) :=
    match calls with
    | [] => Ok (w, o)
    | (w', bs, order) :: calls' => do o' <- refresh w' bs order o; prepare calls' w' o'
    end.
  (** Lines 571-577; [calls] ends with those of lines 572-573. *)
  Definition initialize (S : W -> setup) (ini : option (list bool)) (w0 : W)
      (calls : list (W * nat * list nat)) : res trainer :=
    do o <- new_object g w0 S ini false;
    do wo <- prepare calls w0 o;
    Ok {| tr_params := fst wo; tr_object := snd wo; tr_estimate := l_safe (ob_lyap (snd wo)) |}.

  (** Lines 625-641: the new [roa_estimate], [target_set] and [target_labels]. *)
  Definition targets (mult : R) (horizon : nat) (t : trainer) : list bool * list (list R) * list R :=
    let L := ob_lyap (tr_object t) in
    let c := l_cmax L in
    let idx_small := map (at_most c) (l_vals L) in
    let idx_big := map (at_most (mult * c)) (l_vals L) in
    let idx_gap := map2 andb idx_big (map negb idx_small) in
    let gap_states := simulate F horizon (mask idx_gap (all_points g)) in
    let gap_future_values :=
      map (lyapunov_function (ob_setup (tr_object t) (tr_params t))) gap_states in
    let estimate := or_where idx_gap (map (at_most c) gap_future_values) (tr_estimate t) in
    let target_idx := map2 orb idx_big estimate in
    (estimate, mask target_idx (all_points g), map to_float (mask target_idx estimate)).

  (** One pass of the outer loop, lines 621-665; [w'] are the parameters after the
      inner loop. *)
  Definition train_round (mult : R) (horizon : nat) (r : W * nat * list nat) (t : trainer)
      : res trainer :=
    let '(w', bs, order) := r in
    let '(estimate, _, _) := targets mult horizon t in
    do o <- refresh w' bs order (tr_object t);
    Ok {| tr_params := w'; tr_object := o; tr_estimate := map2 orb estimate (l_safe (ob_lyap o)) |}.

  (** The states of the training before the first round and after every round. *)
  Fixpoint train (mult : R) (horizon : nat) (rounds : list (W * nat * list nat)) (t : trainer)
      : res (list trainer) :=
    match rounds with
    | [] => Ok [t]
    | r :: rounds' =>
      do t' <- train_round mult horizon r t;
      do ts <- train mult horizon rounds' t';
      Ok (t :: ts)
    end.
End Train.
Arguments trainer : clear implicits.

(** One row of [classifier_loss] and [decrease_loss], lines 530-543: value [v] and
    future value [v'] of the state, its label and class weight. *)
Definition classifier_loss (safe_level weight label v : R) : R :=
  let class_label := 2 * label - 1 in
  let decision_distance := safe_level - v in
  weight * Rmax (- class_label * decision_distance) 0.
Definition decrease_loss (eps label v v' : R) : R :=
  label * Rmax (v' - v) 0 / (v + eps).

(** [objective], lines 545-546, for the states and labels of a batch; the class
    weights are those of lines 650-651. *)
Definition objective (V : list R -> R) (F : list R -> list R) (safe_level lagrange eps : R)
    (states : list (list R)) (labels : list bool) : R :=
  let weights := fst (balanced_class_weights labels true) in
  let rows := map2 (fun x lw =>
     classifier_loss safe_level (snd lw) (to_float (fst lw)) (V x) +
     lagrange * decrease_loss eps (to_float (fst lw)) (V x) (V (F x))) states (map2 pair labels weights) in
  sum rows / INR (length rows).
