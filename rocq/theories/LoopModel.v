(** Model of a [Lyapunov] object over a sequence of calls, with the TensorFlow
    graphs that are built once and then reused: [safe_learning/lyapunov.py],
    [__init__] (lines 177-225), [update_values] (305-322), [update_safe_set]
    (408-606) and [get_safe_sample] (658-797), and with the attributes that can be
    assigned from outside.

    [W] is the state of the world the graphs are evaluated in: the values of the
    TensorFlow variables and the data of the Gaussian processes.  A function object
    is a function of the world; a graph that was built from it keeps the function
    and is evaluated in the current world.

    All evaluations pass the feed dictionary of the TensorFlow graph (utilities.py
    lines 475-493), in which entries stay.  TensorFlow compares every entry with the
    shape of its placeholder, also those that the evaluation does not need, and
    raises ValueError if one does not fit.  Only [get_safe_sample] can write such an
    entry, see [SampleModel.misfit_after].

    Simplifications: as in [SafeModel], [CertModel] and [SampleModel].  The
    discretization of the object is not replaced.  [tau] and numeric Lipschitz
    constants do not depend on the world, but nothing uses this.  Other objects that
    write into the same feed dictionary are not part of the model.            *)
From Coq Require Import Reals List Bool Arith ZArith.
From Verif Require Import Prelude NumModel GridModel SafeModel CertModel UtilModel SampleModel.
Import ListNotations.
Local Open Scope R_scope.

Section Loop.
  Variable W : Type.
  Variable leb : list R -> list R -> bool.
  Variable g : grid.

  (** The entry ['update_safe_set'] of [self._storage], lines 430-489: tensors built
      from the attributes at the time and the argument [safety_factor].  It has two
      items, or five if the object was adaptive. *)
  Record update_graph := {
    ug_setup : W -> setup;
    ug_factor : R;
    ug_adaptive : bool
  }.
  (** The entry of [_STORAGE] for this object, lines 703-735: tensors and the width
      of the placeholder for state-action pairs. *)
  Record sample_graph := { sg_setup : W -> setup; sg_width : nat }.

  (** The object: policy, dynamics, Lyapunov function, Lipschitz constants and
      [tau]; the attributes of [SafeModel.lyap]; the tensor of [update_values]; the
      stored graphs; and whether the feed dictionary has an entry that does not fit
      its placeholder. *)
  Record object := {
    ob_setup : W -> setup;
    ob_lyap : lyap;
    ob_values : W -> list R -> R;
    ob_update : option update_graph;
    ob_sample : option sample_graph;
    ob_stuck : bool
  }.

  (** [__init__], lines 177-225; [update_values] is called in line 216. *)
  Definition new_object (w : W) (S : W -> setup) (ini : option (list bool)) (adaptive : bool)
      : res object :=
    do L <- lyap_init (map (lyapunov_function (S w)) (all_points g)) ini adaptive;
    Ok {| ob_setup := S; ob_lyap := L; ob_values := fun w => lyapunov_function (S w);
          ob_update := None; ob_sample := None; ob_stuck := false |}.

  Definition with_lyap (o : object) (L : lyap) : object :=
    {| ob_setup := ob_setup o; ob_lyap := L; ob_values := ob_values o;
       ob_update := ob_update o; ob_sample := ob_sample o; ob_stuck := ob_stuck o |}.

  (** [update_values], lines 305-322: the stored tensor on all points.  Result: the
      object afterwards and the exception. *)
  Definition ob_update_values (w : W) (o : object) : object * option exn :=
    if ob_stuck o then (o, Some ValueError)
    else (with_lyap o (update_values (ob_lyap o) (map (ob_values o w) (all_points g))), None).

  (** Assigning attributes from outside: functions and constants, [adaptive],
      [initial_safe_set]. *)
  Definition set_attributes (S : W -> setup) (adaptive : bool) (o : object) : object :=
    let L := ob_lyap o in
    {| ob_setup := S;
       ob_lyap := {| l_init := l_init L; l_adaptive := adaptive; l_vals := l_vals L;
                     l_safe := l_safe L; l_ref := l_ref L; l_cmax := l_cmax L |};
       ob_values := ob_values o; ob_update := ob_update o; ob_sample := ob_sample o;
       ob_stuck := ob_stuck o |}.
  Definition set_initial (m : option (list bool)) (o : object) : object :=
    let L := ob_lyap o in
    with_lyap o {| l_init := m; l_adaptive := l_adaptive L; l_vals := l_vals L;
                   l_safe := l_safe L; l_ref := l_ref L; l_cmax := l_cmax L |}.

  (** [update_safe_set], lines 428-606: the graph is built (lines 431-489) or taken
      out of the storage (490-495; the number of items has to fit), then evaluated
      in the current world; the first evaluation is in line 529, in the first batch.
      Result: the object afterwards and the exception. *)
  Definition ob_update_safe_set (w : W) (o : object) (can_shrink : bool) (max_refinement : Z)
      (safety_factor : R) (bs : nat) (order : list nat) : object * option exn :=
    let L := ob_lyap o in
    let gr := match ob_update o with
              | None => {| ug_setup := ob_setup o; ug_factor := safety_factor;
                           ug_adaptive := l_adaptive L |}
              | Some gr => gr
              end in
    let o1 := {| ob_setup := ob_setup o; ob_lyap := L; ob_values := ob_values o;
                 ob_update := Some gr; ob_sample := ob_sample o; ob_stuck := ob_stuck o |} in
    if Bool.eqb (ug_adaptive gr) (l_adaptive L) then
      if ob_stuck o && negb (length (starts (length order) bs) =? 0)%nat then
        (o1, Some (match start_sets L can_shrink with Err e => e | Ok _ => ValueError end))
      else
        let '(L', e) := update_effect L (certificate (ug_setup gr w) (ug_factor gr) (grid_point g))
                can_shrink max_refinement bs order in
        (with_lyap o1 L', e)
    else (o1, Some ValueError).

  (** Lines 737-797 with the functions [St] and the number [width] of columns of a
      stored graph; [stuck] tells whether the feed dictionary has an entry that does
      not fit.  With perturbations the policy is evaluated (line 756) before this
      entry is replaced (line 763).  Result: value of the call, and whether there is
      an entry that does not fit afterwards. *)
  Definition sample_call (L : lyap) (St : setup) (width : nat) (stuck : bool) (p : proposal)
      (limits : option (list (R * R))) (positive : bool) (num : option Z) (draws : list nat)
      : res (list R * R) * bool :=
    match stuck, p with
    | true, Perturbations _ _ =>
      (do _ <- select_states g L num draws; Err ValueError, true)
    | _, _ =>
      (sample_with leb g L St width p limits positive num draws,
       misfit_after leb g L St stuck width p limits positive num draws)
    end.

  (** [get_safe_sample], lines 696-797.  A tensor returned by the dynamics cannot be
      unpacked (line 714), in this case nothing is stored. *)
  Definition ob_get_safe_sample (w : W) (o : object) (p : proposal)
      (limits : option (list (R * R))) (positive : bool) (num : option Z) (draws : list nat)
      : object * res (list R * R) :=
    let gr := match ob_sample o with
              | None => {| sg_setup := ob_setup o; sg_width := (ndim g + action_dim p)%nat |}
              | Some gr => gr
              end in
    match sample_call (ob_lyap o) (sg_setup gr w) (sg_width gr) (ob_stuck o)
            p limits positive num draws with
    | (Err TypeError, _) => (o, Err TypeError)
    | (r, stuck) =>
      ({| ob_setup := ob_setup o; ob_lyap := ob_lyap o; ob_values := ob_values o;
          ob_update := ob_update o; ob_sample := Some gr; ob_stuck := stuck |}, r)
    end.

  (** A program using the object: it changes variables and data, assigns attributes
      and calls methods. *)
  Inductive command :=
  | SetWorld (w : W)
  | SetAttributes (S : W -> setup) (adaptive : bool)
  | SetInitial (m : option (list bool))
  | UpdateValues
  | UpdateSafeSet (can_shrink : bool) (max_refinement : Z) (safety_factor : R) (bs : nat)
                  (order : list nat)
  | GetSafeSample (p : proposal) (limits : option (list (R * R))) (positive : bool)
                  (num : option Z) (draws : list nat).

  (** The state of the program, and the result of the last call. *)
  Inductive outcome := Nothing | Raised (e : exn) | Sampled (row : list R) (bound : R).
  Definition state : Type := W * object.

  Definition step (st : state) (c : command) : state * outcome :=
    let '(w, o) := st in
    match c with
    | SetWorld w' => ((w', o), Nothing)
    | SetAttributes Sa ad => ((w, set_attributes Sa ad o), Nothing)
    | SetInitial m => ((w, set_initial m o), Nothing)
    | UpdateValues =>
      let '(o', e) := ob_update_values w o in
      ((w, o'), match e with None => Nothing | Some e => Raised e end)
    | UpdateSafeSet sh mr sf bs order =>
      let '(o', e) := ob_update_safe_set w o sh mr sf bs order in
      ((w, o'), match e with None => Nothing | Some e => Raised e end)
    | GetSafeSample p limits positive num draws =>
      let '(o', r) := ob_get_safe_sample w o p limits positive num draws in
      ((w, o'), match r with Ok (row, b) => Sampled row b | Err e => Raised e end)
    end.
  Definition run (st : state) (cs : list command) : state :=
    fold_left (fun st c => fst (step st c)) cs st.
End Loop.
Arguments ob_setup {W}. Arguments ob_lyap {W}. Arguments ob_values {W}.
Arguments ob_update {W}. Arguments ob_sample {W}. Arguments ob_stuck {W}.
Arguments ug_setup {W}. Arguments ug_factor {W}. Arguments ug_adaptive {W}.
Arguments sg_setup {W}. Arguments sg_width {W}.
Arguments Build_update_graph {W}. Arguments Build_sample_graph {W}. Arguments Build_object {W}.
Arguments new_object {W}. Arguments with_lyap {W}. Arguments ob_update_values {W}.
Arguments set_attributes {W}. Arguments set_initial {W}.
Arguments ob_update_safe_set {W}. Arguments ob_get_safe_sample {W}.
Arguments SetWorld {W}. Arguments SetAttributes {W}. Arguments SetInitial {W}.
Arguments UpdateValues {W}. Arguments UpdateSafeSet {W}. Arguments GetSafeSample {W}.
Arguments step {W}. Arguments run {W}.
