(** Vocabulary for programs that use a [Lyapunov] object. *)
From Coq Require Import Reals List Bool ZArith.
From Verif Require Import Prelude GridModel GridSpec SafeModel SafeSpec CertModel CertSpec
  UtilModel SampleModel SampleSpec LoopModel.
Import ListNotations.
Local Open Scope R_scope.

Section Spec.
  Context {W : Type}.
  Definition is_update (c : command W) : Prop :=
    match c with UpdateSafeSet _ _ _ _ _ => True | _ => False end.
  Definition is_values (c : command W) : Prop :=
    match c with UpdateValues => True | _ => False end.
  Definition is_sample (c : command W) : Prop :=
    match c with GetSafeSample _ _ _ _ _ => True | _ => False end.
  Definition is_assignment (c : command W) : Prop :=
    match c with SetAttributes _ _ => True | SetInitial _ => True | _ => False end.

  (** No command of the program is of the given kind. *)
  Definition without (kind : command W -> Prop) (cs : list (command W)) : Prop :=
    Forall (fun c => ~ kind c) cs.

  (** All calls use one safety factor and one number of action dimensions. *)
  Definition uses (sf : R) (m : nat) (c : command W) : Prop :=
    match c with
    | UpdateSafeSet _ _ sf' _ _ => sf' = sf
    | GetSafeSample p _ _ _ _ => action_dim p = m
    | _ => True
    end.

  (** The numbers of columns fit to [m] action dimensions, also those of an assigned
      policy; explicit actions are paired with single coordinates, which fits in one dimension only. *)
  Definition shaped (g : grid) (m : nat) (c : command W) : Prop :=
    match c with
    | SetAttributes Sa _ => forall w s, is_vertex g s -> length (policy (Sa w) s) = m
    | GetSafeSample (Perturbations m' rows) _ _ _ _ =>
        m' = m /\ forall r, In r rows -> length r = m
    | GetSafeSample (Actions m' _) _ _ _ _ => m' = m /\ dims g = 1%nat /\ m = 1%nat
    | _ => True
    end.
  (** A call that proposes explicit actions. *)
  Definition proposes_actions (c : command W) : Prop :=
    match c with GetSafeSample (Actions _ _) _ _ _ _ => True | _ => False end.

  (** The tensors can be evaluated: [update_values] works. *)
  Definition evaluates (leb : list R -> list R -> bool) (g : grid) (st : state W) : Prop :=
    snd (step leb g st UpdateValues) = Nothing.

  (** World and object of a state, the bookkeeping of the object. *)
  Definition world (st : state W) : W := fst st.
  Definition book (st : state W) : lyap := ob_lyap (snd st).
  Definition attributes (st : state W) : W -> setup := ob_setup (snd st).

  (** [P] holds for every command of the program, in the state it is executed in. *)
  Fixpoint throughout (leb : list R -> list R -> bool) (g : grid)
      (P : state W -> command W -> Prop) (st : state W) (cs : list (command W)) : Prop :=
    match cs with
    | [] => True
    | c :: cs => P st c /\ throughout leb g P (fst (step leb g st c)) cs
    end.
  (** The random indices are indices of safe states. *)
  Definition real_draws (g : grid) (st : state W) (c : command W) : Prop :=
    match c with
    | GetSafeSample _ _ _ _ draws => forall i, In i draws -> (i < length (safe_states g (book st)))%nat
    | _ => True
    end.
End Spec.

(** Numpy adds rows of [m] and [k] columns to rows of [c] columns. *)
Definition broadcasts (m k c : nat) : Prop :=
  (m = c /\ (k = c \/ k = 1%nat)) \/ (k = c /\ m = 1%nat).

(** The dynamics model is right about the true system [f] for action [u] in state
    [s]: bounds that contain the successor, and a Lyapunov function with the given
    constants between the mean and the successor. *)
Definition right_about (S : setup) (f : list R -> list R -> list R) (s u : list R) : Prop :=
  forall mean err, dynamics S s u = Uncertain mean err ->
    within (f s u) mean err /\
    length (coordinate_constants S mean) = length mean /\
    Forall (Rle 0) (coordinate_constants S mean) /\
    Rabs (lyapunov_function S (f s u) - lyapunov_function S mean)
      <= wdist (coordinate_constants S mean) (f s u) mean.

(** Safe learning on a true system [f] with Lyapunov function [V] and policy [pi]: a
    program that adds data, updates the safe set and samples, without assigning
    attributes.  [before] and [after] are the states around the last call of
    [update_safe_set], [now] the present state; the model may have got more data
    since, and is right about the true system.  Evaluation still works (see
    [C87_keeps_evaluating]). *)
Record safe_learning {W} (leb : list R -> list R -> bool) (g : grid) (S0 : W -> setup)
    (V : list R -> R) (pi : list R -> list R) (f : list R -> list R -> list R)
    (sf lv lf : R) (m : nat) (before after now : state W) : Prop := {
  sl_grid : valid_grid g;
  sl_V : forall w x, lyapunov_function (S0 w) x = V x;
  sl_pi : forall w x, policy (S0 w) x = pi x;
  sl_before : exists w0 ini ad o0 h1, new_object g w0 S0 ini ad = Ok o0 /\
    without is_assignment h1 /\ Forall (uses sf m) h1 /\ before = run leb g (w0, o0) h1;
  sl_update : exists mr bs order x0,
    step leb g before (UpdateSafeSet true mr sf bs order) = (after, Nothing) /\
    sorts (l_vals (book before)) order /\ (l_adaptive (book before) = false \/ (mr <= 1)%Z) /\
    at_position order 0 x0 /\
    (neg (certificate (S0 (world before)) sf (grid_point g)) x0 = true \/
     initially_safe (book before) x0);
  sl_now : exists h2, now = run leb g after h2 /\
    without is_assignment h2 /\ without is_update h2 /\ Forall (uses sf m) h2;
  sl_evaluates : evaluates leb g now;
  sl_premises : premises g (S0 (world before)) (fun x => f x (pi x)) lv lf (book before) (book after);
  sl_model : forall s u, is_vertex g s -> length u = m -> right_about (S0 (world now)) f s u
}.
