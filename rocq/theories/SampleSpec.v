(** Vocabulary for the statements about safe samples. *)
From Coq Require Import Reals List Bool Arith ZArith.
From Verif Require Import Prelude GridModel GridSpec SafeModel SafeSpec CertModel CertSpec.
Import ListNotations.
Local Open Scope nat_scope.
Local Open Scope R_scope.

(** Restriction of an action to the action limits. *)
Definition limited (limits : option (list (R * R))) (u : list R) : list R :=
  match limits with
  | None => u
  | Some lims => map2 (fun x l => Rmin (Rmax x (fst l)) (snd l)) u lims
  end.

(** A total order of the rows. *)
Record total_order {A} (leb : A -> A -> bool) : Prop := {
  to_total : forall a b, leb a b = true \/ leb b a = true;
  to_trans : forall a b c, leb a b = true -> leb b c = true -> leb a c = true;
  to_antisym : forall a b, leb a b = true -> leb b a = true -> a = b
}.

(** The states of the safe set, in the order of their index. *)
Definition safe_states (g : grid) (L : lyap) : list (list R) :=
  map (grid_point g) (filter (fun k => nth k (l_safe L) false) (seq 0 (length (l_safe L)))).

(** The states that are tested: all safe states, or those with the drawn numbers
    if there are more safe states than requested. *)
Definition tested (g : grid) (L : lyap) (num : option Z) (draws : list nat) : list (list R) :=
  match num with
  | Some n => if (n <? Z.of_nat (length (safe_states g L)))%Z
              then map (fun i => nth i (safe_states g L) []) draws
              else safe_states g L
  | None => safe_states g L
  end.
(** [draws] is a possible result of the random choice. *)
Definition drawn (g : grid) (L : lyap) (num : option Z) (draws : list nat) : Prop :=
  forall n, num = Some n -> (0 <= n)%Z /\
    ((n < Z.of_nat (length (safe_states g L)))%Z ->
     Z.of_nat (length draws) = n /\
     forall i, In i draws -> (i < length (safe_states g L))%nat).

(** Total uncertainty of the prediction for action [u] in state [s]. *)
Definition uncertainty (S : setup) (s u : list R) : R :=
  match dynamics S s u with Uncertain _ err => sum err | Exact _ => 0 end.

(** The pair certainly maps into the level set of [c_max] (and, unless the
    Lyapunov function is declared positive definite, the mean is safe). *)
Definition certified (g : grid) (L : lyap) (S : setup) (positive : bool) (s u : list R) : Prop :=
  exists mean err, dynamics S s u = Uncertain mean err /\
    lyapunov_function S mean + sum (map2 Rmult (coordinate_constants S mean) err) < l_cmax L /\
    (positive = false -> is_safe g L mean = Ok true).

(** Shapes that fit together, with [m] action dimensions. *)
Record sample_fits (g : grid) (L : lyap) (S : setup) (m : nat)
    (limits : option (list (R * R))) : Prop := {
  sf_grid : valid_grid g;
  sf_safe : Z.of_nat (length (l_safe L)) = nindex g;
  sf_policy : forall s, is_vertex g s -> length (policy S s) = m;
  sf_limits : forall lims, limits = Some lims -> length lims = m;
  sf_model : forall s u, is_vertex g s -> length u = m ->
    exists mean err, dynamics S s u = Uncertain mean err /\
      length mean = dims g /\ length err = dims g /\
      length (coordinate_constants S mean) = dims g
}.
