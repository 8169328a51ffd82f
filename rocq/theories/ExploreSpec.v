(** Vocabulary for exploration with Gaussian processes. *)
From Coq Require Import Reals List Bool ZArith.
From Verif Require Import Prelude NumModel GridModel SafeModel CertModel SampleModel LoopModel GPLoopModel.
From Verif Require Import GridSpec SafeSpec CertSpec SampleSpec LoopSpec GPLoopSpec.
Import ListNotations.
Local Open Scope R_scope.

(** The number of measurements at a point. *)
Definition times_measured (w : dataset) (x : list R) : nat :=
  count_occ (list_eq_dec Req_EM_T) (map fst w) x.

(** Only additional measurements; no attributes are assigned, and the calls use one
    safety factor. *)
Definition adds_data (sf : R) (st : state dataset) (c : command dataset) : Prop :=
  match c with
  | SetWorld w => exists new, w = world st ++ new
  | UpdateSafeSet _ _ sf' _ _ => sf' = sf
  | UpdateValues => True
  | _ => False
  end.

(** Exploration, starting with [st]: a program in which every sample of
    [get_safe_sample] is measured; between the samples the program may update the
    values and the safe set, and add other measurements.  The second list has the
    samples, with the reported bounds. *)
Inductive explores (leb : list R -> list R -> bool) (g : grid) (sf : R) (m : nat) (perts : list (list R))
    (limits : option (list (R * R))) (st : state dataset)
    : list (command dataset) -> list (list R * R) -> Prop :=
| ex_start : explores leb g sf m perts limits st [] []
| ex_other : forall h log c,
    explores leb g sf m perts limits st h log -> adds_data sf (run leb g st h) c ->
    explores leb g sf m perts limits st (h ++ [c]) log
| ex_sample : forall h log positive num draws row b y,
    explores leb g sf m perts limits st h log ->
    let now := run leb g st h in
    let call := GetSafeSample (Perturbations m perts) limits positive num draws in
    drawn g (book now) num draws ->
    snd (step leb g now call) = Sampled row b ->
    explores leb g sf m perts limits st
      (h ++ [call; SetWorld (world now ++ [(row, y)])]) (log ++ [(row, b)]).

(** The samples that were less certain than [eps]. *)
Definition uncertain (eps : R) (log : list (list R * R)) : list (list R * R) :=
  filter (fun s => Rltb eps (snd s)) log.

(** The error bound of the stack after [n] measurements at the point, at most. *)
Definition noise_bound (ms : list member) (n : nat) : R :=
  sum (map (fun me => me_beta me * sqrt (me_noise me / INR n)) ms).

(** The kernels have no part that is in [Kdiag] only (like that of a white noise kernel). *)
Definition no_white_noise (ms : list member) : Prop :=
  forall me x, In me ms -> me_kdiag me x = me_kern me x x.

(** Models, object and arguments fit together. *)
Record explorer (g : grid) (V : list R -> R) (pi : list R -> list R) (lv lf tau : R) (ms : list member)
    (m : nat) (perts : list (list R)) (limits : option (list (R * R))) (st : state dataset) : Prop := {
  xp_grid : valid_grid g;
  xp_policy : forall x, length x = dims g -> length (pi x) = m;
  xp_members : length ms = dims g;
  xp_sensible : forall me, In me ms -> sensible me;
  xp_limits : forall lims, limits = Some lims -> length lims = m;
  xp_perts : forall p, In p perts -> length p = m;
  xp_object : exists ini ad, new_object g (world st) (learner V pi lv lf tau ms) ini ad = Ok (snd st)
}.
