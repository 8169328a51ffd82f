(** Vocabulary for safe learning with Gaussian processes. *)
From Coq Require Import Reals List.
From Verif Require Import Prelude NumModel GridModel SafeModel CertModel SampleModel LoopModel.
From Verif Require Import GridSpec SafeSpec CertSpec SampleSpec LoopSpec GPSpec GPModel RField GPLoopModel.
Import ListNotations.
Local Open Scope R_scope.

(** Weighted points, and the sums over them. *)
Definition expansion : Type := list (R * list R).
Definition combination (h : list R -> R) (P : expansion) : R :=
  sum (map (fun p => fst p * h (snd p)) P).
Definition energy (k : list R -> list R -> R) (P : expansion) : R :=
  combination (fun x => combination (fun z => k x z) P) P.

(** A symmetric positive semi-definite kernel. *)
Definition kernel (k : list R -> list R -> R) : Prop :=
  (forall x z, k x z = k z x) /\ forall P, 0 <= energy k P.
(** The norm of [h] in the space of functions that belongs to the kernel is at most [B]. *)
Definition norm_bound (k : list R -> list R -> R) (B : R) (h : list R -> R) : Prop :=
  forall P, combination h P ^ 2 <= B ^ 2 * energy k P.

(** A Gaussian process model that makes sense. *)
Record sensible (me : member) : Prop := {
  se_kernel : kernel (me_kern me);
  se_kdiag : forall x, me_kern me x x <= me_kdiag me x;
  se_noise : 0 < me_noise me;
  se_scale : me_scale me <> 0;
  se_beta : 0 <= me_beta me;
  se_chol : forall n, factors_all (me_chol me (n := n))
}.

(** [beta] is large enough for the difference of [h] and the mean function, and for
    the errors of the measurements of [h], which are column [k] of the data. *)
Definition covers (me : member) (k : nat) (h : list R -> R) (w : dataset) : Prop :=
  exists B, norm_bound (me_kern me) B (fun x => h x - me_mean me x) /\
    B ^ 2 + sum (map (fun p => (nth k (snd p) 0 - h (fst p)) ^ 2) w) / me_noise me <= me_beta me ^ 2.
(** ... in every coordinate of the successor. *)
Definition measured (ms : list member) (F : list R -> list R) (w : dataset) : Prop :=
  forall k me, nth_error ms k = Some me -> covers me k (fun x => nth k (F x) 0) w.

(** The setups in the course of learning: only the data changes. *)
Definition learner (V : list R -> R) (pi : list R -> list R) (lv lf tau : R) (ms : list member)
    (w : dataset) : setup :=
  {| lyapunov_function := V; policy := pi; dynamics := stack_dynamics ms w;
     lip_v := LvConst lv; lip_f := LfConst lf; tau := tau |}.

(** The command leaves the data as they are, or replaces them by data that [P] allows. *)
Definition data_in (P : dataset -> Prop) (c : command dataset) : Prop :=
  match c with SetWorld w => P w | _ => True end.

(** Safe learning on a true system: the successor of state [s] with action [u] is
    [F (s ++ u)].  A program that measures, updates the safe set and samples, without
    assigning attributes; [before] and [after] are the states around the last call of
    [update_safe_set], [now] is the present state. *)
Record gp_learning (leb : list R -> list R -> bool) (g : grid) (V : list R -> R) (pi : list R -> list R)
    (F : list R -> list R) (ms : list member) (sf lv lf tau : R) (m : nat)
    (before after now : state dataset) : Prop := {
  (* the grid, the number of actions, and the models *)
  gl_grid : valid_grid g;
  gl_policy : forall x, length x = dims g -> length (pi x) = m;
  gl_members : length ms = dims g;
  gl_sensible : forall me, In me ms -> sensible me;
  gl_F : forall x, length x = (dims g + m)%nat -> length (F x) = dims g;
  (* the program *)
  gl_before : exists w0 ini ad o0 h1,
    new_object g w0 (learner V pi lv lf tau ms) ini ad = Ok o0 /\ measured ms F w0 /\
    without is_assignment h1 /\ Forall (uses sf m) h1 /\ Forall (data_in (measured ms F)) h1 /\
    before = run leb g (w0, o0) h1;
  gl_update : exists mr bs order x0,
    step leb g before (UpdateSafeSet true mr sf bs order) = (after, Nothing) /\
    sorts (l_vals (book before)) order /\ (l_adaptive (book before) = false \/ (mr <= 1)%Z) /\
    at_position order 0 x0 /\
    (neg (certificate (learner V pi lv lf tau ms (world before)) sf (grid_point g)) x0 = true \/
     initially_safe (book before) x0);
  gl_now : exists h2, now = run leb g after h2 /\
    without is_assignment h2 /\ without is_update h2 /\ Forall (uses sf m) h2 /\
    Forall (data_in (measured ms F)) h2;
  gl_evaluates : evaluates leb g now;
  (* the Lipschitz constants of the Lyapunov function and of the closed loop *)
  gl_lv : 0 <= lv;
  gl_lf : 0 <= lf;
  gl_V : forall x y, length x = dims g -> length y = dims g -> Rabs (V x - V y) <= lv * dist1 x y;
  gl_closed : forall x y, length x = dims g -> inside g x -> length y = dims g -> inside g y ->
    dist1 (F (x ++ pi x)) (F (y ++ pi y)) <= lf * dist1 x y;
  (* the resolution of the grid, the level set and the initial safe set, as in [premises] *)
  gl_tau : sum (map (fun h => h / 2) (unit_maxes g)) <= tau;
  gl_inside : forall x, length x = dims g -> V x < l_cmax (book after) -> inside g x;
  gl_init : forall k x, initially_safe (book before) k -> length x = dims g ->
    dist1 x (grid_point g k) <= tau ->
    V x < l_cmax (book after) - lv * tau ->
    V (F (x ++ pi x)) < l_cmax (book after) - lv * tau
}.
