(** Model of [perturb_actions] and [get_safe_sample] of [safe_learning/lyapunov.py]
    (lines 609-651 and 657-797).

    Simplifications.
    - Arrays are lists of rows of real numbers.  Numpy would also broadcast a
      single row of actions over several states; the model raises ValueError
      whenever the number of actions is not the number of states.
    - The tensors of lines 705-732 are the functions of the setup [S] that they
      are built from; the cache of the graph (lines 703 and 733-735) is not part
      of this model.
    - The random indices of line 741 are an argument ([draws]).
    - Whether the dynamics return a pair is checked when the graph is built (line
      714), in the model when a row is predicted; without any row (empty safe set)
      deterministic dynamics give TypeError in the code and ValueError here.
    - An array without rows fits every placeholder.
    - [leb] is the order of the rows as byte strings used by [unique_rows].     *)
From Coq Require Import Reals List Bool Arith ZArith.
From Verif Require Import Prelude NumModel GridModel SafeModel CertModel UtilModel.
Import ListNotations.
Local Open Scope nat_scope.
Local Open Scope R_scope.

(** [np.repeat(rows, n, axis=0)] and [np.tile(rows, (n, 1))]. *)
Definition repeat_rows {A} (n : nat) (rows : list A) : list A :=
  flat_map (fun r => repeat r n) rows.
Definition tile_rows {A} (n : nat) (rows : list A) : list A := concat (repeat rows n).

(** Sum of two rows; a single column is broadcast. *)
Definition add_row (a p : list R) : res (list R) :=
  if (length a =? length p)%nat then Ok (map2 Rplus a p)
  else if (length p =? 1)%nat then Ok (map (fun x => x + nth 0 p 0) a)
  else if (length a =? 1)%nat then Ok (map (fun x => nth 0 a 0 + x) p)
  else Err ValueError.

(** [np.clip(row, limits[:, 0], limits[:, 1])]. *)
Definition clip1 (x : R) (l : R * R) : R := Rmin (Rmax x (fst l)) (snd l).
Definition clip_row (limits : list (R * R)) (a : list R) : res (list R) :=
  if (length limits =? length a)%nat then Ok (map2 clip1 a limits)
  else if (length limits =? 1)%nat then Ok (map (fun x => clip1 x (nth 0 limits (0, 0))) a)
  else Err ValueError.

(** Lines 609-651. *)
Definition perturb_actions (leb : list R -> list R -> bool)
    (states actions perturbations : list (list R)) (limits : option (list (R * R)))
    : res (list (list R)) :=
  let states_new := repeat_rows (length perturbations) states in
  let actions_rep := repeat_rows (length perturbations) actions in
  let pert_tiled := tile_rows (length states) perturbations in
  if negb (length actions =? length states)%nat then Err ValueError else
  do actions_new <- mapM (fun ap => add_row (fst ap) (snd ap)) (combine actions_rep pert_tiled);
  match limits with
  | None => Ok (map2 (fun s a => s ++ a) states_new actions_new)
  | Some lims =>
    do clipped <- mapM (clip_row lims) actions_new;
    Ok (unique_rows leb [] (map2 (fun s a => s ++ a) states_new clipped))
  end.

(** The arguments [perturbations] and [actions] with their number of columns;
    [actions] is used if [perturbations] is None (lines 697-700). *)
Inductive proposal :=
| Perturbations (m : nat) (rows : list (list R))
| Actions (m : nat) (rows : list (list R)).
Definition action_dim (p : proposal) : nat :=
  match p with Perturbations m _ => m | Actions m _ => m end.

(** [np.argmax]: the first largest entry. *)
Fixpoint argmax_from (best : R) (at_ i : nat) (l : list R) : nat :=
  match l with
  | [] => at_
  | x :: t => if Rltb best x then argmax_from x i (S i) t else argmax_from best at_ (S i) t
  end.
Definition np_argmax (l : list R) : res nat :=
  match l with [] => Err ValueError | x :: t => Ok (argmax_from x 0 1 t) end.

Section Sample.
  Variable leb : list R -> list R -> bool.
  Variable g : grid.
  Variable L : lyap.
  Variable St : setup.

  (** Feeding rows into [tf_state_actions] (lines 710-711, 763, 789). *)
  Definition feed (width : nat) (rows : list (list R)) : res (list (list R)) :=
    if forallb (fun r => length r =? width)%nat rows then Ok rows else Err ValueError.

  (** [tf_mean, tf_std = lyapunov.dynamics(tf_state_actions)], line 714; a tensor
      cannot be unpacked. *)
  Definition predict (sa : list R) : res (list R * list R) :=
    match dynamics St (firstn (ndim g) sa) (skipn (ndim g) sa) with
    | Uncertain mean err => Ok (mean, err)
    | Exact _ => Err TypeError
    end.

  (** [tf_maps_inside], lines 715-723, for one row. *)
  Definition maps_inside (me : list R * list R) : bool :=
    Rltb (lyapunov_function St (fst me) + weighted_error St (fst me) (snd me)) (l_cmax L).

  (** Lines 770-776: the mask of admissible rows. *)
  Definition admissible (positive : bool) (me : list R * list R) : res bool :=
    if positive then Ok (maps_inside me)
    else
      do i <- state_to_index g (fst me);
      do b <- py_nth (l_safe L) i;
      Ok (maps_inside me && b).

  (** Lines 738-742: the safe grid states, subsampled. *)
  Definition np_where (m : list bool) : list nat := mask m (seq 0 (length m)).
  Definition select_states (num_samples : option Z) (draws : list nat)
      : res (list (list R)) :=
    do states <- mapM (fun k => index_to_state g (Z.of_nat k)) (np_where (l_safe L));
    match num_samples with
    | None => Ok states
    | Some n =>
      if (n <? Z.of_nat (length states))%Z then
        if (n <? 0)%Z then Err ValueError
        else Ok (map (fun i => nth i states []) draws)
      else Ok states
    end.

  (** Lines 737-797; [width] is the number of columns of the placeholder
      [tf_state_actions]. *)
  Definition sample_with (width : nat) (p : proposal) (limits : option (list (R * R)))
      (positive : bool) (num_samples : option Z) (draws : list nat)
      : res (list R * R) :=
    do states <- select_states num_samples draws;
    do candidates <-
      match p with
      | Actions m rows =>
        (* line 750: [meshgrid] flattens its arguments *)
        if (width =? 2)%nat
        then Ok (flat_map (fun x => map (fun u => [x; u]) (concat rows)) (concat states))
        else Err ValueError
      | Perturbations m rows =>
        perturb_actions leb states (map (policy St) states) rows limits
      end;
    do candidates <- feed width candidates;
    do predictions <- mapM predict candidates;
    do inside <- mapM (admissible positive) predictions;
    let bound := map (fun me => sum (snd me)) predictions in
    match mask inside bound with
    | [] =>
      match p with
      | Actions _ _ => Err NameError     (* [safe_actions] is not defined *)
      | Perturbations _ _ =>
        do backup <- perturb_actions leb states (map (policy St) states) [[0]] limits;
        do backup <- feed width backup;
        do predictions <- mapM predict backup;
        let bound := map (fun me => sum (snd me)) predictions in
        do k <- np_argmax bound;
        Ok (nth k backup [], nth k bound 0)
      end
    | bound_safe =>
      do k <- np_argmax bound_safe;
      Ok (nth k (mask inside candidates) [], nth k bound_safe 0)
    end.

  (** Whether the feed dictionary contains, after the lines 737-797, an array whose
      number of columns is not that of its placeholder (lines 763 and 789, the
      entry stays if the evaluation fails); [before] is the answer for calls that
      end before they write the entry. *)
  Definition misfit_after (before : bool) (width : nat) (p : proposal)
      (limits : option (list (R * R))) (positive : bool) (num_samples : option Z)
      (draws : list nat) : bool :=
    let misfits := fun rows => match feed width rows with Ok _ => false | Err _ => true end in
    match select_states num_samples draws with
    | Err _ => before
    | Ok states =>
      match p with
      | Actions _ _ => negb (width =? 2)%nat
      | Perturbations _ rows =>
        let perturbed := fun rows =>
          perturb_actions leb states (map (policy St) states) rows limits in
        match perturbed rows with
        | Err _ => before
        | Ok candidates =>
          if misfits candidates then true else
          match (do predictions <- mapM predict candidates; mapM (admissible positive) predictions) with
          | Ok inside =>
            match mask inside candidates, perturbed [[0]] with
            | [], Ok backup => misfits backup
            | _, _ => false
            end
          | Err _ => false
          end
        end
      end
    end.

  (** Lines 696-797, without a stored graph. *)
  Definition get_safe_sample (p : proposal) : option (list (R * R)) -> bool -> option Z ->
      list nat -> res (list R * R) :=
    sample_with (ndim g + action_dim p)%nat p.
End Sample.
