(** C102, continued: calls with wrong arguments. *)
From Coq Require Import Reals List Bool Arith ZArith Lia Lra.
From Verif Require Import Prelude NumModel GridModel GridSpec TriModel SafeModel CertModel SampleModel LoopModel RegionModel UtilModel F64Model ListFacts.
Import ListNotations.
Local Open Scope nat_scope.

(** Dynamics that return a single number for a state with several entries are not
    reported: every entry of all later states is this number. *)
Theorem C102_trajectory_broadcast : forall dyn pol m initial num_steps states actions,
  List.length initial <> 1 -> (forall x u, List.length (dyn x u) = 1) ->
  compute_trajectory dyn pol m initial num_steps = Ok (states, actions) ->
  forall k, S k < List.length states ->
    let x := nth k states [] in nth (S k) states [] = repeat (nth 0 (dyn x (pol x)) 0%R) (List.length initial).
Proof.
  intros dyn pol m initial num_steps states actions N1 D E. unfold compute_trajectory in E. destruct (num_steps <=? 0)%Z; [discriminate|].
  set (d := List.length initial) in *.
  assert (G : forall n x s a, simulate dyn pol d m n x = Ok (s, a) -> forall k, k < List.length s ->
     nth k s [] = repeat (nth 0 (dyn (nth k (x :: s) []) (pol (nth k (x :: s) []))) 0%R) d).
  { induction n as [|n IH]; intros x s a ES k Hk; cbn [simulate] in ES.
    - injection ES as <- <-. cbn in Hk. lia.
    - unfold assign_row in ES at 1. rewrite D in ES. destruct (Nat.eqb_spec 1 d); [congruence|]. cbn [Nat.eqb bind] in ES.
      destruct (assign_row m (pol x)) as [act|e]; cbn [bind] in ES; [|discriminate].
      destruct (simulate dyn pol d m n _) as [[s' a']|e] eqn:EN; cbn [bind fst snd] in ES; [|discriminate]. injection ES as <- <-.
      destruct k as [|k]; [reflexivity|]. cbn [nth]. apply (IH _ _ _ EN). cbn in Hk. lia. }
  destruct (simulate dyn pol d m _ initial) as [[s a]|e] eqn:EN; cbn [bind fst snd] in E; [|discriminate]. injection E as <- <-.
  intros k Hk. cbn zeta. cbn [nth List.length] in *. apply (G _ _ _ _ EN). lia.
Qed.

(** A triangulation in double precision needs one row of values per grid state as well. *)
Theorem C102_triangulation_values : forall dl inv g values project,
  Z.of_nat (List.length values) <> nindex g -> f_make_tri dl inv g values project = Err ValueError.
Proof. intros dl inv g values project H. unfold f_make_tri. destruct (Z.eqb_spec (Z.of_nat (List.length values)) (nindex g)); [contradiction|reflexivity]. Qed.

(** After samples with actions of a wrong width, [get_safe_sample] with perturbations
    is refused, and remains so; the certificates are unchanged. *)
Theorem C102_wrong_width_stays : forall (W : Type) leb g (w : W) (o : object W) m rows limits positive num draws,
  ob_stuck o = true ->
  (forall states, select_states g (ob_lyap o) num draws = Ok states ->
     snd (ob_get_safe_sample leb g w o (Perturbations m rows) limits positive num draws) = Err ValueError) /\
  let o' := fst (ob_get_safe_sample leb g w o (Perturbations m rows) limits positive num draws) in
  ob_stuck o' = true /\ ob_lyap o' = ob_lyap o.
Proof.
  intros W leb g w o m rows limits positive num draws H. unfold ob_get_safe_sample, sample_call. rewrite H. split.
  - intros states ->. reflexivity.
  - cbn zeta. destruct (select_states g (ob_lyap o) num draws) as [|[]]; cbn; auto.
Qed.

(** A starting node with too many indices. *)
Theorem C102_region_node : forall py f g init, List.length (num_points g) < List.length init ->
  get_lyapunov_region py f g init = Err IndexError.
Proof.
  intros py f g init H. unfold get_lyapunov_region, wrap_node. destruct (Nat.eqb_spec (List.length init) (List.length (num_points g))); [lia|]. reflexivity.
Qed.

(** An index of the starting node outside its axis, which has the nodes
    [-n .. n-1] with negative indices counted from the end; with all indices in
    range the search gets as far as the tiebreaker, which Python 3 does not have. *)
Theorem C102_region_index : forall f g init, List.length init = List.length (num_points g) ->
  ((exists i, i < List.length init /\
      (nth i init 0 < - nth i (num_points g) 0 \/ nth i (num_points g) 0 <= nth i init 0)%Z) ->
    (forall n, In n (num_points g) -> (0 <= n)%Z) ->
    forall py, get_lyapunov_region py f g init = Err IndexError) /\
  ((forall i, i < List.length init ->
      (- nth i (num_points g) 0 <= nth i init 0 < nth i (num_points g) 0)%Z) ->
    get_lyapunov_region Py3 f g init = Err AttributeError).
Proof.
  intros f g init L. unfold get_lyapunov_region, wrap_node. rewrite L, Nat.eqb_refl.
  generalize dependent init. induction (num_points g) as [|n ns IH]; intros [|k init] L; try discriminate L.
  - split; [intros (i & Hi & _); cbn in Hi; lia | reflexivity].
  - injection L as L. specialize (IH init L). destruct IH as (IH1 & IH2). split.
    + intros (i & Hi & B) P py. cbn [combine mapM fst snd bind].
      assert (P0 := P n (or_introl eq_refl)).
      destruct i as [|i].
      * cbn in B. unfold wrap at 1.
        replace ((0 <=? k)%Z && (k <? n)%Z) with false by (symmetry; apply andb_false_iff; rewrite Z.leb_gt, Z.ltb_ge; lia).
        replace ((- n <=? k)%Z && (k <? 0)%Z) with false by (symmetry; apply andb_false_iff; rewrite Z.leb_gt, Z.ltb_ge; lia).
        reflexivity.
      * assert (W : mapM (fun p => wrap (fst p) (snd p)) (combine ns init) = Err IndexError).
        { specialize (IH1 (ex_intro _ i (conj (proj2 (Nat.succ_lt_mono _ _) Hi) B)) (fun m Hm => P m (or_intror Hm)) Py3).
          destruct (mapM _ _) as [w|e]; cbn in IH1; [discriminate|congruence]. }
        rewrite W. destruct (wrap n k) as [?|e] eqn:EW; [reflexivity|].
        cbn. unfold wrap in EW. destruct (_ && _); [discriminate|]. destruct (_ && _); [discriminate|]. congruence.
    + intros B. cbn [combine mapM fst snd bind].
      assert (B0 := B 0 ltac:(cbn; lia)). cbn in B0.
      assert (EW : exists w, wrap n k = Ok w).
      { unfold wrap. destruct ((0 <=? k)%Z && (k <? n)%Z) eqn:E1; [eauto|].
        replace ((- n <=? k)%Z && (k <? 0)%Z) with true; [eauto|].
        symmetry. apply andb_true_iff. apply andb_false_iff in E1. rewrite Z.leb_gt, Z.ltb_ge in E1. rewrite Z.leb_le, Z.ltb_lt. lia. }
      destruct EW as [w ->]. cbn [bind].
      specialize (IH2 (fun i Hi => B (S i) (proj1 (Nat.succ_lt_mono _ _) Hi))).
      destruct (mapM _ _) as [ws|e]; cbn in IH2 |- *; [reflexivity|exact IH2].
Qed.

(** [linearly_spaced_combinations] needs one number of samples, or one per variable. *)
Theorem C102_samples_per_variable : forall bounds ns, List.length ns <> List.length bounds -> List.length ns <> 1 ->
  linearly_spaced_combinations bounds (SamplesArr ns) = Err ValueError.
Proof.
  intros bounds ns H1 H2. unfold linearly_spaced_combinations, broadcast_samples.
  destruct (Nat.eqb_spec (List.length ns) (List.length bounds)); [contradiction|]. destruct (Nat.eqb_spec (List.length ns) 1); [contradiction|reflexivity].
Qed.

Example C102_trajectory_broadcast_ex :
  compute_trajectory (fun x u => [(nth 0 x 0 + nth 1 x 0 + nth 0 u 0)%R]) (fun x => [1%R]) 1 [1%R; 2%R] 3 =
    Ok ([[1; 2]; [4; 4]; [9; 9]]%R, [[1]; [1]]%R).
Proof. unfold compute_trajectory. change (Z.to_nat 3 - 1) with 2. cbn. repeat (f_equal; try (match goal with |- _ = _ :> R => lra end)). Qed.

(** Three points: node -3 is the first one, there is no node -4. *)
Example C102_region_index_ex : forall f,
  let g := Grid [(0, 1)%R] [3%Z] in
  get_lyapunov_region Py3 f g [(-3)%Z] = Err AttributeError /\ get_lyapunov_region Py2 f g [(-4)%Z] = Err IndexError.
Proof. intros f g. split; reflexivity. Qed.
