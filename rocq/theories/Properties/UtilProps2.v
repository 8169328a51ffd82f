(** Properties C39 - C42: storage, trajectories, constrained steps, inputs. *)
From Coq Require Import String Reals List Bool Arith ZArith Lia Lra.
From Verif Require Import Prelude ListFacts NumModel UtilModel UtilProofs.
Import ListNotations.
Local Open Scope nat_scope.

(** ** C39 *)
Section C39.
  Context {K P : Type} (eqK : forall a b : K, {a = b} + {a <> b}).

  (** A history of [set_storage] calls on one dictionary. *)
  Record write := { w_caller : string; w_index : option K; w_items : list (K * P) }.
  Definition run (ws : list write) : @store K P :=
    fold_left (fun s w => set_storage eqK s (w_caller w) (w_items w) (w_index w)) ws [].

  (** The most recent call with this caller and index. *)
  Definition eq_index (a b : option K) : bool :=
    match a, b with
    | None, None => true
    | Some x, Some y => if eqK x y then true else false
    | _, _ => false
    end.
  Definition last_write (ws : list write) (f : string) (i : option K) : option write :=
    find (fun w => (if string_dec f (w_caller w) then true else false) && eq_index i (w_index w))
         (rev ws).
  (** The dictionary with the given items in order. *)
  Definition as_dict (items : list (K * P)) : obj K P :=
    Dict (map (fun kv => (fst kv, Value (snd kv))) items).

  Lemma dict_set_new (l : list (K * obj K P)) k o : ~ In k (map fst l) ->
    dict_set eqK l k o = l ++ [(k, o)].
  Proof.
    induction l as [|[k' o'] l IH]; intros H; auto. simpl in *.
    destruct (eqK k k') as [->|]; [exfalso; auto|]. rewrite IH; auto.
  Qed.
  Lemma ordered_dict_items (nv : list (K * P)) : NoDup (map fst nv) ->
    ordered_dict eqK nv = map (fun kv => (fst kv, Value (snd kv))) nv.
  Proof.
    intros H. unfold ordered_dict.
    assert (G : forall nv (d : list (K * obj K P)), NoDup (map fst d ++ map fst nv) ->
       fold_left (fun d kv => dict_set eqK d (fst kv) (Value (snd kv))) nv d
       = d ++ map (fun kv => (fst kv, Value (snd kv))) nv).
    { clear. induction nv as [|[k p] nv IH]; intros d N; cbn [fold_left map].
      - now rewrite app_nil_r.
      - cbn [map fst snd] in *. rewrite IH.
        + rewrite dict_set_new; [now rewrite <- app_assoc|].
          intros Hk. apply NoDup_remove_2 in N. apply N, in_or_app. auto.
        + rewrite dict_set_new.
          * rewrite map_app. simpl. now rewrite <- app_assoc.
          * intros Hk. apply NoDup_remove_2 in N. apply N, in_or_app. auto. }
    rewrite G; auto.
  Qed.

  (** As long as a calling function uses its storage either always with or always
      without an index, [get_storage] returns what the last [set_storage] with
      the same caller and index stored, with the names in order, and None if
      there was none. *)
  Theorem C39_last_write : forall ws f i,
    (forall w, In w ws -> NoDup (map fst (w_items w))) ->
    (forall w, In w ws -> w_caller w = f -> (w_index w = None <-> i = None)) ->
    get_storage eqK (run ws) f i = option_map (fun w => as_dict (w_items w)) (last_write ws f i).
  Proof.
    intros ws f i. unfold run, last_write.
    induction ws as [|w ws IH] using rev_ind; intros ND HK.
    { destruct i; reflexivity. }
    rewrite fold_left_app, rev_app_distr. cbn [fold_left rev app find].
    set (s := fold_left (fun s w => set_storage eqK s (w_caller w) (w_items w) (w_index w)) ws []) in *.
    assert (IH' := IH (fun w' H => ND w' (in_or_app _ _ _ (or_introl H)))
                     (fun w' H => HK w' (in_or_app _ _ _ (or_introl H)))). clear IH.
    assert (Hw : In w (ws ++ [w])) by (apply in_or_app; right; left; auto).
    specialize (ND w Hw). specialize (HK w Hw).
    destruct (string_dec f (w_caller w)) as [Ef|Ef]; cbn [andb].
    - specialize (HK (eq_sym Ef)). destruct i as [i|].
      + destruct (w_index w) as [j|] eqn:Ej; [|destruct HK as [HK _]; specialize (HK eq_refl); discriminate].
        cbn [eq_index get_storage]. rewrite <- Ef, set_index.
        destruct (eqK i j) as [->|N].
        * rewrite dict_get_set_same. cbn [option_map]. unfold as_dict.
          now rewrite ordered_dict_items.
        * rewrite dict_get_set_other by congruence. etransitivity; [|exact IH'].
          unfold get_storage. destruct (store_get s f); reflexivity.
      + rewrite (proj2 HK eq_refl). cbn [eq_index get_storage]. unfold set_storage.
        rewrite <- Ef, store_get_set_same. cbn [option_map]. unfold as_dict.
        now rewrite ordered_dict_items.
    - rewrite <- IH'. unfold get_storage. now rewrite set_other_caller by congruence.
  Qed.

  (** Calls of other functions never interfere. *)
  Theorem C39_other_callers : forall (s : @store K P) g nv j f i, g <> f ->
    get_storage eqK (set_storage eqK s g nv j) f i = get_storage eqK s f i.
  Proof. intros s g nv j f i N. unfold get_storage. now rewrite set_other_caller. Qed.
End C39.
Print Assumptions C39_last_write.

(** The proviso is needed: calls with and without index from the same function
    share one dictionary. *)
Theorem C39_mixed_indices_refuted :
  ~ (forall (ws : list (@write nat nat)) f i,
       (forall w, In w ws -> NoDup (map fst (w_items w))) ->
       get_storage Nat.eq_dec (run Nat.eq_dec ws) f i
       = option_map (fun w => as_dict (w_items w)) (last_write Nat.eq_dec ws f i)).
Proof.
  intros H.
  specialize (H [{| w_caller := "f"; w_index := Some 1; w_items := [(7, 8)] |}] "f"%string None).
  assert (N : forall w, In w [{| w_caller := "f"; w_index := Some 1; w_items := [(7, 8)] |}] ->
            NoDup (map fst (w_items w))).
  { intros w [<-|[]]. simpl. repeat constructor. intros []. }
  specialize (H N). vm_compute in H. discriminate.
Qed.
Print Assumptions C39_mixed_indices_refuted.

Example C39_ex :
  let ws := [ {| w_caller := "f"; w_index := Some 1; w_items := [(7, 70); (8, 80)] |};
              {| w_caller := "g"; w_index := None; w_items := [(7, 71)] |};
              {| w_caller := "f"; w_index := Some 2; w_items := [(7, 72)] |};
              {| w_caller := "f"; w_index := Some 1; w_items := [(8, 81); (7, 73)] |} ] in
  get_storage Nat.eq_dec (run Nat.eq_dec ws) "f" (Some 1) = Some (Dict [(8, Value 81); (7, Value 73)]) /\
  get_storage Nat.eq_dec (run Nat.eq_dec ws) "g" None = Some (Dict [(7, Value 71)]) /\
  get_storage Nat.eq_dec (run Nat.eq_dec ws) "f" (Some 3) = None.
Proof. vm_compute. auto. Qed.
(** Storing without an index discards what was stored with one. *)
Example C39_ex_lost :
  let ws := [ {| w_caller := "f"; w_index := Some 1; w_items := [(7, 70)] |};
              {| w_caller := "f"; w_index := None; w_items := [(8, 80)] |} ] in
  get_storage Nat.eq_dec (run Nat.eq_dec ws) "f" (Some 1) = None.
Proof. vm_compute. reflexivity. Qed.

(** ** C40 *)

Lemma simulate_ok dyn pol d m : forall n x,
  (forall y, length y = d -> length (dyn y (pol y)) = d) ->
  (forall y, length y = d -> length (pol y) = m) -> length x = d ->
  exists xs us, simulate dyn pol d m n x = Ok (xs, us) /\ length xs = n /\ length us = n /\
    forall i, i < n -> nth i us [] = pol (nth i (x :: xs) []) /\
                       nth i xs [] = dyn (nth i (x :: xs) []) (nth i us []).
Proof.
  induction n as [|n IH]; intros x Hd Hp Hx.
  - exists [], []. repeat split; auto; lia.
  - cbn [simulate]. unfold assign_row. rewrite (Hd x Hx), (Hp x Hx), !Nat.eqb_refl.
    cbn [bind]. destruct (IH (dyn x (pol x)) Hd Hp (Hd x Hx)) as (xs & us & E & L1 & L2 & H).
    rewrite E. cbn [bind fst snd].
    exists (dyn x (pol x) :: xs), (pol x :: us). split; auto. simpl length. split; [lia|].
    split; [lia|]. intros [|i] Hi; [auto|]. apply H. lia.
Qed.

(** num_steps states, num_steps - 1 actions; the states start with the initial
    state; every action is the policy's and every state the successor. *)
Theorem C40_trajectory : forall dyn pol m initial n,
  (1 <= n)%Z ->
  (forall x, length x = length initial -> length (pol x) = m) ->
  (forall x, length x = length initial -> length (dyn x (pol x)) = length initial) ->
  exists states actions, compute_trajectory dyn pol m initial n = Ok (states, actions) /\
    Z.of_nat (length states) = n /\ Z.of_nat (length actions) = (n - 1)%Z /\
    nth 0 states [] = initial /\
    (forall i, i < length actions ->
       nth i actions [] = pol (nth i states []) /\
       nth (S i) states [] = dyn (nth i states []) (nth i actions [])).
Proof.
  intros dyn pol m initial n Hn Hp Hd. unfold compute_trajectory.
  destruct (Z.leb_spec n 0); [lia|].
  destruct (simulate_ok dyn pol (length initial) m (Z.to_nat n - 1) initial Hd Hp eq_refl)
    as (xs & us & E & L1 & L2 & H1).
  rewrite E. cbn [bind fst snd]. exists (initial :: xs), us. split; auto.
  simpl length. split; [lia|]. split; [lia|]. split; auto.
  intros i Hi. apply H1. lia.
Qed.
Print Assumptions C40_trajectory.

(** A longer simulation extends a shorter one. *)
Theorem C40_prefix : forall dyn pol m initial n1 n2 s1 a1 s2 a2,
  (n1 <= n2)%Z ->
  compute_trajectory dyn pol m initial n1 = Ok (s1, a1) ->
  compute_trajectory dyn pol m initial n2 = Ok (s2, a2) ->
  (exists s, s2 = s1 ++ s) /\ (exists a, a2 = a1 ++ a).
Proof.
  intros dyn pol m initial n1 n2 s1 a1 s2 a2 Hn. unfold compute_trajectory.
  destruct (Z.leb_spec n1 0); [discriminate|]. destruct (Z.leb_spec n2 0); [discriminate|].
  assert (G : forall k k' x xs us xs' us', k <= k' ->
     simulate dyn pol (length initial) m k x = Ok (xs, us) ->
     simulate dyn pol (length initial) m k' x = Ok (xs', us') ->
     (exists s, xs' = xs ++ s) /\ (exists a, us' = us ++ a)).
  { induction k as [|k IH]; intros k' x xs us xs' us' Hk E E'.
    - injection E as <- <-. split; eexists; reflexivity.
    - destruct k' as [|k']; [lia|]. cbn [simulate] in E, E'.
      destruct (assign_row _ (dyn x (pol x))) as [y|]; [|discriminate]. cbn [bind] in *.
      destruct (assign_row m (pol x)) as [u|]; [|discriminate]. cbn [bind] in *.
      destruct (simulate _ _ _ _ k y) as [[v w]|] eqn:E1; [|discriminate].
      destruct (simulate _ _ _ _ k' y) as [[v' w']|] eqn:E2; [|discriminate].
      cbn [bind fst snd] in *. injection E as <- <-. injection E' as <- <-.
      destruct (IH k' y v w v' w' ltac:(lia) E1 E2) as ((s & ->) & (a & ->)).
      split; eexists; reflexivity. }
  intros E1 E2.
  destruct (simulate _ _ _ _ (Z.to_nat n1 - 1) initial) as [[v w]|] eqn:F1; [|discriminate].
  destruct (simulate _ _ _ _ (Z.to_nat n2 - 1) initial) as [[v' w']|] eqn:F2; [|discriminate].
  cbn [bind fst snd] in *. injection E1 as <- <-. injection E2 as <- <-.
  destruct (G (Z.to_nat n1 - 1) (Z.to_nat n2 - 1) initial v w v' w' ltac:(lia) F1 F2) as ((s & ->) & (a & ->)).
  split; [exists s; reflexivity|exists a; reflexivity].
Qed.
Print Assumptions C40_prefix.

(** For num_steps <= 0 the call raises ValueError. *)
Theorem C40_no_steps : forall dyn pol m initial n, (n <= 0)%Z ->
  compute_trajectory dyn pol m initial n = Err ValueError.
Proof.
  intros. unfold compute_trajectory. destruct (Z.leb_spec n 0); [auto|lia].
Qed.

(** A dynamics model with one output for a state with several entries is not
    rejected: its value is copied to all entries. *)
Theorem C40_wrong_width_rejected_refuted :
  ~ (forall dyn pol m initial n, (2 <= n)%Z ->
       length (dyn initial (pol initial)) <> length initial ->
       exists e, compute_trajectory dyn pol m initial n = Err e).
Proof.
  intros H. destruct (H (fun x u => [nth 0 x 0%R + 1]%R) (fun x => [0%R]) 1 [0; 5]%R 2%Z)
    as (e & He); [lia|simpl; lia|].
  vm_compute in He. discriminate.
Qed.
Print Assumptions C40_wrong_width_rejected_refuted.

Example C40_ex : compute_trajectory (fun x u => map2 Rplus x u) (fun x => map Ropp x) 1 [3]%R 3 =
  Ok ([[3]; [3 + - 3]; [3 + - 3 + - (3 + - 3)]]%R, [[- 3]; [- (3 + - 3)]]%R).
Proof. reflexivity. Qed.

(** ** C41 *)

Lemma tf_clip_range lo hi x : (lo <= hi)%R -> (lo <= tf_clip lo hi x <= hi)%R.
Proof. intros H. unfold tf_clip, Rmax, Rmin. repeat destruct Rle_dec; lra. Qed.
Lemma tf_clip_id lo hi x : (lo <= x <= hi)%R -> tf_clip lo hi x = x.
Proof. intros H. unfold tf_clip, Rmax, Rmin. repeat destruct Rle_dec; lra. Qed.

(** Whatever the optimizer does, and whether the variables are read before or
    after it: afterwards every variable with a bound is within its bounds and
    equals the value read wherever that is within the bounds; all others
    have the value given by the optimizer. *)
Theorem C41_weight_constraint : forall late opt vs bounds e i v lo hi,
  NoDup vs -> nth_error vs i = Some v -> nth_error bounds i = Some (lo, hi) -> (lo <= hi)%R ->
  let e' := add_weight_constraint late opt vs bounds e in
  let read := if late v then opt e v else e v in
  length (e' v) = length read /\
  (forall k, k < length read -> (lo <= nth k (e' v) 0 <= hi)%R) /\
  (forall k, (lo <= nth k read 0 <= hi)%R -> nth k (e' v) 0%R = nth k read 0%R).
Proof.
  intros late opt vs bounds e i v lo hi ND Hv Hb Hle e' read.
  assert (E : e' v = map (tf_clip lo hi) read).
  { unfold e', add_weight_constraint. set (e1 := opt e) in *.
    assert (G : forall vs bounds i e0, NoDup vs -> nth_error vs i = Some v ->
       nth_error bounds i = Some (lo, hi) ->
       fold_left (fun e' (vb : nat * (R * R)) => let '(w, (lo, hi)) := vb in
          set_var e' w (map (tf_clip lo hi) ((if late w then e1 else e) w)))
         (combine vs bounds) e0 v = map (tf_clip lo hi) ((if late v then e1 else e) v)).
    { clear. induction vs as [|w vs IH]; intros bounds i e0 ND Hv Hb; [destruct i; discriminate|].
      destruct bounds as [|(l1, h1) bounds]; [destruct i; discriminate|].
      inversion ND; subst. destruct i as [|i]; simpl in Hv, Hb.
      - injection Hv as ->. injection Hb as -> ->. cbn [combine fold_left].
        assert (K : forall vs bounds e0, ~ In v vs ->
          fold_left (fun e' (vb : nat * (R * R)) => let '(w, (lo, hi)) := vb in
            set_var e' w (map (tf_clip lo hi) ((if late w then e1 else e) w)))
           (combine vs bounds) e0 v = e0 v).
        { clear. induction vs as [|w vs IH]; intros [|(l, h) bounds] e0 N; auto.
          cbn [combine fold_left]. rewrite IH by (simpl in N; tauto).
          unfold set_var. destruct (Nat.eqb_spec v w); auto. subst. simpl in N. tauto. }
        rewrite K by auto. unfold set_var. now rewrite Nat.eqb_refl.
      - cbn [combine fold_left]. apply (IH bounds i); auto. }
    rewrite (G vs bounds i e1 ND Hv Hb). unfold read. now destruct (late v). }
  rewrite E, map_length. split; auto. split.
  - intros k Hk. rewrite nth_map' with (d' := 0%R) by auto. now apply tf_clip_range.
  - intros k Hk. destruct (le_lt_dec (length read) k).
    + rewrite !nth_overflow; auto. now rewrite map_length.
    + rewrite nth_map' with (d' := 0%R) by auto. now apply tf_clip_id.
Qed.
Print Assumptions C41_weight_constraint.

Theorem C41_unbounded_variables : forall late opt vs bounds e w,
  ~ In w (firstn (length bounds) vs) ->
  add_weight_constraint late opt vs bounds e w = opt e w.
Proof.
  intros late opt vs bounds e w. unfold add_weight_constraint. set (e1 := opt e).
  assert (G : forall e0 : vars, e0 w = e1 w -> ~ In w (firstn (length bounds) vs) ->
    fold_left (fun e' (vb : nat * (R * R)) => let '(v, (lo, hi)) := vb in
       set_var e' v (map (tf_clip lo hi) ((if late v then e1 else e) v)))
      (combine vs bounds) e0 w = e1 w).
  { revert bounds. induction vs as [|v vs IH]; intros [|(l, h) bounds] e0 E N; auto.
    cbn [combine fold_left]. simpl in N. apply IH; [|tauto].
    unfold set_var. destruct (Nat.eqb_spec w v); auto. subst. tauto. }
  intros N. now apply G.
Qed.

(** The gradients that are applied: one for each pair of variable and limit,
    within the limit and unchanged where it was inside. *)
Lemma clipped_inside : forall grads limits cs,
  clipped_gradients grads limits = Ok cs ->
  length cs = Nat.min (length grads) (length limits) /\
  forall i v c lo hi, nth_error cs i = Some (c, v) -> nth_error limits i = Some (lo, hi) ->
    (lo <= hi)%R ->
    exists g, nth_error grads i = Some (Some g, v) /\ length c = length g /\
      (forall k, k < length g -> (lo <= nth k c 0 <= hi)%R) /\
      (forall k, (lo <= nth k g 0 <= hi)%R -> nth k c 0%R = nth k g 0%R).
Proof.
  intros grads limits cs H. unfold clipped_gradients in H. apply mapM_inv in H.
  split.
  - apply Forall2_length' in H. rewrite <- H. apply combine_length.
  - intros i v c lo hi Hc Hl Hle.
    revert cs limits H i Hc Hl. induction grads as [|(g, w) grads IH]; intros cs limits H i Hc Hl.
    + inversion H; subst. destruct i; discriminate.
    + destruct limits as [|(l1, h1) limits]; [destruct i; discriminate|].
      cbn [combine] in H. inversion H as [|? y ? cs' H1 H2]; subst. destruct i as [|i].
      * simpl in Hc, Hl. injection Hc as ->. injection Hl as -> ->.
        destruct g as [g|]; [|discriminate]. injection H1 as <- <-. exists g.
        split; auto. rewrite map_length. split; auto. split.
        -- intros k Hk. rewrite nth_map' with (d' := 0%R) by auto. now apply tf_clip_range.
        -- intros k Hk. destruct (le_lt_dec (length g) k).
           ++ rewrite !nth_overflow; auto. now rewrite map_length.
           ++ rewrite nth_map' with (d' := 0%R) by auto. now apply tf_clip_id.
      * apply (IH cs' limits H2 i Hc Hl).
Qed.
(** The gradients reach [apply_gradients] of the optimiser, and nothing else is done. *)
Theorem C41_gradient_clipping : forall apply grads limits e e',
  gradient_clipping apply grads limits e = Ok e' ->
  exists cs, e' = apply cs e /\
  length cs = Nat.min (length grads) (length limits) /\
  forall i v c lo hi, nth_error cs i = Some (c, v) -> nth_error limits i = Some (lo, hi) ->
    (lo <= hi)%R ->
    exists g, nth_error grads i = Some (Some g, v) /\ length c = length g /\
      (forall k, k < length g -> (lo <= nth k c 0 <= hi)%R) /\
      (forall k, (lo <= nth k g 0 <= hi)%R -> nth k c 0%R = nth k g 0%R).
Proof.
  intros apply grads limits e e' H. unfold gradient_clipping in H.
  destruct clipped_gradients as [cs|] eqn:E; [|discriminate]. injection H as <-.
  exists cs. split; [reflexivity|]. now apply clipped_inside.
Qed.
Print Assumptions C41_gradient_clipping.
(** A loss that does not depend on one of the variables with a limit is rejected. *)
Theorem C41_missing_gradient : forall apply grads limits e i v,
  nth_error grads i = Some (None, v) -> i < length limits ->
  gradient_clipping apply grads limits e = Err ValueError.
Proof.
  intros apply grads limits e i v H L. unfold gradient_clipping.
  enough (E : clipped_gradients grads limits = Err ValueError) by now rewrite E.
  revert limits i H L. induction grads as [|(g, w) grads IH]; intros [|(lo, hi) limits] i H L;
    try (simpl in L; lia); [destruct i; discriminate|].
  unfold clipped_gradients in *. cbn [combine mapM]. destruct i as [|i].
  - injection H as -> ->. reflexivity.
  - destruct g as [g|]; [|reflexivity]. cbn [bind]. rewrite (IH limits i) by (simpl in *; auto; lia). reflexivity.
Qed.

(** "Every variable gets an update" is false: [zip] drops variables without a
    limit. *)
Theorem C41_all_variables_updated_refuted :
  ~ (forall grads limits cs, clipped_gradients grads limits = Ok cs -> length cs = length grads).
Proof.
  intros H.
  specialize (H [(Some [1%R], 0); (Some [2%R], 1)] [(0, 1)%R] _ eq_refl). discriminate.
Qed.

Example C41_ex :
  let opt := fun e : vars => (fun v => map (fun x => x + 5)%R (e v)) in
  let e := fun v => [INR v] in
  let e' := add_weight_constraint (fun _ => true) opt [0; 1] [(-1, 1)%R] e in
  e' 0 = [1%R] /\ e' 1 = [6%R].
Proof.
  unfold add_weight_constraint, set_var. simpl. split; f_equal; [|lra].
  unfold tf_clip, Rmax, Rmin. repeat destruct Rle_dec; lra.
Qed.

(** ** C42 *)

(** The rows of an argument: a number is one entry, a list one row. *)
Definition as_rows {A} (a : arg A) : list (list A) :=
  match a with Num x => [[x]] | Arr1 v | Ten1 v => [v] | Arr2 m | Ten2 m => m end.
Definition has_rows {A} (n : nat) (a : arg A) : Prop := length (as_rows a) = n.
Definition tensor_arg {A} (a : arg A) : Prop :=
  match a with Ten1 _ | Ten2 _ => True | _ => False end.
Definition no_tensor {A} (a : arg A) : Prop :=
  match a with Ten1 _ | Ten2 _ => False | _ => True end.
Definition two_axes {A} (a : arg A) : Prop :=
  match a with Arr2 _ | Ten2 _ => True | _ => False end.
(** Row r of the column-wise concatenation. *)
Definition joined_row {A} (args : list (arg A)) (r : nat) : list A :=
  concat (map (fun a => nth r (as_rows a) []) args).
Definition joined {A} (n : nat) (args : list (arg A)) : list (list A) :=
  map (joined_row args) (seq 0 n).

Lemma rows_eq {A} (a : arg A) : atleast_2d a = as_rows a.
Proof. now destruct a. Qed.
Lemma hcat_joined {A} n (args : list (arg A)) : Forall (has_rows n) args ->
  hcat n (map atleast_2d args) = joined n args.
Proof.
  induction 1 as [|a args H _ IH]; unfold joined, joined_row; cbn [map hcat concat].
  - clear. generalize 0. induction n; intros s; simpl; f_equal; auto.
  - rewrite IH, rows_eq. unfold joined, joined_row, has_rows in *. apply (list_ext []).
    + rewrite map2_length, !map_length, seq_length. lia.
    + rewrite map2_length, map_length, seq_length. intros q Hq.
      rewrite nth_map2' with (da := []) (db := []) by (rewrite ?map_length, ?seq_length; lia).
      rewrite !nth_map' with (d' := 0) by (rewrite seq_length; lia).
      rewrite seq_nth by lia. reflexivity.
Qed.
Lemma hstack_joined {A} n (args : list (arg A)) : args <> [] -> Forall (has_rows n) args ->
  hstack (map atleast_2d args) = Ok (joined n args).
Proof.
  intros Hne F. unfold hstack. destruct args as [|a args]; [contradiction|]. cbn [map].
  assert (F' := F). inversion F' as [|? ? Ha Ft]; subst.
  assert (E : forallb (fun m' => length m' =? length (atleast_2d a)) (map atleast_2d args) = true).
  { apply forallb_forall. intros m Hm. apply in_map_iff in Hm as (b & <- & Hb).
    rewrite Forall_forall in Ft. apply Nat.eqb_eq. rewrite !rows_eq, (Ft b Hb). symmetry. exact Ha. }
  rewrite E. f_equal. unfold has_rows in Ha. rewrite rows_eq, Ha.
  exact (hcat_joined _ (a :: args) F).
Qed.
Lemma existsb_no_tensor {A} (args : list (arg A)) : Forall no_tensor args ->
  existsb is_tensor args = false.
Proof. induction 1 as [|[] ? ? ? IH]; simpl in *; auto; contradiction. Qed.
Lemma existsb_tensor {A} (args : list (arg A)) : Exists tensor_arg args ->
  existsb is_tensor args = true.
Proof. induction 1 as [[] args T|a args _ IH]; simpl in *; auto; try contradiction. rewrite IH. apply orb_true_r. Qed.

(** Several arrays: the wrapped function is called with the concatenation. *)
Theorem C42_arrays : forall (A : Type) (pre rest : list (arg A)) n,
  2 <= length rest -> Forall no_tensor rest -> Forall (has_rows n) rest ->
  concatenate_inputs (length pre) (pre ++ rest) = Ok (pre ++ [Arr2 (joined n rest)]) /\
  concatenate_inputs (length pre) (pre ++ [Arr2 (joined n rest)])
  = concatenate_inputs (length pre) (pre ++ rest).
Proof.
  intros A pre rest n L N F.
  assert (E1 : concatenate_inputs (length pre) (pre ++ rest) = Ok (pre ++ [Arr2 (joined n rest)])).
  { unfold concatenate_inputs. rewrite skipn_app, skipn_all, Nat.sub_diag, firstn_app, firstn_all,
      Nat.sub_diag, firstn_O, app_nil_r. cbn [app skipn]. rewrite existsb_no_tensor by auto.
    rewrite app_length.
    destruct (Z.eqb_spec (Z.of_nat (length pre + length rest) - Z.of_nat (length pre)) 1); [lia|].
    rewrite (hstack_joined n) by (auto; intros ->; simpl in L; lia). reflexivity. }
  split; auto. rewrite E1. unfold concatenate_inputs.
  rewrite skipn_app, skipn_all, Nat.sub_diag, firstn_app, firstn_all,
      Nat.sub_diag, firstn_O, app_nil_r. cbn [app skipn existsb is_tensor orb].
  rewrite app_length. cbn [length].
  destruct (Z.eqb_spec (Z.of_nat (length pre + 1) - Z.of_nat (length pre)) 1); [|lia].
  reflexivity.
Qed.
Print Assumptions C42_arrays.

(** A single array or number becomes two-dimensional (one row). *)
Theorem C42_single : forall (A : Type) (pre : list (arg A)) a, no_tensor a ->
  concatenate_inputs (length pre) (pre ++ [a]) = Ok (pre ++ [Arr2 (as_rows a)]).
Proof.
  intros A pre a N. unfold concatenate_inputs.
  rewrite skipn_app, skipn_all, Nat.sub_diag, firstn_app, firstn_all,
      Nat.sub_diag, firstn_O, app_nil_r. cbn [app skipn].
  rewrite existsb_no_tensor by (repeat constructor; auto). rewrite app_length. cbn [length map].
  destruct (Z.eqb_spec (Z.of_nat (length pre + 1) - Z.of_nat (length pre)) 1); [|lia].
  reflexivity.
Qed.

(** Arguments with two axes, at least one of them a tensor: a tensor with the
    same entries as for arrays. *)
Theorem C42_tensors : forall (A : Type) (pre rest : list (arg A)) n,
  2 <= length rest -> Forall two_axes rest -> Forall (has_rows n) rest ->
  Exists tensor_arg rest ->
  concatenate_inputs (length pre) (pre ++ rest) = Ok (pre ++ [Ten2 (joined n rest)]).
Proof.
  intros A pre rest n L T F E. unfold concatenate_inputs.
  rewrite skipn_app, skipn_all, Nat.sub_diag, firstn_app, firstn_all,
      Nat.sub_diag, firstn_O, app_nil_r. cbn [app skipn]. rewrite existsb_tensor, app_length by exact E.
  destruct (Z.eqb_spec (Z.of_nat (length pre + length rest) - Z.of_nat (length pre)) 1); [lia|].
  unfold tf_concat. rewrite (mapM_ok _ _ atleast_2d).
  - cbn [bind]. rewrite (hstack_joined n) by (auto; intros ->; simpl in L; lia). reflexivity.
  - intros a Ha. rewrite Forall_forall in T. specialize (T a Ha).
    destruct a; simpl in *; auto; contradiction.
Qed.
Print Assumptions C42_tensors.

(** Arrays with different numbers of rows are rejected, and so is a call
    without arguments. *)
Theorem C42_mismatch : forall (A : Type) (pre rest : list (arg A)) a b,
  Forall no_tensor rest -> In a rest -> In b rest ->
  length (as_rows a) <> length (as_rows b) ->
  concatenate_inputs (length pre) (pre ++ rest) = Err ValueError /\
  concatenate_inputs (length pre) pre = Err ValueError.
Proof.
  intros A pre rest a b N Ha Hb D. split.
  - unfold concatenate_inputs.
    rewrite skipn_app, skipn_all, Nat.sub_diag. cbn [app skipn].
    rewrite existsb_no_tensor by auto. rewrite app_length.
    destruct (Z.eqb_spec (Z.of_nat (length pre + length rest) - Z.of_nat (length pre)) 1).
    { exfalso. destruct rest as [|c [|c' rest]]; simpl in *; try lia.
      destruct Ha as [->|[]]. destruct Hb as [->|[]]. auto. }
    unfold hstack. destruct rest as [|c rest]; [destruct Ha|]. cbn [map].
    destruct (forallb _ _) eqn:E; [|reflexivity]. exfalso. apply D.
    rewrite forallb_forall in E.
    assert (Q : forall x, In x (c :: rest) -> length (atleast_2d x) = length (atleast_2d c)).
    { intros x [->|Hx]; auto. apply Nat.eqb_eq, E, in_map, Hx. }
    rewrite <- (rows_eq a), <- (rows_eq b), (Q a Ha), (Q b Hb). auto.
  - unfold concatenate_inputs. rewrite skipn_all. cbn [existsb].
    destruct (Z.eqb_spec (Z.of_nat (length pre) - Z.of_nat (length pre)) 1); [lia|]. reflexivity.
Qed.

(** "Tensors and arrays agree" is false for one axis: arrays are promoted to one
    row, tensors are passed on unchanged or rejected. *)
Theorem C42_tensors_like_arrays_refuted :
  ~ (forall (A : Type) (v w : list A) m,
       concatenate_inputs 0 [Arr1 v; Arr1 w] = Ok [Arr2 m] ->
       concatenate_inputs 0 [Ten1 v; Ten1 w] = Ok [Ten2 m]).
Proof. intros H. specialize (H nat [1] [2] _ eq_refl). discriminate. Qed.
Theorem C42_single_tensor : forall (A : Type) (pre : list (arg A)) a, tensor_arg a ->
  concatenate_inputs (length pre) (pre ++ [a]) = Ok (pre ++ [a]).
Proof.
  intros A pre a T. assert (E : is_tensor a = true) by now destruct a.
  unfold concatenate_inputs.
  rewrite skipn_app, skipn_all, Nat.sub_diag. cbn [app skipn existsb]. rewrite E. cbn [orb].
  rewrite app_length. cbn [length].
  destruct (Z.eqb_spec (Z.of_nat (length pre + 1) - Z.of_nat (length pre)) 1); [auto|lia].
Qed.

Example C42_ex : concatenate_inputs 1 [Num 0; Arr2 [[1]; [2]]; Arr2 [[3; 4]; [5; 6]]] =
  Ok [Num 0; Arr2 [[1; 3; 4]; [2; 5; 6]]].
Proof. reflexivity. Qed.
Example C42_ex_row : concatenate_inputs 0 [Num 1; Arr1 [2; 3]] = Ok [Arr2 [[1; 2; 3]]].
Proof. reflexivity. Qed.
