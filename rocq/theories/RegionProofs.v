(** Lemmas about [RegionModel]. *)
From Coq Require Import Reals List Bool Arith ZArith Lia Lra Permutation.
From Verif Require Import Prelude ListFacts NumModel NumProofs GridModel GridSpec GridProofs
  RegionModel RegionSpec.
Import ListNotations.
Local Open Scope nat_scope.

(** ** Minimum *)

Lemma omin_None_r a : omin a None = a.
Proof. destruct a; reflexivity. Qed.

Lemma reduce_min_spec l :
  match reduce_min l with
  | None => l = []
  | Some m => In m l /\ forall x, In x l -> (m <= x)%R
  end.
Proof.
  induction l as [|a l IH]; [reflexivity|].
  change (reduce_min (a :: l)) with (omin (Some a) (reduce_min l)).
  destruct (reduce_min l) as [m|]; simpl.
  - destruct IH as (H1 & H2). unfold Rmin. destruct Rle_dec as [Hr|Hr]; split; auto.
    + intros x [<-|Hx]; [lra|]. specialize (H2 x Hx). lra.
    + intros x [<-|Hx]; [lra|]. auto.
  - subst l. split; auto. intros x [<-|[]]. lra.
Qed.

Lemma fold_omin_spec (h : nat -> option R) is m0 :
  match fold_left (fun m i => omin m (h i)) is m0 with
  | None => m0 = None /\ forall i, In i is -> h i = None
  | Some m => (m0 = Some m \/ exists i, In i is /\ h i = Some m) /\
              (forall x, m0 = Some x -> (m <= x)%R) /\
              (forall i x, In i is -> h i = Some x -> (m <= x)%R)
  end.
Proof.
  revert m0; induction is as [|i is IH]; intros m0; simpl.
  - destruct m0 as [m|].
    + split; auto. split; [intros x [= <-]; lra|]. intros i x [].
    + split; auto. intros i [].
  - specialize (IH (omin m0 (h i))).
    destruct (fold_left _ is _) as [m|].
    + destruct IH as (A & B & C).
      destruct m0 as [y|]; destruct (h i) as [z|] eqn:E; simpl in A, B.
      * split; [|split].
        -- destruct A as [A|(j & Hj & Ej)]; [|right; eauto].
           injection A as <-. unfold Rmin. destruct Rle_dec; [now left|].
           right. exists i. auto.
        -- intros x [= <-]. pose proof (B _ eq_refl). pose proof (Rmin_l y z). lra.
        -- intros j x [<-|Hj] Ej; [|eauto]. rewrite E in Ej. injection Ej as <-.
           pose proof (B _ eq_refl). pose proof (Rmin_r y z). lra.
      * split; [|split]; auto.
        -- destruct A as [A|(j & Hj & Ej)]; [auto|right; eauto].
        -- intros j x [<-|Hj] Ej; [congruence|eauto].
      * split; [|split].
        -- destruct A as [A|(j & Hj & Ej)]; [right; exists i; split; [auto|congruence]|right; eauto].
        -- intros x [=].
        -- intros j x [<-|Hj] Ej; [|eauto]. rewrite E in Ej. injection Ej as <-. eauto.
      * split; [|split]; auto.
        -- destruct A as [A|(j & Hj & Ej)]; [auto|right; eauto].
        -- intros j x [<-|Hj] Ej; [congruence|eauto].
    + destruct IH as (A & B). destruct m0, (h i) eqn:E; simpl in A; try discriminate.
      split; auto. intros j [<-|Hj]; auto.
Qed.

(** ** Boundary points *)

Lemma last_nth {A} (l : list A) d : last l d = nth (length l - 1) l d.
Proof.
  induction l as [|a l IH]; [reflexivity|]. destruct l as [|b l]; [reflexivity|].
  change (last (a :: b :: l) d) with (last (b :: l) d). rewrite IH. simpl length.
  replace (S (S (length l)) - 1) with (S (S (length l) - 1)) by lia. reflexivity.
Qed.

Lemma Forall2_set_nth {A B} (P : A -> B -> Prop) (p : list A) (l : list B) i b da db :
  i < length l ->
  Forall2 P p (set_nth i b l) <->
  length p = length l /\ P (nth i p da) b /\
  forall j, j < length l -> j <> i -> P (nth j p da) (nth j l db).
Proof.
  intros Hi. rewrite (Forall2_nth _ _ _ da db). rewrite set_nth_length. split.
  - intros (A1 & A2). split; [auto|]. split.
    + specialize (A2 i ltac:(lia)). rewrite nth_set_nth, Nat.eqb_refl in A2.
      apply Nat.ltb_lt in Hi. rewrite Hi in A2. exact A2.
    + intros j Hj Hne. specialize (A2 j ltac:(lia)). rewrite nth_set_nth in A2.
      destruct (Nat.eqb_spec i j); [lia|]. exact A2.
  - intros (A1 & A2 & A3). split; auto. intros j Hj. rewrite nth_set_nth.
    destruct (Nat.eqb_spec i j) as [<-|]; simpl.
    + apply Nat.ltb_lt in Hi. rewrite Hi. auto.
    + apply A3; lia.
Qed.

Lemma boundary_points_In g i p : valid_grid g -> i < dims g ->
  In p (boundary_points g i) <->
  is_vertex g p /\ (coordinate p i = lower g i \/ coordinate p i = upper g i).
Proof.
  intros V Hi. unfold boundary_points. rewrite meshgrid_In.
  rewrite Forall2_set_nth with (da := 0%R) (db := []) by (rewrite discrete_len; auto).
  rewrite (discrete_len g V), (discrete_nth g V i Hi).
  destruct (valid_axis g V i Hi) as (Hlu & Hn).
  assert (E : ends (linspace (lower g i) (upper g i) (npts g i)) = [lower g i; upper g i]).
  { unfold ends. rewrite last_nth, linspace_length.
    replace (Z.to_nat (npts g i) - 1) with (Z.to_nat (npts g i - 1)) by lia.
    assert (E0 := linspace_nth (lower g i) (upper g i) (npts g i) 0 0%R Hn ltac:(lia)).
    change (Z.to_nat 0) with 0 in E0. rewrite E0.
    rewrite linspace_nth by lia. f_equal; [lra|]. f_equal.
    field. apply not_0_IZR. lia. }
  rewrite E. unfold is_vertex. split.
  - intros (A & B & C). repeat split; auto.
    + intros j Hj. destruct (Nat.eq_dec j i) as [->|Hne].
      * unfold coordinate. destruct B as [B|[B|[]]]; rewrite <- B.
        -- exists 0%Z. split; [lia|]. lra.
        -- exists (npts g i - 1)%Z. split; [lia|]. rewrite (upper_eq g V i Hi). lra.
      * specialize (C j Hj Hne). rewrite (discrete_nth g V j Hj) in C.
        destruct (valid_axis g V j Hj). apply linspace_In in C; [|lia]. exact C.
    + destruct B as [B|[B|[]]]; auto.
  - intros ((A & B) & C). repeat split; auto.
    + destruct C as [C|C]; [left|right; left]; auto.
    + intros j Hj Hne. rewrite (discrete_nth g V j Hj).
      destruct (valid_axis g V j Hj). apply linspace_In; auto. apply (B j Hj).
Qed.

(** ** The queue *)

Lemma pop_min_None q : pop_min q = None <-> q = [].
Proof.
  destruct q as [|e q]; simpl; split; auto; try discriminate.
  destruct (pop_min q) as [[m r]|]; [destruct (before e m)|]; discriminate.
Qed.

Lemma pop_min_Some q m r : pop_min q = Some (m, r) ->
  Permutation q (m :: r) /\ forall e, In e r -> (e_val m <= e_val e)%R.
Proof.
  revert m r; induction q as [|e q IH]; intros m r; simpl; [discriminate|].
  destruct (pop_min q) as [[m' r']|] eqn:E.
  - destruct (IH _ _ eq_refl) as (P & H).
    destruct (before e m') eqn:B; intros [= <- <-].
    + split; auto. intros x Hx.
      assert (Hm : (e_val e <= e_val m')%R).
      { unfold before in B. destruct Rlt_dec; [lra|]. destruct Rlt_dec; [discriminate|lra]. }
      apply (Permutation_in _ P) in Hx. destruct Hx as [<-|Hx]; auto.
      specialize (H _ Hx). lra.
    + split.
      * apply Permutation_trans with (e :: m' :: r'); [now constructor|apply perm_swap].
      * intros x [<-|Hx]; auto.
        unfold before in B. destruct Rlt_dec; [discriminate|]. lra.
  - apply pop_min_None in E. subst q. intros [= <- <-]. split; [apply Permutation_refl|].
    intros x [].
Qed.

Definition ks_of (e : entry) : list Z := node_ks (e_node e).

Lemma push_all_nodes q c vs nbs : length vs = length nbs ->
  Permutation (map ks_of (fst (push_all q c vs nbs))) (nbs ++ map ks_of q).
Proof.
  revert q c nbs; induction vs as [|v vs IH]; intros q c [|nb nbs] H; simpl in *; try discriminate.
  - apply Permutation_refl.
  - eapply Permutation_trans; [apply IH; lia|]. simpl.
    apply Permutation_sym, Permutation_middle.
Qed.

Lemma push_all_entries (val : list Z -> R) q c nbs e :
  In e (fst (push_all q c (map val nbs) nbs)) ->
  In e q \/ exists nb, In nb nbs /\ e_node e = Arr nb /\ e_val e = val nb.
Proof.
  revert q c; induction nbs as [|nb nbs IH]; intros q c H; simpl in *; auto.
  apply IH in H as [[<-|H]|(x & A & B & C)]; auto.
  - right. exists nb. auto.
  - right. exists x. auto.
Qed.

Lemma fold_visited_true ws v x :
  fold_left (fun v w => set_visited v w true) ws v x = true <-> v x = true \/ In x ws.
Proof.
  revert v; induction ws as [|w ws IH]; intros v; simpl; [tauto|].
  rewrite IH. unfold set_visited at 1. destruct list_eq_dec as [->|Hn]; [tauto|].
  split; [tauto|]. intros [H|[H|H]]; auto.
Qed.

Lemma fold_visited_false ws v x :
  fold_left (fun v w => set_visited v w false) ws v x = true <-> v x = true /\ ~ In x ws.
Proof.
  revert v; induction ws as [|w ws IH]; intros v; simpl; [tauto|].
  rewrite IH. unfold set_visited at 1. destruct list_eq_dec as [->|Hn].
  - split; [intros ([=] & _)|]. intros (_ & H). exfalso. apply H. auto.
  - split.
    + intros (A & B). split; auto. intros [H|H]; auto.
    + intros (A & B). split; auto.
Qed.

Lemma map2_nth_Z (a b : list Z) j : j < length a -> j < length b ->
  nth j (map2 Z.add a b) 0%Z = (nth j a 0 + nth j b 0)%Z.
Proof. intros. now rewrite nth_map2' with (da := 0%Z) (db := 0%Z). Qed.

Lemma NoDup_app_In {A} (l m : list A) x : NoDup (l ++ m) -> In x l -> ~ In x m.
Proof.
  induction l as [|a l IH]; simpl; [tauto|]. intros H [<-|Hx] Hm; inversion H; subst.
  - apply H2. apply in_or_app; auto.
  - apply IH in H3; auto.
Qed.

(** ** Neighbours *)

Lemma meshgrid_head d :
  meshgrid_ij (repeat [0; -1; 1]%Z d) = repeat 0%Z d :: neighbor_indeces d.
Proof.
  unfold neighbor_indeces. induction d as [|d IH]; [reflexivity|].
  cbn [repeat meshgrid_ij flat_map]. rewrite IH. reflexivity.
Qed.

Lemma offsets_NoDup d : NoDup (meshgrid_ij (repeat [0; -1; 1]%Z d)).
Proof.
  apply meshgrid_NoDup. apply Forall_forall. intros l Hl. apply repeat_spec in Hl. subst l.
  repeat constructor; simpl; intuition lia.
Qed.

Lemma neighbor_indeces_In d o :
  In o (neighbor_indeces d) <->
  length o = d /\ o <> repeat 0%Z d /\ forall j, j < d -> (-1 <= nth j o 0 <= 1)%Z.
Proof.
  assert (A : In o (repeat 0%Z d :: neighbor_indeces d) <->
    length o = d /\ forall j, j < d -> (-1 <= nth j o 0 <= 1)%Z).
  { rewrite <- meshgrid_head, meshgrid_In, (Forall2_nth _ _ _ 0%Z []), repeat_length.
    split; intros (L & H); split; auto; intros j Hj.
    - specialize (H j ltac:(lia)). rewrite nth_repeat' in H.
      destruct (Nat.ltb_spec j d); [|lia]. simpl in H. lia.
    - rewrite nth_repeat'. destruct (Nat.ltb_spec j d); [|lia].
      specialize (H j ltac:(lia)). simpl. lia. }
  pose proof (offsets_NoDup d) as ND. rewrite meshgrid_head in ND. inversion ND; subst.
  split.
  - intros Hi. destruct (proj1 A (or_intror Hi)) as (L & H). repeat split; auto.
    + intros ->. auto.
    + apply H; auto.
    + apply H; auto.
  - intros (L & Hne & H). destruct (proj2 A (conj L H)) as [E|E]; auto. congruence.
Qed.

Lemma add_inj (ks a b : list Z) : length a = length ks -> length b = length ks ->
  map2 Z.add ks a = map2 Z.add ks b -> a = b.
Proof.
  intros La Lb E. apply (list_ext 0%Z); [lia|]. intros j Hj.
  apply (f_equal (fun l => nth j l 0%Z)) in E. rewrite !map2_nth_Z in E by lia. lia.
Qed.

Lemma neighbors_In ks y :
  In y (map (map2 Z.add ks) (neighbor_indeces (length ks))) <-> neighbours ks y.
Proof.
  rewrite in_map_iff. unfold neighbours. split.
  - intros (o & <- & Ho). apply neighbor_indeces_In in Ho as (L & Hne & H).
    rewrite map2_length. split; [lia|]. split.
    + intros E. apply Hne. apply (add_inj ks); rewrite ?repeat_length; auto.
      rewrite <- E. apply (list_ext 0%Z); [rewrite map2_length, repeat_length; lia|].
      intros j Hj. rewrite map2_nth_Z by (rewrite ?repeat_length; lia).
      rewrite nth_repeat'. destruct (j <? length ks); lia.
    + intros j Hj. rewrite map2_nth_Z by lia. specialize (H j ltac:(lia)). lia.
  - intros (L & Hne & H).
    exists (map2 Z.sub y ks). split.
    + apply (list_ext 0%Z); [rewrite !map2_length; lia|]. rewrite map2_length.
      intros j Hj. rewrite map2_length in Hj.
      rewrite map2_nth_Z by (rewrite ?map2_length; lia).
      rewrite nth_map2' with (da := 0%Z) (db := 0%Z) by lia. lia.
    + apply neighbor_indeces_In. rewrite map2_length. split; [lia|]. split.
      * intros E. apply Hne. apply (list_ext 0%Z); auto. intros j Hj.
        apply (f_equal (fun l => nth j l 0%Z)) in E.
        rewrite nth_map2' with (da := 0%Z) (db := 0%Z) in E by lia.
        rewrite nth_repeat' in E. destruct (Nat.ltb_spec j (length ks)); lia.
      * intros j Hj. rewrite nth_map2' with (da := 0%Z) (db := 0%Z) by lia.
        specialize (H j Hj). lia.
Qed.

Lemma neighbors_NoDup ks : NoDup (map (map2 Z.add ks) (neighbor_indeces (length ks))).
Proof.
  pose proof (offsets_NoDup (length ks)) as ND. rewrite meshgrid_head in ND.
  inversion ND as [|? ? _ ND']; subst. clear ND.
  assert (H : forall o, In o (neighbor_indeces (length ks)) -> length o = length ks).
  { intros o Ho. now apply neighbor_indeces_In in Ho. }
  induction ND' as [|o l Ho ND' IH]; simpl; constructor.
  - rewrite in_map_iff. intros (o' & E & Ho'). apply Ho.
    apply add_inj in E; [congruence| |]; apply H; simpl; auto.
  - apply IH. intros o' Ho'. apply H. simpl; auto.
Qed.

Lemma neighbours_sym a b : neighbours a b -> neighbours b a.
Proof.
  intros (L & N & H). split; [auto|]. split; [auto|]. intros j Hj.
  specialize (H j ltac:(lia)). lia.
Qed.

Lemma reach_mono (P Q : list Z -> Prop) a x :
  (forall y, P y -> Q y) -> reach P a x -> reach Q a x.
Proof. intros H R. induction R; [apply reach_start; auto|eapply reach_next; eauto]. Qed.

Lemma reach_end P a x : reach P a x -> P x.
Proof. now destruct 1. Qed.
Lemma reach_begin P a x : reach P a x -> P a.
Proof. induction 1; auto. Qed.

(** First exit of a path from a set. *)
Lemma first_exit P a x (D : list (list Z)) :
  reach P a x -> In a D -> ~ In x D ->
  exists u y, In u D /\ neighbours u y /\ ~ In y D /\ P y.
Proof.
  intros R Ha. induction R as [|b c R IH N Pc]; intros Hx; [contradiction|].
  destruct (in_dec (list_eq_dec Z.eq_dec) b D) as [Hb|Hb]; [|auto].
  exists b, c. auto.
Qed.

(** ** The search *)

Section Search.
  Variables (ns : list Z) (val : list Z -> R) (init : list Z).
  Definition nodeS (x : list Z) : Prop :=
    length x = length ns /\ forall j, j < length ns -> (0 <= nth j x 0 < nth j ns 0)%Z.
  Definition interiorS (x : list Z) : Prop :=
    length x = length ns /\ forall j, j < length ns -> (0 < nth j x 0 < nth j ns 0 - 1)%Z.

  Lemma interior_node x : interiorS x -> nodeS x.
  Proof. intros (L & H). split; auto. intros j Hj. specialize (H j Hj). lia. Qed.

  Lemma interior_neighbour x y : interiorS x -> neighbours x y -> nodeS y.
  Proof.
    intros (L & H) (L' & _ & H'). split; [lia|]. intros j Hj.
    specialize (H j Hj). specialize (H' j ltac:(lia)). lia.
  Qed.

  Lemma wrap_node_ok x : nodeS x -> wrap_node ns x = Ok x.
  Proof.
    intros (L & H). unfold wrap_node. rewrite L, Nat.eqb_refl.
    revert x L H. induction ns as [|n l IH]; intros [|k x] L H; try discriminate; [reflexivity|].
    simpl. pose proof (H 0 ltac:(simpl; lia)) as H0. simpl in H0.
    unfold wrap. destruct (Z.leb_spec 0 k); [|lia]. destruct (Z.ltb_spec k n); [|lia].
    simpl. rewrite IH; [reflexivity|auto|].
    intros j Hj. apply (H (S j)). simpl; lia.
  Qed.

  Lemma upper_hit x l : existsb (fun b => b) (map2 (fun k m => (k =? m - 1)%Z) x l) = true <->
    exists j, j < length x /\ j < length l /\ nth j x 0%Z = (nth j l 0 - 1)%Z.
  Proof.
    revert l; induction x as [|k x IH]; intros [|m l]; simpl.
    - split; [discriminate|intros (j & A & _); lia].
    - split; [discriminate|intros (j & A & _); lia].
    - split; [discriminate|intros (j & _ & A & _); lia].
    - rewrite orb_true_iff, IH, Z.eqb_eq. split.
      + intros [E|(j & A & B & C)]; [exists 0; simpl; repeat split; auto; lia|].
        exists (S j). simpl. repeat split; auto; lia.
      + intros ([|j] & A & B & C); [left; auto|]. right. exists j. simpl in *. repeat split; auto; lia.
  Qed.

  Lemma at_boundary_arr x : nodeS x -> at_boundary ns (Arr x) = true <-> ~ interiorS x.
  Proof.
    intros (L & H). unfold at_boundary. simpl. rewrite orb_true_iff, upper_hit, existsb_exists.
    split.
    - intros [(k & Hk & E)|(j & A & B & C)] (_ & HI).
      + apply Z.eqb_eq in E. apply (In_nth _ _ 0%Z) in Hk as (j & Hj & E').
        specialize (HI j ltac:(lia)). lia.
      + specialize (HI j ltac:(lia)). lia.
    - intros HI.
      destruct (Forall_Exists_dec (fun k => k <> 0%Z)
         (fun k => match Z.eq_dec k 0 with left e => right (fun n => n e) | right n => left n end) x) as [F|E].
      + right. rewrite Forall_forall in F.
        destruct (existsb (fun j => Z.eqb (nth j x 0%Z) (nth j ns 0 - 1)%Z) (seq 0 (length ns))) eqn:E.
        * apply existsb_exists in E as (j & Hj & E). apply in_seq in Hj. apply Z.eqb_eq in E.
          exists j. repeat split; auto; lia.
        * exfalso. apply HI. split; auto. intros j Hj. specialize (H j Hj).
          assert (nth j x 0%Z <> 0%Z) by (apply F; apply nth_In; lia).
          assert (nth j x 0%Z <> (nth j ns 0 - 1)%Z); [|lia].
          intros E'. apply not_true_iff_false in E. apply E. apply existsb_exists.
          exists j. split; [apply in_seq; lia|]. now apply Z.eqb_eq.
      + left. apply Exists_exists in E as (k & Hk & E). exists k. split; auto.
        apply Z.eqb_eq. destruct (Z.eq_dec k 0); [auto|exfalso; auto].
  Qed.

  (** All nodes of the array. *)
  Definition all_nodes : list (list Z) :=
    meshgrid_ij (map (fun n => map Z.of_nat (seq 0 (Z.to_nat n))) ns).

  Lemma all_nodes_In x : nodeS x -> In x all_nodes.
  Proof.
    intros (L & H). unfold all_nodes. apply meshgrid_In. apply (Forall2_nth _ _ _ 0%Z []).
    rewrite map_length. split; auto. intros j Hj. rewrite nth_map' with (d' := 0%Z) by lia.
    specialize (H j ltac:(lia)). apply in_map_iff. exists (Z.to_nat (nth j x 0%Z)).
    split; [lia|]. apply in_seq. lia.
  Qed.

  Lemma all_nodes_length : Forall (fun n => (0 <= n)%Z) ns ->
    Z.of_nat (length all_nodes) = prodZ ns.
  Proof.
    intros F. unfold all_nodes. rewrite meshgrid_length, map_map. f_equal.
    induction F as [|n l Hn F IH]; [reflexivity|]. simpl. rewrite IH. f_equal.
    rewrite map_length, seq_length. lia.
  Qed.

  Lemma mask_map_filter (visited : visited_array) (l : list (list Z)) :
    mask (map (fun w => negb (visited w)) l) l = filter (fun w => negb (visited w)) l.
  Proof.
    induction l as [|a l IH]; [reflexivity|]. simpl. rewrite IH. now destruct (visited a).
  Qed.

  Lemma interior_dec x : interiorS x \/ ~ interiorS x.
  Proof.
    destruct (Nat.eq_dec (length x) (length ns)) as [L|L]; [|right; intros (H & _); auto].
    destruct (forallb (fun j => (0 <? nth j x 0)%Z && (nth j x 0 <? nth j ns 0 - 1)%Z)
                (seq 0 (length ns))) eqn:E.
    - left. split; auto. intros j Hj. rewrite forallb_forall in E.
      specialize (E j ltac:(apply in_seq; lia)). apply andb_true_iff in E as (A & B).
      apply Z.ltb_lt in A, B. lia.
    - right. intros (_ & H). apply not_true_iff_false in E. apply E. apply forallb_forall.
      intros j Hj. apply in_seq in Hj. specialize (H j ltac:(lia)).
      apply andb_true_iff. split; apply Z.ltb_lt; lia.
  Qed.

  Hypothesis Hinit : interiorS init.
  Hypothesis Hdim : 0 < length ns.

  Lemma at_boundary_tup : at_boundary ns (Tup init) = false.
  Proof using All.
    apply not_true_iff_false. unfold at_boundary. simpl. rewrite upper_hit.
    intros (j & A & B & C). destruct Hinit as (L & H). specialize (H j B). lia.
  Qed.

  (** Connected sublevel sets. *)
  Definition sublevels_connected : Prop :=
    forall y, nodeS y -> reach (fun x => nodeS x /\ (val x <= val y)%R) init y.

  Record inv (visited : visited_array) (queue : list entry) (last : R)
      (done : list (list Z)) : Prop := {
    i_vis : forall x, visited x = true <-> In x done \/ In x (map ks_of queue);
    i_nodup : NoDup (done ++ map ks_of queue);
    i_int : forall x, In x done -> interiorS x;
    i_nb : forall x y, In x done -> neighbours x y -> visited y = true;
    i_le : forall x, In x done -> (val x <= last)%R;
    i_reach : forall x, In x done -> reach (fun y => In y done) init x;
    i_queue : forall x, In x (map ks_of queue) -> x = init \/ exists y, In y done /\ neighbours y x;
    i_entry : forall e, In e queue -> e_val e = val (ks_of e) /\ nodeS (ks_of e) /\
                match e_node e with Tup ks => ks = init | Arr _ => True end;
    i_start : (done = [] /\ map ks_of queue = [init] /\ last = val init) \/ In init done;
    i_last : exists w, In w (init :: done) /\ val w = last;
    i_mono : sublevels_connected -> forall x, In x (map ks_of queue) -> (last <= val x)%R
  }.

  (** What is known when the loop has ended with popped node [z]. *)
  Record final (visited : visited_array) (queue : list entry) (done : list (list Z))
      (z : list Z) (last : R) : Prop := {
    f_vis : forall x, visited x = true <->
      In x done \/ In x (map ks_of queue) \/ (x = z /\ interiorS z);
    f_init : In init done;
    f_nodes : forall e, In e queue -> nodeS (ks_of e);
    f_z : nodeS z /\ ~ In z done /\ ~ In z (map ks_of queue);
    f_disj : forall x, In x done -> ~ In x (map ks_of queue);
    f_int : forall x, In x done -> interiorS x;
    f_le : forall x, In x done -> (val x <= last)%R;
    f_reach : forall x, In x done -> reach (fun y => In y done) init x;
    f_nb : forall x y, In x done -> neighbours x y -> ~ In y done -> (val z <= val y)%R;
    f_nbz : exists y, In y done /\ neighbours y z;
    f_last : exists w, In w done /\ val w = last;
    f_exit : ~ interiorS z \/ (val z < last)%R;
    f_mono : sublevels_connected -> ~ interiorS z /\ (last <= val z)%R
  }.

  (** The set of processed nodes cannot be closed: it would have to be infinite
      along axis 0. *)
  Lemma not_closed (done : list (list Z)) :
    In init done -> (forall x, In x done -> interiorS x) ->
    (forall x y, In x done -> neighbours x y -> In y done) -> False.
  Proof using All.
    intros Hi HI HC.
    assert (G : forall m x, In x done -> (nth 0 x 0 < Z.of_nat m)%Z -> False).
    { induction m as [|m IH]; intros x Hx Hm.
      - destruct (HI x Hx) as (_ & H). specialize (H 0 Hdim). lia.
      - destruct (HI x Hx) as (L & H). pose proof (H 0 Hdim).
        set (y := set_nth 0 (nth 0 x 0 - 1)%Z x).
        assert (Y : forall j, nth j y 0%Z = if j =? 0 then (nth 0 x 0 - 1)%Z else nth j x 0%Z).
        { intros j. unfold y. rewrite nth_set_nth. rewrite (Nat.eqb_sym 0 j).
          destruct (Nat.eqb_spec j 0) as [->|]; simpl; auto.
          destruct (Nat.ltb_spec 0 (length x)); auto. lia. }
        apply (IH y).
        + apply (HC x y Hx). unfold neighbours. unfold y at 1. rewrite set_nth_length.
          split; auto. split.
          * intros E. apply (f_equal (fun l => nth 0 l 0%Z)) in E. rewrite Y in E. simpl in E. lia.
          * intros j Hj. rewrite Y. destruct (Nat.eqb_spec j 0) as [->|]; lia.
        + rewrite Y. simpl. lia. }
    destruct (HI init Hi) as (L & H). specialize (H 0 Hdim).
    apply (G (S (Z.to_nat (nth 0 init 0%Z))) init Hi). lia.
  Qed.

  Lemma search_ok : forall fuel visited queue count last done,
    inv visited queue last done ->
    S (length all_nodes) <= fuel + length done ->
    exists visited' queue' done' z last',
      search fuel ns val visited queue count last = Ok (visited', queue') /\
      final visited' queue' done' z last'.
  Proof using All.
    induction fuel as [|fuel IH]; intros visited queue count last done I HF.
    { exfalso. destruct I as [I1 I2 I3 _ _ _ _ _ _ _ _].
      assert (length done <= length all_nodes); [|simpl in HF; lia].
      apply NoDup_incl_length.
      - clear -I2. induction done as [|a done IHd]; [constructor|]. simpl in I2.
        inversion I2; subst. constructor; auto. intros H. apply H1. apply in_or_app; auto.
      - intros x Hx. apply all_nodes_In, interior_node, I3, Hx. }
    simpl. destruct (pop_min queue) as [[e q]|] eqn:EP.
    2:{ exfalso. apply pop_min_None in EP. subst queue.
        destruct I as [I1 I2 I3 I4 I5 I6 I7 I8 I9 I10 I11].
        destruct I9 as [(_ & [=] & _)|I9].
        apply (not_closed done I9 I3). intros x y Hx N. pose proof (I4 x y Hx N) as Hv.
        apply I1 in Hv as [Hv|[]]. exact Hv. }
    apply pop_min_Some in EP as (HP & Hmin).
    assert (HPk : Permutation (map ks_of queue) (ks_of e :: map ks_of q))
      by (apply (Permutation_map ks_of) in HP; exact HP).
    destruct I as [I1 I2 I3 I4 I5 I6 I7 I8 I9 I10 I11].
    set (z := ks_of e) in *.
    assert (He : In e queue) by (apply (Permutation_in _ (Permutation_sym HP)); left; auto).
    destruct (I8 e He) as (Ev & Nz & Kz). fold z in Ev, Nz.
    assert (Hz : In z (map ks_of queue)) by (apply in_map; auto).
    assert (I2' : NoDup (z :: done ++ map ks_of q)).
    { apply (Permutation_NoDup (l := done ++ map ks_of queue)); auto.
      eapply Permutation_trans; [apply Permutation_app_head; exact HPk|].
      apply Permutation_sym, Permutation_middle. }
    inversion I2' as [|? ? Hzn I2q]; subst. rewrite in_app_iff in Hzn.
    assert (Hqin : forall x, In x (map ks_of queue) <-> x = z \/ In x (map ks_of q)).
    { intros x. split; intros H.
      - apply (Permutation_in _ HPk) in H. destruct H; auto.
      - apply (Permutation_in _ (Permutation_sym HPk)). destruct H; [left|right]; auto. }
    assert (Hqe : forall x, In x q -> In x queue).
    { intros x Hx. apply (Permutation_in _ (Permutation_sym HP)). now right. }
    assert (Hminv : forall x, In x (map ks_of q) -> (val z <= val x)%R).
    { intros x Hx. apply in_map_iff in Hx as (e' & <- & He').
      pose proof (Hmin e' He'). destruct (I8 e' (Hqe _ He')) as (E' & _). rewrite <- E', <- Ev. auto. }
    assert (Hstart : (done = [] /\ z = init /\ q = [] /\ last = val init) \/ In init done).
    { destruct I9 as [(A & B & C)|A]; [|right; exact A]. left.
      rewrite B in HPk. apply Permutation_length in HPk as HL. simpl in HL. rewrite map_length in HL.
      destruct q; [|simpl in HL; lia]. repeat split; auto.
      apply Permutation_length_1_inv in HPk. congruence. }
    (* a node is at the boundary iff it is not interior *)
    assert (HB : at_boundary ns (e_node e) = true <-> ~ interiorS z).
    { unfold z, ks_of in *. destruct (e_node e) as [ks|ks]; simpl in *.
      - subst ks. rewrite at_boundary_tup. split; [discriminate|]. intros H; contradiction.
      - now apply at_boundary_arr. }
    change (node_ks (e_node e)) with z.
    (* common facts when the loop ends here *)
    assert (FIN : (exists y, In y done /\ neighbours y z) -> In init done ->
       forall vis', (forall x, vis' x = true <->
           In x done \/ In x (map ks_of q) \/ (x = z /\ interiorS z)) ->
       (~ interiorS z \/ (val z < last)%R) ->
       (sublevels_connected -> ~ interiorS z) ->
       final vis' q done z last).
    { intros Hnb Hi vis' Hvis Hex Hmono. constructor; auto.
      - intros x Hx. apply (I8 x (Hqe x Hx)).
      - split; [auto|]. split; intros H; apply Hzn; auto.
      - intros x Hx Hq. apply NoDup_app_In with (x := x) in I2q; auto.
      - intros x y Hx N Hy. pose proof (I4 x y Hx N) as Hv. apply I1 in Hv as [Hv|Hv]; [contradiction|].
        apply Hqin in Hv as [->|Hv]; [lra|auto].
      - destruct I10 as (w & [<-|Hw] & E); eauto. }
    destruct (at_boundary ns (e_node e)) eqn:EB.
    - (* boundary *)
      assert (Hni : ~ interiorS z) by now apply HB.
      rewrite wrap_node_ok by auto. simpl.
      destruct Hstart as [(A & B & _)|Hi]; [exfalso; apply Hni; rewrite B; auto|].
      eexists _, _, done, z, last. split; [reflexivity|]. apply FIN; auto.
      + destruct (I7 z Hz) as [->|H]; auto. contradiction.
      + intros x. unfold set_visited. destruct list_eq_dec as [<-|Hne].
        * split; [discriminate|]. tauto.
        * rewrite I1, Hqin. split; [|tauto]. intros [H|[H|H]]; auto. congruence.
    - assert (Hint : interiorS z).
      { destruct (interior_dec z) as [H|H]; auto. exfalso. apply HB in H. discriminate. }
      destruct (Rlt_dec (e_val e) last) as [Hlt|Hge].
      + rewrite Ev in Hlt.
        destruct Hstart as [(A & B & C & D)|Hi]; [exfalso; rewrite B, D in Hlt; lra|].
        eexists _, _, done, z, last. split; [reflexivity|]. apply FIN; auto.
        * destruct (I7 z Hz) as [->|H]; auto. exfalso. apply Hzn. auto.
        * intros x. rewrite I1, Hqin. split; [|tauto]. intros [H|[H|H]]; auto.
        * intros HS. specialize (I11 HS z Hz). lra.
      + (* expand *)
        rewrite Ev in *.
        assert (Lz : length z = length ns) by apply Nz.
        set (nbs := map (map2 Z.add z) (neighbor_indeces (length ns))).
        assert (NB : forall y, In y nbs <-> neighbours z y).
        { intros y. unfold nbs. rewrite <- Lz. apply neighbors_In. }
        rewrite (mapM_ok (wrap_node ns) nbs (fun x => x)).
        2:{ intros y Hy. apply wrap_node_ok. apply (interior_neighbour z); auto.
            now apply NB. }
        rewrite map_id. simpl bind.
        rewrite mask_map_filter. set (new := filter (fun w => negb (visited w)) nbs).
        destruct (push_all q count (map val new) new) as [q2 c2] eqn:EQ.
        assert (Q1 : Permutation (map ks_of q2) (new ++ map ks_of q)).
        { pose proof (push_all_nodes q count (map val new) new (map_length _ _)) as H.
          rewrite EQ in H. exact H. }
        assert (Q2 : forall x, In x q2 -> In x q \/
                  exists nb, In nb new /\ e_node x = Arr nb /\ e_val x = val nb).
        { intros x Hx. apply (push_all_entries val q count). now rewrite EQ. }
        assert (Qin : forall x, In x (map ks_of q2) <-> In x new \/ In x (map ks_of q)).
        { intros x. rewrite <- in_app_iff. split; apply Permutation_in; auto.
          now apply Permutation_sym. }
        assert (Hnew : forall x, In x new <-> neighbours z x /\ visited x = false).
        { intros x. unfold new. rewrite filter_In, NB.
          now rewrite negb_true_iff. }
        apply (IH _ _ _ _ (z :: done)).
        2:{ simpl. lia. }
        constructor.
        * intros x. rewrite fold_visited_true, I1, Hqin, Qin. simpl. intuition auto.
        * simpl. constructor.
          -- rewrite in_app_iff, Qin. intros [H|[H|H]]; [apply Hzn; auto| |apply Hzn; auto].
             apply Hnew in H as ((_ & H & _) & _). congruence.
          -- apply (Permutation_NoDup (l := new ++ done ++ map ks_of q)).
             ++ rewrite app_assoc. eapply Permutation_trans;
                  [apply Permutation_app_tail; apply Permutation_app_comm|].
                rewrite <- app_assoc. apply Permutation_app_head. now apply Permutation_sym.
             ++ apply NoDup_app_intro; auto.
                ** apply NoDup_filter. unfold nbs. rewrite <- Lz. apply neighbors_NoDup.
                ** intros x H1 H2. apply Hnew in H1 as (_ & H1).
                   assert (visited x = true); [|congruence].
                   apply I1. apply in_app_iff in H2 as [H2|H2]; auto. right. apply Hqin. auto.
        * intros x [<-|Hx]; auto.
        * intros x y [<-|Hx] N; rewrite fold_visited_true.
          -- destruct (visited y) eqn:Vy; auto. right. apply Hnew. auto.
          -- left. eauto.
        * intros x [<-|Hx]; [lra|]. specialize (I5 x Hx). lra.
        * intros x [<-|Hx].
          -- destruct (I7 z Hz) as [E|(y & Hy & N)].
             ++ rewrite E. apply reach_start. left; auto.
             ++ apply reach_next with y; [|auto|left; auto].
                apply reach_mono with (fun y => In y done); [right; auto|auto].
          -- apply reach_mono with (fun y => In y done); [right; auto|auto].
        * intros x Hx. apply Qin in Hx as [Hx|Hx].
          -- right. exists z. split; [left; auto|]. now apply Hnew in Hx.
          -- destruct (I7 x) as [->|(y & Hy & N)]; auto; [apply Hqin; auto|].
             right. exists y. split; [right; auto|auto].
        * intros x Hx. apply Q2 in Hx as [Hx|(nb & H1 & H2 & H3)].
          -- apply I8. auto.
          -- unfold ks_of. rewrite H2, H3. simpl. split; auto. split; auto.
             apply (interior_neighbour z); auto. now apply Hnew in H1.
        * right. destruct Hstart as [(_ & B & _)|Hi]; [left; auto|right; auto].
        * exists z. split; [right; left; auto|auto].
        * intros HS x Hx. apply Qin in Hx as [Hx|Hx]; [|auto].
          apply Hnew in Hx as (N & Vx).
          destruct (Rle_dec (val z) (val x)) as [|Hlt]; auto. exfalso.
          assert (Nx : nodeS x) by (apply (interior_neighbour z); auto).
          pose proof (HS x Nx) as R.
          destruct Hstart as [(_ & B & _)|Hi].
          -- apply reach_begin in R as (_ & R). rewrite B in Hlt. lra.
          -- assert (Hxd : ~ In x done) by (intros H; apply not_true_iff_false in Vx; apply Vx, I1; auto).
             destruct (first_exit _ _ _ done R Hi Hxd) as (u & y & Hu & Nuy & Hy & (_ & Py)).
             pose proof (I4 u y Hu Nuy) as Vy. apply I1 in Vy as [Vy|Vy]; [contradiction|].
             apply Hqin in Vy as [->|Vy]; [lra|]. specialize (Hminv y Vy). lra.
  Qed.
End Search.
