(** Facts about the numpy primitives of NumModel.v. *)
From Coq Require Import List ZArith Reals Lia Lra Bool Psatz FinFun.
Import ListNotations.
From Verif Require Import Prelude NumModel.

(** ** floor, rint, clip *)

Lemma floorR_spec x : (IZR (floorR x) <= x < IZR (floorR x) + 1)%R.
Proof. unfold floorR. destruct (base_Int_part x). lra. Qed.

Lemma floorR_unique x z : (IZR z <= x < IZR z + 1)%R -> floorR x = z.
Proof.
  intros H. pose proof (floorR_spec x) as H'.
  assert (IZR (floorR x) < IZR (z + 1))%R by (rewrite plus_IZR; lra).
  assert (IZR z < IZR (floorR x + 1))%R by (rewrite plus_IZR; lra).
  apply lt_IZR in H0. apply lt_IZR in H1. lia.
Qed.

Lemma floorR_IZR z : floorR (IZR z) = z.
Proof. apply floorR_unique; lra. Qed.

Lemma rint_cases x :
  (rint x = floorR x /\ x - IZR (floorR x) <= 1/2)%R \/
  (rint x = (floorR x + 1)%Z /\ 1/2 <= x - IZR (floorR x))%R.
Proof.
  unfold rint. destruct Rlt_dec; [left; split; [auto|lra]|].
  destruct Rlt_dec; [right; split; [auto|lra]|].
  destruct Z.even; [left|right]; (split; [auto|lra]).
Qed.

Lemma rint_half x : (Rabs (x - IZR (rint x)) <= 1/2)%R.
Proof.
  pose proof (floorR_spec x).
  destruct (rint_cases x) as [[-> H']|[-> H']].
  - rewrite Rabs_right; lra.
  - rewrite plus_IZR, Rabs_left1; lra.
Qed.

Lemma rint_nearest x z : (Rabs (x - IZR (rint x)) <= Rabs (x - IZR z))%R.
Proof.
  destruct (Z.eq_dec z (rint x)) as [->|N]; [lra|].
  apply Rle_trans with (1/2)%R; [apply rint_half|].
  assert (1 <= Rabs (IZR z - IZR (rint x)))%R.
  { rewrite <- minus_IZR, <- abs_IZR. apply (IZR_le 1). lia. }
  pose proof (rint_half x).
  revert H H0. unfold Rabs. repeat destruct Rcase_abs; lra.
Qed.

Lemma rint_IZR z : rint (IZR z) = z.
Proof.
  pose proof (rint_half (IZR z)).
  rewrite <- minus_IZR, <- abs_IZR in H.
  assert (IZR (Z.abs (z - rint (IZR z))) < IZR 1)%R by lra.
  apply lt_IZR in H0. lia.
Qed.

Lemma rint_range x a b : (IZR a <= x <= IZR b)%R -> (a <= rint x <= b)%Z.
Proof.
  intros [Ha Hb]. pose proof (floorR_spec x) as [F1 F2].
  assert (a <= floorR x)%Z.
  { assert (IZR a < IZR (floorR x + 1))%R by (rewrite plus_IZR; lra). apply lt_IZR in H. lia. }
  assert (floorR x <= b)%Z.
  { apply le_IZR. lra. }
  destruct (rint_cases x) as [[-> H']|[-> H']]; [lia|].
  split; [lia|]. assert (floorR x < b)%Z; [|lia].
  apply lt_IZR. lra.
Qed.

Lemma clipR_range x lo hi : (lo <= hi)%R -> (lo <= clipR x lo hi <= hi)%R.
Proof. unfold clipR, Rmin, Rmax. repeat destruct Rle_dec; lra. Qed.

Lemma clipR_id x lo hi : (lo <= x <= hi)%R -> clipR x lo hi = x.
Proof. unfold clipR, Rmin, Rmax. repeat destruct Rle_dec; lra. Qed.

Lemma clipR_closest x lo hi y :
  (lo <= y <= hi)%R -> (Rabs (x - clipR x lo hi) <= Rabs (x - y))%R.
Proof. unfold clipR, Rmin, Rmax, Rabs. repeat destruct Rle_dec; repeat destruct Rcase_abs; lra. Qed.

(** ** mixed radix *)
Open Scope Z_scope.

Definition pos_shape (shape : list Z) : Prop := Forall (fun n => 0 < n) shape.

Lemma prodZ_pos shape : pos_shape shape -> 0 < prodZ shape.
Proof.
  induction 1; unfold prodZ in *; simpl; [lia|]. nia.
Qed.

Lemma in_shape_iff ks shape :
  in_shape ks shape = true <-> Forall2 (fun k n => 0 <= k < n) ks shape.
Proof.
  revert shape; induction ks as [|k ks IH]; destruct shape as [|n t]; simpl; split; intros H;
    try discriminate; try (inversion H; fail); auto.
  - apply andb_true_iff in H as [H1 H2]. apply andb_true_iff in H1 as [H1 H3].
    apply Z.leb_le in H1. apply Z.ltb_lt in H3. constructor; [lia|]. now apply IH.
  - inversion H; subst. rewrite (proj2 (IH t)); auto.
    replace (0 <=? k) with true by (symmetry; apply Z.leb_le; lia).
    replace (k <? n) with true by (symmetry; apply Z.ltb_lt; lia). reflexivity.
Qed.

Lemma ravel_bound ks shape :
  Forall2 (fun k n => 0 <= k < n) ks shape -> 0 <= ravel ks shape < prodZ shape.
Proof.
  induction 1 as [|k n ks t H H0 IH]; simpl; [unfold prodZ; simpl; lia|].
  change (prodZ (n :: t)) with (n * prodZ t). nia.
Qed.

Lemma unravel_ok idx shape :
  pos_shape shape -> 0 <= idx < prodZ shape ->
  Forall2 (fun k n => 0 <= k < n) (unravel idx shape) shape.
Proof.
  intros P; revert idx; induction P as [|n t Hn Ht IH]; intros idx H; [constructor|].
  pose proof (prodZ_pos t Ht) as Hp.
  change (prodZ (n :: t)) with (n * prodZ t) in H.
  simpl; constructor.
  - split; [apply Z.div_pos; lia|]. apply Z.div_lt_upper_bound; nia.
  - apply IH. apply Z.mod_pos_bound; lia.
Qed.

Lemma ravel_unravel idx shape :
  pos_shape shape -> 0 <= idx < prodZ shape -> ravel (unravel idx shape) shape = idx.
Proof.
  intros P; revert idx; induction P as [|n t Hn Ht IH]; intros idx H.
  - unfold prodZ in H; simpl in *; lia.
  - pose proof (prodZ_pos t Ht) as Hp. simpl.
    rewrite IH by (apply Z.mod_pos_bound; lia).
    pose proof (Z.div_mod idx (prodZ t)). lia.
Qed.

Lemma unravel_ravel ks shape :
  pos_shape shape -> Forall2 (fun k n => 0 <= k < n) ks shape ->
  unravel (ravel ks shape) shape = ks.
Proof.
  intros P H; revert P; induction H as [|k n ks t Hk Ht IH]; intros P; [reflexivity|].
  inversion P; subst. pose proof (prodZ_pos t H2) as Hp. pose proof (ravel_bound ks t Ht).
  simpl. rewrite Z.add_comm.
  rewrite Z.div_add by lia. rewrite Z.div_small by lia.
  rewrite Z.mod_add by lia. rewrite Z.mod_small by lia.
  rewrite IH by auto. f_equal.
Qed.

Lemma ravel_inj ks ks' shape :
  pos_shape shape ->
  Forall2 (fun k n => 0 <= k < n) ks shape -> Forall2 (fun k n => 0 <= k < n) ks' shape ->
  ravel ks shape = ravel ks' shape -> ks = ks'.
Proof.
  intros P H H' E. rewrite <- (unravel_ravel ks shape), <- (unravel_ravel ks' shape); auto. congruence.
Qed.

Lemma ravel_add ks ks' shape :
  length ks = length ks' ->
  ravel (map2 Z.add ks ks') shape = ravel ks shape + ravel ks' shape.
Proof.
  revert ks' shape; induction ks as [|k ks IH]; destruct ks' as [|k' ks']; simpl; intros shape L;
    try discriminate; [destruct shape; reflexivity|].
  destruct shape as [|n t]; [reflexivity|]. rewrite IH by lia. lia.
Qed.

Lemma np_unravel_ok idx shape :
  pos_shape shape -> 0 <= idx < prodZ shape ->
  np_unravel_index idx shape = Ok (unravel idx shape).
Proof.
  intros. unfold np_unravel_index.
  replace (0 <=? idx) with true by (symmetry; apply Z.leb_le; lia).
  replace (idx <? prodZ shape) with true by (symmetry; apply Z.ltb_lt; lia). reflexivity.
Qed.

Lemma np_unravel_err idx shape :
  ~ (0 <= idx < prodZ shape) -> np_unravel_index idx shape = Err ValueError.
Proof.
  intros. unfold np_unravel_index.
  destruct (Z.leb_spec 0 idx), (Z.ltb_spec idx (prodZ shape)); simpl; auto. lia.
Qed.

Lemma np_ravel_ok ks shape :
  Forall2 (fun k n => 0 <= k < n) ks shape -> np_ravel_multi_index ks shape = Ok (ravel ks shape).
Proof. intros H. unfold np_ravel_multi_index. apply in_shape_iff in H. now rewrite H. Qed.

(** ** meshgrid *)

Lemma meshgrid_length {A} (axes : list (list A)) :
  Z.of_nat (length (meshgrid_ij axes)) = prodZ (map (fun a => Z.of_nat (length a)) axes).
Proof.
  induction axes as [|a t IH]; [reflexivity|]. simpl.
  change (prodZ (Z.of_nat (length a) :: map (fun a => Z.of_nat (length a)) t))
    with (Z.of_nat (length a) * prodZ (map (fun a => Z.of_nat (length a)) t)).
  rewrite <- IH. clear IH. induction a as [|x a IH]; [reflexivity|]. cbn [flat_map length].
  rewrite app_length, map_length, Nat2Z.inj_add, IH, Nat2Z.inj_succ, Z.mul_succ_l. lia.
Qed.

Lemma meshgrid_In {A} (axes : list (list A)) p :
  In p (meshgrid_ij axes) <-> Forall2 (fun x a => In x a) p axes.
Proof.
  revert p; induction axes as [|a t IH]; intros p; simpl.
  - split; [intros [<-|[]]; constructor|intros H; inversion H; auto].
  - rewrite in_flat_map. split.
    + intros (x & Hx & H). apply in_map_iff in H as (q & <- & Hq). constructor; auto. now apply IH.
    + intros H; inversion H; subst. exists x; split; auto. apply in_map, IH; auto.
Qed.

Lemma flat_map_nth_block {A B} (f : A -> list B) (l : list A) m q r da db :
  (forall a, In a l -> length (f a) = m) -> (q < length l)%nat -> (r < m)%nat ->
  nth (q * m + r) (flat_map f l) db = nth r (f (nth q l da)) db.
Proof.
  intros H; revert q; induction l as [|a l IH]; intros q Hq Hr; simpl in Hq; [lia|].
  assert (La : length (f a) = m) by (apply H; now left).
  destruct q as [|q]; simpl.
  - rewrite app_nth1 by lia. reflexivity.
  - rewrite app_nth2 by lia. rewrite La. replace (m + q * m + r - m)%nat with (q * m + r)%nat by lia.
    apply IH; [intros; apply H; now right|lia|lia].
Qed.

Lemma meshgrid_nth {A} (axes : list (list A)) (d : A) i :
  0 <= i < prodZ (map (fun a => Z.of_nat (length a)) axes) ->
  pos_shape (map (fun a => Z.of_nat (length a)) axes) ->
  nth (Z.to_nat i) (meshgrid_ij axes) [] =
  map2 (fun k a => nth (Z.to_nat k) a d) (unravel i (map (fun a => Z.of_nat (length a)) axes)) axes.
Proof.
  revert i; induction axes as [|a t IH]; intros i H P.
  - unfold prodZ in H; simpl in *. replace i with 0 by lia. reflexivity.
  - simpl in P. inversion P; subst. simpl map in *.
    set (m := prodZ (map (fun a => Z.of_nat (length a)) t)) in *.
    change (prodZ (Z.of_nat (length a) :: map (fun a => Z.of_nat (length a)) t))
      with (Z.of_nat (length a) * m) in H.
    pose proof (prodZ_pos _ H3) as Hm. fold m in Hm.
    pose proof (Z.div_mod i m ltac:(lia)) as E.
    pose proof (Z.mod_pos_bound i m Hm) as Bm.
    assert (0 <= i / m < Z.of_nat (length a)) as Bq.
    { split; [apply Z.div_pos; lia|]. apply Z.div_lt_upper_bound; nia. }
    replace (Z.to_nat i) with (Z.to_nat (i / m) * Z.to_nat m + Z.to_nat (i mod m))%nat.
    2:{ apply Nat2Z.inj. rewrite Nat2Z.inj_add, Nat2Z.inj_mul, !Z2Nat.id by lia. lia. }
    cbn [meshgrid_ij]. rewrite (flat_map_nth_block _ a (Z.to_nat m) _ _ d).
    + simpl. fold m. rewrite <- IH; [|lia|auto].
      rewrite (nth_indep _ _ (nth (Z.to_nat (i / m)) a d :: [])).
      * now rewrite map_nth.
      * rewrite map_length. apply Nat2Z.inj_lt. rewrite meshgrid_length. fold m. lia.
    + intros x _. rewrite map_length. apply Nat2Z.inj. rewrite meshgrid_length. fold m. lia.
    + lia.
    + lia.
Qed.

Lemma meshgrid_NoDup {A} (axes : list (list A)) :
  Forall (@NoDup A) axes -> NoDup (meshgrid_ij axes).
Proof.
  induction 1 as [|a t Ha Ht IH]; simpl; [repeat constructor; auto|].
  induction Ha as [|x a Hx Ha IHa]; simpl; [constructor|].
  apply NoDup_app_intro; [|exact IHa|].
  - apply Injective_map_NoDup; auto. intros u v E; congruence.
  - intros p Hp Hq. apply in_map_iff in Hp as (q & <- & _).
    apply in_flat_map in Hq as (y & Hy & Hq). apply in_map_iff in Hq as (q' & E & _).
    inversion E; subst. contradiction.
Qed.

(** ** linspace and digitize *)
Open Scope R_scope.

Lemma linspace_length lo up n : length (linspace lo up n) = Z.to_nat n.
Proof. unfold linspace. now rewrite map_length, seq_length. Qed.

Lemma linspace_nth lo up n k d :
  (2 <= n)%Z -> (0 <= k < n)%Z ->
  nth (Z.to_nat k) (linspace lo up n) d = lo + IZR k * ((up - lo) / IZR (n - 1)).
Proof.
  intros Hn Hk. unfold linspace.
  set (f := fun k0 : nat => if (Z.of_nat k0 =? n - 1)%Z && (1 <? n)%Z then up
         else IZR (Z.of_nat k0) * ((up - lo) / IZR (n - 1)) + lo).
  rewrite (nth_indep _ _ (f 0%nat)) by (rewrite map_length, seq_length; lia).
  rewrite map_nth, seq_nth by lia. simpl. unfold f. rewrite Z2Nat.id by lia.
  replace (1 <? n)%Z with true by (symmetry; apply Z.ltb_lt; lia).
  rewrite andb_true_r. destruct (Z.eqb_spec k (n - 1)) as [->|N]; [|lra].
  assert (0 < IZR (n - 1)) by (apply IZR_lt; lia). field. lra.
Qed.

Lemma linspace_In lo up n x :
  (2 <= n)%Z ->
  In x (linspace lo up n) <->
  exists k, (0 <= k < n)%Z /\ x = lo + IZR k * ((up - lo) / IZR (n - 1)).
Proof.
  intros Hn. split.
  - intros H. destruct (In_nth _ _ 0 H) as (k & Hk & <-).
    rewrite linspace_length in Hk. exists (Z.of_nat k). split; [lia|].
    rewrite <- (linspace_nth lo up n (Z.of_nat k) 0) by lia. now rewrite Nat2Z.id.
  - intros (k & Hk & ->). rewrite <- (linspace_nth lo up n k 0) by lia.
    apply nth_In. rewrite linspace_length. lia.
Qed.

Lemma linspace_NoDup lo up n : (2 <= n)%Z -> lo < up -> NoDup (linspace lo up n).
Proof.
  intros Hn Hlu. apply (NoDup_nth _ 0). intros i j Hi Hj E.
  rewrite linspace_length in Hi, Hj.
  rewrite <- (Nat2Z.id i), <- (Nat2Z.id j), !linspace_nth in E by lia.
  assert (0 < IZR (n - 1)) by (apply IZR_lt; lia).
  assert (0 < (up - lo) / IZR (n - 1)) by (apply Rdiv_lt_0_compat; lra).
  assert (IZR (Z.of_nat i) = IZR (Z.of_nat j)) by nra.
  apply eq_IZR in H1. lia.
Qed.

(** The number of grid coordinates [lo + k*u] (k = 0..m-1) that are <= x. *)
Lemma count_le x lo u m :
  0 < u ->
  length (filter (fun b => if Rle_dec b x then true else false)
            (map (fun k => lo + IZR (Z.of_nat k) * u) (seq 0 m))) =
  Z.to_nat (Z.min (Z.of_nat m) (Z.max 0 (floorR ((x - lo) / u) + 1))).
Proof.
  intros Hu. induction m as [|m IH].
  - simpl. pose proof (Z.max_spec 0 (floorR ((x - lo) / u) + 1)). lia.
  - rewrite seq_S, map_app, filter_app, app_length, IH. simpl.
    pose proof (floorR_spec ((x - lo) / u)) as [F1 F2].
    set (q := floorR ((x - lo) / u)) in *.
    assert (E : (x - lo) = ((x - lo) / u) * u) by (field; lra).
    set (y := (x - lo) / u) in *.
    destruct Rle_dec as [Hle|Hle]; simpl.
    + assert (IZR (Z.of_nat m) <= y) by nra.
      assert (Z.of_nat m < q + 1)%Z by (apply lt_IZR; rewrite plus_IZR; lra). lia.
    + assert (y < IZR (Z.of_nat m)) by nra.
      assert (q < Z.of_nat m)%Z by (apply lt_IZR; lra). lia.
Qed.

Lemma linspace_map lo up n :
  (2 <= n)%Z ->
  linspace lo up n = map (fun k => lo + IZR (Z.of_nat k) * ((up - lo) / IZR (n - 1))) (seq 0 (Z.to_nat n)).
Proof.
  intros Hn. apply (nth_ext _ _ 0 (lo + IZR (Z.of_nat 0) * ((up - lo) / IZR (n - 1)))).
  - now rewrite linspace_length, map_length, seq_length.
  - intros k Hk. rewrite linspace_length in Hk.
    rewrite <- (Nat2Z.id k) at 1. rewrite linspace_nth by lia.
    rewrite (map_nth (fun k => lo + IZR (Z.of_nat k) * ((up - lo) / IZR (n - 1)))).
    now rewrite seq_nth by lia.
Qed.

Lemma digitize_linspace x lo up n :
  (2 <= n)%Z -> lo < up ->
  clipZ (digitize x (linspace lo up n) - 1) 0 (n - 2) =
  clipZ (floorR ((x - lo) / ((up - lo) / IZR (n - 1)))) 0 (n - 2).
Proof.
  intros Hn Hlu. unfold digitize. rewrite linspace_map by auto.
  assert (0 < IZR (n - 1)) by (apply IZR_lt; lia).
  rewrite count_le by (apply Rdiv_lt_0_compat; lra).
  set (q := floorR _). unfold clipZ. lia.
Qed.

Lemma rint_eq x z : Rabs (x - IZR z) < 1/2 -> rint x = z.
Proof.
  intros H. destruct (Z.eq_dec (rint x) z) as [|N]; auto. exfalso.
  pose proof (rint_half x) as H'.
  assert (1 <= Rabs (IZR z - IZR (rint x))).
  { rewrite <- minus_IZR, <- abs_IZR. apply (IZR_le 1). lia. }
  revert H H' H0. unfold Rabs. repeat destruct Rcase_abs; lra.
Qed.

(** Equality of results that are concrete real vectors (used by examples). *)
Ltac vec_eq :=
  try apply (f_equal (@Ok _));
  repeat match goal with |- (_ :: _) = (_ :: _) => apply f_equal2 end;
  try reflexivity; try lra.
