(** Lemmas about [UtilModel]. *)
From Coq Require Import String Reals List Bool Arith ZArith Lia Lra Sorted Permutation.
From Verif Require Import Prelude ListFacts NumModel NumProofs UtilModel.
Import ListNotations.
Local Open Scope nat_scope.

(** ** batchify *)
Lemma py_slice_nonneg {A} (l : list A) i b :
  py_slice (Z.of_nat i) (Z.of_nat i + Z.of_nat b) l = firstn b (skipn i l).
Proof.
  unfold py_slice, slice.
  destruct (Z.ltb_spec (Z.of_nat i) 0); [lia|].
  destruct (Z.ltb_spec (Z.of_nat i + Z.of_nat b) 0); [lia|].
  destruct (le_lt_dec (length l) i) as [Hi|Hi].
  - rewrite !skipn_all2 by lia. now rewrite !firstn_nil.
  - replace (Z.to_nat (Z.min (Z.of_nat i) (Z.of_nat (length l)))) with i by lia.
    destruct (le_lt_dec (i + b) (length l)).
    + f_equal. lia.
    + rewrite !firstn_all2; auto; rewrite skipn_length; lia.
Qed.

Lemma concat_step {A} (l : list A) i b :
  firstn b (skipn i l) ++ skipn (i + b) l = skipn i l.
Proof.
  assert (E : skipn (i + b) l = skipn b (skipn i l)).
  { revert l. induction i as [|i IH]; intros [|a l]; simpl; auto. now rewrite skipn_nil. }
  rewrite E. apply firstn_skipn.
Qed.


Lemma batches_from_ok {A} (a0 : list A) rest b : 1 <= b -> forall fuel k,
  length a0 < (fuel + k - 1) * b + 1 -> 1 <= fuel ->
  exists ys, batches_from fuel (a0 :: rest) (Z.of_nat b) (Z.of_nat (k * b)) = Some (Ok ys) /\
    (forall j, length (nth j (a0 :: rest) []) = length a0 ->
       concat (map (fun y => nth j (snd y) []) ys) = skipn (k * b) (nth j (a0 :: rest) [])) /\
    (forall q y, nth_error ys q = Some y ->
       fst y = Z.of_nat ((k + q) * b) /\
       snd y = map (fun a => firstn b (skipn ((k + q) * b) a)) (a0 :: rest) /\
       (k + q) * b < length a0 /\
       (S q < length ys -> (k + q) * b + b < length a0)).
Proof.
  intros Hb. induction fuel as [|fuel IH]; intros k Hf Hpos; [lia|].
  set (arrays := a0 :: rest) in *.
  assert (EM : map (py_slice (Z.of_nat (k * b)) (Z.of_nat (k * b) + Z.of_nat b)%Z) arrays
               = map (fun a => firstn b (skipn (k * b) a)) arrays).
  { apply map_ext. intros a. apply py_slice_nonneg. }
  cbn [batches_from]. rewrite EM. unfold arrays at 1. cbn [map].
  destruct (le_lt_dec (length a0) (k * b)) as [Hk|Hk].
  - exists []. rewrite (skipn_all2 a0), firstn_nil by auto. split; [reflexivity|]. split.
    + intros j Hj. cbn [map concat]. symmetry. apply skipn_all2. rewrite Hj. exact Hk.
    + intros [|q] y H; discriminate.
  - assert (Hne : firstn b (skipn (k * b) a0) <> []).
    { intros E. apply (f_equal (@length A)) in E. rewrite firstn_length, skipn_length in E.
      simpl in E. lia. }
    destruct (firstn b (skipn (k * b) a0)) as [|x xs] eqn:E0; [contradiction|].
    assert (1 <= fuel) by (destruct fuel; [exfalso; nia|lia]).
    destruct (IH (S k)) as (ys & E & H1 & H2); auto.
    { replace (S fuel + k - 1) with (fuel + S k - 1) in Hf by lia. exact Hf. }
    replace (Z.of_nat (k * b) + Z.of_nat b)%Z with (Z.of_nat (S k * b)) by lia.
    rewrite E. rewrite <- E0.
    change (firstn b (skipn (k * b) a0) :: map (fun a => firstn b (skipn (k * b) a)) rest)
      with (map (fun a => firstn b (skipn (k * b) a)) arrays).
    eexists. split; [reflexivity|]. split.
    + intros j Hj. cbn [map concat snd]. rewrite H1 by auto.
      assert (Ej : nth j (map (fun a => firstn b (skipn (k * b) a)) arrays) []
                   = firstn b (skipn (k * b) (nth j arrays []))).
      { destruct (le_lt_dec (length arrays) j).
        - rewrite !nth_overflow; auto; [|rewrite map_length; auto].
          now rewrite skipn_nil, firstn_nil.
        - now rewrite nth_map' with (d' := []) by auto. }
      rewrite Ej. replace (S k * b) with (k * b + b) by lia. apply concat_step.
    + intros [|q] y Hy; simpl in Hy.
      * injection Hy as <-. rewrite Nat.add_0_r. cbn [fst snd].
        split; [reflexivity|]. split; [reflexivity|]. split; [auto|].
        cbn [length]. intros Hl. destruct ys as [|y' ys']; [simpl in Hl; lia|].
        destruct (H2 0 y' eq_refl) as (_ & _ & H3 & _). lia.
      * destruct (H2 q y Hy) as (A1 & A2 & A3 & A4).
        replace (S k + q) with (k + S q) in * by lia.
        split; auto. split; auto. split; auto. intros Hl. apply A4. simpl in Hl. lia.
Qed.

(** ** combinations *)
Lemma prodZ_app s t : prodZ (s ++ t) = (prodZ s * prodZ t)%Z.
Proof. induction s as [|x s IH]; simpl app; [change (prodZ []) with 1%Z; lia|]. change (prodZ (x :: s ++ t)) with (x * prodZ (s ++ t))%Z. change (prodZ (x :: s)) with (x * prodZ s)%Z. rewrite IH. ring. Qed.
Lemma prodZ_rev s : prodZ (rev s) = prodZ s.
Proof. induction s as [|x s IH]; simpl; auto. rewrite prodZ_app, IH. unfold prodZ; simpl. ring. Qed.
Lemma prodZ_swap s : prodZ (swap01 s) = prodZ s.
Proof. destruct s as [|a [|b s]]; unfold prodZ; simpl; auto. ring. Qed.

Lemma unravel_app s n i : pos_shape s -> (0 < n)%Z -> (0 <= i < prodZ s * n)%Z ->
  unravel i (s ++ [n]) = unravel (i / n) s ++ [(i mod n)%Z].
Proof.
  intros P Hn. revert i. induction P as [|m s Hm P IH]; intros i Hi.
  - cbn. change (prodZ []) with 1%Z in *. rewrite Z.div_1_r. f_equal. symmetry. apply Z.mod_small. lia.
  - pose proof (prodZ_pos s P) as Hp. cbn [app unravel].
    assert (EP : prodZ (s ++ [n]) = (n * prodZ s)%Z).
    { rewrite prodZ_app. change (prodZ [n]) with (n * 1)%Z. ring. }
    rewrite EP.
    assert (ED : (i mod (n * prodZ s) / n = (i / n) mod prodZ s)%Z).
    { rewrite Z.rem_mul_r by lia. rewrite (Z.mul_comm n), Z.div_add by lia.
      rewrite Z.div_small; [lia|]. apply Z.mod_pos_bound. lia. }
    assert (EM : ((i mod (n * prodZ s)) mod n = i mod n)%Z).
    { rewrite Z.rem_mul_r by lia. rewrite (Z.mul_comm n), Z.mod_add by lia.
      apply Z.mod_mod. lia. }
    rewrite IH.
    + rewrite ED, EM. f_equal. rewrite Z.div_div by lia. reflexivity.
    + rewrite (Z.mul_comm (prodZ s)). apply Z.mod_pos_bound. nia.
Qed.

Lemma swap01_length {B} (l : list B) : length (swap01 l) = length l.
Proof. destruct l as [|a [|b l]]; reflexivity. Qed.
Lemma swap01_involutive {B} (l : list B) : swap01 (swap01 l) = l.
Proof. destruct l as [|a [|b l]]; reflexivity. Qed.
Lemma swap01_Forall2 {A B} (P : A -> B -> Prop) l m :
  Forall2 P l m -> Forall2 P (swap01 l) (swap01 m).
Proof.
  intros H. destruct H as [|a b l m H1 H2]; simpl; [constructor|].
  destruct H2 as [|a' b' l m H2 H3]; simpl; repeat constructor; auto.
Qed.
Lemma swap01_Forall {A} (P : A -> Prop) l : Forall P l -> Forall P (swap01 l).
Proof.
  intros H. destruct H as [|a l H1 H2]; simpl; [constructor|].
  destruct H2; simpl; repeat constructor; auto.
Qed.
Lemma Forall2_rev {A B} (P : A -> B -> Prop) l m : Forall2 P l m -> Forall2 P (rev l) (rev m).
Proof.
  induction 1; simpl; [constructor|]. apply Forall2_app; auto.
Qed.

(** The multi-index in row [r], and its inverse. *)
Definition lens {A} (arrays : list (list A)) : list Z := map (fun a => Z.of_nat (length a)) arrays.
Definition comb_shape {A} (arrays : list (list A)) : list Z := rev (swap01 (lens arrays)).
Definition comb_index {A} (arrays : list (list A)) (r : Z) : list Z :=
  swap01 (rev (unravel r (comb_shape arrays))).
Definition comb_row {A} (arrays : list (list A)) (ks : list Z) : Z :=
  ravel (rev (swap01 ks)) (comb_shape arrays).
Definition in_lens {A} (arrays : list (list A)) (ks : list Z) : Prop :=
  Forall2 (fun k n => (0 <= k < n)%Z) ks (lens arrays).
Definition pick {A} (d : A) (arrays : list (list A)) (ks : list Z) : list A :=
  map2 (fun a k => nth (Z.to_nat k) a d) arrays ks.

Lemma lens_nonneg {A} (arrays : list (list A)) : Forall (fun n => (0 <= n)%Z) (lens arrays).
Proof. apply Forall_forall. intros n H. apply in_map_iff in H as (a & <- & _). lia. Qed.

Lemma prod_pos_shape s : Forall (fun n => (0 <= n)%Z) s -> (0 < prodZ s)%Z -> pos_shape s.
Proof.
  induction 1 as [|x l H H0 IH]; cbn [prodZ fold_right]; intros H1; constructor;
    change (fold_right Z.mul 1%Z l) with (prodZ l) in H1.
  - destruct (Z.eq_dec x 0); [subst; lia|lia].
  - apply IH. assert (0 <= prodZ l)%Z; [|nia].
    clear -H0. induction H0; [unfold prodZ; simpl; lia|].
    change (prodZ (x :: l)) with (x * prodZ l)%Z. nia.
Qed.

Lemma Forall2_length' {A B} (P : A -> B -> Prop) l m : Forall2 P l m -> length l = length m.
Proof. induction 1; simpl; auto. Qed.

Lemma combinations_rows {A} (d : A) arrays : arrays <> [] ->
  combinations d arrays =
  Ok (map (fun r => pick d arrays (comb_index arrays (Z.of_nat r)))
          (seq 0 (Z.to_nat (prodZ (lens arrays))))).
Proof.
  intros Hne. unfold combinations. destruct arrays as [|a0 rest] eqn:E; [contradiction|].
  rewrite <- E in *. clear a0 rest E. f_equal. unfold reshape_rows.
  set (n := length arrays). assert (Hn : 0 < n) by (unfold n; destruct arrays; simpl; [contradiction|lia]).
  set (T := transpose_nd _).
  assert (ES : shape T = comb_shape arrays ++ [Z.of_nat n]) by reflexivity.
  assert (EP : (prodZ (shape T) / Z.of_nat n)%Z = prodZ (lens arrays)).
  { rewrite ES, prodZ_app. unfold comb_shape. rewrite prodZ_rev, prodZ_swap. simpl.
    rewrite Z.mul_1_r, Z.div_mul by lia. reflexivity. }
  rewrite EP. apply map_ext_in. intros r Hr. apply in_seq in Hr.
  assert (PS : pos_shape (comb_shape arrays)).
  { unfold comb_shape. apply Forall_rev, swap01_Forall, prod_pos_shape; [apply lens_nonneg|lia]. }
  assert (EL : length (comb_index arrays (Z.of_nat r)) = n).
  { unfold comb_index. rewrite swap01_length, rev_length.
    pose proof (unravel_ok (Z.of_nat r) (comb_shape arrays) PS) as U.
    assert (B : (0 <= Z.of_nat r < prodZ (comb_shape arrays))%Z).
    { unfold comb_shape. rewrite prodZ_rev, prodZ_swap. lia. }
    specialize (U B). apply Forall2_length' in U. rewrite U. unfold comb_shape.
    rewrite rev_length, swap01_length. apply map_length. }
  apply (list_ext d).
  - unfold pick. rewrite map2_length, map_length, seq_length, EL. unfold n. lia.
  - rewrite map_length, seq_length. intros c Hc.
    rewrite nth_map' with (d' := 0) by (now rewrite seq_length). rewrite seq_nth by auto.
    rewrite Nat.add_0_l. rewrite ES, unravel_app; [|exact PS|lia|].
    2:{ unfold comb_shape. rewrite prodZ_rev, prodZ_swap. nia. }
    replace (Z.of_nat (r * n + c) / Z.of_nat n)%Z with (Z.of_nat r).
    2:{ apply Z.div_unique with (Z.of_nat c); lia. }
    replace (Z.of_nat (r * n + c) mod Z.of_nat n)%Z with (Z.of_nat c).
    2:{ apply Z.mod_unique with (Z.of_nat r); lia. }
    unfold T, transpose_nd, stack, meshgrid_xy. cbn [at_index].
    rewrite rev_app_distr. cbn [rev app nth tl]. rewrite Nat2Z.id.
    unfold pick. rewrite nth_map2' with (da := []) (db := 0%Z); auto.
    rewrite EL. auto.
Qed.

Lemma comb_index_row {A} (arrays : list (list A)) ks : in_lens arrays ks ->
  comb_index arrays (comb_row arrays ks) = ks /\
  (0 <= comb_row arrays ks < prodZ (lens arrays))%Z.
Proof.
  intros H.
  assert (H' : Forall2 (fun k n => (0 <= k < n)%Z) (rev (swap01 ks)) (comb_shape arrays)).
  { unfold comb_shape. apply Forall2_rev, swap01_Forall2, H. }
  split.
  - unfold comb_index, comb_row. rewrite unravel_ravel.
    2:{ clear -H'. induction H'; constructor; auto. lia. }
    2:{ exact H'. }
    now rewrite rev_involutive, swap01_involutive.
  - unfold comb_row. pose proof (ravel_bound _ _ H') as B. unfold comb_shape in *.
    rewrite prodZ_rev, prodZ_swap in B. exact B.
Qed.

Lemma comb_index_in {A} (arrays : list (list A)) r : (0 <= r < prodZ (lens arrays))%Z ->
  in_lens arrays (comb_index arrays r) /\ comb_row arrays (comb_index arrays r) = r.
Proof.
  intros B.
  assert (PS : pos_shape (comb_shape arrays)).
  { unfold comb_shape. apply Forall_rev, swap01_Forall, prod_pos_shape; [apply lens_nonneg|lia]. }
  assert (B' : (0 <= r < prodZ (comb_shape arrays))%Z).
  { unfold comb_shape. rewrite prodZ_rev, prodZ_swap. lia. }
  pose proof (unravel_ok r (comb_shape arrays) PS B') as U. split.
  - unfold in_lens, comb_index.
    replace (lens arrays) with (swap01 (rev (comb_shape arrays))).
    + apply swap01_Forall2, Forall2_rev, U.
    + unfold comb_shape. now rewrite rev_involutive, swap01_involutive.
  - unfold comb_row, comb_index. rewrite swap01_involutive, rev_involutive.
    now apply ravel_unravel.
Qed.

(** ** unique_rows *)
Section Unique.
  Context {B : Type} (leb : B -> B -> bool).
  Hypothesis total : forall a b, leb a b = true \/ leb b a = true.
  Hypothesis trans : forall a b c, leb a b = true -> leb b c = true -> leb a c = true.

  Lemma insert_perm x l : Permutation (insert leb x l) (x :: l).
  Proof.
    induction l as [|y l IH]; simpl; auto. destruct (leb x y); auto.
    rewrite IH. apply perm_swap.
  Qed.
  Lemma isort_perm l : Permutation (isort leb l) l.
  Proof. induction l as [|x l IH]; simpl; auto. rewrite insert_perm. auto. Qed.
  Lemma insert_sorted x l : StronglySorted (fun a b => leb a b = true) l ->
    StronglySorted (fun a b => leb a b = true) (insert leb x l).
  Proof.
    induction l as [|y l IH]; intros H; simpl; [repeat constructor|].
    inversion H; subst. destruct (leb x y) eqn:E.
    - constructor; auto. constructor; auto.
      eapply Forall_impl; [|exact H3]. simpl. intros a Ha. eapply trans; eauto.
    - constructor; auto.
      rewrite Forall_forall in *. intros a Ha.
      apply (Permutation_in _ (insert_perm x l)) in Ha as [<-|Ha]; auto.
      destruct (total x y); congruence.
  Qed.
  Lemma isort_sorted l : StronglySorted (fun a b => leb a b = true) (isort leb l).
  Proof. induction l; simpl; [constructor|]. apply insert_sorted; auto. Qed.

  (** Strictly increasing representatives of all elements. *)
  Lemma run_starts_spec l : forall prev,
    StronglySorted (fun a b => leb a b = true) l ->
    (forall p, prev = Some p -> Forall (fun x => leb p x = true) l) ->
    let r := run_starts leb prev l in
    StronglySorted (fun a b => leb b a = false) r /\
    (forall x, In x r -> In x l /\ forall p, prev = Some p -> leb x p = false) /\
    (forall y, In y l -> (exists p, prev = Some p /\ leb p y = true /\ leb y p = true) \/
       exists x, In x r /\ leb x y = true /\ leb y x = true).
  Proof.
    induction l as [|a l IH]; intros prev S F; cbn [run_starts].
    { split; [constructor|]. split; intros x []. }
    inversion S; subst.
    assert (HA : forall p, Some a = Some p -> Forall (fun x => leb p x = true) l)
      by (intros p [= <-]; auto).
    destruct (IH (Some a) H1 HA) as (I1 & I2 & I3).
    assert (refl : forall b, leb b b = true) by (intros b; destruct (total b b); auto).
    assert (KEEP : (forall p, prev = Some p -> leb a p = false) ->
      StronglySorted (fun a b => leb b a = false) (a :: run_starts leb (Some a) l) /\
      (forall x, In x (a :: run_starts leb (Some a) l) -> In x (a :: l) /\
         forall p, prev = Some p -> leb x p = false) /\
      (forall y, In y (a :: l) ->
         (exists p, prev = Some p /\ leb p y = true /\ leb y p = true) \/
         exists x, In x (a :: run_starts leb (Some a) l) /\ leb x y = true /\ leb y x = true)).
    { intros NP. split; [|split].
      - constructor; auto. apply Forall_forall. intros x Hx. apply I2 in Hx as (_ & Hx); auto.
      - intros x [<-|Hx]; [split; [left; auto|auto]|]. apply I2 in Hx as (Hx & Hax).
        split; [right; auto|]. intros p Hp.
        destruct (leb x p) eqn:E; auto. exfalso.
        rewrite Forall_forall in H2. specialize (H2 x Hx).
        pose proof (trans _ _ _ H2 E). specialize (NP p Hp). congruence.
      - intros y [<-|Hy].
        + right. exists a. split; [left; auto|auto].
        + destruct (I3 y Hy) as [(p & [= <-] & Hp)|(x & Hx & Hxy)]; right.
          * exists a. split; [left; auto|auto].
          * exists x. split; [right; auto|auto]. }
    destruct prev as [p|].
    - destruct (leb p a && leb a p) eqn:E.
      + apply andb_true_iff in E as (E1 & E2). split; [exact I1|]. split.
        * intros x Hx. apply I2 in Hx as (Hx & Ha). split; [right; auto|].
          intros p' [= <-]. destruct (leb x p) eqn:E; auto.
          pose proof (trans _ _ _ E E1). specialize (Ha a eq_refl). congruence.
        * intros y [<-|Hy]; [left; exists p; auto|].
          destruct (I3 y Hy) as [(p' & [= <-] & Hp1 & Hp2)|H]; auto.
          left. exists p. split; auto. split; eapply trans; eauto.
      + apply KEEP. intros p' [= <-]. specialize (F p eq_refl). inversion F; subst.
        rewrite H3 in E. simpl in E. exact E.
    - apply KEEP. discriminate.
  Qed.
End Unique.

Lemma unique_rows_spec {B} (leb : B -> B -> bool) (d : B) rows :
  (forall a b, leb a b = true \/ leb b a = true) ->
  (forall a b c, leb a b = true -> leb b c = true -> leb a c = true) ->
  (forall a b, In a rows -> In b rows -> leb a b = true -> leb b a = true -> a = b) ->
  NoDup (unique_rows leb d rows) /\
  (forall x, In x (unique_rows leb d rows) <-> In x rows) /\
  StronglySorted (fun a b => leb a b = true /\ leb b a = false) (unique_rows leb d rows).
Proof.
  intros T TR AS. unfold unique_rows, unique_index.
  set (leb' := fun i j => leb (nth i rows d) (nth j rows d)).
  assert (T' : forall a b, leb' a b = true \/ leb' b a = true) by (intros; apply T).
  assert (TR' : forall a b c, leb' a b = true -> leb' b c = true -> leb' a c = true)
    by (intros a b c; apply TR).
  pose proof (isort_sorted leb' T' TR' (seq 0 (length rows))) as SS.
  pose proof (isort_perm leb' (seq 0 (length rows))) as PP.
  destruct (run_starts_spec leb' T' TR' _ None SS ltac:(discriminate)) as (R1 & R2 & R3).
  set (idx := run_starts leb' None _) in *.
  assert (SO : StronglySorted (fun a b => leb a b = true /\ leb b a = false)
                 (map (fun i => nth i rows d) idx)).
  { clear -R1 T. induction R1; simpl; constructor; auto.
    apply Forall_map. eapply Forall_impl; [|exact H]. simpl. intros b Hb.
    split; [|exact Hb]. destruct (T (nth a rows d) (nth b rows d)) as [?|E]; auto.
    unfold leb' in Hb. congruence. }
  split; [|split; auto].
  - clear -SO T. induction SO; constructor; auto. intros H1.
    rewrite Forall_forall in H. destruct (H _ H1) as (E1 & E2). congruence.
  - intros x. split.
    + intros H. apply in_map_iff in H as (i & <- & Hi). apply R2 in Hi as (Hi & _).
      apply (Permutation_in _ PP), in_seq in Hi. apply nth_In. lia.
    + intros H. apply In_nth with (d := d) in H as (i & Hi & <-).
      assert (Hin : In i (isort leb' (seq 0 (length rows)))).
      { apply (Permutation_in _ (Permutation_sym PP)), in_seq. lia. }
      destruct (R3 i Hin) as [(p & [=] & _)|(j & Hj & E1 & E2)].
      apply in_map_iff. exists j. split; auto.
      pose proof (proj1 (R2 j Hj)) as Hj'. apply (Permutation_in _ PP), in_seq in Hj'.
      apply AS; auto; apply nth_In; lia.
Qed.

Lemma bytes_leb_total a b : bytes_leb a b = true \/ bytes_leb b a = true.
Proof.
  revert b; induction a as [|x a IH]; intros [|y b]; simpl; auto.
  destruct (Z.ltb_spec x y); auto. destruct (Z.ltb_spec y x); auto.
Qed.
Lemma bytes_leb_trans a b c : bytes_leb a b = true -> bytes_leb b c = true -> bytes_leb a c = true.
Proof.
  revert b c; induction a as [|x a IH]; intros [|y b] [|z c]; simpl; auto; try discriminate.
  destruct (Z.ltb_spec x y), (Z.ltb_spec y z), (Z.ltb_spec y x), (Z.ltb_spec z y),
    (Z.ltb_spec x z), (Z.ltb_spec z x); try discriminate; try lia; auto.
  apply IH.
Qed.
Lemma bytes_leb_antisym a b : bytes_leb a b = true -> bytes_leb b a = true -> a = b.
Proof.
  revert b; induction a as [|x a IH]; intros [|y b]; simpl; auto; try discriminate.
  destruct (Z.ltb_spec x y), (Z.ltb_spec y x); try discriminate; try lia; auto.
  intros H1 H2. f_equal; [lia|auto].
Qed.
Lemma le_bytes_length n w : length (le_bytes n w) = n.
Proof. revert w; induction n; simpl; auto. Qed.
Lemma le_bytes_inj n v w : (0 <= v < 256 ^ Z.of_nat n)%Z -> (0 <= w < 256 ^ Z.of_nat n)%Z ->
  le_bytes n v = le_bytes n w -> v = w.
Proof.
  revert v w; induction n as [|n IH]; intros v w Hv Hw E.
  - simpl in *. lia.
  - cbn [le_bytes] in E. injection E as E1 E2.
    rewrite Nat2Z.inj_succ, Z.pow_succ_r in Hv, Hw by lia.
    apply IH in E2.
    + rewrite (Z.div_mod v 256), (Z.div_mod w 256) by lia. rewrite E1, E2. reflexivity.
    + split; [apply Z.div_pos; lia|apply Z.div_lt_upper_bound; lia].
    + split; [apply Z.div_pos; lia|apply Z.div_lt_upper_bound; lia].
Qed.

(** ** Storage *)
Section StorageFacts.
  Context {K P : Type} (eqK : forall a b : K, {a = b} + {a <> b}).
  Notation obj := (UtilModel.obj K P).

  Lemma dict_get_set_same (l : list (K * obj)) k o :
    dict_get eqK (dict_set eqK l k o) k = Some o.
  Proof.
    induction l as [|[k' o'] l IH]; simpl.
    - destruct (eqK k k); congruence.
    - destruct (eqK k k') as [E|E]; simpl; destruct (eqK k k'); try congruence.
  Qed.
  Lemma dict_get_set_other (l : list (K * obj)) k k' o : k <> k' ->
    dict_get eqK (dict_set eqK l k o) k' = dict_get eqK l k'.
  Proof.
    intros N. induction l as [|[k2 o2] l IH]; simpl.
    - destruct (eqK k' k); congruence.
    - destruct (eqK k k2) as [E|E]; simpl.
      + subst. destruct (eqK k' k2); congruence.
      + destruct (eqK k' k2); auto.
  Qed.
  Lemma store_get_set_same (s : @store K P) f d : store_get (store_set s f d) f = Some d.
  Proof.
    induction s as [|[f' d'] s IH]; simpl.
    - destruct (string_dec f f); congruence.
    - destruct (string_dec f f'); simpl; destruct (string_dec f f'); congruence.
  Qed.
  Lemma store_get_set_other (s : @store K P) f f' d : f <> f' ->
    store_get (store_set s f d) f' = store_get s f'.
  Proof.
    intros N. induction s as [|[f2 d2] s IH]; simpl.
    - destruct (string_dec f' f); congruence.
    - destruct (string_dec f f2) as [E|E]; simpl.
      + subst. destruct (string_dec f' f2); congruence.
      + destruct (string_dec f' f2); auto.
  Qed.
  Lemma set_other_caller (s : @store K P) f f' nv i : f <> f' ->
    store_get (set_storage eqK s f nv i) f' = store_get s f'.
  Proof.
    intros N. unfold set_storage. destruct i as [i|].
    - destruct (store_get s f) as [d|] eqn:E.
      + rewrite E. now apply store_get_set_other.
      + rewrite store_get_set_same. now rewrite !store_get_set_other by auto.
    - now apply store_get_set_other.
  Qed.
  Lemma set_index (s : @store K P) f nv i :
    store_get (set_storage eqK s f nv (Some i)) f =
    Some (dict_set eqK (match store_get s f with Some d => d | None => [] end) i
            (Dict (ordered_dict eqK nv))).
  Proof.
    unfold set_storage. destruct (store_get s f) as [d|] eqn:E.
    - rewrite E. apply store_get_set_same.
    - rewrite store_get_set_same. apply store_get_set_same.
  Qed.
End StorageFacts.

Lemma ravel_snoc ks s k n : length ks = length s ->
  ravel (ks ++ [k]) (s ++ [n]) = (k + n * ravel ks s)%Z.
Proof.
  revert s; induction ks as [|k' ks IH]; intros [|n' s] L; try discriminate; cbn [app ravel].
  - change (prodZ []) with 1%Z. lia.
  - injection L as L. rewrite IH by auto. rewrite prodZ_app. change (prodZ [n]) with (n * 1)%Z. ring.
Qed.
