(** Properties C36 - C42: the helpers of utilities.py. *)
From Coq Require Import String Reals List Bool Arith ZArith Lia Lra Sorted Permutation.
From Flocq Require Import IEEE754.BinarySingleNaN IEEE754.Binary IEEE754.Bits.
From Verif Require Import Prelude ListFacts NumModel NumProofs UtilModel UtilProofs.
Import ListNotations.
Local Open Scope nat_scope.

(** ** C36 *)

(** For a positive batch size, batch number k has offset k*b and contains rows
    k*b, ..., k*b+b-1 of every array; no batch is empty, all but the last have
    b rows, and for every array with as many rows as the first one the batches
    concatenate to the array. *)
Theorem C36_batches : forall (A : Type) (a0 : list A) rest b fuel,
  1 <= b -> length a0 < fuel ->
  let arrays := a0 :: rest in
  exists ys, batchify fuel arrays (Z.of_nat b) = Some (Ok ys) /\
    (forall j, length (nth j arrays []) = length a0 ->
       concat (map (fun y => nth j (snd y) []) ys) = nth j arrays []) /\
    (forall k i batches, nth_error ys k = Some (i, batches) ->
       i = Z.of_nat (k * b) /\
       length batches = length arrays /\
       (forall j r d, j < length arrays -> r < b ->
          nth_error (nth j batches []) r = nth_error (nth j arrays []) (k * b + r) /\
          nth_error (nth j batches []) (b + d) = None) /\
       0 < length (nth 0 batches []) /\
       (S k < length ys -> length (nth 0 batches []) = b)).
Proof.
  intros A a0 rest b fuel Hb Hf arrays.
  destruct (batches_from_ok a0 rest b Hb fuel 0) as (ys & E & H1 & H2); [nia|lia|].
  exists ys. split; [exact E|]. split; [exact H1|].
  intros k i batches Hk. destruct (H2 k _ Hk) as (A1 & A2 & A3 & A4). simpl in A1, A2.
  rewrite Nat.add_0_l in *. split; auto.
  change (snd (i, batches)) with batches in A2.
  assert (L : length batches = length arrays) by (rewrite A2; unfold arrays; simpl; now rewrite map_length).
  split; auto.
  assert (N : forall j, j < length arrays ->
     nth j batches [] = firstn b (skipn (k * b) (nth j arrays []))).
  { intros j Hj. rewrite A2.
    change (firstn b (skipn (k * b) a0) :: map (fun a => firstn b (skipn (k * b) a)) rest)
      with (map (fun a => firstn b (skipn (k * b) a)) arrays).
    now rewrite nth_map' with (d' := []) by auto. }
  assert (N0 : nth 0 batches [] = firstn b (skipn (k * b) a0)) by (apply (N 0); simpl; lia).
  split.
  - intros j r d Hj Hr. rewrite N by auto. split.
    + generalize (nth j arrays []). intros l. rewrite nth_error_firstn' by auto.
      apply nth_error_skipn'.
    + apply nth_error_None. rewrite firstn_length. lia.
  - rewrite N0, firstn_length, skipn_length. split; [lia|]. intros H. specialize (A4 H). lia.
Qed.
Print Assumptions C36_batches.

(** Batch size 0 yields nothing, a negative size -b at most one batch without
    the last b rows: rows are lost without an error. *)
Theorem C36_nonpositive_batch_size : forall (A : Type) (a0 : list A) rest fuel,
  batchify (S fuel) (a0 :: rest) 0 = Some (Ok []) /\
  forall b, 1 <= b -> b < length a0 ->
    batchify (S (S fuel)) (a0 :: rest) (- Z.of_nat b) =
    Some (Ok [(0%Z, map (fun a => firstn (length a - b) a) (a0 :: rest))]).
Proof.
  intros A a0 rest fuel. split.
  - unfold batchify. cbn [batches_from map]. replace (py_slice 0 (0 + 0) a0) with (@nil A); auto.
    change 0%Z with (Z.of_nat 0). rewrite py_slice_nonneg. reflexivity.
  - intros b Hb Hl. unfold batchify.
    assert (E1 : forall a : list A, py_slice 0 (0 + - Z.of_nat b) a = firstn (length a - b) a).
    { intros a. unfold py_slice, slice. change (0 <? 0)%Z with false. cbv iota.
      destruct (Z.ltb_spec (0 + - Z.of_nat b) 0); [|lia].
      replace (Z.to_nat (Z.min 0 (Z.of_nat (length a)))) with 0 by lia. rewrite Nat.sub_0_r.
      cbn [skipn]. f_equal. lia. }
    assert (E2 : py_slice (0 + - Z.of_nat b) (0 + - Z.of_nat b + - Z.of_nat b) a0 = []).
    { unfold py_slice, slice. destruct (Z.ltb_spec (0 + - Z.of_nat b) 0); [|lia].
      destruct (Z.ltb_spec (0 + - Z.of_nat b + - Z.of_nat b) 0); [|lia].
      replace (Z.to_nat _ - Z.to_nat _) with 0 by lia. reflexivity. }
    cbn [batches_from map]. rewrite E2, E1.
    destruct (firstn (length a0 - b) a0) as [|x xs] eqn:E0.
    { exfalso. apply (f_equal (@length A)) in E0. rewrite firstn_length in E0. simpl in E0. lia. }
    now rewrite (map_ext _ _ E1).
Qed.

Example C36_ex : batchify 10 [[1; 2; 3; 4; 5]; [6; 7; 8; 9; 10]] 2 =
  Some (Ok [(0%Z, [[1; 2]; [6; 7]]); (2%Z, [[3; 4]; [8; 9]]); (4%Z, [[5]; [10]])]).
Proof. reflexivity. Qed.
Example C36_ex_negative : batchify 10 [[1; 2; 3; 4; 5]] (-2) = Some (Ok [(0%Z, [[1; 2; 3]])]).
Proof. reflexivity. Qed.

(** ** C37 *)

(** A choice of one position per array, and the corresponding row. *)
Definition choice {A} (arrays : list (list A)) (ks : list nat) : Prop :=
  Forall2 (fun k (a : list A) => k < length a) ks arrays.
Definition chosen {A} (d : A) (arrays : list (list A)) (ks : list nat) : list A :=
  map2 (fun (a : list A) k => nth k a d) arrays ks.
(** Position in the result: the second array runs fastest, then the first, the
    third, the fourth, ... *)
Fixpoint position_rest (ns ks : list nat) : nat :=
  match ns, ks with
  | n :: ns', k :: ks' => k + n * position_rest ns' ks'
  | _, _ => 0
  end.
Definition position (ns ks : list nat) : nat := position_rest (swap01 ns) (swap01 ks).

(** One row per choice, each at its position; hence every combination exactly
    once. *)
(** Without arrays the call is a ValueError. *)
Theorem C37_no_arrays : forall (A : Type) (d : A), combinations d [] = Err ValueError.
Proof. reflexivity. Qed.
Theorem C37_combinations : forall (A : Type) (d : A) arrays, arrays <> [] ->
  exists rows, combinations d arrays = Ok rows /\
    length rows = fold_right Nat.mul 1 (map (@length A) arrays) /\
    (forall ks, choice arrays ks ->
       nth_error rows (position (map (@length A) arrays) ks) = Some (chosen d arrays ks)) /\
    (forall r row, nth_error rows r = Some row ->
       exists ks, choice arrays ks /\ position (map (@length A) arrays) ks = r /\
         row = chosen d arrays ks).
Proof.
  intros A d arrays Hne. eexists. split; [apply combinations_rows; auto|].
  assert (EPn : Z.to_nat (prodZ (lens arrays)) = fold_right Nat.mul 1 (map (@length A) arrays)).
  { unfold lens. assert (E : prodZ (map (fun a => Z.of_nat (length a)) arrays)
        = Z.of_nat (fold_right Nat.mul 1 (map (@length A) arrays))).
    { clear. induction arrays as [|a t IH]; auto. simpl map.
      change (prodZ (Z.of_nat (length a) :: map (fun a => Z.of_nat (length a)) t))
        with (Z.of_nat (length a) * prodZ (map (fun a => Z.of_nat (length a)) t))%Z.
      rewrite IH. cbn [fold_right]. lia. }
    rewrite E. apply Nat2Z.id. }
  split; [now rewrite map_length, seq_length, EPn|].
  (* from natural to integer indices *)
  assert (CI : forall ks, choice arrays ks -> in_lens arrays (map Z.of_nat ks)).
  { intros ks H. unfold in_lens, lens. unfold choice in H.
    clear -H. induction H; simpl; constructor; auto. lia. }
  assert (RP : forall s ks, length ks = length s ->
     ravel (rev (map Z.of_nat ks)) (rev (map Z.of_nat s)) = Z.of_nat (position_rest s ks)).
  { induction s as [|n s IH]; intros [|k ks] L; try discriminate; auto.
    cbn [map rev position_rest]. injection L as L.
    rewrite ravel_snoc by (now rewrite !rev_length, !map_length).
    rewrite IH by auto. lia. }
  assert (MS : forall ks : list nat, swap01 (map Z.of_nat ks) = map Z.of_nat (swap01 ks)).
  { intros [|a [|b ks]]; reflexivity. }
  assert (ER : forall ks, choice arrays ks ->
     comb_row arrays (map Z.of_nat ks) = Z.of_nat (position (map (@length A) arrays) ks)).
  { intros ks H. unfold comb_row, comb_shape, position, lens.
    replace (map (fun a : list A => Z.of_nat (length a)) arrays)
      with (map Z.of_nat (map (@length A) arrays)) by (now rewrite map_map).
    rewrite !MS. apply RP. rewrite !swap01_length, map_length.
    apply Forall2_length' in H. auto. }
  assert (EC : forall ks, pick d arrays (map Z.of_nat ks) = chosen d arrays ks).
  { intros ks. unfold pick, chosen. clear. revert ks.
    induction arrays as [|a t IH]; intros [|k ks]; simpl; auto. rewrite Nat2Z.id, IH. auto. }
  split.
  - intros ks H. destruct (comb_index_row arrays _ (CI ks H)) as (I1 & I2).
    rewrite ER in I1, I2 by auto. rewrite nth_error_map.
    rewrite nth_error_seq' by lia. simpl. rewrite I1, EC. reflexivity.
  - intros r row H. rewrite nth_error_map in H.
    destruct (nth_error (seq 0 _) r) as [r'|] eqn:Er; [|discriminate]. injection H as <-.
    assert (Hr : r < Z.to_nat (prodZ (lens arrays))).
    { apply nth_error_Some_lt in Er. now rewrite seq_length in Er. }
    rewrite nth_error_seq' in Er by auto. injection Er as <-. simpl.
    destruct (comb_index_in arrays (Z.of_nat r)) as (I1 & I2); [lia|].
    set (ks := map Z.to_nat (comb_index arrays (Z.of_nat r))).
    assert (Ek : map Z.of_nat ks = comb_index arrays (Z.of_nat r)).
    { unfold ks. rewrite map_map. rewrite <- map_id. apply map_ext_in. intros k Hk.
      unfold in_lens in I1. clear -I1 Hk. apply Z2Nat.id.
      induction I1; [destruct Hk|]. destruct Hk as [->|Hk]; auto. lia. }
    exists ks.
    assert (CH : choice arrays ks).
    { unfold choice. unfold in_lens, lens in I1. rewrite <- Ek in I1. clearbody ks. clear -I1.
      revert ks I1. induction arrays as [|a t IH]; intros [|k ks] I1; inversion I1; subst; constructor; auto.
      lia. }
    split; auto. split.
    + apply Nat2Z.inj. rewrite <- ER, Ek by auto. exact I2.
    + rewrite <- EC, Ek. reflexivity.
Qed.
Print Assumptions C37_combinations.

Example C37_ex : combinations 0 [[1; 2]; [3; 4; 5]; [6; 7]] =
  Ok [[1; 3; 6]; [1; 4; 6]; [1; 5; 6]; [2; 3; 6]; [2; 4; 6]; [2; 5; 6];
      [1; 3; 7]; [1; 4; 7]; [1; 5; 7]; [2; 3; 7]; [2; 4; 7]; [2; 5; 7]].
Proof. reflexivity. Qed.

(** Coordinates of evenly spaced samples. *)
Definition sample_of (b : R * R) (n k : Z) : R :=
  if (n =? 1)%Z then fst b else (fst b + IZR k * ((snd b - fst b) / IZR (n - 1)))%R.

(** Rows of [linearly_spaced_combinations] for at least one bound and a positive
    number of samples per dimension: exactly the combinations of the samples,
    prod(ns) many.  Both bounds are included if there are two samples or more. *)
Theorem C37_linearly_spaced : forall bounds arg ns,
  bounds <> [] -> broadcast_samples arg (length bounds) = Ok ns ->
  Forall (fun n => (1 <= n)%Z) ns ->
  exists rows, linearly_spaced_combinations bounds arg = Ok rows /\
    Z.of_nat (length rows) = prodZ ns /\
    (forall row, In row rows <->
       length row = length bounds /\
       forall j, j < length bounds -> exists k, (0 <= k < nth j ns 0)%Z /\
         nth j row 0%R = sample_of (nth j bounds (0, 0)%R) (nth j ns 0%Z) k) /\
    (Forall (fun n => (2 <= n)%Z) ns ->
     forall row, length row = length bounds ->
       (forall j, j < length bounds -> nth j row 0%R = fst (nth j bounds (0, 0)%R) \/
                                       nth j row 0%R = snd (nth j bounds (0, 0)%R)) ->
       In row rows).
Proof.
  intros bounds a ns Hne EB Hpos. unfold linearly_spaced_combinations. rewrite EB. simpl bind.
  assert (LB : length ns = length bounds).
  { destruct a as [n|l]; simpl in EB.
    - injection EB as <-. apply repeat_length.
    - destruct (Nat.eqb_spec (length l) (length bounds)) as [E|E]; [injection EB as <-; auto|].
      destruct (length l =? 1); [|discriminate]. injection EB as <-. apply repeat_length. }
  set (lin := fun bn : (R * R) * Z =>
     map (fun k => sample_of (fst bn) (snd bn) (Z.of_nat k)) (seq 0 (Z.to_nat (snd bn)))).
  assert (EM : mapM (fun bn => np_linspace (fst bn) (snd bn)) (combine bounds ns)
               = Ok (map lin (combine bounds ns))).
  { apply mapM_ok. intros (b & n) H. apply in_combine_r in H.
    rewrite Forall_forall in Hpos. specialize (Hpos n H). cbn [fst snd]. unfold np_linspace.
    destruct (Z.ltb_spec n 0); [lia|]. unfold lin, sample_of. cbn [fst snd].
    destruct (Z.eqb_spec n 1) as [->|N]; [reflexivity|]. f_equal. unfold linspace.
    apply map_ext_in. intros k Hk. apply in_seq in Hk.
    destruct (Z.eqb_spec (Z.of_nat k) (n - 1)) as [E|E]; simpl.
    - destruct (Z.ltb_spec 1 n); [|lia]. rewrite E. field. apply not_0_IZR. lia.
    - rewrite Rplus_comm. reflexivity. }
  rewrite EM. simpl bind.
  set (arrays := map lin (combine bounds ns)).
  assert (LA : length arrays = length bounds).
  { unfold arrays. rewrite map_length, combine_length. lia. }
  assert (NA : forall j, j < length bounds -> nth j arrays [] = lin (nth j bounds (0, 0)%R, nth j ns 0%Z)).
  { intros j Hj. unfold arrays.
    rewrite nth_map' with (d' := ((0, 0)%R, 0%Z)) by (rewrite combine_length; lia).
    now rewrite combine_nth by auto. }
  assert (PB : forall j, j < length bounds -> (1 <= nth j ns 0)%Z).
  { intros j Hj. rewrite Forall_forall in Hpos. apply Hpos, nth_In. lia. }
  assert (LN : forall j, j < length bounds -> length (nth j arrays []) = Z.to_nat (nth j ns 0%Z)).
  { intros j Hj. rewrite NA by auto. unfold lin. now rewrite map_length, seq_length. }
  destruct (C37_combinations R 0%R arrays) as (rows & E & EL & H1 & H2).
  { intros E. rewrite E in LA. destruct bounds; [contradiction|discriminate]. }
  exists rows. split; auto. split.
  { rewrite EL. assert (G : map (@length R) arrays = map Z.to_nat ns).
    { apply (list_ext 0).
      - rewrite !map_length. lia.
      - rewrite map_length. intros q Hq. rewrite nth_map' with (d' := []) by lia.
        rewrite nth_map' with (d' := 0%Z) by lia. apply LN. lia. }
    rewrite G. clear -Hpos. induction Hpos as [|n ns H Hp IH]; auto.
    cbn [map fold_right]. change (prodZ (n :: ns)) with (n * prodZ ns)%Z.
    rewrite Nat2Z.inj_mul, IH. lia. }
  assert (CHO : forall ks, choice arrays ks <->
     length ks = length bounds /\ forall j, j < length bounds -> nth j ks 0 < Z.to_nat (nth j ns 0%Z)).
  { intros ks. unfold choice. split.
    - intros F. pose proof (Forall2_length' _ _ _ F) as L. split; [lia|]. intros j Hj.
      rewrite <- LN by auto. rewrite <- LA, <- L in Hj.
      apply (Forall2_nth' _ _ _ 0 [] j F Hj).
    - intros (L & F). apply Forall2_nth_intro with (da := 0) (db := []); [lia|].
      intros j Hj. rewrite LN by lia. apply F. lia. }
  assert (CN : forall ks j, j < length bounds -> length ks = length bounds ->
     nth j ks 0 < Z.to_nat (nth j ns 0%Z) ->
     nth j (chosen 0%R arrays ks) 0%R
     = sample_of (nth j bounds (0, 0)%R) (nth j ns 0%Z) (Z.of_nat (nth j ks 0))).
  { intros ks j Hj Hk Hlt. unfold chosen. rewrite nth_map2' with (da := []) (db := 0) by lia.
    rewrite NA by auto. unfold lin. cbn [fst snd].
    rewrite nth_map' with (d' := 0) by (now rewrite seq_length). now rewrite seq_nth. }
  assert (ROWS : forall row, In row rows <->
       length row = length bounds /\
       forall j, j < length bounds -> exists k, (0 <= k < nth j ns 0)%Z /\
         nth j row 0%R = sample_of (nth j bounds (0, 0)%R) (nth j ns 0%Z) k).
  { intros row. split.
    - intros H. apply In_nth_error in H as (r & Hr). destruct (H2 r row Hr) as (ks & C & _ & ->).
      apply CHO in C as (L & C). split.
      + unfold chosen. rewrite map2_length. lia.
      + intros j Hj. exists (Z.of_nat (nth j ks 0)). specialize (C j Hj). split; [lia|].
        apply CN; auto.
    - intros (L & F).
      assert (EK : exists ks : list Z, length ks = length bounds /\
         forall j, j < length bounds -> (0 <= nth j ks 0 < nth j ns 0)%Z /\
           nth j row 0%R = sample_of (nth j bounds (0, 0)%R) (nth j ns 0%Z) (nth j ks 0%Z)).
      { apply (choose_list (length bounds) 0%Z (fun j k => (0 <= k < nth j ns 0)%Z /\
          nth j row 0%R = sample_of (nth j bounds (0, 0)%R) (nth j ns 0%Z) k)). exact F. }
      destruct EK as (ks & Lk & Hk).
      assert (C : choice arrays (map Z.to_nat ks)).
      { apply CHO. rewrite map_length. split; auto. intros j Hj.
        rewrite nth_map' with (d' := 0%Z) by lia. specialize (Hk j Hj). lia. }
      specialize (H1 _ C). apply nth_error_In in H1.
      replace row with (chosen 0%R arrays (map Z.to_nat ks)); auto.
      apply (list_ext 0%R).
      + unfold chosen. rewrite map2_length, map_length. lia.
      + unfold chosen at 1. rewrite map2_length, map_length. intros j Hj.
        assert (Hj' : j < length bounds) by lia. pose proof (Hk j Hj') as (B & ->).
        rewrite CN; auto.
        * rewrite nth_map' with (d' := 0%Z) by lia. now rewrite Z2Nat.id by lia.
        * now rewrite map_length.
        * rewrite nth_map' with (d' := 0%Z) by lia. lia. }
  split; auto.
  intros H22 row L F. apply ROWS. split; auto. intros j Hj.
  assert (N2 : (2 <= nth j ns 0)%Z) by (rewrite Forall_forall in H22; apply H22, nth_In; lia).
  unfold sample_of. destruct (Z.eqb_spec (nth j ns 0%Z) 1); [lia|].
  destruct (F j Hj) as [-> | ->].
  - exists 0%Z. split; [lia|]. lra.
  - exists (nth j ns 0 - 1)%Z. split; [lia|]. field. apply not_0_IZR. lia.
Qed.
Print Assumptions C37_linearly_spaced.

Example C37_ex_linear :
  linearly_spaced_combinations [(-1, 1); (0, 3)]%R (SamplesArr [2; 1]%Z) = Ok [[-1; 0]; [1; 0]]%R.
Proof.
  unfold linearly_spaced_combinations. simpl. unfold linspace. simpl. unfold combinations, reshape_rows.
  simpl. repeat f_equal; lra.
Qed.
(** With one sample only the lower bound is used. *)
Example C37_ex_one : linearly_spaced_combinations [(2, 5)]%R (Samples 1) = Ok [[2]]%R.
Proof. reflexivity. Qed.

(** ** C38 *)

(** [unique_rows] for any entries with a total order of their byte strings that
    separates the rows of the array. *)
Theorem C38_unique_rows : forall (B : Type) (leb : B -> B -> bool) (d : B) rows,
  (forall a b, leb a b = true \/ leb b a = true) ->
  (forall a b c, leb a b = true -> leb b c = true -> leb a c = true) ->
  (forall a b, In a rows -> In b rows -> leb a b = true -> leb b a = true -> a = b) ->
  NoDup (unique_rows leb d rows) /\ (forall x, In x (unique_rows leb d rows) <-> In x rows).
Proof. intros. destruct (unique_rows_spec leb d rows) as (A1 & A2 & _); auto. Qed.

(** Rows of binary64 numbers, viewed as byte strings. *)
Definition row_bytes (r : list binary64) : list Z :=
  concat (map (fun f => le_bytes 8 (bits_of_b64 f)) r).
Definition row_leb (a b : list binary64) : bool := bytes_leb (row_bytes a) (row_bytes b).

Lemma bits_inj (f g : binary64) : bits_of_b64 f = bits_of_b64 g -> f = g.
Proof.
  intros E. rewrite <- (binary_float_of_bits_of_binary_float 52 11 eq_refl eq_refl eq_refl f).
  rewrite <- (binary_float_of_bits_of_binary_float 52 11 eq_refl eq_refl eq_refl g).
  unfold bits_of_b64 in E. now rewrite E.
Qed.
Lemma row_bytes_inj a b : length a = length b -> row_bytes a = row_bytes b -> a = b.
Proof.
  revert b; induction a as [|x a IH]; intros [|y b] L; try discriminate; auto.
  unfold row_bytes. cbn [map concat]. intros E.
  assert (E1 : le_bytes 8 (bits_of_b64 x) = le_bytes 8 (bits_of_b64 y) /\
               row_bytes a = row_bytes b).
  { apply app_inj_len; auto. }
  destruct E1 as (E1 & E2). f_equal; [|apply IH; auto].
  apply bits_inj. apply (le_bytes_inj 8); auto;
    match goal with |- (0 <= bits_of_b64 ?f < _)%Z =>
      pose proof (bits_of_binary_float_range 52 11 eq_refl eq_refl f) as Hr;
      unfold bits_of_b64; change (256 ^ Z.of_nat 8)%Z with (2 ^ (52 + 11 + 1))%Z; lia end.
Qed.

(** A float array with rows of equal width: every row (up to the bits) exactly
    once. *)
Theorem C38_unique_rows_float64 : forall w (rows : list (list binary64)),
  Forall (fun r => length r = w) rows ->
  NoDup (unique_rows row_leb [] rows) /\
  (forall x, In x (unique_rows row_leb [] rows) <-> In x rows).
Proof.
  intros w rows F. rewrite Forall_forall in F. apply C38_unique_rows.
  - intros a b. apply bytes_leb_total.
  - intros a b c. apply bytes_leb_trans.
  - intros a b Ha Hb H1 H2. apply row_bytes_inj; [rewrite (F a Ha), (F b Hb); auto|].
    now apply bytes_leb_antisym.
Qed.
Print Assumptions C38_unique_rows_float64.

(** The claim that no two result rows are equal as numbers is false: 0.0 and
    -0.0 have different bits. *)
Definition pos0 : binary64 := b64_of_bits 0.
Definition neg0 : binary64 := b64_of_bits (2 ^ 63).
Theorem C38_numerically_distinct_refuted :
  ~ (forall w rows, Forall (fun r => length r = w) rows ->
      forall i j, i < j < length (unique_rows row_leb [] rows) ->
        ~ Forall2 (fun x y => b64_compare x y = Some Eq)
            (nth i (unique_rows row_leb [] rows) []) (nth j (unique_rows row_leb [] rows) [])).
Proof.
  intros H. apply (H 1 [[pos0]; [neg0]] ltac:(repeat constructor) 0 1).
  - vm_compute. lia.
  - vm_compute. repeat constructor.
Qed.
Print Assumptions C38_numerically_distinct_refuted.

(** Rows [1; 2], [2; 1], [1; 2]. *)
Example C38_ex :
  let one := b64_of_bits 0x3FF0000000000000 in
  let two := b64_of_bits 0x4000000000000000 in
  length (unique_rows row_leb [] [[one; two]; [two; one]; [one; two]]) = 2.
Proof. vm_compute. reflexivity. Qed.
