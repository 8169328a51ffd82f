(** C85: initial safe sets given as masks, index lists and index arrays. *)
From Coq Require Import Reals List Bool Arith ZArith Lia Lra Permutation.
From Verif Require Import Prelude ListFacts SafeModel SafeSpec SafeProofs InitialModel InitialSpec.
Import ListNotations.
Local Open Scope nat_scope.

(** ** Masks *)

Lemma any_pass_mask C ad m mr idx sb rb :
  any_pass C ad (option_map Mask m) mr idx sb rb = batch_pass C ad m mr idx sb rb.
Proof.
  unfold any_pass, batch_pass. cbv zeta. destruct ((0 <? _) || _); [|reflexivity].
  destruct (ad && _); [|reflexivity]. destruct m as [m|]; [|reflexivity].
  cbn [option_map lookup_initial]. destruct (negb _); reflexivity.
Qed.
Lemma any_verify_mask C ad m mr order bs b : forall s r last,
  any_verify C ad (option_map Mask m) mr order bs b s r last = verify C ad m mr order bs b s r last.
Proof.
  induction b as [|i b IH]; intros s r last; cbn; [reflexivity|]. rewrite any_pass_mask.
  destruct batch_pass as [p|]; cbn; [|reflexivity]. destruct (p_break p); auto.
Qed.
Lemma assign_initial_mask {A} (a : list A) m x : assign_initial a (option_map Mask m) x = assign_opt a m x.
Proof. now destruct m. Qed.
Lemma any_verified_mask m L C sh mr bs order :
  any_verified (option_map Mask m) L C sh mr bs order = verified (with_mask m L) C sh mr bs order.
Proof.
  unfold any_verified, verified, any_start, start_sets. cbn [with_mask l_init l_safe l_ref l_vals l_adaptive].
  rewrite !assign_initial_mask.
  destruct sh; cbn [bind fst snd].
  - destruct assign_opt; cbn [bind]; [|reflexivity]. destruct assign_opt; cbn [bind fst snd]; [|reflexivity].
    rewrite any_verify_mask. reflexivity.
  - rewrite any_verify_mask. reflexivity.
Qed.

(** For a boolean array, or no initial set, these are the calls of [SafeModel]. *)
Theorem C85_masks : forall m L C sh mr bs order,
  let a := any_update (option_map Mask m) L C sh mr bs order in
  let b := update_effect (with_mask m L) C sh mr bs order in
  snd a = snd b /\ with_mask m (fst a) = fst b /\
  forall vals ad, any_init vals (option_map Mask m) ad
    = match lyap_init vals m ad with Ok L' => Ok (with_mask None L') | Err e => Err e end.
Proof.
  intros m L C sh mr bs order a b. unfold a, b, any_update, update_effect.
  rewrite any_verified_mask. split; [|split].
  - destruct verified as [[[s r] c]|]; [|reflexivity]. cbn [with_mask l_init]. rewrite !assign_initial_mask.
    destruct assign_opt; [|reflexivity]. destruct assign_opt; reflexivity.
  - destruct verified as [[[s r] c]|]; [|reflexivity]. cbn [with_mask l_init]. rewrite !assign_initial_mask.
    destruct assign_opt; [|reflexivity]. destruct assign_opt; reflexivity.
  - intros vals ad. unfold any_init, lyap_init. rewrite !assign_initial_mask.
    destruct assign_opt; [|reflexivity]. cbn [bind]. destruct assign_opt; reflexivity.
Qed.
Print Assumptions C85_masks.

(** ** Indices *)

Lemma position_ok n z : (- Z.of_nat n <= z < Z.of_nat n)%Z ->
  exists k, position n z = Ok k /\ k < n /\
    (z = Z.of_nat k \/ z = (Z.of_nat k - Z.of_nat n)%Z).
Proof.
  intros H. unfold position.
  destruct (Z.leb_spec 0 z), (Z.ltb_spec z (Z.of_nat n)); cbn [andb]; try lia.
  - exists (Z.to_nat z). split; [reflexivity|lia].
  - destruct (Z.leb_spec (- Z.of_nat n) z), (Z.ltb_spec z 0); cbn [andb]; try lia.
    exists (Z.to_nat (z + Z.of_nat n)). split; [reflexivity|lia].
Qed.
Lemma positions_ok n l : in_range n l ->
  exists ks, mapM (position n) l = Ok ks /\ forall x, x < n -> (In x ks <-> meant n l x).
Proof.
  induction l as [|z l IH]; intros H.
  - exists []. split; [reflexivity|]. intros x _. unfold meant. cbn. tauto.
  - destruct (position_ok n z (H z (or_introl eq_refl))) as (k & Ek & Hk & Hz).
    destruct IH as (ks & Eks & Hks); [intros z' Hz'; apply H; now right|].
    exists (k :: ks). cbn. rewrite Ek. cbn. rewrite Eks. split; [reflexivity|].
    intros x Hx. specialize (Hks x Hx). unfold meant in *. cbn.
    split.
    + intros [->|I]; [lia|]. apply Hks in I. tauto.
    + intros [[E|I]|[E|I]]; [left; lia|right; tauto|left; lia|right; tauto].
Qed.
Lemma positions_fail n l : ~ in_range n l -> mapM (position n) l = Err IndexError.
Proof.
  induction l as [|z l IH]; intros H; [exfalso; apply H; intros z []|].
  cbn. unfold position at 1.
  destruct (Z.leb_spec 0 z), (Z.ltb_spec z (Z.of_nat n)); cbn [andb].
  2-4: destruct (Z.leb_spec (- Z.of_nat n) z), (Z.ltb_spec z 0); cbn [andb bind]; try lia; try reflexivity.
  1,2: cbn [bind]; rewrite IH; [reflexivity|];
    intros R; apply H; intros z' [<-|Hz]; [lia|now apply R].
Qed.
Lemma nth_assign_all {A} ks : forall (a : list A) x q d,
  length (fold_left (fun acc k => set_nth k x acc) ks a) = length a /\
  (q < length a -> nth q (fold_left (fun acc k => set_nth k x acc) ks a) d
     = if existsb (Nat.eqb q) ks then x else nth q a d).
Proof.
  induction ks as [|k ks IH]; intros a x q d; cbn; [auto|].
  destruct (IH (set_nth k x a) x q d) as (L1 & N1). rewrite set_nth_length in L1, N1.
  split; [exact L1|]. intros Hq. rewrite N1 by exact Hq. destruct (existsb _ ks); [now rewrite orb_true_r|].
  rewrite orb_false_r, nth_set_nth. rewrite (Nat.eqb_sym q k). destruct (Nat.eqb_spec k q); cbn [andb]; [|reflexivity].
  destruct (Nat.ltb_spec q (length a)); [reflexivity|lia].
Qed.
Lemma assign_indices {A} (a : list A) arr l m x :
  in_range (length a) l -> mask_of (length a) l m ->
  assign_initial a (Some (Indices arr l)) x = assign_initial a (Some (Mask m)) x.
Proof.
  intros R (Lm & Hm). cbn. destruct (positions_ok _ _ R) as (ks & -> & Hks). cbn [bind].
  destruct (assign_opt_ok a (Some m) x) as (b & E & Lb & Nb).
  { intros m' [= <-]. exact Lm. }
  cbn [assign_opt] in E. rewrite E. f_equal. destruct a as [|a0 a'] eqn:Ea.
  - destruct b; [|discriminate]. destruct (nth_assign_all ks (@nil A) x 0 x) as (L0 & _).
    now destruct (fold_left _ ks []).
  - rewrite <- Ea in *. apply nth_ext with (d := a0) (d' := a0).
    + destruct (nth_assign_all ks a x 0 a0) as (-> & _). congruence.
    + intros q Hq. destruct (nth_assign_all ks a x q a0) as (L0 & N0). rewrite L0 in Hq.
      rewrite N0, Nb by exact Hq. cbn [omask].
      specialize (Hks q Hq). specialize (Hm q Hq).
      destruct (nth q m false) eqn:Em.
      * replace (existsb (Nat.eqb q) ks) with true; [reflexivity|]. symmetry. apply existsb_exists.
        exists q. split; [tauto|apply Nat.eqb_refl].
      * destruct (existsb _ ks) eqn:EX; [|reflexivity]. apply existsb_exists in EX as (q' & I & Eq).
        apply Nat.eqb_eq in Eq as <-. exfalso. apply Hks, Hm in I. discriminate.
Qed.

Lemma any_verified_length ini L C sh mr bs order s r c :
  any_verified ini L C sh mr bs order = Ok (s, r, c) ->
  length s = length (l_safe L) /\ length r = length (l_ref L).
Proof.
  unfold any_verified. destruct any_start as [[s0 r0]|]; [|discriminate]. cbn [bind].
  destruct any_verify as [[[s' r'] [[[i b] rb]|]]|]; cbn [bind]; try discriminate.
  destruct py_nth; cbn [bind]; [|discriminate]. destruct py_nth; cbn [bind]; [|discriminate].
  intros [= <- <- <-]. now rewrite !scatter_length, repeat_length.
Qed.
Lemma any_verify_inactive C ad ini1 ini2 mr order bs b : ad && (1 <? mr)%Z = false -> forall s r last,
  any_verify C ad ini1 mr order bs b s r last = any_verify C ad ini2 mr order bs b s r last.
Proof.
  intros Ha. induction b as [|i b IH]; intros s r last; cbn; [reflexivity|].
  replace (any_pass C ad ini1 mr (slice i (i + bs) order) (slice i (i + bs) s) (slice i (i + bs) r))
    with (any_pass C ad ini2 mr (slice i (i + bs) order) (slice i (i + bs) s) (slice i (i + bs) r))
    by (unfold any_pass; rewrite Ha; reflexivity).
  destruct any_pass as [p|]; cbn; [|reflexivity]. destruct (p_break p); auto.
Qed.
Lemma any_start_indices arr l m L sh :
  length (l_safe L) = size L -> length (l_ref L) = size L ->
  in_range (size L) l -> mask_of (size L) l m ->
  any_start (Some (Indices arr l)) L sh = any_start (Some (Mask m)) L sh.
Proof.
  intros H1 H2 R M. unfold any_start. destruct sh; [|reflexivity].
  rewrite (assign_indices _ arr l m) by (rewrite repeat_length, H1; assumption).
  rewrite (assign_indices (repeat 0%Z _) arr l m) by (rewrite repeat_length, H2; assumption).
  reflexivity.
Qed.
Lemma any_update_indices arr l m L C sh mr bs order :
  length (l_safe L) = size L -> length (l_ref L) = size L ->
  in_range (size L) l -> mask_of (size L) l m ->
  (forall s r, any_start (Some (Mask m)) L sh = Ok (s, r) ->
    any_verify C (l_adaptive L) (Some (Indices arr l)) mr order bs (starts (length order) bs)
      (gather false s order) (gather 0%Z r order) None =
    any_verify C (l_adaptive L) (Some (Mask m)) mr order bs (starts (length order) bs)
      (gather false s order) (gather 0%Z r order) None) ->
  any_update (Some (Indices arr l)) L C sh mr bs order = any_update (Some (Mask m)) L C sh mr bs order.
Proof.
  intros H1 H2 R M HV. unfold any_update.
  assert (E : any_verified (Some (Indices arr l)) L C sh mr bs order =
              any_verified (Some (Mask m)) L C sh mr bs order).
  { unfold any_verified. rewrite (any_start_indices arr l m) by assumption.
    destruct any_start as [[s r]|] eqn:ES; [|reflexivity]. cbn [bind fst snd].
    rewrite (HV s r eq_refl). reflexivity. }
  rewrite E. clear E. destruct any_verified as [[[s r] c]|] eqn:EV; [|reflexivity].
  apply any_verified_length in EV as (L1 & L2).
  rewrite (assign_indices s arr l m) by (rewrite L1, H1; assumption).
  rewrite (assign_indices r arr l m) by (rewrite L2, H2; assumption). reflexivity.
Qed.

(** Without refinement, indices in a list or an array do what the mask of these states
    does, in the constructor and in every call; an index that does not exist is an
    IndexError in the constructor. *)
Theorem C85_indices : forall arr l m L C sh mr bs order,
  length (l_safe L) = size L -> length (l_ref L) = size L ->
  in_range (size L) l -> mask_of (size L) l m ->
  l_adaptive L = false \/ (mr <= 1)%Z ->
  any_update (Some (Indices arr l)) L C sh mr bs order = any_update (Some (Mask m)) L C sh mr bs order.
Proof.
  intros arr l m L C sh mr bs order H1 H2 R M HA. apply any_update_indices; auto.
  intros s r _. apply any_verify_inactive. destruct HA as [->|HA]; [reflexivity|].
  destruct (Z.ltb_spec 1 mr); [lia|apply andb_false_r].
Qed.
Print Assumptions C85_indices.
Theorem C85_constructor : forall vals arr l m ad,
  (in_range (length vals) l -> mask_of (length vals) l m ->
   any_init vals (Some (Indices arr l)) ad = any_init vals (Some (Mask m)) ad /\
   exists L, any_init vals (Some (Indices arr l)) ad = Ok L /\
     forall x, x < length vals -> (safe L x <-> meant (length vals) l x)) /\
  (~ in_range (length vals) l -> any_init vals (Some (Indices arr l)) ad = Err IndexError).
Proof.
  intros vals arr l m ad. split.
  - intros R M. assert (E : any_init vals (Some (Indices arr l)) ad = any_init vals (Some (Mask m)) ad).
    { unfold any_init. rewrite (assign_indices _ arr l m) by (rewrite repeat_length; assumption).
      rewrite (assign_indices (repeat 0%Z _) arr l m) by (rewrite repeat_length; assumption). reflexivity. }
    split; [exact E|]. rewrite E. destruct M as (Lm & Hm).
    destruct (assign_opt_ok (repeat false (length vals)) (Some m) true) as (s & E1 & _ & N1).
    { intros m' [= <-]. now rewrite repeat_length. }
    destruct (assign_opt_ok (repeat 0%Z (length vals)) (Some m) 1%Z) as (r & E2 & _ & _).
    { intros m' [= <-]. now rewrite repeat_length. }
    unfold any_init. cbn [assign_initial]. cbn [assign_opt] in E1, E2. rewrite E1, E2. cbn [bind].
    eexists. split; [reflexivity|]. intros x Hx. unfold safe. cbn [l_safe].
    rewrite N1 by (rewrite repeat_length; exact Hx). cbn [omask]. rewrite <- Hm by exact Hx.
    destruct (nth x m false); [tauto|]. rewrite nth_repeat'. destruct (x <? length vals); tauto.
  - intros R. unfold any_init. cbn [assign_initial]. rewrite repeat_length, positions_fail by exact R. reflexivity.
Qed.
Print Assumptions C85_constructor.

(** ** Refinement with a list *)

Lemma any_pass_safe C ad ini mr idx sb rb :
  length sb = length idx -> 0 < length idx ->
  (forall q, q < length idx -> nth q sb false || neg C (nth q idx 0) = true) ->
  any_pass C ad ini mr idx sb rb =
  Ok {| p_safe := map2 orb sb (map (neg C) idx);
        p_ref := map2 (fun r (b : bool) => if b then 1%Z else r) rb (map (neg C) idx);
        p_bound := 0; p_rbound := 0; p_break := false |}.
Proof.
  intros Hl Hp H. unfold any_pass. cbv zeta.
  set (safe1 := map2 orb sb (map (neg C) idx)).
  assert (Ls : length safe1 = length idx) by (unfold safe1; rewrite map2_length, map_length; lia).
  assert (Ns : forall q, q < length idx -> nth q safe1 false = true).
  { intros q Hq. unfold safe1. rewrite nth_map2' with (da := false) (db := false) by (rewrite ?map_length; lia).
    rewrite nth_map' with (d' := 0) by lia. apply H; lia. }
  pose proof (first_false_spec safe1) as FF. unfold argmin_bool.
  destruct (first_false safe1) as [b|] eqn:EF.
  - destruct FF as (Hb & Hf & _). rewrite Ns in Hf by lia. discriminate.
  - rewrite Ns by lia. reflexivity.
Qed.
Lemma any_pass_unsafe C ini mr idx sb rb :
  (forall i, lookup_initial ini i = Err TypeError) -> (1 < mr)%Z ->
  length sb = length idx ->
  (exists q, q < length idx /\ nth q sb false || neg C (nth q idx 0) = false) ->
  any_pass C true ini mr idx sb rb = Err TypeError.
Proof.
  intros HI Hm Hl (q & Hq & H). unfold any_pass. cbv zeta.
  set (safe1 := map2 orb sb (map (neg C) idx)).
  assert (Ls : length safe1 = length idx) by (unfold safe1; rewrite map2_length, map_length; lia).
  assert (Ns : nth q safe1 false = false).
  { unfold safe1. rewrite nth_map2' with (da := false) (db := false) by (rewrite ?map_length; lia).
    rewrite nth_map' with (d' := 0) by lia. exact H. }
  pose proof (first_false_spec safe1) as FF. unfold argmin_bool.
  destruct (first_false safe1) as [b|] eqn:EF; [|rewrite FF in Ns by lia; discriminate].
  destruct FF as (Hb & Hf & _).
  replace ((0 <? b) || negb (nth 0 safe1 false)) with true.
  2:{ destruct b; [rewrite Hf|]; reflexivity. }
  cbn [andb]. destruct (Z.ltb_spec 1 mr); [|lia]. rewrite HI. reflexivity.
Qed.

Section Verify.
  Variables (C : cert) (ini ini' : option initial) (mr : Z) (order : list nat) (bs : nat).
  Hypothesis Hbs : 0 < bs.
  Hypothesis Hmr : (1 < mr)%Z.
  Hypothesis Hini : forall i, lookup_initial ini i = Err TypeError.
  Let n := length order.
  Let T := (n + bs - 1) / bs.

  Lemma any_verify_list t : forall k s r last, k + t = T -> length s = n ->
    ((forall q, k * bs <= q < n -> nth q s false || neg C (nth q order 0) = true) ->
     any_verify C true ini mr order bs (map (fun k => k * bs) (seq k t)) s r last =
     any_verify C true ini' mr order bs (map (fun k => k * bs) (seq k t)) s r last) /\
    ((exists q, k * bs <= q < n /\ nth q s false || neg C (nth q order 0) = false) ->
     any_verify C true ini mr order bs (map (fun k => k * bs) (seq k t)) s r last = Err TypeError).
  Proof.
    destruct (T_spec order bs Hbs) as (HT1 & HT2). fold n in HT1, HT2. fold T in HT1, HT2.
    induction t as [|t IH]; intros k s r last Hk Hs.
    - split; [reflexivity|]. intros (q & Hq & _). exfalso. assert (k = T) by lia. subst k. lia.
    - cbn [seq map any_verify].
      assert (Hi : k * bs < n) by (apply HT2; lia).
      set (idx := slice (k * bs) (k * bs + bs) order). set (sb := slice (k * bs) (k * bs + bs) s).
      set (rb := slice (k * bs) (k * bs + bs) r).
      assert (Li : length idx = Nat.min bs (n - k * bs)).
      { unfold idx. rewrite slice_length. fold n. lia. }
      assert (Lb : length sb = length idx) by (unfold sb; rewrite Li, slice_length; lia).
      assert (Ni : forall q, q < length idx -> nth q idx 0 = nth (k * bs + q) order 0)
        by (intros; apply nth_slice; lia).
      assert (Nb : forall q, q < length idx -> nth q sb false = nth (k * bs + q) s false)
        by (intros; apply nth_slice; lia).
      assert (D : (forall q, q < length idx -> nth q sb false || neg C (nth q idx 0) = true) \/
                  (exists q, q < length idx /\ nth q sb false || neg C (nth q idx 0) = false)).
      { clear - idx. generalize (length idx). induction n as [|m IH]; [left; lia|].
        destruct IH as [IH|(q & Hq & E)]; [|right; exists q; split; [lia|exact E]].
        destruct (nth m sb false || neg C (nth m idx 0)) eqn:E; [|right; exists m; split; [lia|exact E]].
        left. intros q Hq. destruct (Nat.eq_dec q m) as [->|]; [exact E|apply IH; lia]. }
      destruct D as [D|D].
      + rewrite !(any_pass_safe C true _ mr idx sb rb) by (auto; lia). cbn [bind p_break p_safe p_ref p_bound p_rbound].
        set (s' := splice s (k * bs) _). set (r' := splice r (k * bs) _).
        assert (Lm : length (map2 orb sb (map (neg C) idx)) = length idx)
          by (rewrite map2_length, map_length; lia).
        assert (Ls' : length s' = n) by (unfold s'; rewrite splice_length; lia).
        assert (Ns' : forall q, S k * bs <= q -> q < n -> nth q s' false = nth q s false).
        { intros q H1 H2. unfold s'. rewrite nth_splice by lia. rewrite Lm.
          destruct (Nat.ltb_spec q (k * bs + length idx)); [lia|]. now rewrite andb_false_r. }
        destruct (IH (S k) s' r' (Some (k * bs, 0, 0)) ltac:(lia) Ls') as (IH1 & IH2). split.
        * intros H. apply IH1. intros q Hq. rewrite Ns' by lia. apply H. lia.
        * intros (q & Hq & E). destruct (Nat.lt_ge_cases q (S k * bs)) as [Hlt|Hge].
          -- exfalso. specialize (D (q - k * bs) ltac:(lia)). rewrite Nb, Ni in D by lia.
             replace (k * bs + (q - k * bs)) with q in D by lia. congruence.
          -- apply IH2. exists q. rewrite Ns' by lia. split; [lia|exact E].
      + rewrite (any_pass_unsafe C ini mr idx sb rb) by auto. split; [|reflexivity].
        intros H. exfalso. destruct D as (q & Hq & E). rewrite Nb, Ni in E by lia.
        rewrite H in E by lia. discriminate.
  Qed.
End Verify.

Lemma list_lookup l i : lookup_initial (Some (Indices false l)) i = Err TypeError.
Proof. reflexivity. Qed.

(** With refinement, a list of indices does what the mask does only if no state needs
    refinement.  As soon as some state is neither certified nor safe at the start, the
    call raises TypeError and changes nothing. *)
Theorem C85_list_refinement : forall l m L C sh mr bs order,
  length (l_safe L) = size L -> length (l_ref L) = size L ->
  in_range (size L) l -> mask_of (size L) l m ->
  sorts (l_vals L) order -> 0 < bs -> l_adaptive L = true -> (1 < mr)%Z ->
  ((forall x, x < size L -> neg C x = true \/ starts_safe (size L) l L sh x) ->
   any_update (Some (Indices false l)) L C sh mr bs order
   = any_update (Some (Mask m)) L C sh mr bs order) /\
  ((exists x, x < size L /\ neg C x = false /\ ~ starts_safe (size L) l L sh x) ->
   any_update (Some (Indices false l)) L C sh mr bs order = (L, Some TypeError)).
Proof.
  intros l m L C sh mr bs order H1 H2 R M HS Hb Ha Hmr.
  pose proof (order_length L order HS) as OL.
  assert (ES : exists s r, any_start (Some (Mask m)) L sh = Ok (s, r) /\ length s = size L /\
            forall x, x < size L -> (nth x s false = true <-> starts_safe (size L) l L sh x)).
  { unfold any_start, starts_safe. destruct sh; [|exists (l_safe L), (l_ref L); tauto].
    destruct M as (Lm & Hm).
    destruct (assign_opt_ok (repeat false (length (l_safe L))) (Some m) true) as (s & E1 & L1 & N1).
    { intros m' [= <-]. now rewrite repeat_length, H1. }
    destruct (assign_opt_ok (repeat 0%Z (length (l_ref L))) (Some m) 1%Z) as (r & E2 & _ & _).
    { intros m' [= <-]. now rewrite repeat_length, H2. }
    cbn [assign_opt] in E1, E2. cbn [assign_initial]. rewrite E1, E2. cbn [bind]. exists s, r.
    rewrite repeat_length in L1, N1. split; [reflexivity|]. split; [congruence|].
    intros x Hx. rewrite N1 by congruence. cbn [omask]. rewrite <- Hm by exact Hx.
    destruct (nth x m false); [tauto|]. rewrite nth_repeat'. destruct (x <? _); tauto. }
  destruct ES as (s & r & ES & Ls & Ns).
  assert (Hg : forall q, q < size L -> nth q (gather false s order) false = nth (nth q order 0) s false).
  { intros q Hq. unfold gather. rewrite nth_map' with (d' := 0) by lia. reflexivity. }
  assert (Lg : length (gather false s order) = length order) by (unfold gather; apply map_length).
  pose proof (any_verify_list C (Some (Indices false l)) (Some (Mask m)) mr order bs Hb Hmr
    (list_lookup l) ((length order + bs - 1) / bs) 0 (gather false s order) (gather 0%Z r order) None
    eq_refl Lg) as (V1 & V2). rewrite OL in V1, V2. split.
  - intros H. apply any_update_indices; auto. intros s' r' E. rewrite ES in E. injection E as <- <-.
    rewrite Ha. unfold starts. destruct (Nat.eqb_spec bs 0); [lia|]. rewrite OL. apply V1.
    intros q Hq. rewrite Hg by lia.
    destruct (H (nth q order 0)) as [->|E]; [apply (order_lt L order HS); lia|apply orb_true_r|].
    apply Ns in E; [now rewrite E|apply (order_lt L order HS); lia].
  - intros (x & Hx & En & Hns). unfold any_update, any_verified.
    rewrite (any_start_indices false l m) by assumption. rewrite ES. cbn [bind fst snd].
    rewrite Ha. unfold starts. destruct (Nat.eqb_spec bs 0); [lia|]. rewrite OL. rewrite V2; [reflexivity|].
    destruct (order_onto L order HS x Hx) as (q & Hq & <-). exists q. split; [lia|].
    rewrite Hg, En by lia. destruct (nth (nth q order 0) s false) eqn:E; [|reflexivity].
    exfalso. apply Hns, Ns; auto.
Qed.
Print Assumptions C85_list_refinement.

(** ** Masks of another length *)

(** A boolean array with another number of entries, assigned later: with [can_shrink]
    the call raises IndexError and changes nothing; without [can_shrink] and without
    refinement it raises IndexError too, but leaves the object as the same call without
    an initial set does. *)
Theorem C85_wrong_length : forall m L C mr bs order,
  length (l_safe L) = size L -> length (l_ref L) = size L -> length m <> size L ->
  any_update (Some (Mask m)) L C true mr bs order = (L, Some IndexError) /\
  (l_adaptive L = false \/ (mr <= 1)%Z -> forall L',
   any_update None L C false mr bs order = (L', None) ->
   any_update (Some (Mask m)) L C false mr bs order = (L', Some IndexError)).
Proof.
  intros m L C mr bs order H1 H2 Hm.
  assert (A : forall A (a : list A) x, length a = size L -> assign_mask a m x = Err IndexError).
  { intros A a x Ha. unfold assign_mask. destruct (Nat.eqb_spec (length a) (length m)); [congruence|reflexivity]. }
  split.
  - unfold any_update, any_verified, any_start. cbn [assign_initial].
    rewrite A by now rewrite repeat_length. reflexivity.
  - intros HA L' H. unfold any_update, any_verified, any_start in *. cbn [bind fst snd] in *.
    rewrite (any_verify_inactive _ _ _ None).
    2:{ destruct HA as [->|HA]; [reflexivity|]. destruct (Z.ltb_spec 1 mr); [lia|apply andb_false_r]. }
    destruct any_verify as [[[s r] [[[i b] rb]|]]|]; cbn [bind] in *; try discriminate.
    destruct py_nth; cbn [bind] in *; [|discriminate]. destruct py_nth; cbn [bind] in *; [|discriminate].
    cbn [assign_initial] in *. injection H as <-.
    rewrite A by now rewrite scatter_length, repeat_length. reflexivity.
Qed.
Print Assumptions C85_wrong_length.

(** ** Refinement with an array of indices *)

(** Cases: two states with values 0 and 1; state 0 needs refinement, state 1 is
    initially safe. *)
Definition vals2 : list R := [0%R; 1%R].
Definition L2 (s : list bool) (r : list Z) (c : R) : lyap :=
  {| l_init := None; l_adaptive := true; l_vals := vals2; l_safe := s; l_ref := r; l_cmax := c |}.
Definition refinable : cert :=
  {| neg := fun _ => false; nreq := fun _ => 2%Z; passes := fun _ k n => (2 <=? n)%Z || (k =? 1) |}.
Lemma sorts2 : sorts vals2 [0; 1].
Proof.
  split; [apply Permutation_refl|]. intros p q H1 H2. cbn in H2. assert (p = 0 /\ q = 1) as (-> & ->) by lia.
  cbn. lra.
Qed.

(** With refinement, an array of indices is not what its mask is: its entries are
    taken as truth values for the states with these numbers.  The array [[1]] raises
    IndexError where its mask works, and the array [[1; 1]] loses a state. *)
Theorem C85_array_refinement_refuted :
  ~ (forall l m L C sh mr bs order,
     length (l_safe L) = size L -> length (l_ref L) = size L ->
     in_range (size L) l -> mask_of (size L) l m -> sorts (l_vals L) order -> 0 < bs ->
     snd (any_update (Some (Indices true l)) L C sh mr bs order)
     = snd (any_update (Some (Mask m)) L C sh mr bs order)) /\
  ~ (forall l m L C sh mr bs order,
     length (l_safe L) = size L -> length (l_ref L) = size L ->
     in_range (size L) l -> mask_of (size L) l m -> sorts (l_vals L) order -> 0 < bs ->
     snd (any_update (Some (Indices true l)) L C sh mr bs order) = None ->
     forall x, safe (fst (any_update (Some (Mask m)) L C sh mr bs order)) x ->
       safe (fst (any_update (Some (Indices true l)) L C sh mr bs order)) x).
Proof.
  assert (R1 : in_range 2 [1%Z]) by (intros z [<-|[]]; cbn; lia).
  assert (R2 : in_range 2 [1%Z; 1%Z]) by (intros z [<-|[<-|[]]]; cbn; lia).
  assert (M1 : mask_of 2 [1%Z] [false; true]).
  { split; [reflexivity|]. intros [|[|x]] Hx; [| |lia]; unfold meant; cbn; split; intros H; try discriminate; auto; exfalso; lia. }
  assert (M2 : mask_of 2 [1%Z; 1%Z] [false; true]).
  { split; [reflexivity|]. intros [|[|x]] Hx; [| |lia]; unfold meant; cbn; split; intros H; try discriminate; auto; exfalso; lia. }
  split; intros H.
  - specialize (H [1%Z] [false; true] (L2 [false; true] [0; 1]%Z 0) refinable true 5%Z 2 [0; 1]
      eq_refl eq_refl R1 M1 sorts2 ltac:(lia)). discriminate H.
  - specialize (H [1%Z; 1%Z] [false; true] (L2 [false; true] [0; 1]%Z 0) refinable true 5%Z 2 [0; 1]
      eq_refl eq_refl R2 M2 sorts2 ltac:(lia) eq_refl 0 eq_refl). discriminate H.
Qed.
Print Assumptions C85_array_refinement_refuted.

(** The unit test [test_safe_set_init] of the repository: four states, initial set
    [[1, 3]]; and a negative index. *)
Example C85_ex : forall v : R,
  (exists L, any_init [v; v; v; v] (Some (Indices false [1; 3]%Z)) false = Ok L /\
     l_safe L = [false; true; false; true]) /\
  (exists L, any_init [v; v; v; v] (Some (Indices true [-1]%Z)) false = Ok L /\
     l_safe L = [false; false; false; true]) /\
  any_init [v; v; v; v] (Some (Indices true [4]%Z)) false = Err IndexError.
Proof. intros v. split; [|split]; [eexists; split; reflexivity..|reflexivity]. Qed.

(** With refinement, the mask of state 1 works where the list [[1]] raises TypeError;
    a mask of length 3, assigned later, makes the call without [can_shrink] lose the
    initially safe state 1. *)
Example C85_refinement_ex :
  let L := L2 [false; true] [0; 1]%Z 0 in
  any_update (Some (Mask [false; true])) L refinable true 5 2 [0; 1]
  = (L2 [true; true] [2; 1]%Z 1, None) /\
  any_update (Some (Indices false [1]%Z)) L refinable true 5 2 [0; 1] = (L, Some TypeError) /\
  any_update (Some (Mask [false; true; false])) (L2 [false; true] [0; 1]%Z 0) refinable false 1 2 [0; 1]
  = (L2 [false; false] [0; 0]%Z 1, Some IndexError).
Proof. split; [|split]; reflexivity. Qed.
