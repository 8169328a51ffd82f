(** C93: random states of a [GridWorld]. *)
From Coq Require Import List ZArith Reals Lia Lra Permutation.
Import ListNotations.
From Verif Require Import Prelude NumModel ListFacts NumProofs GridModel GridSpec GridProofs.
From Verif Require Import Properties.GridProps.

(** What [np.random.choice(n, size=num, replace=replace)] can draw. *)
Definition possible_choice (n num : Z) (replace : bool) (draws : list Z) : Prop :=
  Z.of_nat (length draws) = num /\ (forall i, In i draws -> (0 <= i < n)%Z) /\
  (replace = false -> NoDup draws).

(** [sample_continuous]: with numbers from [0, 1) exactly the states of the box
    without its upper sides; the number is the share of the axis below the state. *)
Theorem C93_continuous : forall g rand, valid_grid g -> length rand = dims g ->
  (forall j, (j < dims g)%nat -> (0 <= nth j rand 0 < 1)%R) ->
  let x := sample_continuous g rand in
  length x = dims g /\ inside g x /\
  forall j, (j < dims g)%nat -> (coordinate x j < upper g j)%R /\
    nth j rand 0%R = ((coordinate x j - lower g j) / (upper g j - lower g j))%R.
Proof.
  intros g rand V L H x.
  assert (LX : length x = dims g).
  { unfold x, sample_continuous. rewrite map2_length, L. unfold dims. lia. }
  assert (E : forall j, (j < dims g)%nat -> coordinate x j = (nth j rand 0 * (upper g j - lower g j) + lower g j)%R).
  { intros j Hj. unfold x, sample_continuous, coordinate.
    rewrite nth_map2 with (da := 0%R) (db := (0, 0)%R) by (unfold dims in *; lia). reflexivity. }
  split; [exact LX|]. split.
  - intros j Hj. rewrite (E j Hj). destruct (valid_axis g V j Hj) as [W _]. specialize (H j Hj). nra.
  - intros j Hj. rewrite (E j Hj). destruct (valid_axis g V j Hj) as [W _]. specialize (H j Hj).
    split; [nra|]. field. lra.
Qed.
Print Assumptions C93_continuous.

Theorem C93_every_state : forall g x, valid_grid g -> length x = dims g ->
  (forall j, (j < dims g)%nat -> (lower g j <= coordinate x j < upper g j)%R) ->
  exists rand, length rand = dims g /\ (forall j, (j < dims g)%nat -> (0 <= nth j rand 0 < 1)%R) /\
    sample_continuous g rand = x.
Proof.
  intros g x V L H.
  pose (rand := map (fun j => (coordinate x j - lower g j) / (upper g j - lower g j))%R (seq 0 (dims g))).
  assert (E : forall j, (j < dims g)%nat -> nth j rand 0%R = ((coordinate x j - lower g j) / (upper g j - lower g j))%R).
  { intros j Hj. unfold rand. rewrite nth_map' with (d' := 0%nat) by (rewrite seq_length; exact Hj).
    rewrite seq_nth by exact Hj. reflexivity. }
  assert (LR : length rand = dims g) by (unfold rand; rewrite map_length, seq_length; reflexivity).
  exists rand. split; [exact LR|].
  assert (B : forall j, (j < dims g)%nat -> (0 <= nth j rand 0 < 1)%R).
  { intros j Hj. rewrite (E j Hj). destruct (valid_axis g V j Hj) as [W _]. specialize (H j Hj).
    assert (0 < / (upper g j - lower g j))%R by (apply Rinv_0_lt_compat; lra).
    split; [apply Rmult_le_pos; lra|]. apply Rmult_lt_reg_r with (upper g j - lower g j)%R; [lra|].
    unfold Rdiv. rewrite Rmult_assoc, Rinv_l by lra. lra. }
  split; [exact B|].
  destruct (C93_continuous g rand V LR B) as (LS & _ & S).
  apply nth_ext with 0%R 0%R; [congruence|]. intros j Hj. rewrite LS in Hj.
  destruct (S j Hj) as [_ Q]. rewrite (E j Hj) in Q. destruct (valid_axis g V j Hj) as [W _].
  unfold coordinate in *. apply Rmult_eq_compat_r with (r := (upper g j - lower g j)%R) in Q.
  unfold Rdiv in Q. rewrite !Rmult_assoc, Rinv_l in Q by lra. lra.
Qed.

(** [sample_discrete]: grid states, without repetition unless [replace]; too many
    without replacement, or a negative number, is a ValueError. *)
Theorem C93_discrete : forall g num replace draws, valid_grid g ->
  (possible_choice (product (npts g) (dims g)) num replace draws ->
   exists rows, sample_discrete g num replace draws = Ok rows /\
     Z.of_nat (length rows) = num /\ (forall p, In p rows -> is_vertex g p) /\
     (replace = false -> NoDup rows) /\
     (replace = false -> num = product (npts g) (dims g) -> Permutation rows (all_points g))) /\
  ((num < 0)%Z \/ replace = false /\ (product (npts g) (dims g) < num)%Z ->
   sample_discrete g num replace draws = Err ValueError).
Proof.
  intros g num replace draws V.
  destruct (C02_all_points_in_index_order g V) as (AL & AN & AD & AI & _).
  rewrite <- (nindex_product g V) in *. set (N := nindex g) in *.
  split.
  - intros (L & B & D).
    assert (ND : replace = false -> (num <= N)%Z).
    { intros R. specialize (D R).
      assert (I : incl draws (map Z.of_nat (seq 0 (Z.to_nat N)))).
      { intros i Hi. specialize (B i Hi). apply in_map_iff. exists (Z.to_nat i). split; [lia|]. apply in_seq. lia. }
      pose proof (NoDup_incl_length D I) as Q. rewrite map_length, seq_length in Q. lia. }
    assert (E : np_choice N num replace draws = Ok draws).
    { unfold np_choice. replace (num <? 0)%Z with false by (symmetry; apply Z.ltb_ge; lia). cbn [orb].
      replace (negb replace && (N <? num)%Z)%bool with false.
      - reflexivity.
      - destruct replace; [reflexivity|]. cbn [negb andb]. symmetry. apply Z.ltb_ge. auto. }
    set (rows := map (fun i => nth (Z.to_nat i) (all_points g) []) draws).
    assert (M : sample_discrete g num replace draws = Ok rows).
    { unfold sample_discrete. fold N. rewrite E. cbn [bind]. clear - B AN. unfold rows.
      induction draws as [|i draws IH]; [reflexivity|]. cbn [mapM map]. rewrite AN by (apply B; left; reflexivity).
      cbn [bind]. rewrite IH by (intros k Hk; apply B; right; exact Hk). reflexivity. }
    assert (LR : length rows = length draws) by apply map_length.
    assert (IV : forall p, In p rows -> In p (all_points g)).
    { intros p Hp. apply in_map_iff in Hp as (i & <- & Hi). apply nth_In. specialize (B i Hi). lia. }
    assert (NR : replace = false -> NoDup rows).
    { intros R. specialize (D R). clear - D B AD AL. unfold rows. induction D as [|i draws NI D IH]; [constructor|].
      cbn [map]. constructor; [|apply IH; intros k Hk; apply B; right; exact Hk].
      intros Hp. apply in_map_iff in Hp as (k & E & Hk). apply NI.
      assert (Bi := B i (or_introl eq_refl)). assert (Bk := B k (or_intror Hk)).
      assert (Z.to_nat k = Z.to_nat i).
      { apply (proj1 (NoDup_nth (all_points g) []) AD); [lia|lia|exact E]. }
      replace i with k by lia. exact Hk. }
    exists rows. split; [exact M|]. split; [lia|]. split; [intros p Hp; apply AI, IV, Hp|]. split; [exact NR|].
    intros R EN. apply NoDup_Permutation; [exact (NR R)|exact AD|]. intros p. split; [apply IV|].
    apply (NoDup_length_incl (NR R)); [lia|exact IV].
  - intros H. unfold sample_discrete, np_choice. fold N. destruct H as [H|[-> H]].
    + replace (num <? 0)%Z with true by (symmetry; apply Z.ltb_lt; exact H). reflexivity.
    + replace (N <? num)%Z with true by (symmetry; apply Z.ltb_lt; exact H). cbn [negb andb].
      rewrite Bool.orb_true_r. reflexivity.
Qed.
Print Assumptions C93_discrete.

Theorem C93_every_vertex : forall g p, valid_grid g -> is_vertex g p ->
  exists i, possible_choice (product (npts g) (dims g)) 1 false [i] /\
    sample_discrete g 1 false [i] = Ok [p].
Proof.
  intros g p V H.
  destruct (C02_all_points_in_index_order g V) as (AL & AN & AD & AI & _).
  apply AI, (In_nth _ _ []) in H as (k & Hk & <-).
  assert (P : possible_choice (product (npts g) (dims g)) 1 false [Z.of_nat k]).
  { split; [reflexivity|]. split; [intros i [<-|[]]; lia|]. intros _. constructor; [intros []|constructor]. }
  exists (Z.of_nat k). split; [exact P|].
  pose proof (proj1 (C93_discrete g 1 false [Z.of_nat k] V) P) as (rows & E & _).
  unfold sample_discrete, np_choice in *.
  destruct (_ || _)%bool; [discriminate|]. cbn [bind mapM] in *.
  rewrite AN by lia. rewrite Nat2Z.id. reflexivity.
Qed.

Example C93_ex : sample_continuous g35 [1 / 2; 3 / 4]%R = [1 / 2; 1 / 2]%R /\
  sample_discrete g35 2 false [7; 0]%Z = Ok [[1 / 2; 0]; [0; -1]]%R /\
  sample_discrete g35 16 false [] = Err ValueError.
Proof.
  split; [|split].
  - cbn. vec_eq.
  - unfold sample_discrete. change (np_choice _ _ _ _) with (@Ok (list Z) [7; 0]%Z). cbn [bind mapM].
    destruct (C02_all_points_in_index_order g35 g35_valid) as (_ & H' & _).
    assert (index_to_state g35 7 = Ok [1 / 2; 0]%R) as -> by (cbn; vec_eq).
    assert (index_to_state g35 0 = Ok [0; -1]%R) as -> by (cbn; vec_eq). reflexivity.
  - reflexivity.
Qed.
