(** Property C119: the gradient of [NeuralNetwork.lipschitz]. *)
From Coq Require Import Reals List Bool Arith ZArith Lia Lra.
From Coquelicot Require Import Coquelicot.
From Verif Require Import Prelude FunModel QuadModel QuadProofs NNModel NNSpec NNProofs AutoNetSpec AutoNetProofs2 LipGradModel LipGradSpec LipGradProofs.
Import ListNotations.
Local Open Scope R_scope.

Lemma backprop_dot tf A s U V ds B : tf A = (s, U, V) -> same_shape A B ->
  tdot (svd_backprop tf A ds) B = rsum (Nat.min (rows A) (cols A)) (fun k => nth k ds 0 * bil B (column U k) (column V k)).
Proof.
  intros E [r c]. unfold svd_backprop. rewrite E. unfold tdot, bil, column. cbn [rows cols entry]. rewrite <- r, <- c.
  rewrite (rsum_ext (rows A) _ (fun i => rsum (Nat.min (rows A) (cols A)) (fun k => nth k ds 0 * rsum (cols A) (fun j => entry U i k * entry B i j * entry V j k)))).
  - rewrite rsum_swap. apply rsum_ext. intros k _. now rewrite rsum_scal.
  - intros i _. rewrite (rsum_ext (cols A) _ (fun j => rsum (Nat.min (rows A) (cols A)) (fun k => nth k ds 0 * (entry U i k * entry B i j * entry V j k)))).
    + rewrite rsum_swap. apply rsum_ext. intros k _. now rewrite rsum_scal.
    + intros j _. rewrite Rmult_comm, <- rsum_scal. apply rsum_ext. intros; ring.
Qed.
Lemma hits_nth s n M dy k : (k < n)%nat -> reduce_max (map s (seq 0 n)) = M ->
  nth k (reduce_max_grad (map s (seq 0 n)) dy) 0 = (if Req_EM_T (s k) M then 1 else 0) / rsum n (fun l => if Req_EM_T (s l) M then 1 else 0) * dy.
Proof.
  intros Hk HM. unfold reduce_max_grad. rewrite HM, !map_map. rewrite (nth_map_lt _ _ _ 0%nat) by (now rewrite seq_length). rewrite seq_nth by auto. reflexivity.
Qed.
Lemma factor_shape tf A dy : same_shape (factor_backprop tf A dy) A.
Proof. unfold factor_backprop, svd_backprop. destruct (tf A) as [[s U] V]. split; reflexivity. Qed.

(** The gradient of one factor is a subgradient of the largest singular value, for every
    matrix. *)
Theorem C119_subgradient : forall tf A B, is_svd A (tf A) -> is_svd B (tf B) -> same_shape A B -> (0 < Nat.min (rows A) (cols A))%nat ->
  factor tf A + tdot (factor_backprop tf A 1) (minus B A) <= factor tf B.
Proof.
  intros tf A B SA SB SH Hr. destruct (tf A) as [[s U] V] eqn:E. unfold factor_backprop.
  rewrite (svd_values tf A s U V E SA), (backprop_dot tf A s U V _ _ E). 2:{ destruct SH. split; cbn; auto. }
  destruct (factor_top tf A s U V E SA Hr) as (k & Hk & F & top).
  assert (FM : reduce_max (map s (seq 0 (Nat.min (rows A) (cols A)))) = s k) by (rewrite <- F; unfold factor; now rewrite (svd_values tf A s U V E SA)).
  set (N := rsum (Nat.min (rows A) (cols A)) (fun l => if Req_EM_T (s l) (s k) then 1 else 0)).
  assert (HN : 1 <= N).
  { unfold N. apply Rle_trans with (rsum (Nat.min (rows A) (cols A)) (fun l => 1 * (if Nat.eqb k l then 1 else 0))); [rewrite (rsum_delta _ (fun _ => 1) k Hk); lra|]. apply rsum_le. intros l _. destruct (Nat.eqb_spec k l) as [<-|].
    - destruct Req_EM_T; [lra|congruence].
    - destruct Req_EM_T; lra. }
  rewrite (rsum_ext _ _ (fun l => 1 / N * ((if Req_EM_T (s l) (s k) then 1 else 0) * (bil B (column U l) (column V l) - s l)))).
  2:{ intros l Hl. rewrite (hits_nth s _ (s k)) by auto. fold N.
      replace (bil (minus B A) (column U l) (column V l)) with (bil B (column U l) (column V l) - s l); [field; lra|].
      rewrite <- (bil_top A U V s SA l Hl). replace (bil B (column U l) (column V l) - bil A (column U l) (column V l)) with (bil B (column U l) (column V l) + -1 * bil A (column U l) (column V l)) by ring.
      unfold bil. cbn [minus rows cols entry]. destruct SH as [-> ->]. rewrite <- rsum_scal, <- rsum_plus. apply rsum_ext. intros i _.
      rewrite <- rsum_scal, <- rsum_plus. apply rsum_ext. intros; ring. }
  rewrite rsum_scal, F.
  assert (K : rsum (Nat.min (rows A) (cols A)) (fun l => (if Req_EM_T (s l) (s k) then 1 else 0) * (bil B (column U l) (column V l) - s l)) <= (factor tf B - s k) * N).
  { unfold N. rewrite <- rsum_scal. apply rsum_le. intros l Hl. destruct Req_EM_T as [->|]; [|lra].
    enough (bil B (column U l) (column V l) <= factor tf B) by lra. destruct SH as [hr hc].
    apply factor_ge; auto; [now rewrite <- hr, <- hc|rewrite <- hr; exact (unit_u _ _ _ _ SA l Hl)|rewrite <- hc; exact (unit_v _ _ _ _ SA l Hl)]. }
  assert (1 / N * rsum (Nat.min (rows A) (cols A)) (fun l => (if Req_EM_T (s l) (s k) then 1 else 0) * (bil B (column U l) (column V l) - s l)) <= 1 / N * ((factor tf B - s k) * N)).
  { apply Rmult_le_compat_l; [|exact K]. apply Rlt_le, Rdiv_lt_0_compat; lra. }
  replace (1 / N * ((factor tf B - s k) * N)) with (factor tf B - s k) in H by (field; lra). lra.
Qed.
Print Assumptions C119_subgradient.

(** ** Where the largest singular value is simple *)
Lemma simple_derive tf A B dy : decomposes tf A -> same_shape A B -> simple_top A (tf A) ->
  is_derive (fun z => factor tf (moved z A B)) 0 (tdot (factor_backprop tf A 1) B) /\ tdot (factor_backprop tf A dy) B = dy * tdot (factor_backprop tf A 1) B.
Proof.
  intros DE SH ST. assert (SV : is_svd A (tf A)) by (apply DE; split; reflexivity). destruct (tf A) as [[s U] V] eqn:E. destruct ST as (k & Hk & Hs & Hg).
  destruct (factor_derive tf A B s U V k DE SH E Hk Hs Hg) as [F D].
  assert (FM : reduce_max (map s (seq 0 (Nat.min (rows A) (cols A)))) = s k) by (rewrite <- F; unfold factor; now rewrite (svd_values tf A s U V E SV)).
  assert (N1 : rsum (Nat.min (rows A) (cols A)) (fun l => if Req_EM_T (s l) (s k) then 1 else 0) = 1).
  { transitivity (rsum (Nat.min (rows A) (cols A)) (fun l => 1 * (if Nat.eqb k l then 1 else 0))); [|exact (rsum_delta _ (fun _ => 1) k Hk)]. apply rsum_ext. intros l Hl. destruct (Nat.eqb_spec k l) as [<-|ne].
    - destruct Req_EM_T; [lra|congruence].
    - specialize (Hg l Hl ltac:(auto)). destruct Req_EM_T; lra. }
  assert (Q : forall c, tdot (factor_backprop tf A c) B = c * bil B (column U k) (column V k)).
  { intros c. unfold factor_backprop. rewrite (svd_values tf A s U V E SV), (backprop_dot tf A s U V _ _ E SH).
    rewrite <- (rsum_delta _ (fun l => c * bil B (column U l) (column V l)) k Hk). apply rsum_ext. intros l Hl. rewrite (hits_nth s _ (s k)), N1 by auto.
    destruct (Nat.eqb_spec k l) as [<-|ne].
    - destruct Req_EM_T; [field|congruence].
    - specialize (Hg l Hl ltac:(auto)). destruct Req_EM_T; [lra|field]. }
  rewrite !Q. split; [eapply dconv; [exact D|ring]|ring].
Qed.
Lemma product_derive tf : forall Ws dWs (lip : R -> R) (d0 : R), List.Forall2 same_shape Ws dWs -> (forall W, In W Ws -> decomposes tf W /\ simple_top W (tf W)) -> is_derive lip 0 d0 ->
  is_derive (fun z => fold_left (fun l W => l * reduce_max (svd tf W)) (moved_all z Ws dWs) (lip z)) 0
    (fst (product_backprop tf (lip 0) Ws 1) * d0 + tdots (snd (product_backprop tf (lip 0) Ws 1)) dWs).
Proof.
  intros Ws dWs lip d0 F. revert lip d0. induction F as [|W dW Ws dWs S F IH]; intros lip d0 H D.
  - cbn. eapply dconv; [exact D|]. unfold tdots. cbn. ring.
  - destruct (H W (or_introl eq_refl)) as [DW SW]. destruct (simple_derive tf W dW 1 DW S SW) as [DF _].
    specialize (IH (fun z => lip z * factor tf (moved z W dW)) (d0 * factor tf W + lip 0 * tdot (factor_backprop tf W 1) dW) ltac:(intros; apply H; now right)).
    cbn beta in IH. rewrite moved_0 in IH.
    assert (X : is_derive (fun z => lip z * factor tf (moved z W dW)) 0 (d0 * factor tf W + lip 0 * tdot (factor_backprop tf W 1) dW)).
    { eapply dconv; [apply dmult; [exact D|exact DF]|]. cbn beta. now rewrite moved_0. }
    specialize (IH X). cbn [product_backprop]. destruct (product_backprop tf (lip 0 * factor tf W) Ws 1) as [d gs]. cbn [fst snd] in *.
    eapply dconv; [exact IH|]. rewrite tdots_cons, (proj2 (simple_derive tf W dW (d * lip 0) DW S SW)). ring.
Qed.
Lemma product_shapes tf : forall Ws lip dy, List.Forall2 same_shape (snd (product_backprop tf lip Ws dy)) Ws.
Proof.
  induction Ws as [|W Ws IH]; intros lip dy; [constructor|]. cbn [product_backprop]. specialize (IH (lip * factor tf W) dy).
  destruct (product_backprop tf (lip * factor tf W) Ws dy) as [d gs]. constructor; [apply factor_shape|exact IH].
Qed.
Lemma tdot_zeros b d : tdot (zeros b) d = 0.
Proof.
  unfold tdot, zeros. cbn [rows cols entry]. rewrite (rsum_ext _ _ (fun _ => 0)), rsum_zero; [reflexivity|]. intros. rewrite (rsum_ext _ _ (fun _ => 0)), rsum_zero; [reflexivity|]. intros; ring.
Qed.
Lemma spread_ok : forall n ps dps gs p d, (length ps <= n)%nat -> ps <> [] -> List.Forall2 same_shape ps dps -> List.Forall2 same_shape gs (in_pairs ps ++ [last ps p]) ->
  tdots (spread ps gs) dps = tdots gs (in_pairs dps ++ [last dps d]) /\ List.Forall2 same_shape (spread ps gs) ps /\
  List.Forall2 same_shape (in_pairs ps ++ [last ps p]) (in_pairs dps ++ [last dps d]) /\
  forall z q, in_pairs (moved_all z ps dps) ++ [last (moved_all z ps dps) q] = moved_all z (in_pairs ps ++ [last ps p]) (in_pairs dps ++ [last dps d]).
Proof.
  induction n as [|n IH]; intros ps dps gs p d Hn NE F G; [destruct ps; [congruence|cbn in Hn; lia]|].
  destruct F as [|p0 d0 ps dps S0 F]; [congruence|]. destruct F as [|p1 d1 ps dps S1 F].
  - cbn in G. inversion G as [|g ? gs' ? Sg G']; subst. inversion G'; subst. cbn. repeat split; try (constructor; [assumption|constructor]).
  - destruct F as [|p2 d2 ps dps S2 F].
    + cbn in G. inversion G as [|g ? gs' ? Sg G']; subst. inversion G' as [|g' ? gs'' ? Sg' G'']; subst. inversion G''; subst. cbn. repeat split; repeat (constructor; try assumption).
    + change (in_pairs (p0 :: p1 :: p2 :: ps) ++ [last (p0 :: p1 :: p2 :: ps) p]) with (p0 :: (in_pairs (p2 :: ps) ++ [last (p2 :: ps) p])) in *.
      change (in_pairs (d0 :: d1 :: d2 :: dps) ++ [last (d0 :: d1 :: d2 :: dps) d]) with (d0 :: (in_pairs (d2 :: dps) ++ [last (d2 :: dps) d])).
      inversion G as [|g ? gs' ? Sg G']; subst.
      destruct (IH (p2 :: ps) (d2 :: dps) gs' p d) as (H1 & H2 & H3 & H4); [cbn in *; lia|discriminate|constructor; auto|exact G'|].
      assert (SE : spread (p0 :: p1 :: p2 :: ps) (g :: gs') = g :: zeros p1 :: spread (p2 :: ps) gs') by (destruct gs' as [|? [|? ?]]; reflexivity).
      rewrite SE, !tdots_cons, tdot_zeros, H1. split; [ring|]. split; [constructor; [exact Sg|constructor; [split; reflexivity|exact H2]]|]. split; [constructor; auto|].
      intros z q. rewrite !moved_all_cons. rewrite <- (H4 z q). rewrite moved_all_cons. reflexivity.
Qed.

(** If the largest singular values of the weights are positive and simple, the gradients
    are the derivatives of the Lipschitz constant. *)
Theorem C119_gradients : forall tf ps Ws, parameter_iter ps = Ok Ws -> (forall W, In W Ws -> decomposes tf W /\ simple_top W (tf W)) ->
  exists gs, lipschitz_gradients tf ps = Ok gs /\ List.Forall2 same_shape gs ps /\
    forall dps, List.Forall2 same_shape ps dps ->
    exists l, (forall z, lipschitz tf (moved_all z ps dps) = Ok (l z)) /\ is_derive l 0 (tdots gs dps).
Proof.
  intros tf ps Ws EW H. unfold lipschitz_gradients. rewrite EW. cbn [bind]. eexists. split; [reflexivity|].
  destruct ps as [|p ps]; [discriminate|]. assert (EW' : in_pairs (p :: ps) ++ [last (p :: ps) p] = Ws) by (unfold parameter_iter in EW; congruence). clear EW. rename EW' into EW.
  assert (SG := product_shapes tf Ws 1 1).
  assert (K : forall dps, List.Forall2 same_shape (p :: ps) dps -> List.Forall2 same_shape (spread (p :: ps) (snd (product_backprop tf 1 Ws 1))) (p :: ps) /\
    exists l, (forall z, lipschitz tf (moved_all z (p :: ps) dps) = Ok (l z)) /\ is_derive l 0 (tdots (spread (p :: ps) (snd (product_backprop tf 1 Ws 1))) dps)).
  { intros dps F. rewrite <- EW in SG. destruct (spread_ok (length (p :: ps)) (p :: ps) dps _ p p (le_n _) ltac:(discriminate) F SG) as (H1 & H2 & H3 & H4).
    rewrite EW in H1, H2, H3. split; [exact H2|].
    exists (fun z => fold_left (fun l W => l * reduce_max (svd tf W)) (moved_all z Ws (in_pairs dps ++ [last dps p])) 1). split.
    - intros z. unfold lipschitz. inversion F as [|? d0 ? dps' S F']; subst. rewrite moved_all_cons. unfold parameter_iter. cbn [bind].
      rewrite <- moved_all_cons, (H4 z). reflexivity.
    - rewrite H1. eapply dconv; [apply (product_derive tf Ws _ (fun _ => 1) 0); [exact H3|exact H|apply dconst]|]. cbn beta. ring. }
  split; [|intros dps F; apply (K dps F)].
  apply (K (p :: ps)). clear. induction (p :: ps); constructor; auto. split; reflexivity.
Qed.
Print Assumptions C119_gradients.

(** ** Two equal singular values *)
Definition diagonal (a b : R) : tensor := {| rows := 2; cols := 2; entry := fun i j => if Nat.eqb i j then (if Nat.eqb i 0 then a else b) else 0 |}.
Lemma bil_diagonal A a b x y : rows A = 2%nat -> cols A = 2%nat -> (forall i j, (i < 2)%nat -> (j < 2)%nat -> entry A i j = entry (diagonal a b) i j) -> bil A x y = a * (x 0%nat * y 0%nat) + b * (x 1%nat * y 1%nat).
Proof. intros r c H. unfold bil. rewrite r, c. unfold rsum. cbn [seq map fold_right]. rewrite !H by lia. cbn. ring. Qed.
Lemma diagonal_factor tf A a b : rows A = 2%nat -> cols A = 2%nat -> (forall i j, (i < 2)%nat -> (j < 2)%nat -> entry A i j = entry (diagonal a b) i j) -> is_svd A (tf A) ->
  factor tf A = Rmax (Rabs a) (Rabs b).
Proof.
  intros r c H SV. assert (Hr : (0 < Nat.min (rows A) (cols A))%nat) by (rewrite r, c; cbn; lia).
  assert (E0 : forall e, Rabs e <= 1 -> e * e = 1 -> a * e <= factor tf A /\ b * e <= factor tf A).
  { intros e He E1. split.
    - replace (a * e) with (bil A (fun i => match i with O => 1 | _ => 0 end) (fun i => match i with O => e | _ => 0 end)) by (rewrite (bil_diagonal A a b) by auto; ring).
      apply factor_ge; auto; unfold dot; rewrite ?r, ?c; unfold rsum; cbn; lra.
    - replace (b * e) with (bil A (fun i => match i with O => 0 | _ => 1 end) (fun i => match i with O => 0 | _ => e end)) by (rewrite (bil_diagonal A a b) by auto; ring).
      apply factor_ge; auto; unfold dot; rewrite ?r, ?c; unfold rsum; cbn; lra. }
  destruct (E0 1 ltac:(rewrite Rabs_R1; lra) ltac:(ring)) as [P1 P2]. destruct (E0 (-1) ltac:(rewrite Rabs_left; lra) ltac:(ring)) as [N1 N2].
  apply Rle_antisym.
  - destruct (tf A) as [[s U] V] eqn:E. destruct (factor_top tf A s U V E SV Hr) as (k & Hk & -> & _). rewrite <- (bil_top A U V s SV k Hk), (bil_diagonal A a b) by auto.
    pose proof (unit_u _ _ _ _ SV k Hk) as X. pose proof (unit_v _ _ _ _ SV k Hk) as Y. unfold dot in X, Y. rewrite r in X. rewrite c in Y. unfold rsum in X, Y. cbn [seq map fold_right] in X, Y.
    revert X Y. generalize (column U k 0%nat), (column U k 1%nat), (column V k 0%nat), (column V k 1%nat). intros x0 x1 y0 y1 X Y.
    assert (T1 : forall q x y, q * (x * y) <= Rabs q * ((x * x + y * y) / 2)).
    { intros q x y. apply Rle_trans with (Rabs q * Rabs (x * y)); [rewrite <- Rabs_mult; apply Rle_abs|]. apply Rmult_le_compat_l; [apply Rabs_pos|].
      apply Rabs_le. assert (0 <= (x - y) * (x - y)) by apply Rle_0_sqr. assert (0 <= (x + y) * (x + y)) by apply Rle_0_sqr. lra. }
    pose proof (T1 a x0 y0). pose proof (T1 b x1 y1). pose proof (Rmax_l (Rabs a) (Rabs b)). pose proof (Rmax_r (Rabs a) (Rabs b)).
    assert (0 <= x0 * x0) by apply Rle_0_sqr. assert (0 <= x1 * x1) by apply Rle_0_sqr. assert (0 <= y0 * y0) by apply Rle_0_sqr. assert (0 <= y1 * y1) by apply Rle_0_sqr.
    assert (Rabs a * ((x0 * x0 + y0 * y0) / 2) <= Rmax (Rabs a) (Rabs b) * ((x0 * x0 + y0 * y0) / 2)) by (apply Rmult_le_compat_r; lra).
    assert (Rabs b * ((x1 * x1 + y1 * y1) / 2) <= Rmax (Rabs a) (Rabs b) * ((x1 * x1 + y1 * y1) / 2)) by (apply Rmult_le_compat_r; lra).
    assert (Rmax (Rabs a) (Rabs b) * ((x0 * x0 + y0 * y0) / 2) + Rmax (Rabs a) (Rabs b) * ((x1 * x1 + y1 * y1) / 2) = Rmax (Rabs a) (Rabs b)); [|lra].
    rewrite <- Rmult_plus_distr_l. replace ((x0 * x0 + y0 * y0) / 2 + (x1 * x1 + y1 * y1) / 2) with 1 by lra. ring.
  - apply Rmax_lub; apply Rabs_le; lra.
Qed.
(** Weights with two equal largest singular values: the Lipschitz constant is not
    differentiable, so what is returned is no derivative. *)
Theorem C119_ties_refuted : forall tf, (forall z, is_svd (moved z (diagonal 1 1) (diagonal 1 (-1))) (tf (moved z (diagonal 1 1) (diagonal 1 (-1))))) ->
  (forall z, -1 <= z <= 1 -> lipschitz tf (moved_all z [diagonal 1 1] [diagonal 1 (-1)]) = Ok (1 + Rabs z)) /\
  exists G, lipschitz_gradients tf [diagonal 1 1] = Ok [G] /\
    ~ exists l, (forall z, lipschitz tf (moved_all z [diagonal 1 1] [diagonal 1 (-1)]) = Ok (l z)) /\ is_derive l 0 (tdots [G] [diagonal 1 (-1)]).
Proof.
  intros tf H.
  assert (L : forall z, -1 <= z <= 1 -> lipschitz tf (moved_all z [diagonal 1 1] [diagonal 1 (-1)]) = Ok (1 + Rabs z)).
  { intros z Hz. unfold lipschitz. cbn [moved_all combine map fst snd parameter_iter in_pairs last app bind fold_left]. f_equal.
    change (1 * factor tf (moved z (diagonal 1 1) (diagonal 1 (-1))) = 1 + Rabs z).
    rewrite (diagonal_factor tf (moved z (diagonal 1 1) (diagonal 1 (-1))) (1 + z) (1 - z) eq_refl eq_refl).
    - rewrite (Rabs_right (1 + z)), (Rabs_right (1 - z)) by lra. unfold Rabs, Rmax. destruct Rcase_abs; destruct Rle_dec; lra.
    - intros [|[|i]] [|[|j]] Hi Hj; try lia; cbn; ring.
    - apply H. }
  split; [exact L|]. eexists. split; [reflexivity|]. intros (l & El & Dl).
  assert (Q : forall z, -1 <= z <= 1 -> l z = 1 + Rabs z). { intros z Hz. specialize (El z). rewrite (L z Hz) in El. now injection El. }
  revert Dl. set (d := tdots _ _). clearbody d. intros Dl. apply is_derive_Reals in Dl. destruct (Dl (1 / 2) ltac:(lra)) as (delta & Hd).
  pose proof (cond_pos delta) as Hp. set (h := Rmin (delta / 2) (1 / 2)).
  assert (Hh : 0 < h <= 1 / 2) by (unfold h; split; [apply Rmin_glb_lt; lra|apply Rmin_r]). assert (Hh' : h < delta) by (unfold h; pose proof (Rmin_l (delta / 2) (1 / 2)); lra).
  pose proof (Hd h ltac:(lra) ltac:(rewrite Rabs_right; lra)) as D1. pose proof (Hd (- h) ltac:(lra) ltac:(rewrite Rabs_left; lra)) as D2.
  rewrite !Rplus_0_l, !Q, Rabs_R0 in D1, D2 by lra. rewrite (Rabs_right h) in D1 by lra. rewrite (Rabs_left (- h)) in D2 by lra.
  replace ((1 + h - (1 + 0)) / h - d) with (1 - d) in D1 by (field; lra). replace ((1 + - - h - (1 + 0)) / - h - d) with (- 1 - d) in D2 by (field; lra).
  apply Rabs_def2 in D1, D2. lra.
Qed.
Print Assumptions C119_ties_refuted.
