(** Proofs about the derivatives of neural networks. *)
From Coq Require Import Reals List Bool Arith Lia Lra FunctionalExtensionality.
From Coquelicot Require Import Coquelicot.
From Verif Require Import Prelude FunModel QuadModel QuadProofs NNModel NNProofs AutoNetSpec AutoNetProofs2 AutoNNModel AutoNNSpec.
Import ListNotations.
Local Open Scope R_scope.

(** ** One row at a time *)
Definition bias_at (B : option tensor) (j : nat) : R := match B with Some b => entry b 0%nat j | None => 0 end.
Definition pre (W : tensor) (B : option tensor) (x : nat -> R) (j : nat) : R :=
  rsum (rows W) (fun k => x k * entry W k j) + bias_at B j.
Fixpoint fwd (ls : list layer) (ps : list tensor) (x : nat -> R) : nat -> R :=
  match ls with
  | [] => x
  | (_, a, b) :: ls' =>
      match dense_vars b ps with
      | Ok (W, B, ps') => fwd ls' ps' (fun j => activate (fst a) (pre W B x j))
      | Err _ => x
      end
  end.
Fixpoint width (d : nat) (ls : list layer) : nat :=
  match ls with [] => d | (u, _, _) :: ls' => width u ls' end.

Lemma dense_pre net units W B inputs : dense net units W B None = Ok inputs ->
  rows inputs = rows net /\ cols inputs = units /\ cols W = units /\ rows W = cols net /\
  (match B with Some b => rows b = 1%nat /\ cols b = units | None => True end) /\
  forall i j, (i < rows net)%nat -> (j < units)%nat -> entry inputs i j = pre W B (entry net i) j.
Proof.
  intros E. pose proof (dense_inv _ _ _ _ _ _ E) as (r & c & u & rw & en). split; [exact r|]. split; [congruence|]. split; [exact u|].
  split; [exact rw|]. split.
  - unfold dense in E. destruct (Nat.eqb (cols W) units); [|discriminate]. destruct (matmul net W); [cbn [bind] in E|discriminate].
    destruct B as [b|]; [|exact I]. destruct (Nat.eqb_spec (rows b) 1), (Nat.eqb_spec (cols b) units); try discriminate. auto.
  - intros i j Hi Hj. destruct (en i j Hi ltac:(lia)) as (cc & Ee & ->). rewrite Ee. cbn [activate]. unfold pre. now rewrite rw.
Qed.
Lemma dense_activate net units W B a inputs : dense net units W B None = Ok inputs ->
  dense net units W B a = Ok {| rows := rows inputs; cols := cols inputs; entry := fun i j => activate a (entry inputs i j) |}.
Proof.
  unfold dense. destruct (Nat.eqb (cols W) units); [|discriminate]. destruct (matmul net W); [cbn [bind]|discriminate].
  destruct (match B with Some b => _ | None => _ end) as [o|]; [|discriminate]. cbn [bind]. intros E. injection E as <-. reflexivity.
Qed.
Lemma dense_none net units W B a t : dense net units W B a = Ok t -> exists inputs, dense net units W B None = Ok inputs.
Proof.
  unfold dense. destruct (Nat.eqb (cols W) units); [|discriminate]. destruct (matmul net W); [cbn [bind]|discriminate].
  destruct (match B with Some b => _ | None => _ end) as [o|]; [|discriminate]. cbn [bind]. eauto.
Qed.
Lemma pre_ext W B x y j : (forall k, (k < rows W)%nat -> x k = y k) -> pre W B x j = pre W B y j.
Proof. intros H. unfold pre. f_equal. apply rsum_ext. intros k Hk. now rewrite H. Qed.

(** ** One layer backwards *)
Lemma backprop_cons scale units a b ls ps net dys g gps :
  dense_backprop scale ((units, a, b) :: ls) ps net dys = Ok (g, gps) ->
  exists W B ps' inputs g' gps' gW gB,
    let act' := {| rows := rows net; cols := units; entry := fun i j => activate (fst a) (entry inputs i j) |} in
    let d := fun i j => entry g' i j * act_grad a (pre W B (entry net i) j) in
    dense_vars b ps = Ok (W, B, ps') /\ dense net units W B None = Ok inputs /\ rows inputs = rows net /\ cols inputs = units /\
    dense_backprop scale ls ps' act' dys = Ok (g', gps') /\
    rows g = rows net /\ cols g = cols net /\
    (forall i k, (i < rows net)%nat -> (k < cols net)%nat -> entry g i k = rsum units (fun j => d i j * entry W k j)) /\
    gps = gW :: match B with Some _ => [gB] | None => [] end ++ gps' /\
    rows gW = cols net /\ cols gW = units /\
    (forall k j, (k < cols net)%nat -> (j < units)%nat -> entry gW k j = rsum (rows net) (fun i => entry net i k * d i j)) /\
    rows gB = 1%nat /\ cols gB = units /\
    (forall j, (j < units)%nat -> entry gB 0%nat j = rsum (rows net) (fun i => d i j)).
Proof.
  cbn [dense_backprop]. destruct (dense_vars b ps) as [[[W B] ps']|] eqn:EV; [cbn [bind]|discriminate].
  destruct (dense net units W B None) as [inputs|] eqn:ED; [cbn [bind]|discriminate].
  destruct (dense_pre _ _ _ _ _ ED) as (r & c & cW & rW & _ & en). rewrite r, c.
  destruct (dense_backprop scale ls ps' _ dys) as [[g' gps']|] eqn:ER; [cbn [bind fst snd]|discriminate].
  unfold matmul. cbn [transpose rows cols entry]. rewrite cW, !Nat.eqb_refl. cbn [bind]. intros E. injection E as <- <-.
  exists W, B, ps', inputs, g', gps'. eexists. eexists. cbv zeta.
  split; [reflexivity|]. split; [exact ED|]. split; [exact r|]. split; [exact c|]. split; [exact ER|]. cbn [rows cols entry].
  split; [reflexivity|]. split; [exact rW|]. split.
  { intros i k Hi Hk. apply rsum_ext. intros j Hj. rewrite en by auto. reflexivity. }
  split; [reflexivity|]. cbn [rows cols entry]. split; [reflexivity|]. split; [reflexivity|]. split.
  { intros k j Hk Hj. apply rsum_ext. intros i Hi. now rewrite en. }
  split; [reflexivity|]. split; [reflexivity|]. intros j Hj. apply rsum_ext. intros i Hi. now rewrite en.
Qed.

Lemma dense_alg n d u (a W dW x dx : nat -> nat -> R) (dB : nat -> R) :
  rsum n (fun i => rsum u (fun j => a i j * (rsum d (fun k => dx i k * W k j + x i k * dW k j) + dB j))) =
  rsum n (fun i => rsum d (fun k => rsum u (fun j => a i j * W k j) * dx i k)) +
  (rsum d (fun k => rsum u (fun j => rsum n (fun i => x i k * a i j) * dW k j)) +
   rsum u (fun j => rsum n (fun i => a i j) * dB j)).
Proof.
  transitivity (rsum n (fun i => rsum u (fun j => rsum d (fun k => a i j * (dx i k * W k j)))) +
     (rsum n (fun i => rsum u (fun j => rsum d (fun k => a i j * (x i k * dW k j)))) + rsum n (fun i => rsum u (fun j => a i j * dB j)))).
  { rewrite <- !rsum_plus. apply rsum_ext. intros i _. rewrite <- !rsum_plus. apply rsum_ext. intros j _.
    rewrite !rsum_scal, rsum_plus. ring. }
  f_equal; [|f_equal].
  - apply rsum_ext. intros i _. rewrite (rsum_swap u d). apply rsum_ext. intros k _.
    rewrite Rmult_comm, <- rsum_scal. apply rsum_ext. intros; ring.
  - transitivity (rsum n (fun i => rsum d (fun k => rsum u (fun j => a i j * (x i k * dW k j))))).
    { apply rsum_ext. intros i _. apply rsum_swap. }
    rewrite (rsum_swap n d). apply rsum_ext. intros k _. rewrite (rsum_swap n u). apply rsum_ext. intros j _.
    rewrite Rmult_comm, <- rsum_scal. apply rsum_ext. intros; ring.
  - rewrite (rsum_swap n u). apply rsum_ext. intros j _. rewrite Rmult_comm, <- rsum_scal. apply rsum_ext. intros; ring.
Qed.

(** ** The network *)
Definition moved_bias t (B dB : option tensor) : option tensor :=
  match B, dB with Some B, Some dB => Some (moved t B dB) | _, _ => None end.
Definition both (B dB : option tensor) : Prop := match B, dB with Some _, Some _ => True | None, None => True | _, _ => False end.
Lemma vars_moved b ps dps W B ps' : List.Forall2 same_shape ps dps -> dense_vars b ps = Ok (W, B, ps') ->
  exists dW dB dps', same_shape W dW /\ match B, dB with Some B, Some dB => same_shape B dB | None, None => True | _, _ => False end /\
    List.Forall2 same_shape ps' dps' /\
    dps = dW :: match dB with Some dB => [dB] | None => [] end ++ dps' /\
    ps = W :: match B with Some B => [B] | None => [] end ++ ps' /\
    forall t, dense_vars b (moved_all t ps dps) = Ok (moved t W dW, moved_bias t B dB, moved_all t ps' dps').
Proof.
  intros S E. destruct b; cbn [dense_vars] in E.
  - destruct ps as [|W0 [|B0 ps0]]; try discriminate. injection E as <- <- <-.
    inversion S as [|? dW ? dps1 S1 S2]; subst. inversion S2 as [|? dB ? dps2 S3 S4]; subst.
    exists dW, (Some dB), dps2. repeat (split; [solve [auto]|]). intros t. reflexivity.
  - destruct ps as [|W0 ps0]; try discriminate. injection E as <- <- <-. inversion S as [|? dW ? dps1 S1 S2]; subst.
    exists dW, None, dps1. repeat (split; [solve [auto]|]). intros t. reflexivity.
Qed.
Lemma dpre W dW B dB (x : nat -> R -> R) dx j : both B dB ->
  (forall k, (k < rows W)%nat -> is_derive (x k) 0 (dx k)) ->
  is_derive (fun t => pre (moved t W dW) (moved_bias t B dB) (fun k => x k t) j) 0
    (rsum (rows W) (fun k => dx k * entry W k j + x k 0 * entry dW k j) + bias_at dB j).
Proof.
  intros N X. unfold pre. cbn [moved rows].
  apply (dplus (fun t => rsum (rows W) (fun k => x k t * entry (moved t W dW) k j)) (fun t => bias_at (moved_bias t B dB) j)).
  - apply (dsum (rows W) (fun k t => x k t * entry (moved t W dW) k j)). intros k Hk.
    eapply dconv; [apply (dmult (x k) (fun t => entry W k j + t * entry dW k j)); [now apply X|apply dline]|]. cbn beta. ring.
  - destruct B as [B|], dB as [dB|]; try contradiction; cbn [moved_bias bias_at moved entry]; [apply dline|apply dconst].
Qed.

Lemma nn_derive scale : forall ls ps dps net dys g gps (x : nat -> nat -> R -> R) (dx : nat -> nat -> R),
  List.Forall2 same_shape ps dps -> smooth_at ls ps net ->
  dense_backprop scale ls ps net dys = Ok (g, gps) ->
  (forall i k, (i < rows net)%nat -> (k < cols net)%nat -> x i k 0 = entry net i k /\ is_derive (x i k) 0 (dx i k)) ->
  rows g = rows net /\ cols g = cols net /\ List.Forall2 same_shape gps ps /\
  is_derive (fun t => rsum (rows net) (fun i => rsum (width (cols net) ls) (fun j =>
      entry dys i j * (fwd ls (moved_all t ps dps) (fun k => x i k t) j * scale)))) 0
    (rsum (rows net) (fun i => rsum (cols net) (fun k => entry g i k * dx i k)) + tdots gps dps).
Proof.
  induction ls as [|[[units a] b] ls IH]; intros ps dps net dys g gps x dx S SM E X.
  - cbn [dense_backprop] in E. destruct ps; [|discriminate]. injection E as <- <-. cbn [rows cols entry].
    split; [reflexivity|]. split; [reflexivity|]. split; [constructor|]. cbn [fwd width].
    unfold tdots. cbn [combine map fold_right].
    eapply dconv; [apply (dsum (rows net) (fun i t => rsum (cols net) (fun j => entry dys i j * (x i j t * scale)))
                          (fun i => rsum (cols net) (fun k => entry dys i k * (scale * dx i k))))|].
    + intros i Hi. apply (dsum (cols net) (fun j t => entry dys i j * (x i j t * scale))). intros j Hj. apply dscal.
      apply (is_derive_ext (fun t => scale * x i j t)); [intros; apply Rmult_comm|]. apply dscal. now apply X.
    + rewrite Rplus_0_r. apply rsum_ext. intros i Hi. apply rsum_ext. intros j Hj. ring.
  - destruct (backprop_cons _ _ _ _ _ _ _ _ _ _ E) as (W & B & ps' & inputs & g' & gps' & gW & gB & H). cbv zeta in H.
    destruct H as (EV & ED & ri & ci & ER & rg & cg & eg & -> & rgW & cgW & egW & rgB & cgB & egB).
    destruct (dense_pre _ _ _ _ _ ED) as (_ & _ & cW & rW & SB & en).
    cbn [smooth_at] in SM. destruct (SM W B ps' EV) as [SA SN]. specialize (SA _ ED).
    specialize (SN _ (dense_activate _ _ _ _ (fst a) _ ED)). rewrite ri, ci in SA, SN.
    destruct (vars_moved _ _ _ _ _ _ S EV) as (dW & dB & dps' & SW & SdB & S' & -> & -> & MV).
    assert (N : both B dB) by (destruct B, dB; cbn in *; auto).
    set (net' := {| rows := rows net; cols := units; entry := fun i j => activate (fst a) (entry inputs i j) |}) in *.
    set (x' := fun i j t => activate (fst a) (pre (moved t W dW) (moved_bias t B dB) (fun k => x i k t) j)).
    set (dx' := fun i j => act_grad a (pre W B (entry net i) j) *
                           (rsum (rows W) (fun k => dx i k * entry W k j + entry net i k * entry dW k j) + bias_at dB j)).
    assert (Z : forall i j, (i < rows net)%nat ->
        pre (moved 0 W dW) (moved_bias 0 B dB) (fun k => x i k 0) j = pre W B (entry net i) j).
    { intros i j Hi. rewrite moved_0. replace (moved_bias 0 B dB) with B.
      - apply pre_ext. intros k Hk. apply X; lia.
      - destruct B as [B|], dB as [dB|]; cbn; rewrite ?moved_0; auto; contradiction. }
    destruct (IH ps' dps' net' dys g' gps' x' dx' S' SN ER) as (rg' & cg' & SG & D).
    { cbn [net' rows cols]. intros i j Hi Hj. split.
      - unfold x'. rewrite Z by auto. unfold net'. cbn [entry]. now rewrite en.
      - assert (P : is_derive (fun t => pre (moved t W dW) (moved_bias t B dB) (fun k => x i k t) j) 0
                 (rsum (rows W) (fun k => dx i k * entry W k j + entry net i k * entry dW k j) + bias_at dB j)).
        { eapply dconv; [apply dpre; [exact N|intros k Hk; apply X; lia]|]. f_equal. apply rsum_ext. intros k Hk.
          rewrite (proj1 (X i k Hi ltac:(lia))). reflexivity. }
        unfold x', dx'. specialize (SA i j Hi Hj). rewrite en in SA by auto. rewrite <- (Z i j Hi) in SA |- *.
        destruct a as [[f|] df]; cbn [activate act_grad fst snd smooth_act] in *.
        + exact (dcomp _ f 0 _ _ P SA).
        + eapply dconv; [exact P|]. ring. }
    split; [exact rg|]. split; [exact cg|]. split.
    { constructor; [split; congruence|]. destruct B as [B|]; [|exact SG]. constructor; [destruct SB; split; congruence|exact SG]. }
    cbn [width]. cbn [net' rows cols] in D.
    eapply is_derive_ext; [|eapply dconv; [exact D|]].
    { intros t. cbn beta. apply rsum_ext. intros i _. apply rsum_ext. intros j _. f_equal. f_equal.
      cbn [fwd]. rewrite MV. reflexivity. }
    clear D IH.
    set (d := fun i j => entry g' i j * act_grad a (pre W B (entry net i) j)) in *.
    assert (TD : tdots (gW :: match B with Some _ => [gB] | None => [] end ++ gps')
                       (dW :: match dB with Some dB => [dB] | None => [] end ++ dps') =
       rsum (cols net) (fun k => rsum units (fun j => rsum (rows net) (fun i => entry net i k * d i j) * entry dW k j)) +
       rsum units (fun j => rsum (rows net) (fun i => d i j) * bias_at dB j) + tdots gps' dps').
    { rewrite tdots_cons. unfold tdot at 1. rewrite rgW, cgW. rewrite Rplus_assoc. f_equal.
      - apply rsum_ext. intros k Hk. apply rsum_ext. intros j Hj. now rewrite egW.
      - destruct B as [B|], dB as [dB|]; try contradiction; cbn [app bias_at].
        + rewrite tdots_cons. f_equal. unfold tdot. rewrite rgB, cgB, rsum_S, rsum_0, Rplus_0_l. apply rsum_ext. intros j Hj. now rewrite egB.
        + rewrite (rsum_ext units _ (fun _ => 0)); [rewrite rsum_zero; ring|intros; ring]. }
    rewrite TD.
    transitivity (rsum (rows net) (fun i => rsum units (fun j => d i j *
       (rsum (cols net) (fun k => dx i k * entry W k j + entry net i k * entry dW k j) + bias_at dB j))) + tdots gps' dps').
    { f_equal. apply rsum_ext. intros i _. apply rsum_ext. intros j _. unfold dx', d. rewrite rW. ring. }
    rewrite (dense_alg (rows net) (cols net) units d (entry W) (entry dW) (entry net) dx (bias_at dB)).
    rewrite (rsum_ext (rows net) (fun i => rsum (cols net) (fun k => entry g i k * dx i k))
               (fun i => rsum (cols net) (fun k => rsum units (fun j => d i j * entry W k j) * dx i k))).
    2:{ intros i Hi. apply rsum_ext. intros k Hk. now rewrite eg. }
    ring.
Qed.
