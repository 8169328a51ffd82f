(** Property C112: derivatives of neural networks. *)
From Coq Require Import Reals List Bool Arith Lia Lra FunctionalExtensionality.
From Coquelicot Require Import Coquelicot.
From Verif Require Import Prelude FunModel QuadModel QuadProofs NNModel NNProofs AutoNetSpec AutoNetProofs2 AutoNNModel AutoNNSpec AutoNNProofs.
Import ListNotations.
Local Open Scope R_scope.

(** ** Evaluation and shapes *)
Definition plain (zs : list (nat * act)) : list (nat * activation) := map (fun ua => (fst ua, fst (snd ua))) zs.
Lemma hidden_fwd bias : forall zs ps net h, hidden bias (plain zs) ps net = Ok h ->
  rows (fst h) = rows net /\ forall ls2, width (cols net) (map (fun ua => (ua, bias)) zs ++ ls2) = width (cols (fst h)) ls2 /\
  forall i x, (i < rows net)%nat -> (forall k, (k < cols net)%nat -> entry net i k = x k) ->
    exists y, (forall k, (k < cols (fst h))%nat -> entry (fst h) i k = y k) /\
      fwd (map (fun ua => (ua, bias)) zs ++ ls2) ps x = fwd ls2 (snd h) y.
Proof.
  induction zs as [|[u [a da]] zs IH]; intros ps net h E.
  - cbn in E. injection E as <-. split; [reflexivity|]. intros ls2. split; [reflexivity|]. intros i x _ H. exists x. auto.
  - cbn [plain map fst snd] in E. fold (plain zs) in E. cbn [hidden] in E.
    assert (Q : exists W B ps' net', dense_vars bias ps = Ok (W, B, ps') /\ dense net u W B a = Ok net' /\ hidden bias (plain zs) ps' net' = Ok h).
    { destruct bias; [destruct ps as [|W [|B ps']]|destruct ps as [|W ps']]; try discriminate;
        (destruct (dense net u W _ a) as [net'|] eqn:ED; [cbn [bind] in E|discriminate]); do 4 eexists; split; eauto; reflexivity. }
    clear E. destruct Q as (W & B & ps' & net' & EV & ED & E).
    destruct (dense_none _ _ _ _ _ _ ED) as [inputs EN]. pose proof (dense_activate _ _ _ _ a _ EN) as EA. rewrite ED in EA. injection EA as ->.
    destruct (dense_pre _ _ _ _ _ EN) as (r & c & cW & rW & _ & en).
    destruct (IH _ _ _ E) as (ro & rest). cbn [rows cols entry] in ro, rest. split; [congruence|]. intros ls2.
    destruct (rest ls2) as [wi fw]. split; [cbn [map app width]; now rewrite <- wi, c|].
    intros i x Hi Hx. destruct (fw i (fun j => activate a (pre W B x j)) ltac:(lia)) as (y & Hy & F).
    + intros k Hk. rewrite en by lia. f_equal. apply pre_ext. intros l Hl. apply Hx. lia.
    + exists y. split; [exact Hy|]. cbn [map app fwd fst]. rewrite EV. exact F.
Qed.

Lemma zip_plain : forall (us : list nat) (zs : list act), plain (zip us zs) = zip us (map fst zs).
Proof. induction us as [|u us IH]; intros [|z zs]; try reflexivity. cbn. f_equal. apply IH. Qed.
Lemma but_last_map {A B} (f : A -> B) l : map f (but_last l) = but_last (map f l).
Proof. unfold but_last. induction l as [|a l IH]; [reflexivity|]. destruct l; [reflexivity|]. cbn [removelast map]. f_equal. exact IH. Qed.
Lemma last_map {A B} (f : A -> B) l d : f (last l d) = last (map f l) (f d).
Proof. induction l as [|a l IH]; [reflexivity|]. destruct l; [reflexivity|]. exact IH. Qed.
Lemma combine_fst {A B} (l : list A) (m : list B) : length l = length m -> map fst (combine l m) = l.
Proof. revert m. induction l as [|a l IH]; intros [|b m] L; try discriminate; [reflexivity|]. cbn. f_equal. apply IH. now injection L. Qed.

Lemma eval_fwd nn dacts ps X V : length dacts = length (nonlinearities nn) -> nn_eval nn ps X = Ok V ->
  rows V = rows X /\ cols V = width (cols X) (nn_layers nn dacts) /\
  forall i j, (i < rows V)%nat -> (j < cols V)%nat ->
    entry V i j = fwd (nn_layers nn dacts) ps (entry X i) j * output_scale nn.
Proof.
  intros L E. destruct (nn_inv _ _ _ _ E) as (h & W & net & EH & SH & NE & ED & rV & cV & eV).
  set (zs := zip (but_last (layers nn)) (but_last (combine (nonlinearities nn) dacts : list act))).
  assert (PZ : plain zs = zip (but_last (layers nn)) (but_last (nonlinearities nn))).
  { unfold zs. rewrite zip_plain, but_last_map, combine_fst by auto. reflexivity. }
  rewrite <- PZ in EH. destruct (hidden_fwd _ _ _ _ _ EH) as (rh & rest).
  set (ls2 := [(last (layers nn) 0%nat, last (combine (nonlinearities nn) dacts : list act) (None, fun _ => 1), false)]).
  assert (EL : nn_layers nn dacts = map (fun ua => (ua, use_bias nn)) zs ++ ls2) by reflexivity. rewrite EL.
  destruct (rest ls2) as [wi fw]. destruct (dense_none _ _ _ _ _ _ ED) as [inputs EN].
  pose proof (dense_activate _ _ _ _ (last (nonlinearities nn) None) _ EN) as EA. rewrite ED in EA. injection EA as ->.
  destruct (dense_pre _ _ _ _ _ EN) as (r & c & cW & rW & _ & en). cbn [rows cols entry] in *.
  split; [congruence|]. rewrite wi. cbn [ls2 width]. split; [congruence|].
  intros i j Hi Hj. rewrite eV, en by lia. f_equal.
  destruct (fw i (entry X i) ltac:(lia) ltac:(auto)) as (y & Hy & F). rewrite F. unfold ls2. cbn [fwd dense_vars]. rewrite SH.
  assert (LA : fst (last (combine (nonlinearities nn) dacts : list act) (None, fun _ => 1)) = last (nonlinearities nn) None).
  { rewrite (last_map (fst : act -> activation)). cbn [fst]. f_equal. now apply combine_fst. }
  rewrite LA. f_equal. apply pre_ext. intros k Hk. apply Hy. lia.
Qed.

Lemma dense_shapes net net' units W W' B B' a t : same_shape net net' -> same_shape W W' ->
  match B, B' with Some b, Some b' => same_shape b b' | None, None => True | _, _ => False end ->
  dense net units W B a = Ok t -> exists t', dense net' units W' B' a = Ok t' /\ same_shape t t'.
Proof.
  intros [rn cn] [rw cw] SB E. unfold dense in *. rewrite <- cw. destruct (Nat.eqb (cols W) units); [|discriminate].
  unfold matmul in *. rewrite <- cn, <- rw. destruct (Nat.eqb (cols net) (rows W)); [|discriminate]. cbn [bind] in *.
  destruct B as [b|], B' as [b'|]; try contradiction.
  - destruct SB as [rb cb]. rewrite <- rb, <- cb. destruct (_ && _)%bool; [|discriminate].
    unfold op2 in *. cbn [rows cols] in *. rewrite <- rn, <- cw, <- rb, <- cb.
    destruct (bdim (rows net) (rows b)) as [r0|]; [cbn [bind] in *|discriminate].
    destruct (bdim (cols W) (cols b)) as [c0|]; [cbn [bind] in *|discriminate]. injection E as <-.
    eexists. split; [reflexivity|]. split; reflexivity.
  - cbn [bind as_tensor] in *. injection E as <-. eexists. split; [reflexivity|]. split; cbn [rows cols]; auto.
Qed.
Lemma hidden_shapes bias : forall ls ps ps' net net' h, List.Forall2 same_shape ps ps' -> same_shape net net' ->
  hidden bias ls ps net = Ok h ->
  exists h', hidden bias ls ps' net' = Ok h' /\ same_shape (fst h) (fst h') /\ List.Forall2 same_shape (snd h) (snd h').
Proof.
  induction ls as [|[u a] ls IH]; intros ps ps' net net' h F S E.
  - cbn in E. injection E as <-. exists (net', ps'). auto.
  - cbn [hidden] in *. destruct bias.
    + destruct ps as [|W [|B ps1]]; try discriminate. inversion F as [|? W' ? ps2 S1 F1]; subst. inversion F1 as [|? B' ? ps3 S2 F2]; subst.
      destruct (dense net u W (Some B) a) as [n1|] eqn:ED; [|discriminate]. cbn [bind] in E.
      destruct (dense_shapes net net' u W W' (Some B) (Some B') a n1 S S1 S2 ED) as (n2 & -> & S3). cbn [bind]. eapply IH; eauto.
    + destruct ps as [|W ps1]; try discriminate. inversion F as [|? W' ? ps2 S1 F1]; subst.
      destruct (dense net u W None a) as [n1|] eqn:ED; [|discriminate]. cbn [bind] in E.
      destruct (dense_shapes net net' u W W' None None a n1 S S1 I ED) as (n2 & -> & S3). cbn [bind]. eapply IH; eauto.
Qed.
Lemma eval_shapes nn ps ps' X X' V : List.Forall2 same_shape ps ps' -> same_shape X X' -> nn_eval nn ps X = Ok V ->
  exists V', nn_eval nn ps' X' = Ok V' /\ same_shape V V'.
Proof.
  intros F S E. unfold nn_eval in *.
  destruct (hidden _ _ ps X) as [h|] eqn:EH; [|discriminate]. cbn [bind] in E.
  destruct (hidden_shapes _ _ _ _ _ _ _ F S EH) as (h' & -> & S1 & F1). cbn [bind].
  destruct (snd h) as [|W [|? ?]]; try (destruct (nonlinearities nn); discriminate). inversion F1 as [|? W' ? l2 S2 F2 Q1 Q2]; subst. inversion F2; subst.
  destruct (nonlinearities nn) as [|n0 ns] eqn:EN; [discriminate|].
  destruct (dense (fst h) _ W None _) as [n1|] eqn:ED; [|discriminate]. cbn [bind] in E.
  destruct (dense_shapes (fst h) (fst h') _ W W' None None _ n1 S1 S2 I ED) as (n2 & -> & S3). cbn [bind]. injection E as <-.
  eexists. split; [reflexivity|]. exact S3.
Qed.

Lemma backprop_total scale dys : forall zs bias ls2 ps net h, hidden bias (plain zs) ps net = Ok h ->
  (exists r, dense_backprop scale ls2 (snd h) (fst h) dys = Ok r) ->
  exists r, dense_backprop scale (map (fun ua => (ua, bias)) zs ++ ls2) ps net dys = Ok r.
Proof.
  induction zs as [|[u [a da]] zs IH]; intros bias ls2 ps net h E H.
  - cbn in E. injection E as <-. exact H.
  - cbn [plain map fst snd] in E. fold (plain zs) in E. cbn [hidden] in E.
    assert (Q : exists W B ps' net', dense_vars bias ps = Ok (W, B, ps') /\ dense net u W B a = Ok net' /\ hidden bias (plain zs) ps' net' = Ok h).
    { destruct bias; [destruct ps as [|W [|B ps']]|destruct ps as [|W ps']]; try discriminate;
        (destruct (dense net u W _ a) as [net'|] eqn:ED; [cbn [bind] in E|discriminate]); do 4 eexists; split; eauto; reflexivity. }
    clear E. destruct Q as (W & B & ps' & net' & EV & ED & E).
    destruct (dense_none _ _ _ _ _ _ ED) as [inputs EN]. pose proof (dense_activate _ _ _ _ a _ EN) as EA. rewrite ED in EA. injection EA as ->.
    destruct (dense_pre _ _ _ _ _ EN) as (r & c & cW & rW & _ & en).
    destruct (IH bias ls2 ps' _ h E H) as [[g' gps'] ER]. cbn [map app dense_backprop]. rewrite EV. cbn [bind]. rewrite EN. cbn [bind fst]. rewrite ER.
    cbn [bind fst snd]. unfold matmul. cbn [transpose rows cols]. rewrite cW, c, r, !Nat.eqb_refl. cbn [bind]. eauto.
Qed.
Lemma gradients_total nn dacts ps X V dys : length dacts = length (nonlinearities nn) -> nn_eval nn ps X = Ok V ->
  exists r, nn_gradients nn dacts ps X dys = Ok r.
Proof.
  intros L E. destruct (nn_inv _ _ _ _ E) as (h & W & net & EH & SH & NE & ED & rV & cV & eV). unfold nn_gradients, nn_layers.
  destruct (nonlinearities nn) as [|n0 ns] eqn:EN; [contradiction|]. rewrite <- EN in *.
  apply (backprop_total _ _ _ _ _ _ _ h).
  - rewrite zip_plain, but_last_map, combine_fst by auto. exact EH.
  - destruct (dense_none _ _ _ _ _ _ ED) as [inputs EI]. destruct (dense_pre _ _ _ _ _ EI) as (r & c & cW & rW & _ & en).
    rewrite SH. cbn [dense_backprop dense_vars bind]. rewrite EI. cbn [bind fst snd].
    unfold matmul. cbn [transpose rows cols]. rewrite cW, c, r, !Nat.eqb_refl. cbn [bind]. eauto.
Qed.
Lemma moved_same t : forall ps dps, List.Forall2 same_shape ps dps -> List.Forall2 same_shape ps (moved_all t ps dps).
Proof. induction 1; [constructor|]. rewrite moved_all_cons. constructor; auto. split; reflexivity. Qed.

(** The derivatives with respect to the points and to all variables are exact where
    those of the activations are: moving the points along dX and the variables
    along dps changes the sum of the outputs, weighted with dys, at the rate that
    they predict. *)
Theorem C112_gradients : forall nn dacts ps dps X dX dys V,
  nn_eval nn ps X = Ok V -> length dacts = length (nonlinearities nn) -> smooth_at (nn_layers nn dacts) ps X ->
  List.Forall2 same_shape ps dps -> same_shape X dX ->
  exists gX gps Vt, nn_gradients nn dacts ps X dys = Ok (gX, gps) /\ same_shape gX X /\ List.Forall2 same_shape gps ps /\
    (forall t, nn_eval nn (moved_all t ps dps) (moved t X dX) = Ok (Vt t) /\ same_shape V (Vt t)) /\
    is_derive (fun t => tdot {| rows := rows V; cols := cols V; entry := entry dys |} (Vt t)) 0 (tdot gX dX + tdots gps dps).
Proof.
  intros nn dacts ps dps X dX dys V E L SM F S.
  destruct (gradients_total nn dacts ps X V dys L E) as [[gX gps] EG]. exists gX, gps.
  exists (fun t => match nn_eval nn (moved_all t ps dps) (moved t X dX) with Ok V => V | Err _ => V end).
  assert (EV : forall t, exists V', nn_eval nn (moved_all t ps dps) (moved t X dX) = Ok V' /\ same_shape V V').
  { intros t. apply (eval_shapes nn ps _ X _ V); auto; [now apply moved_same|split; reflexivity]. }
  assert (EG' : dense_backprop (output_scale nn) (nn_layers nn dacts) ps X dys = Ok (gX, gps)).
  { unfold nn_gradients in EG. destruct (nonlinearities nn); [discriminate|exact EG]. }
  destruct (nn_derive (output_scale nn) (nn_layers nn dacts) ps dps X dys gX gps (fun i k t => entry X i k + t * entry dX i k) (entry dX) F SM EG')
    as (rg & cg & SG & D).
  { intros i k _ _. split; [ring|apply dline]. }
  split; [exact EG|]. split; [split; auto|]. split; [exact SG|]. split.
  { intros t. destruct (EV t) as (V' & -> & SV). auto. }
  destruct (eval_fwd nn dacts ps X V L E) as (rV & cV & _).
  eapply is_derive_ext; [|eapply dconv; [exact D|]].
  - intros t. cbn beta. destruct (EV t) as (V' & EVt & [rV' cV']). rewrite EVt. unfold tdot. cbn [rows cols entry]. rewrite rV, cV.
    destruct (eval_fwd nn dacts _ _ _ L EVt) as (_ & _ & eV). apply rsum_ext. intros i Hi. apply rsum_ext. intros j Hj.
    f_equal. rewrite eV by lia. reflexivity.
  - unfold tdot. rewrite rg, cg. reflexivity.
Qed.
Print Assumptions C112_gradients.
