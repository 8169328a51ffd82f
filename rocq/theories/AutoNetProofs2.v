(** Backpropagation through a Lyapunov network gives the derivative. *)
From Coq Require Import Reals List Bool Arith Lia Lra FunctionalExtensionality.
From Coquelicot Require Import Coquelicot.
From Verif Require Import Prelude FunModel QuadModel QuadProofs NNProofs LyapNetModel LyapNetSpec LyapNetProofs AutoNetModel AutoNetSpec AutoNetProofs.
Import ListNotations.
Local Open Scope R_scope.

(** ** Derivatives *)
Lemma dsum n : forall (f : nat -> R -> R) df t, (forall i, (i < n)%nat -> is_derive (f i) t (df i)) ->
  is_derive (fun s => rsum n (fun i => f i s)) t (rsum n df).
Proof.
  induction n as [|n IH]; intros f df t H.
  - apply (is_derive_ext (fun _ => 0)); [reflexivity|]. apply is_derive_Reals. apply derivable_pt_lim_const.
  - rewrite rsum_S. apply (is_derive_ext (fun s => rsum n (fun i => f i s) + f n s)).
    + intros s. now rewrite rsum_S.
    + apply (is_derive_plus (fun s => rsum n (fun i => f i s)) (f n)); auto.
Qed.
Lemma dmult (f g : R -> R) t df dg : is_derive f t df -> is_derive g t dg -> is_derive (fun s => f s * g s) t (df * g t + f t * dg).
Proof. intros F G. apply is_derive_Reals in F, G. apply is_derive_Reals. now apply derivable_pt_lim_mult. Qed.
Lemma dcomp (f g : R -> R) t df dg : is_derive f t df -> is_derive g (f t) dg -> is_derive (fun s => g (f s)) t (dg * df).
Proof. intros F G. apply is_derive_Reals in F, G. apply is_derive_Reals. now apply (derivable_pt_lim_comp f g). Qed.
Lemma dplus (f g : R -> R) t df dg : is_derive f t df -> is_derive g t dg -> is_derive (fun s => f s + g s) t (df + dg).
Proof. intros F G. now apply (is_derive_plus f g). Qed.
Lemma dconst (c t : R) : is_derive (fun _ => c) t 0.
Proof. apply is_derive_Reals. apply derivable_pt_lim_const. Qed.
Lemma dconv (f : R -> R) (t a b : R) : is_derive f t a -> a = b -> is_derive f t b.
Proof. now intros H <-. Qed.
Lemma dline (a b t : R) : is_derive (fun s : R => a + s * b) t b.
Proof.
  apply (dconv _ _ (0 + (1 * b + t * 0))); [|ring]. apply (dplus (fun _ => a) (fun s => s * b)); [apply dconst|].
  apply (dmult (fun s => s) (fun _ => b)); [apply is_derive_Reals; apply derivable_pt_lim_id|apply dconst].
Qed.
Lemma dscal c (f : R -> R) t df : is_derive f t df -> is_derive (fun s => c * f s) t (c * df).
Proof. intros F. apply (dconv _ _ (0 * f t + c * df)); [|ring]. apply (dmult (fun _ => c) f); [apply dconst|auto]. Qed.
Lemma dsqr (f : R -> R) t df : is_derive f t df -> is_derive (fun s => Rsqr (f s)) t (2 * f t * df).
Proof. intros F. apply (dconv _ _ (df * f t + f t * df)); [|ring]. unfold Rsqr. now apply dmult. Qed.

Lemma moved_0 a b : moved 0 a b = a.
Proof.
  destruct a as [r c en]. unfold moved. cbn. f_equal. extensionality i. extensionality j. ring.
Qed.

(** ** Sums *)
Lemma alg1 n d' d (a K DK x dx : nat -> nat -> R) :
  rsum n (fun i => rsum d' (fun j => a i j * rsum d (fun k => dx i k * K j k + x i k * DK j k))) =
  rsum n (fun i => rsum d (fun k => rsum d' (fun j => a i j * K j k) * dx i k)) +
  rsum d' (fun j => rsum d (fun k => G_of n a x j k * DK j k)).
Proof.
  assert (E1 : rsum d' (fun j => rsum d (fun k => G_of n a x j k * DK j k)) =
               rsum n (fun i => rsum d' (fun j => rsum d (fun k => a i j * (x i k * DK j k))))).
  { rewrite (rsum_swap n d'). apply rsum_ext. intros j _. rewrite (rsum_swap n d). apply rsum_ext. intros k _. unfold G_of.
    rewrite Rmult_comm, <- rsum_scal. apply rsum_ext. intros; ring. }
  rewrite E1, <- rsum_plus. apply rsum_ext. intros i _.
  assert (E2 : rsum d (fun k => rsum d' (fun j => a i j * K j k) * dx i k) =
               rsum d' (fun j => rsum d (fun k => a i j * (dx i k * K j k)))).
  { rewrite (rsum_swap d' d). apply rsum_ext. intros k _. rewrite Rmult_comm, <- rsum_scal. apply rsum_ext. intros; ring. }
  rewrite E2, <- rsum_plus. apply rsum_ext. intros j _. rewrite <- rsum_scal, <- rsum_plus. apply rsum_ext. intros; ring.
Qed.
Lemma alg2 h d (G W dW : nat -> nat -> R) :
  rsum d (fun j => rsum d (fun k => G j k * rsum h (fun l => dW l j * W l k + W l j * dW l k))) =
  rsum h (fun l => rsum d (fun k => (rsum d (fun m => W l m * G k m) + rsum d (fun m => W l m * G m k)) * dW l k)).
Proof.
  transitivity (rsum h (fun l => rsum d (fun j => rsum d (fun k => G j k * (dW l j * W l k)) +
                                                  rsum d (fun k => G j k * (W l j * dW l k))))).
  - rewrite (rsum_swap h d). apply rsum_ext. intros j _. rewrite rsum_plus, (rsum_swap h d), (rsum_swap h d), <- rsum_plus.
    apply rsum_ext. intros k _. rewrite <- rsum_scal, <- rsum_plus. apply rsum_ext. intros; ring.
  - apply rsum_ext. intros l _. rewrite rsum_plus.
    rewrite (rsum_swap d d (fun j k => G j k * (W l j * dW l k))), <- rsum_plus. apply rsum_ext. intros k _.
    rewrite Rmult_plus_distr_r. f_equal; rewrite Rmult_comm, <- rsum_scal; apply rsum_ext; intros; ring.
Qed.

Lemma tdots_cons a b l m : tdots (a :: l) (b :: m) = tdot a b + tdots l m.
Proof. reflexivity. Qed.
Lemma moved_all_cons t a b l m : moved_all t (a :: l) (b :: m) = moved t a b :: moved_all t l m.
Proof. reflexivity. Qed.

(** The derivative of one layer. *)
Definition dkernel_of (d : nat) (W dW : tensor) (dV : option tensor) (j k : nat) : R :=
  if Nat.ltb j d then rsum (rows W) (fun l => entry dW l j * entry W l k + entry W l j * entry dW l k)
  else match dV with Some dV => entry dV (j - d)%nat k | None => 0 end.
Definition moved_opt t (V dV : option tensor) : option tensor :=
  match V, dV with Some V, Some dV => Some (moved t V dV) | _, _ => None end.
Lemma dkernel e d W dW V dV j k : (V = None <-> dV = None) ->
  is_derive (fun t => kernel_of e d (moved t W dW) (moved_opt t V dV) j k) 0 (dkernel_of d W dW dV j k).
Proof.
  intros N. unfold kernel_of, dkernel_of. destruct (Nat.ltb j d).
  - apply (dconv _ _ (rsum (rows W) (fun l => entry dW l j * entry W l k + entry W l j * entry dW l k) + 0)); [|ring].
    apply (dplus (fun t => rsum (rows (moved t W dW)) (fun l => entry (moved t W dW) l j * entry (moved t W dW) l k)) (fun _ => _)); [|apply dconst].
    cbn [moved rows entry]. apply (dsum (rows W) (fun l t => (entry W l j + t * entry dW l j) * (entry W l k + t * entry dW l k))).
    intros l _. eapply dconv; [apply (dmult (fun t => entry W l j + t * entry dW l j) (fun t => entry W l k + t * entry dW l k)); apply dline|].
    cbn beta. ring.
  - destruct V as [V|], dV as [dV|]; cbn [moved_opt moved entry].
    + apply dline.
    + exfalso. now assert (Some V = None) by now apply N.
    + exfalso. now assert (Some dV = None) by now apply N.
    + apply dconst.
Qed.
Lemma dlayer e d W dW V dV (x : nat -> R -> R) dx j : (V = None <-> dV = None) ->
  (forall k, (k < d)%nat -> is_derive (x k) 0 (dx k)) ->
  is_derive (fun t => layer_of e d (rows W) (moved t W dW) (moved_opt t V dV) (fun k => x k t) j) 0
    (rsum d (fun k => dx k * kernel_of e d W V j k + x k 0 * dkernel_of d W dW dV j k)).
Proof.
  intros N X. apply (is_derive_ext (fun t => rsum d (fun k => x k t * kernel_of e d (moved t W dW) (moved_opt t V dV) j k))).
  { intros t. symmetry. exact (layer_kernel_of e d (moved t W dW) (moved_opt t V dV) (fun k => x k t) j). }
  apply (dsum d (fun k t => x k t * kernel_of e d (moved t W dW) (moved_opt t V dV) j k)). intros k Hk.
  eapply dconv; [apply (dmult (x k) (fun t => kernel_of e d (moved t W dW) (moved_opt t V dV) j k)); [apply X, Hk|now apply dkernel]|].
  cbn beta. rewrite moved_0. replace (moved_opt 0 V dV) with V; [reflexivity|].
  destruct V as [V|], dV as [dV|]; cbn; rewrite ?moved_0; auto. exfalso. now assert (Some V = None) by now apply N.
Qed.

Lemma rsum_split d d' F : (d <= d')%nat -> rsum d' F = rsum d F + rsum (d' - d) (fun k => F (d + k)%nat).
Proof. intros H. rewrite <- rsum_app. f_equal. lia. Qed.

(** ** The network *)
Lemma backprop_derive e dims : forall d hid acts ps dps net dys g gps (x : nat -> nat -> R -> R) (dx : nat -> nat -> R),
  length hid = length dims -> increasing d dims -> cols net = d ->
  List.Forall (fun a => forall u : R, is_derive (fst a) u (snd a u)) acts ->
  List.Forall2 same_shape ps dps ->
  layers_backprop e d dims hid acts ps net dys = Ok (g, gps) ->
  (forall i k, (i < rows net)%nat -> (k < d)%nat -> x i k 0 = entry net i k /\ is_derive (x i k) 0 (dx i k)) ->
  rows g = rows net /\ cols g = d /\ (length gps <= length dps)%nat /\
  is_derive (fun t => rsum (rows net) (fun i => entry dys i 0%nat *
     rsum (last_dim d dims) (fun j => Rsqr (forward e d dims (map fst acts) (moved_all t ps dps) (fun k => x i k t) j)))) 0
    (rsum (rows net) (fun i => rsum d (fun k => entry g i k * dx i k)) + tdots gps dps).
Proof.
  induction dims as [|d' dims IH]; intros d hid acts ps dps net dys g gps x dx Hl Hi Hc Ha Hs E X.
  - destruct hid; [|discriminate]. cbn [layers_backprop] in E. injection E as <- <-. cbn [rows cols entry length].
    split; [reflexivity|]. split; [exact Hc|]. split; [lia|]. cbn [last_dim forward map].
    eapply dconv; [|apply Rplus_comm]. cbn. apply (dconv _ _ (rsum (rows net) (fun i => entry dys i 0%nat * rsum d (fun k => 2 * x i k 0 * dx i k)))).
    + apply (dsum (rows net) (fun i t => entry dys i 0%nat * rsum d (fun j => Rsqr (x i j t)))). intros i Hi'. apply dscal.
      apply (dsum d (fun j t => Rsqr (x i j t))). intros k Hk. apply dsqr. now apply X.
    + unfold tdots. cbn. rewrite Rplus_0_l. apply rsum_ext. intros i Hi'. rewrite <- rsum_scal. apply rsum_ext. intros k Hk.
      rewrite (proj1 (X i k Hi' Hk)). ring.
  - destruct hid as [|h hid]; [discriminate|]. destruct Hi as [Hd Hi]. injection Hl as Hl.
    destruct (backprop_cons _ _ _ _ _ _ _ _ _ _ _ _ Hd E) as
      (_ & f & df & acts' & W & V & ps' & net' & g' & gps' & gW & H). cbv zeta in H.
    destruct H as (-> & rW & cW & rn & cn & en & ER & rg & cg & eg & rgW & cgW & egW & cases).
    pose proof (List.Forall_inv Ha) as Hf. pose proof (List.Forall_inv_tail Ha) as Ha'. cbn [fst snd] in Hf.
    split; [exact rg|]. split; [exact cg|].
    assert (M : exists dW dV dps', same_shape W dW /\ (V = None <-> dV = None) /\ List.Forall2 same_shape ps' dps' /\
       (forall t y, forward e d (d' :: dims) (f :: map fst acts') (moved_all t ps dps) y =
                    forward e d' dims (map fst acts') (moved_all t ps' dps')
                      (fun j => f (layer_of e d (rows W) (moved t W dW) (moved_opt t V dV) y j))) /\
       ((length gps' <= length dps')%nat -> (length gps <= length dps)%nat) /\
       tdots gps dps = rsum h (fun l => rsum d (fun k => entry gW l k * entry dW l k)) +
          rsum (d' - d) (fun i => rsum d (fun k =>
            G_of (rows net) (fun i j => entry g' i j * df (layer_of e d h W V (entry net i) j)) (entry net) (d + i) k *
            match dV with Some dV => entry dV i k | None => 0 end)) + tdots gps' dps').
    { destruct cases as [(<- & -> & -> & ->)|(V' & gV & lt & -> & rV & cV & -> & -> & rgV & cgV & egV)].
      - inversion Hs as [|? dW ? dps' S1 S2]; subst. exists dW, None, dps'. split; [exact S1|]. split; [tauto|]. split; [exact S2|].
        split; [|split].
        + intros t y. rewrite moved_all_cons. cbn [forward]. rewrite Nat.ltb_irrefl. reflexivity.
        + cbn [length]. lia.
        + rewrite tdots_cons, Nat.sub_diag. unfold tdot. rewrite rgW, cgW. rewrite rsum_0. ring.
      - inversion Hs as [|? dW ? dps1 S1 S2]; subst. inversion S2 as [|? dV ? dps' S3 S4]; subst.
        exists dW, (Some dV), dps'. split; [exact S1|]. split; [split; discriminate|]. split; [exact S4|]. split; [|split].
        + intros t y. rewrite !moved_all_cons. cbn [forward]. apply Nat.ltb_lt in lt. rewrite lt. reflexivity.
        + cbn [length]. lia.
        + rewrite !tdots_cons. unfold tdot at 1 2. rewrite rgW, cgW, rgV, cgV. rewrite <- Rplus_assoc. f_equal. f_equal.
          apply rsum_ext. intros i Hi'. apply rsum_ext. intros k Hk. now rewrite egV. }
    destruct M as (dW & dV & dps' & SW & N & S' & FW & LE & TD).
    set (x' := fun i j t => f (layer_of e d (rows W) (moved t W dW) (moved_opt t V dV) (fun k => x i k t) j)).
    set (dx' := fun i j => df (layer_of e d h W V (entry net i) j) *
                           rsum d (fun k => dx i k * kernel_of e d W V j k + entry net i k * dkernel_of d W dW dV j k)).
    assert (Z : forall i j, (i < rows net)%nat ->
        layer_of e d (rows W) (moved 0 W dW) (moved_opt 0 V dV) (fun k => x i k 0) j = layer_of e d h W V (entry net i) j).
    { intros i j Hi'. rewrite moved_0, rW. replace (moved_opt 0 V dV) with V.
      - apply layer_of_ext. intros k Hk. now apply X.
      - destruct V as [V|], dV as [dV|]; cbn; rewrite ?moved_0; auto. exfalso. now assert (Some V = None) by now apply N. }
    destruct (IH d' hid acts' ps' dps' net' dys g' gps' x' dx' Hl Hi cn Ha' S' ER) as (_ & _ & LL & D).
    { intros i j Hi' Hj. rewrite rn in Hi'. split.
      - unfold x'. rewrite Z by auto. now rewrite en.
      - unfold x', dx'. rewrite <- (Z i j Hi').
        refine (dcomp _ f 0 _ _ _ (Hf _)).
        eapply dconv; [apply dlayer; [exact N|intros k Hk; now apply X]|].
        apply rsum_ext. intros k Hk. now rewrite (proj1 (X i k Hi' Hk)). }
    split; [auto|]. rewrite rn in D. cbn [last_dim map fst].
    eapply is_derive_ext; [|eapply dconv; [exact D|]].
    { intros t. cbn beta. apply rsum_ext. intros i _. f_equal. apply rsum_ext. intros j _. f_equal.
      exact (eq_sym (f_equal (fun F => F j) (FW t (fun k => x i k t)))). }
    rewrite TD. clear D IH FW LE TD.
    set (a := fun i j => entry g' i j * df (layer_of e d h W V (entry net i) j)) in *.
    transitivity (rsum (rows net) (fun i => rsum d' (fun j => a i j *
       rsum d (fun k => dx i k * kernel_of e d W V j k + entry net i k * dkernel_of d W dW dV j k))) + tdots gps' dps').
    { f_equal. apply rsum_ext. intros i _. apply rsum_ext. intros j _. unfold dx', a. ring. }
    rewrite (alg1 (rows net) d' d a (kernel_of e d W V) (dkernel_of d W dW dV) (entry net) dx).
    rewrite (rsum_ext (rows net) (fun i => rsum d (fun k => entry g i k * dx i k))
               (fun i => rsum d (fun k => rsum d' (fun j => a i j * kernel_of e d W V j k) * dx i k))).
    2:{ intros i _. apply rsum_ext. intros k Hk. now rewrite eg. }
    rewrite (rsum_split d d' (fun j => rsum d (fun k => G_of (rows net) a (entry net) j k * dkernel_of d W dW dV j k)) Hd).
    rewrite (rsum_ext d (fun j => rsum d (fun k => G_of (rows net) a (entry net) j k * dkernel_of d W dW dV j k))
      (fun j => rsum d (fun k => G_of (rows net) a (entry net) j k * rsum h (fun l => entry dW l j * entry W l k + entry W l j * entry dW l k)))).
    2:{ intros j Hj. apply rsum_ext. intros k Hk. unfold dkernel_of. apply Nat.ltb_lt in Hj. now rewrite Hj, rW. }
    rewrite (alg2 h d (G_of (rows net) a (entry net)) (entry W) (entry dW)).
    rewrite (rsum_ext h (fun l => rsum d (fun k => entry gW l k * entry dW l k))
       (fun l => rsum d (fun k => (rsum d (fun m => entry W l m * G_of (rows net) a (entry net) k m) +
                                  rsum d (fun m => entry W l m * G_of (rows net) a (entry net) m k)) * entry dW l k))).
    2:{ intros q Hq. apply rsum_ext. intros k Hk. now rewrite egW. }
    rewrite (rsum_ext (d' - d) (fun k => rsum d (fun k0 => G_of (rows net) a (entry net) (d + k) k0 * dkernel_of d W dW dV (d + k) k0))
       (fun i => rsum d (fun k => G_of (rows net) a (entry net) (d + i) k * match dV with Some dV0 => entry dV0 i k | None => 0 end))).
    2:{ intros i _. apply rsum_ext. intros k _. unfold dkernel_of. destruct (Nat.ltb_spec (d + i) d); [lia|].
        replace (d + i - d)%nat with i by lia. reflexivity. }
    ring.
Qed.
