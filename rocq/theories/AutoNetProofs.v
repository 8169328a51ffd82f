(** Proofs about the derivatives of Lyapunov networks. *)
From Coq Require Import Reals List Bool Arith Lia Lra FunctionalExtensionality.
From Coquelicot Require Import Coquelicot.
From Verif Require Import Prelude FunModel QuadModel QuadProofs NNProofs LyapNetModel LyapNetSpec LyapNetProofs AutoNetModel AutoNetSpec.
Import ListNotations.
Local Open Scope R_scope.

(** ** One layer *)
(** The matrix of a layer *)
Definition kernel_of (e : R) (d : nat) (W : tensor) (V : option tensor) (j k : nat) : R :=
  if Nat.ltb j d then rsum (rows W) (fun l => entry W l j * entry W l k) + e * (if Nat.eqb j k then 1 else 0)
  else match V with Some V => entry V (j - d)%nat k | None => 0 end.
Lemma layer_kernel_of e d W V x j : layer_of e d (rows W) W V x j = rsum d (fun k => x k * kernel_of e d W V j k).
Proof.
  unfold layer_of, kernel_of. destruct (Nat.ltb j d); [reflexivity|]. destruct V; [reflexivity|].
  rewrite (rsum_ext d _ (fun _ => 0)); [symmetry; apply rsum_zero|intros; ring].
Qed.

Lemma kernel_inv e d d' h ps k : (d <= d')%nat -> layer_kernel e d d' h ps = Ok k ->
  rows (root k) = h /\ cols (root k) = d /\ rows (matrix k) = d' /\ cols (matrix k) = d /\
  ((d = d' /\ added k = None /\ ps = root k :: others k) \/
   exists V, (d < d')%nat /\ added k = Some V /\ rows V = (d' - d)%nat /\ cols V = d /\ ps = root k :: V :: others k) /\
  forall j l, (j < d')%nat -> (l < d)%nat -> entry (matrix k) j l = kernel_of e d (root k) (added k) j l.
Proof.
  intros Hd. unfold layer_kernel.
  destruct (get_variable h d ps) as [[W ps1]|] eqn:E1; [|discriminate].
  apply get_variable_inv in E1. cbn [fst snd] in E1. destruct E1 as (-> & rW & cW).
  cbn [bind fst snd]. unfold matmul at 1. cbn [rows cols transpose]. rewrite Nat.eqb_refl. cbn [bind].
  unfold op2 at 1. cbn [bind]. unfold op2, bdim. cbn [rows cols entry eye]. rewrite cW, Nat.eqb_refl. cbn [bind as_tensor].
  assert (gram : forall j k, (j < d)%nat -> (k < d)%nat ->
    rsum (cols (transpose W)) (fun l => entry (transpose W) (bidx d j) l * entry W l (bidx d k)) +
    e * (if Nat.eqb (bidx d j) (bidx d k) then 1 else 0)
    = rsum (rows W) (fun l => entry W l j * entry W l k) + e * (if Nat.eqb j k then 1 else 0)).
  { intros j l Hj Hk. cbn [transpose cols rows entry].
    assert (B : forall q, (q < d)%nat -> bidx d q = q) by (intros q Hq; unfold bidx; destruct (Nat.eqb_spec d 1); lia).
    rewrite !B by auto. reflexivity. }
  destruct (Nat.ltb_spec d d') as [lt|ge].
  - destruct (get_variable (d' - d) d ps1) as [[V ps2]|] eqn:E2; [|discriminate].
    apply get_variable_inv in E2. cbn [fst snd] in E2. destruct E2 as (-> & rV & cV).
    cbn [bind fst snd]. unfold vcat2. cbn [rows cols]. rewrite cV, Nat.eqb_refl. cbn [bind fst snd].
    intros E. injection E as <-. cbn [root added matrix others rows cols entry].
    split; [auto|]. split; [auto|]. split; [lia|]. split; [auto|]. split; [right; exists V; auto|].
    intros j l Hj Hl. unfold kernel_of. destruct (Nat.ltb_spec j d) as [Hjd|Hjd]; [|reflexivity]. apply gram; auto.
  - intros E. injection E as <-. cbn [root added matrix others rows cols entry].
    split; [auto|]. split; [auto|]. split; [lia|]. split; [auto|]. split; [left; split; [lia|auto]|].
    intros j l Hj Hl. unfold kernel_of. destruct (Nat.ltb_spec j d) as [Hjd|Hjd]; [|lia]. apply gram; auto.
Qed.

(** ** Forward, one row at a time *)
Fixpoint forward (e : R) (d : nat) (dims : list nat) (acts : list (R -> R)) (ps : list tensor) (x : nat -> R) : nat -> R :=
  match dims, acts, ps with
  | d' :: dims, f :: acts, W :: ps1 =>
      if Nat.ltb d d' then
        match ps1 with
        | V :: ps2 => forward e d' dims acts ps2 (fun j => f (layer_of e d (rows W) W (Some V) x j))
        | [] => x
        end
      else forward e d' dims acts ps1 (fun j => f (layer_of e d (rows W) W None x j))
  | _, _, _ => x
  end.
Fixpoint last_dim (d : nat) (dims : list nat) : nat := match dims with [] => d | d' :: dims => last_dim d' dims end.

Lemma layer_of_ext e d h W V x y j : (forall k, (k < d)%nat -> x k = y k) -> layer_of e d h W V x j = layer_of e d h W V y j.
Proof.
  intros H. unfold layer_of. destruct (Nat.ltb j d); [|destruct V; [|reflexivity]];
    (apply rsum_ext; intros k Hk; rewrite H by auto; reflexivity).
Qed.
Lemma layers_forward e dims : forall d hid acts ps net out,
  length hid = length dims -> increasing d dims -> cols net = d ->
  lyapunov_layers e d dims hid acts ps net = Ok out ->
  rows out = rows net /\ cols out = last_dim d dims /\
  forall i x, (forall k, (k < d)%nat -> entry net i k = x k) ->
    forall j, (j < last_dim d dims)%nat -> entry out i j = forward e d dims acts ps x j.
Proof.
  induction dims as [|d' dims IH]; intros d hid acts ps net out Hl Hi Hc E.
  - destruct hid; [|discriminate]. simpl in E. injection E as <-. split; [reflexivity|]. split; [auto|].
    intros i x H j Hj. now apply H.
  - destruct hid as [|h hid]; [discriminate|]. destruct Hi as [Hd Hi]. injection Hl as Hl.
    destruct (layers_cons _ _ _ _ _ _ _ _ _ _ Hd E) as (_ & f & acts' & W & V & ps' & net' & -> & rW & _ & r' & c' & cV & en & E').
    destruct (IH _ _ _ _ _ _ Hl Hi c' E') as (ro & co & IH').
    split; [congruence|]. split; [exact co|]. intros i x H j Hj. cbn [forward last_dim] in *.
    destruct cV as [(<- & -> & ->)|(V' & lt & -> & ->)].
    + rewrite Nat.ltb_irrefl. apply IH'; auto. intros k Hk. rewrite en by auto. rewrite <- rW. f_equal. now apply layer_of_ext.
    + apply Nat.ltb_lt in lt. rewrite lt. apply IH'; auto. intros k Hk. rewrite en by auto. rewrite <- rW. f_equal. now apply layer_of_ext.
Qed.

(** ** Backwards *)
Definition G_of (n : nat) (a x : nat -> nat -> R) (j k : nat) : R := rsum n (fun i => a i j * x i k).
Lemma backprop_cons e d d' dims h hid acts ps net dys g gps : (d <= d')%nat ->
  layers_backprop e d (d' :: dims) (h :: hid) acts ps net dys = Ok (g, gps) ->
  cols net = d /\ exists f df acts' W V ps' net' g' gps' gW,
    let a := fun i j => entry g' i j * df (layer_of e d h W V (entry net i) j) in
    let G := G_of (rows net) a (entry net) in
    acts = (f, df) :: acts' /\ rows W = h /\ cols W = d /\ rows net' = rows net /\ cols net' = d' /\
    (forall i j, (j < d')%nat -> entry net' i j = f (layer_of e d h W V (entry net i) j)) /\
    layers_backprop e d' dims hid acts' ps' net' dys = Ok (g', gps') /\
    rows g = rows net /\ cols g = d /\
    (forall i k, (k < d)%nat -> entry g i k = rsum d' (fun j => a i j * kernel_of e d W V j k)) /\
    rows gW = h /\ cols gW = d /\
    (forall l k, (l < h)%nat -> (k < d)%nat ->
       entry gW l k = rsum d (fun m => entry W l m * G k m) + rsum d (fun m => entry W l m * G m k)) /\
    ((d = d' /\ V = None /\ ps = W :: ps' /\ gps = gW :: gps') \/
     exists V' gV, (d < d')%nat /\ V = Some V' /\ rows V' = (d' - d)%nat /\ cols V' = d /\
       ps = W :: V' :: ps' /\ gps = gW :: gV :: gps' /\ rows gV = (d' - d)%nat /\ cols gV = d /\
       forall i k, (i < d' - d)%nat -> (k < d)%nat -> entry gV i k = G (d + i)%nat k).
Proof.
  intros Hd. cbn [layers_backprop]. destruct (layer_kernel e d d' h ps) as [K|] eqn:EK; [cbn [bind]|discriminate].
  destruct (kernel_inv _ _ _ _ _ _ Hd EK) as (rW & cW & rK & cK & cases & eK).
  unfold matmul at 1. cbn [transpose rows cols]. rewrite cK. destruct (Nat.eqb_spec (cols net) d) as [cn|]; [cbn [bind]|discriminate].
  destruct acts as [|[f df] acts']; [discriminate|]. cbn [rows cols entry]. rewrite rK.
  set (net' := {| rows := rows net; cols := d'; entry := _ |}).
  destruct (layers_backprop e d' dims hid acts' (others K) net' dys) as [[g' gps']|] eqn:ER; [cbn [bind fst snd]|discriminate].
  assert (Z : forall i j, (j < d')%nat -> rsum d (fun k => entry net i k * entry (matrix K) j k) =
              layer_of e d h (root K) (added K) (entry net i) j).
  { intros i j Hj. rewrite <- rW, layer_kernel_of. apply rsum_ext. intros k Hk. now rewrite eK. }
  unfold matmul at 1. cbn [rows cols]. rewrite rK, Nat.eqb_refl. cbn [bind].
  unfold matmul at 1. cbn [transpose rows cols]. rewrite Nat.eqb_refl. cbn [bind].
  unfold matmul at 1. cbn [transpose row_slice rows cols entry]. rewrite cW, cn, Nat.eqb_refl. cbn [bind].
  unfold matmul at 1. cbn [transpose row_slice rows cols entry]. rewrite cW, Nat.eqb_refl. cbn [bind].
  unfold op2, bdim. cbn [rows cols]. rewrite !Nat.eqb_refl. cbn [bind as_tensor]. intros E. injection E as <- <-.
  split; [first [exact cn|reflexivity]|]. exists f, df, acts', (root K), (added K), (others K), net', g', gps'. eexists. cbv zeta.
  split; [reflexivity|]. split; [exact rW|]. split; [exact cW|]. split; [reflexivity|]. split; [reflexivity|].
  split; [intros i j Hj; unfold net'; cbn [entry transpose]; now rewrite cn, Z|]. split; [exact ER|].
  cbn [rows cols entry]. split; [reflexivity|]. split; [exact cK|]. split.
  { intros i k Hk. apply rsum_ext. intros j Hj. rewrite Z, eK by auto. reflexivity. }
  assert (GG : forall j k, (j < d')%nat -> rsum (rows net) (fun i => entry g' i j * df (rsum d (fun k => entry net i k * entry (matrix K) j k)) * entry net i k) =
     G_of (rows net) (fun i j => entry g' i j * df (layer_of e d h (root K) (added K) (entry net i) j)) (entry net) j k).
  { intros j k Hj. apply rsum_ext. intros i _. now rewrite Z. }
  refine (conj _ (conj _ (conj _ _))).
  4:{ destruct cases as [(Ed & EA & EP)|(V & lt & EA & rV & cV & EP)].
      - left. rewrite EA. split; [auto|]. split; [auto|]. split; [exact EP|]. reflexivity.
      - right. rewrite EA. exists V. eexists. split; [exact lt|]. split; [reflexivity|]. split; [exact rV|]. split; [exact cV|].
        split; [exact EP|]. split; [reflexivity|]. cbn [row_slice rows cols entry]. split; [reflexivity|]. split; [first [exact cn|reflexivity]|].
        intros i k Hi Hk. rewrite <- EA. rewrite <- GG by lia. rewrite ?cn. reflexivity. }
  { cbn [rows]. exact rW. }
  { reflexivity. }
  intros l k Hl Hk. cbn [entry rows cols].
  assert (B : forall n q, (q < n)%nat -> bidx n q = q) by (intros n q Hq; unfold bidx; destruct (Nat.eqb_spec n 1); lia).
  rewrite !B by lia. f_equal; apply rsum_ext; intros m Hm; rewrite <- GG by lia; rewrite ?cn; reflexivity.
Qed.
