(** Property C111: derivatives of Lyapunov networks. *)
From Coq Require Import Reals List Bool Arith Lia Lra FunctionalExtensionality.
From Coquelicot Require Import Coquelicot.
From Verif Require Import Prelude FunModel QuadModel QuadProofs NNProofs LyapNetModel LyapNetSpec LyapNetProofs AutoNetModel AutoNetSpec AutoNetProofs AutoNetProofs2.
From Verif Require LipProofs.
From Verif.Properties Require Import LyapNetProps.
Import ListNotations.
Local Open Scope R_scope.

(** ** The derivatives exist whenever the values do *)
Lemma kernel_total e d d' h ps : (d <= d')%nat ->
  (exists W ps1, ps = W :: ps1 /\ shaped h d W /\ ((d < d')%nat -> exists V ps2, ps1 = V :: ps2 /\ shaped (d' - d) d V)) ->
  exists k, layer_kernel e d d' h ps = Ok k.
Proof.
  intros Hd (W & ps1 & -> & [rW cW] & HV). unfold layer_kernel, get_variable. rewrite rW, cW, !Nat.eqb_refl. cbn [andb bind fst snd].
  unfold matmul. cbn [transpose rows cols]. rewrite Nat.eqb_refl. cbn [bind]. unfold op2 at 1. cbn [bind].
  unfold op2, bdim. cbn [rows cols eye]. rewrite cW, Nat.eqb_refl. cbn [bind].
  destruct (Nat.ltb_spec d d') as [lt|ge]; [|eexists; reflexivity].
  destruct (HV lt) as (V & ps2 & -> & rV & cV). rewrite rV, cV, !Nat.eqb_refl. cbn [andb bind fst snd].
  unfold vcat2. cbn [as_tensor rows cols]. rewrite cV, Nat.eqb_refl. cbn [bind]. eexists; reflexivity.
Qed.
Lemma backprop_total e dys : forall dims d acts ps net,
  increasing d dims -> cols net = d -> (length dims <= length acts)%nat ->
  List.Forall2 (fun s W => shaped (fst s) (snd s) W) (variable_shapes d dims) ps ->
  exists g gps, layers_backprop e d dims (map (fun d => Nat.div (d + 1 + 1) 2) (removelast (d :: dims))) acts ps net dys = Ok (g, gps) /\
    same_shape g net /\ List.Forall2 same_shape gps ps.
Proof.
  induction dims as [|d' dims IH]; intros d acts ps net Hi Hc Hl F.
  - inversion F; subst. eexists. eexists. split; [reflexivity|]. split; [split; reflexivity|constructor].
  - destruct Hi as [Hd Hi]. destruct acts as [|[f df] acts]; [simpl in Hl; lia|].
    inversion F as [|? W ? ps1 [rW cW] F1]; subst. cbn [fst snd] in rW, cW.
    change (removelast (cols net :: d' :: dims)) with (cols net :: removelast (d' :: dims)).
    set (d := cols net) in *. cbn [map]. set (h := Nat.div (d + 1 + 1) 2).
    assert (rW' : rows W = h) by (unfold h; rewrite <- Nat.add_assoc; exact rW).
    assert (FV : if Nat.ltb d d' then exists V ps2, ps1 = V :: ps2 /\ shaped (d' - d) d V /\ List.Forall2 (fun s W => shaped (fst s) (snd s) W) (variable_shapes d' dims) ps2
                 else List.Forall2 (fun s W => shaped (fst s) (snd s) W) (variable_shapes d' dims) ps1).
    { destruct (Nat.ltb d d'); cbn [app] in F1; [|exact F1]. inversion F1 as [|? V ? ps2 SV F2]; subst. exists V, ps2. auto. }
    destruct (kernel_total e d d' h (W :: ps1) Hd) as [K EK].
    { exists W, ps1. split; [auto|]. split; [split; auto|]. intros lt. apply Nat.ltb_lt in lt. rewrite lt in FV.
      destruct FV as (V & ps2 & -> & SV & _). exists V, ps2. auto. }
    destruct (kernel_inv _ _ _ _ _ _ Hd EK) as (rK0 & cK0 & rK & cK & cases & _).
    cbn [layers_backprop]. rewrite EK. cbn [bind]. unfold matmul at 1. cbn [transpose rows cols]. rewrite cK. fold d. rewrite Nat.eqb_refl. cbn [bind].
    cbn [rows cols entry]. rewrite rK.
    assert (FO : List.Forall2 (fun s W => shaped (fst s) (snd s) W) (variable_shapes d' dims) (others K)).
    { destruct cases as [(Ed & EA & EP)|(V & lt & EA & rV & cV & EP)].
      - injection EP as _ <-. rewrite (proj2 (Nat.ltb_ge d d')) in FV by lia. exact FV.
      - rewrite (proj2 (Nat.ltb_lt d d')) in FV by lia. destruct FV as (V' & ps2 & -> & _ & F2). injection EP as _ _ <-. exact F2. }
    match goal with |- context [layers_backprop e d' dims _ acts (others K) ?net' dys] =>
      destruct (IH d' acts (others K) net' Hi eq_refl ltac:(simpl in Hl; lia) FO) as (g & gps & -> & [rg cg] & FG) end.
    cbn [bind fst snd]. unfold matmul at 1. cbn [rows cols]. rewrite rK, Nat.eqb_refl. cbn [bind].
    unfold matmul at 1. cbn [transpose rows cols]. rewrite Nat.eqb_refl. cbn [bind].
    unfold matmul at 1. cbn [transpose row_slice rows cols]. rewrite cK0. fold d. rewrite Nat.eqb_refl. cbn [bind].
    unfold matmul at 1. cbn [transpose row_slice rows cols]. rewrite cK0, Nat.eqb_refl. cbn [bind].
    unfold op2, bdim. cbn [rows cols]. rewrite !Nat.eqb_refl. cbn [bind as_tensor].
    eexists. eexists. split; [reflexivity|]. split; [split; cbn [rows cols]; [reflexivity|exact cK]|].
    destruct cases as [(Ed & EA & EP)|(V & lt & EA & rV & cV & EP)]; rewrite EA, EP; cbn [app].
    + constructor; [split; cbn [rows cols]; [reflexivity|now rewrite cK0]|exact FG].
    + constructor; [split; cbn [rows cols]; [reflexivity|now rewrite cK0]|]. constructor; [|exact FG].
      split; cbn [row_slice rows cols]; [now rewrite rV|now rewrite cV].
Qed.

Lemma moved_shapes (l : list (nat * nat)) ps dps t : List.Forall2 same_shape ps dps ->
  List.Forall2 (fun s W => shaped (fst s) (snd s) W) l ps -> List.Forall2 (fun s W => shaped (fst s) (snd s) W) l (moved_all t ps dps).
Proof.
  intros S. revert l. induction S as [|a b ps dps S1 S IH]; intros l F; inversion F; subst; [constructor|].
  rewrite moved_all_cons. constructor; auto.
Qed.

(** The derivatives with respect to the points and to all variables are exact: moving
    the points along dX and the variables along dps changes the sum of the values,
    weighted with dys, at the rate that they predict. *)
Theorem C111_gradients : forall n dims acts dacts e v ps dps X dX dys,
  make_lyapunov_network n dims acts e = Ok v -> length acts = length dims -> length dacts = length dims ->
  (forall a, In a (combine acts dacts) -> forall u : R, is_derive (fst a) u (snd a u)) ->
  List.Forall2 (fun s W => shaped (fst s) (snd s) W) (variable_shapes n dims) ps -> List.Forall2 same_shape ps dps ->
  cols X = n -> same_shape X dX ->
  exists gX gps V, lyapunov_gradients v dacts ps X dys = Ok (gX, gps) /\
    same_shape gX X /\ List.Forall2 same_shape gps ps /\
    (forall t, lyapunov_eval v (moved_all t ps dps) (moved t X dX) = Ok (V t)) /\
    is_derive (fun t => rsum (rows X) (fun i => entry dys i 0%nat * entry (V t) i 0%nat)) 0 (tdot gX dX + tdots gps dps).
Proof.
  intros n dims acts dacts e v ps dps X dX dys M La Ld Da F S Hc SX.
  destruct (make_inv _ _ _ _ _ M) as (-> & _ & I). unfold lyapunov_gradients.
  set (v := {| input_dim := n; output_dims := dims; hidden_dims := _; activations := acts; eps := e |}) in *.
  cbn [input_dim output_dims hidden_dims activations eps v].
  destruct (backprop_total e dys dims n (combine acts dacts) ps X I Hc ltac:(rewrite combine_length; lia) F) as (g & gps & E & SG & SGP).
  exists g, gps, (fun t => match lyapunov_eval v (moved_all t ps dps) (moved t X dX) with Ok V => V | Err _ => X end).
  split; [exact E|]. split; [exact SG|]. split; [exact SGP|].
  assert (EV : forall t, exists V, lyapunov_eval v (moved_all t ps dps) (moved t X dX) = Ok V).
  { intros t. apply (C54_total n dims acts e v _ _ M ltac:(lia)); [now apply moved_shapes|exact Hc]. }
  split; [intros t; destruct (EV t) as [V ->]; reflexivity|].
  assert (EA : map fst (combine acts dacts) = acts).
  { clear - La Ld. assert (L : length acts = length dacts) by congruence. clear La Ld. revert dacts L.
    induction acts as [|a acts IH]; intros [|b dacts] L; try discriminate; [reflexivity|]. cbn. f_equal. apply IH. now injection L. }
  destruct (backprop_derive e dims n _ (combine acts dacts) ps dps X dys g gps (fun i k t => entry X i k + t * entry dX i k) (entry dX)
              (hid_length n dims) I Hc (proj2 (List.Forall_forall _ _) Da) S E) as (_ & cg & _ & D).
  { intros i k _ _. split; [ring|apply dline]. }
  eapply is_derive_ext; [|eapply dconv; [exact D|]].
  - intros t. cbn beta. apply rsum_ext. intros i Hi. f_equal. destruct (EV t) as [V EVt]. rewrite EVt.
    unfold lyapunov_eval in EVt. cbn [input_dim output_dims hidden_dims activations eps v] in EVt.
    destruct (lyapunov_layers e n dims _ acts (moved_all t ps dps) (moved t X dX)) as [net|] eqn:EN; [|discriminate].
    cbn [bind] in EVt. injection EVt as <-. cbn [entry].
    destruct (layers_forward e dims n _ acts _ (moved t X dX) net (hid_length n dims) I Hc EN) as (rn & cn & en).
    rewrite cn. apply rsum_ext. intros j Hj. f_equal.
    transitivity (forward e n dims acts (moved_all t ps dps) (fun k => entry X i k + t * entry dX i k) j).
    + exact (f_equal (fun A => forward e n dims A (moved_all t ps dps) (fun k => entry X i k + t * entry dX i k) j) EA).
    + symmetry. apply en; auto.
  - destruct SG as [rg cg']. unfold tdot. rewrite rg, cg. reflexivity.
Qed.
Print Assumptions C111_gradients.

(** ** Single points *)
Definition val e n dims acts ps (p : nat -> R) : R := rsum (last_dim n dims) (fun j => Rsqr (forward e n dims acts ps p j)).
Lemma eval_val n dims acts e v ps X V : make_lyapunov_network n dims acts e = Ok v -> cols X = n ->
  lyapunov_eval v ps X = Ok V -> rows V = rows X /\ forall i, entry V i 0%nat = val e n dims acts ps (entry X i).
Proof.
  intros M Hc E. destruct (make_inv _ _ _ _ _ M) as (-> & _ & I). unfold lyapunov_eval in E.
  cbn [input_dim output_dims hidden_dims activations eps] in E.
  destruct (lyapunov_layers e n dims _ acts ps X) as [net|] eqn:EN; [|discriminate].
  cbn [bind] in E. injection E as <-. cbn [entry rows].
  destruct (layers_forward e dims n _ acts ps X net (hid_length n dims) I Hc EN) as (rn & cn & en).
  split; [exact rn|]. intros i. rewrite cn. apply rsum_ext. intros j Hj. f_equal. apply en; auto.
Qed.

Definition zero_like (t : tensor) : tensor := {| rows := rows t; cols := cols t; entry := fun _ _ => 0 |}.
Lemma moved_zero t ps : moved_all t ps (map zero_like ps) = ps.
Proof.
  induction ps as [|[r c en] ps IH]; [reflexivity|]. cbn [map]. rewrite moved_all_cons, IH. f_equal.
  unfold moved. cbn. f_equal. extensionality i. extensionality j. ring.
Qed.
Lemma tdots_zero gps ps : tdots gps (map zero_like ps) = 0.
Proof.
  revert ps. induction gps as [|g gps IH]; intros [|p ps]; try reflexivity. cbn [map]. rewrite tdots_cons, IH.
  unfold tdot. cbn [zero_like entry]. rewrite (rsum_ext _ _ (fun _ => 0)); [rewrite rsum_zero; ring|].
  intros i _. rewrite (rsum_ext _ _ (fun _ => 0)); [apply rsum_zero|intros; ring].
Qed.
Lemma same_zero ps : List.Forall2 same_shape ps (map zero_like ps).
Proof. induction ps; constructor; [split; reflexivity|auto]. Qed.

Lemma grad_total n dims acts dacts e v ps X : make_lyapunov_network n dims acts e = Ok v -> length acts = length dims -> length dacts = length dims ->
  List.Forall2 (fun s W => shaped (fst s) (snd s) W) (variable_shapes n dims) ps -> cols X = n ->
  exists g, grad_lyapunov_function v dacts ps X = Ok g /\ rows g = rows X /\ cols g = n.
Proof.
  intros M La Ld F Hc. destruct (make_inv _ _ _ _ _ M) as (-> & _ & I). unfold grad_lyapunov_function, lyapunov_gradients.
  cbn [input_dim output_dims hidden_dims activations eps].
  destruct (backprop_total e {| rows := rows X; cols := 1; entry := fun _ _ => 1 |} dims n (combine acts dacts) ps X I Hc ltac:(rewrite combine_length; lia) F) as (g & gps & -> & [r c] & _).
  cbn [bind fst]. exists g. split; [reflexivity|]. split; [exact r|]. now rewrite c.
Qed.

(** [grad_lyapunov_function] returns, for every point of a batch, the derivatives of the
    value at this point in all directions. *)
Theorem C111_points : forall n dims acts dacts e v ps X g i u,
  make_lyapunov_network n dims acts e = Ok v -> length acts = length dims -> length dacts = length dims ->
  (forall a, In a (combine acts dacts) -> forall u : R, is_derive (fst a) u (snd a u)) ->
  List.Forall2 (fun s W => shaped (fst s) (snd s) W) (variable_shapes n dims) ps -> cols X = n ->
  grad_lyapunov_function v dacts ps X = Ok g -> (i < rows X)%nat ->
  exists V, (forall t, lyapunov_eval v ps (one_point n (fun k => entry X i k + t * u k)) = Ok (V t)) /\
    is_derive (fun t => entry (V t) 0%nat 0%nat) 0 (rsum n (fun k => entry g i k * u k)).
Proof.
  intros n dims acts dacts e v ps X g i u M La Ld Da F Hc EG Hi.
  set (dX := {| rows := rows X; cols := cols X; entry := fun r k => if Nat.eqb i r then u k else 0 |}).
  set (ones := {| rows := rows X; cols := 1; entry := fun _ _ => 1 |}).
  destruct (C111_gradients n dims acts dacts e v ps (map zero_like ps) X dX ones M La Ld Da F (same_zero ps) Hc (conj eq_refl eq_refl))
    as (gX & gps & V & E & [rg cg] & _ & EV & D).
  unfold grad_lyapunov_function in EG. fold ones in EG. rewrite E in EG. cbn [bind fst] in EG. injection EG as <-.
  exists (fun t => match lyapunov_eval v ps (one_point n (fun k => entry X i k + t * u k)) with Ok V => V | Err _ => X end).
  assert (ET : forall t, exists V, lyapunov_eval v ps (one_point n (fun k => entry X i k + t * u k)) = Ok V).
  { intros t. apply (C54_total n dims acts e v _ _ M ltac:(lia) F). reflexivity. }
  split; [intros t; destruct (ET t) as [W ->]; reflexivity|].
  rewrite tdots_zero, Rplus_0_r in D.
  assert (TD : tdot gX dX = rsum n (fun k => entry gX i k * u k)).
  { unfold tdot. rewrite rg, cg, Hc.
    rewrite (rsum_ext (rows X) _ (fun r => rsum n (fun k => entry gX r k * u k) * (if Nat.eqb i r then 1 else 0))).
    - now rewrite (rsum_delta (rows X) (fun r => rsum n (fun k => entry gX r k * u k)) i Hi).
    - intros r _. rewrite Rmult_comm, <- rsum_scal. apply rsum_ext. intros k _. unfold dX. cbn [entry]. destruct (Nat.eqb i r); ring. }
  rewrite TD in D.
  set (rest := rsum (rows X) (fun r => if Nat.eqb i r then 0 else val e n dims acts ps (entry X r))).
  apply (is_derive_ext (fun t => rsum (rows X) (fun r => entry ones r 0%nat * entry (V t) r 0%nat) + - rest)).
  - intros t. destruct (ET t) as [W EW]. rewrite EW.
    rewrite (proj2 (eval_val n dims acts e v ps (one_point n _) _ M eq_refl EW) 0%nat).
    specialize (EV t). rewrite moved_zero in EV.
    destruct (eval_val n dims acts e v ps (moved t X dX) (V t) M Hc EV) as [_ ev].
    rewrite (rsum_ext (rows X) _ (fun r => val e n dims acts ps (fun k => entry X i k + t * u k) * (if Nat.eqb i r then 1 else 0) +
                                           (if Nat.eqb i r then 0 else val e n dims acts ps (entry X r)))).
    + rewrite rsum_plus. fold rest.
      rewrite (rsum_delta (rows X) (fun _ => val e n dims acts ps (fun k => entry X i k + t * u k)) i Hi). cbn [one_point entry].
      unfold ones. cbn. ring.
    + intros r _. rewrite ev. unfold ones. cbn [entry moved dX]. destruct (Nat.eqb_spec i r) as [<-|]; [ring|].
      replace (fun j => entry X r j + t * 0) with (entry X r); [ring|]. extensionality j. ring.
  - eapply dconv; [apply (dplus (fun t => rsum (rows X) (fun r => entry ones r 0%nat * entry (V t) r 0%nat)) (fun _ => - rest)); [exact D|apply dconst]|]. ring.
Qed.
Print Assumptions C111_points.

(** ** As Lipschitz constants *)
(** Where the constants of a whole segment are known, they bound the change between its
    ends. *)
Theorem C111_segment : forall n dims acts dacts e v ps p q Vp Vq c r,
  make_lyapunov_network n dims acts e = Ok v -> length acts = length dims -> length dacts = length dims ->
  (forall a, In a (combine acts dacts) -> forall u : R, is_derive (fst a) u (snd a u)) ->
  List.Forall2 (fun s W => shaped (fst s) (snd s) W) (variable_shapes n dims) ps ->
  lyapunov_eval v ps (one_point n p) = Ok Vp -> lyapunov_eval v ps (one_point n q) = Ok Vq ->
  (forall s L, 0 <= s <= 1 -> L_v v dacts ps (one_point n (fun k => p k + s * (q k - p k))) = Ok L -> entry L 0%nat 0%nat <= c) ->
  (forall k, (k < n)%nat -> Rabs (q k - p k) <= r) -> 0 <= r ->
  Rabs (entry Vq 0%nat 0%nat - entry Vp 0%nat 0%nat) <= c * r.
Proof.
  intros n dims acts dacts e v ps p q Vp Vq c r M La Ld Da F EP EQ HL Hr R0.
  set (u := fun k => q k - p k). set (at_ := fun s k => p k + s * u k).
  set (Fn := fun s => val e n dims acts ps (at_ s)).
  assert (G : forall s, exists g, grad_lyapunov_function v dacts ps (one_point n (at_ s)) = Ok g /\ rows g = 1%nat /\ cols g = n /\
     is_derive Fn s (rsum n (fun k => entry g 0%nat k * u k))).
  { intros s. destruct (grad_total n dims acts dacts e v ps (one_point n (at_ s)) M La Ld F eq_refl) as (g & Eg & rg & cg).
    exists g. split; [exact Eg|]. split; [exact rg|]. split; [exact cg|].
    destruct (C111_points n dims acts dacts e v ps (one_point n (at_ s)) g 0%nat u M La Ld Da F eq_refl Eg ltac:(cbn; lia)) as (V & EV & D).
    assert (D2 : is_derive (fun t => (fun z => entry (V z) 0%nat 0%nat) (t - s)) s (rsum n (fun k => entry g 0%nat k * u k) * 1)).
    { refine (dcomp (fun t => t - s) (fun z => entry (V z) 0%nat 0%nat) s 1 _ _ _).
      - apply (dconv _ _ (1 - 0)); [|ring]. apply is_derive_Reals. apply derivable_pt_lim_minus; [apply derivable_pt_lim_id|apply derivable_pt_lim_const].
      - replace (s - s) with 0 by ring. exact D. }
    rewrite Rmult_1_r in D2. eapply is_derive_ext; [|exact D2]. intros t. cbn beta.
    rewrite (proj2 (eval_val n dims acts e v ps (one_point n _) _ M eq_refl (EV (t - s))) 0%nat). unfold Fn. f_equal.
    cbn [one_point entry]. extensionality k. unfold at_. ring. }
  assert (D : forall s, is_derive Fn s (Derive Fn s)).
  { intros s. destruct (G s) as (g & _ & _ & _ & H). apply Derive_correct. eexists; exact H. }
  destruct (MVT_gen Fn 0 1 (Derive Fn)) as (s & Hs & Es).
  { intros s _. apply D. }
  { intros s _. apply derivable_continuous_pt. exists (Derive Fn s). apply is_derive_Reals, D. }
  rewrite Rmin_left, Rmax_right in Hs by lra.
  replace (entry Vq 0%nat 0%nat) with (Fn 1). 2:{ unfold Fn. rewrite (proj2 (eval_val n dims acts e v ps (one_point n _) _ M eq_refl EQ) 0%nat). f_equal.
    cbn [one_point entry]. extensionality k. unfold at_, u. ring. }
  replace (entry Vp 0%nat 0%nat) with (Fn 0). 2:{ unfold Fn. rewrite (proj2 (eval_val n dims acts e v ps (one_point n _) _ M eq_refl EP) 0%nat). f_equal.
    cbn [one_point entry]. extensionality k. unfold at_, u. ring. }
  rewrite Es. destruct (G s) as (g & Eg & rg & cg & H). rewrite (is_derive_unique _ _ _ H).
  rewrite Rminus_0_r, Rmult_1_r. eapply Rle_trans; [apply LipProofs.rsum_abs|].
  apply (Rle_trans _ (rsum n (fun k => r * Rabs (entry g 0%nat k)))).
  - apply rsum_le. intros k Hk. rewrite Rabs_mult, (Rmult_comm r). apply Rmult_le_compat_l; [apply Rabs_pos|]. now apply Hr.
  - rewrite rsum_scal, Rmult_comm. apply Rmult_le_compat_r; [exact R0|].
    specialize (HL s {| rows := rows g; cols := 1; entry := fun i _ => rsum (cols g) (fun k => Rabs (entry g i k)) |} Hs).
    cbn [entry] in HL. rewrite cg in HL. apply HL. unfold L_v. change (fun k => p k + s * (q k - p k)) with (at_ s). rewrite Eg. cbn [bind]. now rewrite cg.
Qed.
Print Assumptions C111_segment.

Lemma derive_min (f : R -> R) l : is_derive f 0 l -> (forall t, f 0 <= f t) -> l = 0.
Proof.
  intros D H. apply is_derive_Reals in D. pose (pr := exist _ l D : derivable_pt f 0).
  assert (E : derive_pt f 0 pr = l) by reflexivity. rewrite <- E.
  apply (deriv_minimum f (-1) 1 0 pr); intros; auto; lra.
Qed.
Lemma forward_zero e : forall dims d acts ps, increasing d dims -> List.Forall (fun f => f 0 = 0) acts ->
  forall x, (forall k, (k < d)%nat -> x k = 0) -> forall j, (j < last_dim d dims)%nat -> (length dims <= length acts)%nat ->
  List.Forall2 (fun s W => shaped (fst s) (snd s) W) (variable_shapes d dims) ps -> forward e d dims acts ps x j = 0.
Proof.
  induction dims as [|d' dims IH]; intros d acts ps I Ha x Hx j Hj Hl F; [now apply Hx|].
  destruct I as [Hd I]. destruct acts as [|f acts]; [cbn in Hl; lia|]. inversion Ha as [|? ? Hf Ha']; subst.
  inversion F as [|? W ? ps1 SW F1]; subst. cbn [forward last_dim] in *.
  destruct (Nat.ltb_spec d d') as [lt|ge].
  - inversion F1 as [|? V ? ps2 SV F2]; subst. apply IH; auto; [|cbn in Hl; lia]. intros k _. now rewrite layer_zero.
  - apply IH; auto; [|cbn in Hl; lia]. intros k _. now rewrite layer_zero.
Qed.

(** At the origin the constant of every network is zero, but the values differ from that
    at the origin everywhere else: it holds in no neighbourhood. *)
Theorem C111_lipschitz_refuted : forall n dims acts dacts e v ps p,
  make_lyapunov_network n dims acts e = Ok v -> length acts = length dims -> length dacts = length dims ->
  (forall a, In a (combine acts dacts) -> forall u : R, is_derive (fst a) u (snd a u)) ->
  0 < e -> List.Forall (fun f => forall u, f u = 0 <-> u = 0) acts ->
  List.Forall2 (fun s W => shaped (fst s) (snd s) W) (variable_shapes n dims) ps ->
  (exists k, (k < n)%nat /\ p k <> 0) ->
  exists L V0 Vp, L_v v dacts ps (one_point n (fun _ => 0)) = Ok L /\ entry L 0%nat 0%nat = 0 /\
    lyapunov_eval v ps (one_point n (fun _ => 0)) = Ok V0 /\ lyapunov_eval v ps (one_point n p) = Ok Vp /\
    forall distance, entry L 0%nat 0%nat * distance < Rabs (entry Vp 0%nat 0%nat - entry V0 0%nat 0%nat).
Proof.
  intros n dims acts dacts e v ps p M La Ld Da He Ha F Hp.
  destruct (grad_total n dims acts dacts e v ps (one_point n (fun _ => 0)) M La Ld F eq_refl) as (g & Eg & rg & cg).
  destruct (C54_total n dims acts e v ps (one_point n (fun _ => 0)) M ltac:(lia) F eq_refl) as [V0 E0].
  destruct (C54_total n dims acts e v ps (one_point n p) M ltac:(lia) F eq_refl) as [Vp Ep].
  destruct (C54_positive_definite n dims acts e v ps (one_point n _) _ M He Ha eq_refl E0) as (_ & _ & Z0).
  destruct (C54_positive_definite n dims acts e v ps (one_point n _) _ M He Ha eq_refl Ep) as (_ & _ & Zp).
  destruct (Z0 0%nat ltac:(cbn; lia)) as [_ Z0']. destruct (Zp 0%nat ltac:(cbn; lia)) as [Pp Zp'].
  assert (V00 : entry V0 0%nat 0%nat = 0) by (apply Z0'; reflexivity).
  assert (Vpn : entry Vp 0%nat 0%nat <> 0) by (intros Q; destruct Hp as (k & Hk & N); apply N; exact (proj1 Zp' Q k Hk)).
  assert (GZ : forall k, (k < n)%nat -> entry g 0%nat k = 0).
  { intros k Hk. set (u := fun l => if Nat.eqb k l then 1 else 0).
    destruct (C111_points n dims acts dacts e v ps (one_point n (fun _ => 0)) g 0%nat u M La Ld Da F eq_refl Eg ltac:(cbn; lia)) as (V & EV & D).
    assert (D1 := dconv _ _ _ _ D (rsum_delta n (entry g 0%nat) k Hk)). apply (derive_min _ _ D1). intros t.
    destruct (C54_positive_definite n dims acts e v ps (one_point n _) _ M He Ha eq_refl (EV t)) as (_ & _ & Zt).
    destruct (C54_positive_definite n dims acts e v ps (one_point n _) _ M He Ha eq_refl (EV 0)) as (_ & _ & Z00).
    replace (entry (V 0) 0%nat 0%nat) with 0; [apply Zt; cbn; lia|]. symmetry. apply Z00; [cbn; lia|].
    intros l _. cbn. ring. }
  exists {| rows := rows g; cols := 1; entry := fun i _ => rsum (cols g) (fun k => Rabs (entry g i k)) |}, V0, Vp.
  assert (L0 : rsum (cols g) (fun k => Rabs (entry g 0%nat k)) = 0).
  { rewrite cg, (rsum_ext n _ (fun _ => 0)); [apply rsum_zero|]. intros k Hk. rewrite GZ by auto. apply Rabs_R0. }
  split; [unfold L_v; rewrite Eg; reflexivity|]. cbn [entry]. split; [exact L0|]. split; [exact E0|]. split; [exact Ep|].
  intros distance. rewrite L0, Rmult_0_l, V00, Rminus_0_r. apply Rabs_pos_lt. exact Vpn.
Qed.
Print Assumptions C111_lipschitz_refuted.

(** ** The network of the example *)
Lemma tanh_derive (u : R) : is_derive tanh u (1 - tanh u * tanh u).
Proof.
  assert (C : cosh u <> 0) by (unfold cosh; pose proof (exp_pos u); pose proof (exp_pos (- u)); lra).
  assert (H : derivable_pt_lim (fun u => sinh u / cosh u) u ((cosh u * cosh u - sinh u * sinh u) / Rsqr (cosh u))).
  { apply (derivable_pt_lim_div sinh cosh u (cosh u) (sinh u) (derivable_pt_lim_sinh u) (derivable_pt_lim_cosh u) C). }
  apply is_derive_Reals in H. eapply dconv; [exact H|]. unfold tanh, Rsqr. field. exact C.
Qed.

(** Three layers of 64 units for two inputs, all weights 1. *)
Definition weights (dims : list nat) : list tensor :=
  map (fun s => {| rows := fst s; cols := snd s; entry := fun _ _ => 1 |}) (variable_shapes 2 dims).
Definition dtanh (u : R) : R := 1 - tanh u * tanh u.
Theorem C111_ex : exists v, make_lyapunov_network 2 [64; 64; 64]%nat [tanh; tanh; tanh] (1 / 100000000) = Ok v /\
  let ps := weights [64; 64; 64]%nat in
  (exists L V0 V1, L_v v [dtanh; dtanh; dtanh] ps (one_point 2 (fun _ => 0)) = Ok L /\ entry L 0%nat 0%nat = 0 /\
     lyapunov_eval v ps (one_point 2 (fun _ => 0)) = Ok V0 /\ lyapunov_eval v ps (one_point 2 (fun _ => 1 / 1000)) = Ok V1 /\
     entry V0 0%nat 0%nat <> entry V1 0%nat 0%nat) /\
  forall X dys dps, cols X = 2%nat -> List.Forall2 same_shape ps dps -> exists gX gps V,
    lyapunov_gradients v [dtanh; dtanh; dtanh] ps X dys = Ok (gX, gps) /\
    (forall t, lyapunov_eval v (moved_all t ps dps) (moved t X X) = Ok (V t)) /\
    is_derive (fun t => rsum (rows X) (fun i => entry dys i 0%nat * entry (V t) i 0%nat)) 0 (tdot gX X + tdots gps dps).
Proof.
  assert (M : exists v, make_lyapunov_network 2 [64; 64; 64]%nat [tanh; tanh; tanh] (1 / 100000000) = Ok v) by (eexists; reflexivity).
  destruct M as [v M]. exists v. split; [exact M|]. intros ps.
  assert (Da : forall a, In a (combine [tanh; tanh; tanh] [dtanh; dtanh; dtanh]) -> forall u : R, is_derive (fst a) u (snd a u)).
  { intros a Ia u. cbn in Ia. destruct Ia as [<-|[<-|[<-|[]]]]; apply tanh_derive. }
  assert (F : List.Forall2 (fun s W => shaped (fst s) (snd s) W) (variable_shapes 2 [64; 64; 64]%nat) ps).
  { unfold ps, weights. induction (variable_shapes 2 [64; 64; 64]%nat) as [|[a b] l IH]; cbn [map]; constructor; [split; reflexivity|exact IH]. }
  split.
  - destruct (C111_lipschitz_refuted 2 [64; 64; 64]%nat [tanh; tanh; tanh] [dtanh; dtanh; dtanh] (1 / 100000000) v ps (fun _ => 1 / 1000) M eq_refl eq_refl Da)
      as (L & V0 & V1 & EL & L0 & E0 & E1 & H); [lra|repeat constructor; apply tanh_zero|exact F|exists 0%nat; split; [lia|lra]|].
    exists L, V0, V1. split; [exact EL|]. split; [exact L0|]. split; [exact E0|]. split; [exact E1|].
    intros Q. specialize (H 0). rewrite Q, Rminus_eq_0, Rabs_R0, Rmult_0_r in H. lra.
  - intros X dys dps Hc S. destruct (C111_gradients 2 [64; 64; 64]%nat [tanh; tanh; tanh] [dtanh; dtanh; dtanh] (1 / 100000000) v ps dps X X dys M eq_refl eq_refl Da F S Hc (conj eq_refl eq_refl))
      as (gX & gps & V & E & _ & _ & EV & D). exists gX, gps, V. auto.
Qed.
