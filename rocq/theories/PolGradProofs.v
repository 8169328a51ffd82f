(** Proofs about policy optimization by gradient descent. *)
From Coq Require Import Reals List Bool Arith ZArith Lia Lra.
From Coquelicot Require Import Coquelicot.
From Verif Require Import Prelude FunModel QuadModel QuadProofs AutoNetProofs2.
From Verif Require Import NumModel NumProofs ListFacts GridModel GridSpec GridProofs TriModel TriSpec TriProofs TriProofs2 SafeModel CertModel RLModel RLProofs
  AutoTriModel AutoTriSpec AutoTriProofs Properties.AutoTriProps PolGradModel PolGradSpec.
Import ListNotations.
Local Open Scope R_scope.

Lemma rsum_sumn n f : rsum n f = sumn n f.
Proof. induction n as [|n IH]; [reflexivity|]. rewrite rsum_S, IH. reflexivity. Qed.
Lemma dsumn n (f : nat -> R -> R) df t : (forall i, (i < n)%nat -> is_derive (f i) t (df i)) ->
  is_derive (fun s => sumn n (fun i => f i s)) t (sumn n df).
Proof.
  intros H. apply (is_derive_ext (fun s => rsum n (fun i => f i s))); [intros; apply rsum_sumn|].
  eapply dconv; [apply dsum, H|apply rsum_sumn].
Qed.
Lemma locally_all n (Q : nat -> R -> Prop) x : (forall j, (j < n)%nat -> locally x (Q j)) ->
  locally x (fun t => forall j, (j < n)%nat -> Q j t).
Proof.
  induction n as [|n IH]; intros H.
  - apply filter_forall. intros; lia.
  - apply (filter_imp (fun t => (forall j, (j < n)%nat -> Q j t) /\ Q n t)).
    + intros t [A B] j Hj. destruct (Nat.eq_dec j n) as [->|]; [exact B|apply A; lia].
    + apply filter_and; auto.
Qed.
Lemma locally_near (f : R -> R) l e : is_derive f 0 l -> 0 < e -> locally 0 (fun t => Rabs (f t - f 0) < e).
Proof.
  intros D He. apply is_derive_Reals in D. assert (C : continuity_pt f 0) by (apply derivable_continuous_pt; now exists l).
  destruct (C e He) as (d & Hd & H). exists (mkposreal d Hd). intros y Hy. destruct (Req_dec y 0) as [->|N].
  - rewrite Rminus_diag_eq, Rabs_R0; auto.
  - apply (H y). split; [split; [exact I|auto]|exact Hy].
Qed.

(** ** The value function along a curve *)
Section Value.
Variables (dl : list vec -> delaunay) (inv : mat -> res mat) (g : grid) (values : mat) (project : bool) (t : tri) (T : tf_tri).
Hypothesis SU : TriSpec.setup dl inv g values 1 project t.
Hypothesis WR : wraps T t values.

Definition val (x : vec) : R := objective t 1 [1] x.
Lemma inner_eval x : tf_eval1 T x = tri_eval1 t x.
Proof using SU WR.
  destruct WR as [EV [old EI]]. destruct (setup_wf dl inv g values 1 project t SU) as (_ & PE & _).
  destruct T as [v u]. cbn in EV, EI. subst v u. rewrite tf_is_tri. unfold with_params. cbn. rewrite <- PE. destruct t; reflexivity.
Qed.
Lemma value_ok x : length x = dims g -> value_at_state T x = Ok (val x) /\ forall c, objective t 1 [c] x = c * val x.
Proof using SU WR.
  intros L. destruct (find dl inv g values 1 project t SU x L) as (id & verts & vp & w & G & c & q & y & r & Lo).
  destruct (eval_located dl inv g values 1 project t SU _ _ _ _ _ _ _ _ _ _ Lo) as (out & E & Lout & _).
  destruct out as [|v [|? ?]]; try discriminate.
  unfold val, objective, value_at_state, tri_eval. rewrite inner_eval. cbn [mapM]. rewrite E. cbn [bind].
  split; [f_equal|intros c0]; unfold coordinate; cbn; ring.
Qed.

Lemma backprop_one x c : length x = dims g ->
  exists dx s, tf_backprop1 T x [c] = Ok (dx, s) /\ length dx = dims g /\ tf_gradients T [x] [[c]] = Ok ([dx], s).
Proof using SU WR.
  intros L. destruct (find dl inv g values 1 project t SU x L) as (id & verts & vp & w & G & cc & q & y & r & Lo).
  destruct (back_located dl inv g values 1 project t SU T WR _ _ _ _ _ _ _ _ _ _ [c] Lo L eq_refl) as (dx & E & Ldx & _).
  exists dx. eexists. split; [exact E|]. split; [exact Ldx|]. unfold tf_gradients. cbn [combine mapM fst snd]. rewrite E. cbn [bind map fst snd concat]. now rewrite app_nil_r.
Qed.

Lemma value_curve (y : R -> vec) u c id r : (forall s, length (y s) = dims g) ->
  (forall j, (j < dims g)%nat -> is_derive (fun s => coordinate (y s) j) 0 (u j)) -> 0 < r ->
  (forall x, length x = dims g -> (forall j, (j < dims g)%nat -> Rabs (coordinate x j - coordinate (y 0) j) < r) -> find_simplex t x = Ok id) ->
  (project = true -> forall j, (j < dims g)%nat -> coordinate (y 0) j <> lower g j /\ coordinate (y 0) j <> upper g j) ->
  exists dx s, tf_backprop1 T (y 0) [c] = Ok (dx, s) /\ length dx = dims g /\
    is_derive (fun s => c * val (y s)) 0 (sumn (dims g) (fun j => coordinate dx j * u j)).
Proof using SU WR.
  intros L Du Hr Near Off. destruct (backprop_one (y 0) c (L 0)) as (dx & s & EB & Ldx & EG). exists dx, s. split; [exact EB|]. split; [exact Ldx|].
  assert (E0 : find_simplex t (y 0) = Ok id).
  { apply Near; auto. intros. rewrite Rminus_diag_eq, Rabs_R0; auto. }
  apply (is_derive_ext_loc (fun s => c * val (y 0) + sumn (dims g) (fun j => coordinate dx j * (coordinate (y s) j - coordinate (y 0) j)))).
  - apply (filter_imp (fun s => forall j, (j < dims g)%nat -> Rabs (coordinate (y s) j - coordinate (y 0) j) < r /\
        (project = true -> Rabs (coordinate (y s) j - coordinate (y 0) j) < Rabs (coordinate (y 0) j - lower g j) /\
                           Rabs (coordinate (y s) j - coordinate (y 0) j) < Rabs (coordinate (y 0) j - upper g j)))).
    + intros z Hz.
      destruct (C109_slope dl inv g values 1 project t T (y 0) (y z) id [c] SU WR (L 0) (L z) eq_refl E0) as (dx1 & s1 & EG1 & H1).
      { apply Near; auto. intros j Hj. now apply Hz. }
      { intros P j Hj. destruct (Hz j Hj) as [_ K]. destruct (K P) as [K1 K2]. destruct (Off P j Hj) as [O1 O2].
        pose proof (limits_ordered g j (su_grid _ _ _ _ _ _ _ SU) Hj) as LL. unfold within_limits. revert K1 K2. unfold Rabs.
        destruct (Rcase_abs (coordinate (y z) j - coordinate (y 0) j)), (Rcase_abs (coordinate (y 0) j - lower g j)), (Rcase_abs (coordinate (y 0) j - upper g j)); lra. }
      rewrite EG in EG1. injection EG1 as <- <-. rewrite <- H1.
      rewrite (proj2 (value_ok _ (L z)) c), (proj2 (value_ok _ (L 0)) c).
      change (c * val (y 0) + (c * val (y z) - c * val (y 0)) = c * val (y z)). ring.
    + apply locally_all. intros j Hj. apply filter_and; [apply (locally_near (fun s => coordinate (y s) j) (u j)); auto|].
      destruct project.
      * destruct (Off eq_refl j Hj) as [O1 O2].
        apply (filter_imp (fun z => Rabs (coordinate (y z) j - coordinate (y 0) j) < Rabs (coordinate (y 0) j - lower g j) /\
                           Rabs (coordinate (y z) j - coordinate (y 0) j) < Rabs (coordinate (y 0) j - upper g j))); [auto|].
        apply filter_and; apply (locally_near (fun s => coordinate (y s) j) (u j)); auto; apply Rabs_pos_lt; lra.
      * apply filter_forall. intros; discriminate.
  - eapply dconv; [apply (dplus (fun _ => c * val (y 0)) (fun s => sumn (dims g) (fun j => coordinate dx j * (coordinate (y s) j - coordinate (y 0) j)))
        0 0 (sumn (dims g) (fun j => coordinate dx j * u j))); [apply dconst|]|ring].
    apply (dsumn (dims g) (fun j s => coordinate dx j * (coordinate (y s) j - coordinate (y 0) j))). intros j Hj. apply dscal.
    eapply dconv; [apply (dplus (fun s => coordinate (y s) j) (fun _ => - coordinate (y 0) j)); [apply Du, Hj|apply dconst]|ring].
Qed.
End Value.

(** ** One state *)
Section State.
Variables (dl : list vec -> delaunay) (inv : mat -> res mat) (g : grid) (values : mat) (project : bool) (t : tri).
Variables (P : learner) (D : rates) (n : nat).
Hypothesis SU : TriSpec.setup dl inv g values 1 project t.
Hypothesis WR : wraps (rl_value P) t values.

Definition unit_vec (m j : nat) : vec := map (fun i => if Nat.eqb i j then 1 else 0) (seq 0 m).
Lemma unit_vec_coord m j i : (i < m)%nat -> coordinate (unit_vec m j) i = if Nat.eqb i j then 1 else 0.
Proof. intros H. unfold unit_vec, coordinate. rewrite (nth_map_lt _ _ _ 0%nat) by now rewrite seq_length. now rewrite seq_nth. Qed.

Definition fval (s a : list R) : R := rl_reward P s a + rl_gamma P * val t (next_of P s a).
Lemma fval_ok s a : length (next_of P s a) = dims g -> future_value P None (Some a) None s = Ok (fval s a).
Proof using SU WR.
  intros L. unfold future_value, fval, next_of in *. destruct (value_ok dl inv g values project t (rl_value P) SU WR _ L) as [E _].
  destruct (rl_dynamics P s a); rewrite E; reflexivity.
Qed.

Lemma state_derive s w (a : R -> list R) v : smooth_state P D g t n s (a 0) -> (forall z, length (a z) = n) ->
  (forall k, (k < n)%nat -> is_derive (fun z => coordinate (a z) k) 0 (v k)) ->
  exists da, future_backprop1 P D s (a 0) w = Ok da /\ length da = n /\
    is_derive (fun z => w * fval s (a z)) 0 (sumn n (fun k => coordinate da k * v k)).
Proof using SU WR.
  intros [[Lr SR] SL SD (id & r & Hr & Near) Off] La Da.
  destruct (setup_wf dl inv g values 1 project t SU) as (_ & _ & PJ). rewrite PJ in Off.
  set (u := fun j => sumn n (fun k => coordinate (d_dynamics D s (a 0) (unit_vec (dims g) j)) k * v k)).
  assert (Du : forall j, (j < dims g)%nat -> is_derive (fun z => coordinate (next_of P s (a z)) j) 0 (u j)).
  { intros j Hj. destruct (SD (unit_vec (dims g) j)) as [_ G]; [unfold unit_vec; now rewrite map_length, seq_length|].
    eapply is_derive_ext; [|exact (G a v eq_refl La Da)]. intros z. cbn beta.
    etransitivity; [|exact (sumn_delta (dims g) j (fun i => coordinate (next_of P s (a z)) i) Hj)]. apply sumn_ext. intros i Hi.
    rewrite unit_vec_coord by auto. unfold delta. destruct (i =? j)%nat; ring. }
  destruct (value_curve dl inv g values project t (rl_value P) SU WR (fun z => next_of P s (a z)) u (rl_gamma P * w) id r)
    as (dx & sl & EB & Ldx & DV); auto.
  destruct (SD dx Ldx) as [Ld G]. specialize (G a v eq_refl La Da).
  assert (Q : sumn n (fun k => coordinate (d_dynamics D s (a 0) dx) k * v k) = sumn (dims g) (fun j => coordinate dx j * u j)).
  { rewrite <- (is_derive_unique _ _ _ G). apply is_derive_unique.
    apply (dsumn (dims g) (fun j z => coordinate dx j * coordinate (next_of P s (a z)) j)). intros j Hj. apply dscal. now apply Du. }
  exists (vadd (vscale w (d_reward D s (a 0))) (d_dynamics D s (a 0) dx)).
  assert (LV : length (vscale w (d_reward D s (a 0))) = n) by (unfold vscale; now rewrite map_length).
  split; [|split].
  - unfold future_backprop1. fold (next_of P s (a 0)). rewrite EB. reflexivity.
  - unfold vadd. rewrite map2_length. lia.
  - apply (is_derive_ext (fun z => w * rl_reward P s (a z) + rl_gamma P * w * val t (next_of P s (a z)))).
    { intros z. unfold fval. change (w * rl_reward P s (a z) + rl_gamma P * w * val t (next_of P s (a z)) =
        w * (rl_reward P s (a z) + rl_gamma P * val t (next_of P s (a z)))). ring. }
    eapply dconv; [apply (dplus (fun z => w * rl_reward P s (a z)) (fun z => rl_gamma P * w * val t (next_of P s (a z))));
      [apply dscal; exact (SR a v eq_refl La Da)|exact DV]|].
    rewrite <- Q, <- sumn_scal, <- sumn_plus. apply sumn_ext. intros k Hk. unfold vadd, coordinate.
    rewrite (nth_map2 _ _ _ _ 0 0) by lia. unfold vscale. rewrite (nth_map_lt _ _ _ 0) by lia. ring.
Qed.

(** ** All states *)
Lemma loss_derive : forall states (a : list (R -> list R)) ws (v : nat -> nat -> R),
  length a = length states -> length ws = length states ->
  (forall i, (i < length states)%nat -> smooth_state P D g t n (nth i states []) (nth i a (fun _ => []) 0) /\
     (forall z, length (nth i a (fun _ => []) z) = n) /\
     forall k, (k < n)%nat -> is_derive (fun z => coordinate (nth i a (fun _ => []) z) k) 0 (v i k)) ->
  exists da L, loss_backprop P D states (map (fun c => c 0) a) ws = Ok da /\ length da = length states /\
    List.Forall (fun r => length r = n) da /\
    (forall z, loss_of P states (map (fun c => c z) a) ws = Ok (L z)) /\
    is_derive L 0 (sumn (length states) (fun i => sumn n (fun k => coordinate (nth i da []) k * v i k))).
Proof using SU WR.
  induction states as [|s states IH]; intros a ws v La Lw H.
  - destruct a; [|discriminate]. destruct ws; [|discriminate]. exists [], (fun _ => 0). repeat (split; [solve [auto]|]). apply dconst.
  - destruct a as [|c a]; [discriminate|]. destruct ws as [|w ws]; [discriminate|]. injection La as La. injection Lw as Lw.
    destruct (IH a ws (fun i => v (S i)) La Lw) as (da & L & E & Lda & F & EL & DL).
    { intros i Hi. exact (H (S i) ltac:(cbn [length]; lia)). }
    destruct (H 0%nat ltac:(cbn [length]; lia)) as (S0 & L0 & D0). cbn [nth] in S0, L0, D0.
    destruct (state_derive s w c (v 0%nat) S0 L0 D0) as (d0 & E0 & Ld0 & DD).
    exists (d0 :: da), (fun z => w * fval s (c z) + L z). split; [|split; [cbn [length]; lia|split; [constructor; auto|split]]].
    + unfold loss_backprop in *. cbn [map combine mapM fst snd]. rewrite E0. cbn [bind]. rewrite E. reflexivity.
    + intros z. specialize (EL z). unfold loss_of in *. cbn [map combine mapM fst snd].
      rewrite fval_ok by (apply (ss_length _ _ _ _ _ _ _ S0); auto). cbn [bind].
      destruct (mapM _ (combine states (map (fun c => c z) a))) as [vs|]; [|discriminate]. cbn [bind] in *. injection EL as EL.
      cbn [map2]. unfold sum in *. cbn [fold_right]. now rewrite EL.
    + cbn [length]. eapply dconv; [apply (dplus (fun z => w * fval s (c z)) L); [exact DD|exact DL]|]. rewrite sumn_S_l. reflexivity.
Qed.
End State.
