(** Property C116: the derivatives of the example systems. *)
From Coq Require Import Reals List Bool Arith Lia Lra.
From Coquelicot Require Import Coquelicot.
From Verif Require Import NumModel ListFacts GridModel GridSpec TriModel TriSpec AutoTriModel SafeModel CertModel RLModel LyapNetModel AutoNetModel LoopModel ExUtilModel RoaTrainModel.
From Verif Require Import Prelude FunModel QuadModel QuadProofs NNModel NNProofs AutoNetSpec AutoNetProofs2 AutoNNModel AutoNNSpec PolGradModel PolGradSpec PolGradProofs TrainGradModel ActorModel ActorGradModel ActorGradSpec DynModel DynSpec SimGradModel SimGradSpec SimGradProofs.
From Verif.Properties Require Import ActorGradProps2.
From Verif Require Import FunModel QuadSpec ActorModel ActorSpec AutoNetSpec.
Import ListNotations.
Local Open Scope R_scope.

Lemma run_gradient n nm dt ode dode xu dy : ode_derive n ode dode -> fits n nm -> length xu = (n + 1)%nat -> length dy = n ->
  (exists y, run_model n nm dt ode xu = Ok y /\ length y = n) /\
  exists g, run_backprop n nm dt ode dode xu dy = Ok g /\ is_gradient (n + 1) (fun c => weighted dy (run_model n nm dt ode c)) xu g.
Proof.
  intros OD F L Ld. destruct (run_derive n nm dt ode dode OD F) as (T & G). split; [auto|].
  destruct (G xu dy L Ld) as (g & E & Lg & H). exists g. split; auto. split; auto.
  intros c v C0 LC DC. apply (dconv _ _ _ _ (H c v (conj C0 (conj LC DC)))). unfold wd. exact (rsum_sumn _ _).
Qed.

(** The pendulum *)
Theorem C116_pendulum : forall p xu dy, mass p <> 0 -> arm p <> 0 -> fits 2 (pendulum_norm p) -> nonzero (pendulum_norm p) ->
  length xu = 3%nat -> length dy = 2%nat ->
  (exists y, pendulum_eval p xu = Ok y /\ length y = 2%nat) /\
  exists g, pendulum_backprop p xu dy = Ok g /\ is_gradient 3 (fun c => weighted dy (pendulum_eval p c)) xu g.
Proof. intros p xu dy _ _ F _ L Ld. exact (run_gradient 2 _ _ _ _ xu dy (pendulum_derive p) F L Ld). Qed.

(** The cart-pole *)
Theorem C116_cartpole : forall p xu dy, 0 < pole_mass p -> 0 < cart_mass p -> pole_length p <> 0 ->
  fits 4 (cartpole_norm p) -> nonzero (cartpole_norm p) -> length xu = 5%nat -> length dy = 4%nat ->
  (exists y, cartpole_eval p xu = Ok y /\ length y = 4%nat) /\
  exists g, cartpole_backprop p xu dy = Ok g /\ is_gradient 5 (fun c => weighted dy (cartpole_eval p c)) xu g.
Proof. intros p xu dy Hm HM HL F _ L Ld. exact (run_gradient 4 _ _ _ _ xu dy (cartpole_derive p Hm HM HL) F L Ld). Qed.

(** Batches *)
Lemma row_list_length t i : length (row_list t i) = cols t.
Proof. unfold row_list. now rewrite map_length, seq_length. Qed.
Lemma row_list_nth t i k : (k < cols t)%nat -> nth k (row_list t i) 0 = entry t i k.
Proof.
  intros H. unfold row_list. rewrite (nth_indep _ 0 (entry t i 0%nat)) by (rewrite map_length, seq_length; lia).
  rewrite (map_nth (entry t i)), seq_nth by lia. reflexivity.
Qed.
Lemma batched_gradient n f df X U :
  (forall xu, length xu = (n + 1)%nat -> exists y, f xu = Ok y /\ length y = n) ->
  (forall xu dy, length xu = (n + 1)%nat -> length dy = n -> exists g, df xu dy = Ok g /\ is_gradient (n + 1) (fun c => weighted dy (f c)) xu g) ->
  cols X = n -> cols U = 1%nat -> rows U = rows X -> dynamics_gradient n (batched n f) (batched_backprop df) X U.
Proof.
  intros T G cX cU rU.
  assert (P : forall U', same_shape U U' -> exists Y, batched n f X U' = Ok Y /\ rows Y = rows X /\ cols Y = n /\
     forall i, (i < rows X)%nat -> exists y, f (row_list X i ++ row_list U' i) = Ok y /\ forall j, entry Y i j = nth j y 0).
  { intros U' (S1 & S2). unfold batched. cbn [hcat bind]. unfold hcat2. replace (rows U') with (rows X) by congruence. rewrite Nat.eqb_refl. cbn [bind rows].
    set (pts := {| rows := rows X; cols := cols X + cols U'; entry := _ |}).
    assert (RL : forall i, row_list pts i = row_list X i ++ row_list U' i).
    { intros i. apply (nth_ext _ _ 0 0); [rewrite app_length, !row_list_length; reflexivity|]. rewrite row_list_length. intros k Hk. cbn [cols pts] in Hk.
      rewrite row_list_nth by exact Hk. cbn [entry pts]. destruct (Nat.ltb k (cols X)) eqn:E.
      - apply Nat.ltb_lt in E. rewrite app_nth1 by (rewrite row_list_length; auto). symmetry. apply row_list_nth. auto.
      - apply Nat.ltb_ge in E. rewrite app_nth2 by (rewrite row_list_length; auto). rewrite row_list_length. symmetry. apply row_list_nth. lia. }
    set (F := fun i => get (f (row_list X i ++ row_list U' i))).
    assert (FO : forall i, f (row_list X i ++ row_list U' i) = Ok (F i)).
    { intros i. unfold F. destruct (T (row_list X i ++ row_list U' i)) as (y & E & _); [rewrite app_length, !row_list_length; lia|]. now rewrite E. }
    rewrite (mapM_ok _ _ F). 2:{ intros i _. rewrite RL. apply FO. }
    cbn [bind]. eexists. split; [reflexivity|]. split; [reflexivity|]. split; [reflexivity|].
    intros i Hi. exists (F i). split; [apply FO|]. intros j. cbn [entry]. f_equal.
    rewrite (nth_indep _ [] (F 0%nat)) by (rewrite map_length, seq_length; auto). rewrite map_nth, seq_nth by auto. reflexivity. }
  split.
  - intros U' S. destruct (P U' S) as (Y & E & r & c & _). eauto.
  - intros dY rd cd. split; [split; reflexivity|]. intros Ut Yt v U0 SU EY DU. unfold tdot. rewrite rd, cd, rU, cU.
    apply (dsum (rows X) (fun i z => rsum n (fun j => entry dY i j * entry (Yt z) i j))). intros i Hi.
    destruct (G (row_list X i ++ row_list U i) (row_list dY i)) as (g & E & Lg & D); [rewrite app_length, !row_list_length; lia|rewrite row_list_length; auto|].
    cbn [batched_backprop entry]. rewrite E.
    assert (D' := D (fun z => row_list X i ++ row_list (Ut z) i) (fun k => if Nat.ltb k n then 0 else v i 0%nat)). cbn beta in D'.
    rewrite U0 in D'. specialize (D' eq_refl).
    apply (is_derive_ext (fun z => weighted (row_list dY i) (f (row_list X i ++ row_list (Ut z) i)))).
    { intros z. destruct (P (Ut z) (SU z)) as (Y & EYz & _ & _ & H). rewrite EY in EYz. injection EYz as EYz. destruct (H i Hi) as (y & Ef & En).
      rewrite Ef. cbn [weighted]. rewrite row_list_length, cd. apply rsum_ext. intros j Hj. rewrite row_list_nth by lia. rewrite EYz. now rewrite En. }
    eapply dconv; [apply D'|].
    + intros z. rewrite app_length, !row_list_length. destruct (SU z) as (_ & c). lia.
    + intros k Hk. unfold coordinate. destruct (SU 0) as (_ & _). destruct (Nat.ltb k n) eqn:El.
      * apply Nat.ltb_lt in El. apply (is_derive_ext (fun _ => nth k (row_list X i) 0)); [|apply dconst].
        intros z. symmetry. apply app_nth1. rewrite row_list_length. lia.
      * apply Nat.ltb_ge in El. assert (k = n) by lia. subst k.
        apply (is_derive_ext (fun z => entry (Ut z) i 0%nat)); [|apply DU; lia].
        intros z. destruct (SU z) as (_ & c). rewrite app_nth2 by (rewrite row_list_length; lia). rewrite row_list_length, cX, Nat.sub_diag. symmetry. apply row_list_nth. lia.
    + rewrite <- rsum_sumn, rsum_app. rewrite (rsum_ext n _ (fun _ => 0)), rsum_zero.
      2:{ intros k Hk. replace (Nat.ltb k n) with true by (symmetry; apply Nat.ltb_lt; auto). ring. }
      rewrite !(rsum_S 0), !rsum_0. rewrite cX. replace (Nat.ltb (n + 0) n) with false by (symmetry; apply Nat.ltb_ge; lia). unfold coordinate. ring.
Qed.
Theorem C116_pendulum_batch : forall p X U, mass p <> 0 -> arm p <> 0 -> fits 2 (pendulum_norm p) -> nonzero (pendulum_norm p) ->
  cols X = 2%nat -> cols U = 1%nat -> rows U = rows X ->
  dynamics_gradient 2 (batched 2 (pendulum_eval p)) (batched_backprop (pendulum_backprop p)) X U.
Proof.
  intros p X U Hm Ha F N cX cU rU. apply batched_gradient; auto.
  - intros xu L. apply (C116_pendulum p xu [0; 0] Hm Ha F N L eq_refl).
  - intros xu dy L Ld. apply (C116_pendulum p xu dy Hm Ha F N L Ld).
Qed.
Theorem C116_cartpole_batch : forall p X U, 0 < pole_mass p -> 0 < cart_mass p -> pole_length p <> 0 -> fits 4 (cartpole_norm p) -> nonzero (cartpole_norm p) ->
  cols X = 4%nat -> cols U = 1%nat -> rows U = rows X ->
  dynamics_gradient 4 (batched 4 (cartpole_eval p)) (batched_backprop (cartpole_backprop p)) X U.
Proof.
  intros p X U Hm HM HL F N cX cU rU. apply batched_gradient; auto.
  - intros xu L. apply (C116_cartpole p xu [0; 0; 0; 0] Hm HM HL F N L eq_refl).
  - intros xu dy L Ld. apply (C116_cartpole p xu dy Hm HM HL F N L Ld).
Qed.
