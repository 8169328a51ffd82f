(** Property C54: [LyapunovNetwork] is positive definite. *)
From Coq Require Import Reals List Bool Arith Lia Lra Psatz Sorting.Sorted.
From Verif Require Import Prelude FunModel QuadModel QuadProofs NNProofs LyapNetModel LyapNetSpec LyapNetProofs.
Import ListNotations.
Local Open Scope R_scope.

(** The value of a state is zero iff the state is zero, and otherwise positive. *)
Theorem C54_positive_definite n dims acts e v ps X V :
  make_lyapunov_network n dims acts e = Ok v -> 0 < e ->
  Forall (fun f => forall u, f u = 0 <-> u = 0) acts ->
  cols X = n -> lyapunov_eval v ps X = Ok V ->
  rows V = rows X /\ cols V = 1%nat /\
  forall i, (i < rows X)%nat ->
    0 <= entry V i 0%nat /\ (entry V i 0%nat = 0 <-> forall k, (k < n)%nat -> entry X i k = 0).
Proof.
  intros M He Ha Hc E. destruct (make_inv _ _ _ _ _ M) as (-> & _ & I). unfold lyapunov_eval in E.
  cbn [input_dim output_dims hidden_dims activations eps] in E.
  destruct (lyapunov_layers _ _ _ _ _ _ _) as [net|] eqn:EL; [|discriminate].
  cbn [bind] in E. injection E as <-. cbn [rows cols entry].
  destruct (layers_definite e He _ _ _ _ _ _ _ (hid_length n dims) I Hc Ha EL) as [r Z].
  split; [auto|]. split; [auto|]. intros i _. split; [|apply Z].
  apply (norm2_nonneg (cols net) (entry net i)).
Qed.

(** If the activations do not shrink by more than the factor c, it grows at least
    like the square of the norm. *)
Theorem C54_lower_bound n dims acts e c v ps X V :
  make_lyapunov_network n dims acts e = Ok v -> 0 <= e -> 0 <= c ->
  Forall (fun f => forall u, c * Rabs u <= Rabs (f u)) acts ->
  cols X = n -> lyapunov_eval v ps X = Ok V ->
  forall i, (i < rows X)%nat ->
    (c * c * (e * e)) ^ length dims * norm2 n (entry X i) <= entry V i 0%nat.
Proof.
  intros M He Hcc Ha Hc E. destruct (make_inv _ _ _ _ _ M) as (-> & _ & I). unfold lyapunov_eval in E.
  cbn [input_dim output_dims hidden_dims activations eps] in E.
  destruct (lyapunov_layers _ _ _ _ _ _ _) as [net|] eqn:EL; [|discriminate].
  cbn [bind] in E. injection E as <-. cbn [rows cols entry]. intros i _.
  exact (layers_stretch e c He Hcc _ _ _ _ _ _ _ (hid_length n dims) I Hc Ha EL i).
Qed.

(** The constructor accepts exactly the dimensions that never decrease, ... *)
Theorem C54_accepted n dims acts e :
  (exists v, make_lyapunov_network n dims acts e = Ok v) <-> dims <> [] /\ Sorted le (n :: dims).
Proof.
  split.
  - intros [v M]. destruct (make_inv _ _ _ _ _ M) as (_ & D & I). split; [auto|]. apply increasing_sorted. exact I.
  - intros [D S]. apply make_ok; [auto|]. apply increasing_sorted. exact S.
Qed.

(** ... and then evaluation succeeds for variables of the declared shapes. *)
Theorem C54_total n dims acts e v ps X :
  make_lyapunov_network n dims acts e = Ok v -> (length dims <= length acts)%nat ->
  Forall2 (fun s W => shaped (fst s) (snd s) W) (variable_shapes n dims) ps -> cols X = n ->
  exists V, lyapunov_eval v ps X = Ok V.
Proof.
  intros M Hl F Hc. destruct (make_inv _ _ _ _ _ M) as (-> & _ & I). unfold lyapunov_eval.
  cbn [input_dim output_dims hidden_dims activations eps].
  destruct (layers_total e _ _ _ _ _ I Hc Hl F) as [net ->]. eexists; reflexivity.
Qed.

Lemma tanh_zero u : tanh u = 0 <-> u = 0.
Proof.
  assert (C : 0 < cosh u) by (unfold cosh; pose proof (exp_pos u); pose proof (exp_pos (- u)); lra).
  unfold tanh. split.
  - intros H. assert (S : sinh u = 0).
    { apply (Rmult_eq_compat_r (cosh u)) in H. unfold Rdiv in H. rewrite Rmult_assoc, Rinv_l in H; lra. }
    unfold sinh in S. assert (exp u = exp (- u)) by lra. apply exp_inv in H0. lra.
  - intros ->. rewrite sinh_0. unfold Rdiv. ring.
Qed.

(** A network with two layers of dimensions 2 and 3, whatever its weights are. *)
Example C54_ex W0 W1 V1 : shaped 2 2 W0 -> shaped 2 2 W1 -> shaped 1 2 V1 ->
  let x := {| rows := 1; cols := 2; entry := fun _ k => if Nat.eqb k 0 then 0 else - 3 |} in
  exists v V, make_lyapunov_network 2 [2; 3]%nat [tanh; tanh] (1 / 1000000) = Ok v /\
    lyapunov_eval v [W0; W1; V1] x = Ok V /\ 0 < entry V 0%nat 0%nat.
Proof.
  intros S0 S1 S2 x.
  assert (M : exists v, make_lyapunov_network 2 [2; 3]%nat [tanh; tanh] (1 / 1000000) = Ok v) by (eexists; reflexivity).
  destruct M as [v M].
  destruct (C54_total _ _ _ _ _ [W0; W1; V1] x M) as [V E]; [simpl; lia| |reflexivity|].
  { simpl. constructor; [exact S0|]. constructor; [exact S1|]. constructor; [exact S2|constructor]. }
  exists v, V. split; [exact M|]. split; [exact E|].
  destruct (C54_positive_definite _ _ _ _ _ _ x _ M ltac:(lra)
              (Forall_cons _ tanh_zero (Forall_cons _ tanh_zero (Forall_nil _))) eq_refl E) as (_ & _ & H).
  destruct (H 0%nat ltac:(simpl; lia)) as [H0 H1].
  destruct H0 as [H0|H0]; [exact H0|]. symmetry in H0. rewrite H1 in H0. specialize (H0 1%nat ltac:(lia)). simpl in H0. lra.
Qed.

(** Without the regularisation a network with three inputs is never positive
    definite: the square root has only two rows. *)
Theorem C54_no_regularisation_refuted W : shaped 2 3 W ->
  exists v X V, make_lyapunov_network 3 [3%nat] [fun u => u] 0 = Ok v /\
    lyapunov_eval v [W] X = Ok V /\ rows X = 1%nat /\ cols X = 3%nat /\
    entry V 0%nat 0%nat = 0 /\ exists k, (k < 3)%nat /\ entry X 0%nat k <> 0.
Proof.
  intros [rW cW].
  assert (K : forall a b c d e f : R, exists x y z, (x <> 0 \/ y <> 0 \/ z <> 0) /\
     a * x + b * y + c * z = 0 /\ d * x + e * y + f * z = 0).
  { intros a b c d e f.
    destruct (Req_dec (b * f - c * e) 0) as [E1|N]; [|exists (b * f - c * e), (c * d - a * f), (a * e - b * d); split; [auto|split; ring]].
    destruct (Req_dec (c * d - a * f) 0) as [E2|N]; [|exists (b * f - c * e), (c * d - a * f), (a * e - b * d); split; [auto|split; ring]].
    destruct (Req_dec (a * e - b * d) 0) as [E3|N]; [|exists (b * f - c * e), (c * d - a * f), (a * e - b * d); split; [auto|split; ring]].
    destruct (Req_dec a 0) as [Ea|Na].
    2:{ exists (- b), a, 0. split; [auto|]. split; [ring|]. lra. }
    destruct (Req_dec b 0) as [Eb|Nb].
    2:{ exists b, (- a), 0. split; [auto|]. split; [ring|]. lra. }
    destruct (Req_dec c 0) as [Ec|Nc].
    2:{ exists 0, c, (- b). split; [auto|]. split; [ring|]. lra. }
    subst. destruct (Req_dec d 0) as [Ed|Nd].
    - exists 1, 0, 0. split; [left; lra|]. split; [ring|]. rewrite Ed. ring.
    - exists (- e), d, 0. split; [auto|]. split; ring. }
  destruct (K (entry W 0 0)%nat (entry W 0 1)%nat (entry W 0 2)%nat (entry W 1 0)%nat (entry W 1 1)%nat (entry W 1 2)%nat)
    as (x & y & z & N & e1 & e2).
  pose (X := {| rows := 1; cols := 3; entry := fun _ k => match k with O => x | 1%nat => y | _ => z end |}).
  assert (M : exists v, make_lyapunov_network 3 [3%nat] [fun u => u] 0 = Ok v) by (eexists; reflexivity).
  destruct M as [v M].
  destruct (C54_total _ _ _ _ _ [W] X M) as [V E]; [simpl; lia| |reflexivity|].
  { simpl. constructor; [split; auto|constructor]. }
  exists v, X, V. split; [exact M|]. split; [exact E|]. split; [reflexivity|]. split; [reflexivity|]. split.
  2:{ destruct N as [N|[N|N]]; [exists 0%nat | exists 1%nat | exists 2%nat]; (split; [lia|exact N]). }
  destruct (make_inv _ _ _ _ _ M) as (-> & _ & I). unfold lyapunov_eval in E.
  cbn [input_dim output_dims hidden_dims activations eps] in E.
  destruct (lyapunov_layers _ _ _ _ _ _ _) as [net|] eqn:EL; [|discriminate].
  cbn [bind] in E. injection E as <-. cbn [rows cols entry].
  destruct (layers_cons 0 3 3 [] _ [] _ _ _ _ (le_n 3) EL) as (_ & f & acts' & W' & V' & ps' & net' & Ef & rW' & cW' & rn & cn & P & en & E').
  cbn [lyapunov_layers] in E'. injection E' as <-. injection Ef as <- <-.
  destruct P as [(_ & -> & P)|(V2 & lt & _)]; [|lia]. injection P as <- <-.
  apply (norm2_zero (cols net') (entry net' 0%nat)). rewrite cn. intros k Hk. rewrite en by auto.
  unfold layer_of. destruct (Nat.ltb_spec k 3); [|lia].
  unfold rsum. cbn [seq map fold_right Nat.div Nat.divmod Nat.add fst X entry].
  match goal with |- ?g = 0 => replace g with (entry W 0%nat k * (entry W 0%nat 0%nat * x + entry W 0%nat 1%nat * y + entry W 0%nat 2%nat * z)
    + entry W 1%nat k * (entry W 1%nat 0%nat * x + entry W 1%nat 1%nat * y + entry W 1%nat 2%nat * z)) by ring end.
  rewrite e1, e2. ring.
Qed.

(** Activations must not vanish elsewhere: with the rectified linear unit a
    whole half line has the value zero. *)
Theorem C54_relu_refuted W u : shaped 1 1 W -> u < 0 ->
  let X := {| rows := 1; cols := 1; entry := fun _ _ => u |} in
  exists v V, make_lyapunov_network 1 [1%nat] [fun u => Rmax u 0] (1 / 1000000) = Ok v /\
    lyapunov_eval v [W] X = Ok V /\ entry V 0%nat 0%nat = 0.
Proof.
  intros [rW cW] Hu X.
  assert (M : exists v, make_lyapunov_network 1 [1%nat] [fun u => Rmax u 0] (1 / 1000000) = Ok v) by (eexists; reflexivity).
  destruct M as [v M].
  destruct (C54_total _ _ _ _ _ [W] X M) as [V E]; [simpl; lia| |reflexivity|].
  { simpl. constructor; [split; auto|constructor]. }
  exists v, V. split; [exact M|]. split; [exact E|].
  destruct (make_inv _ _ _ _ _ M) as (-> & _ & I). unfold lyapunov_eval in E.
  cbn [input_dim output_dims hidden_dims activations eps] in E.
  destruct (lyapunov_layers _ _ _ _ _ _ _) as [net|] eqn:EL; [|discriminate].
  cbn [bind] in E. injection E as <-. cbn [rows cols entry].
  destruct (layers_cons _ 1 1 [] _ [] _ _ _ _ (le_n 1) EL) as (_ & f & acts' & W' & V' & ps' & net' & Ef & rW' & cW' & rn & cn & P & en & E').
  cbn [lyapunov_layers] in E'. injection E' as <-. injection Ef as <- <-.
  apply (norm2_zero (cols net') (entry net' 0%nat)). rewrite cn. intros k Hk. rewrite en by auto.
  unfold layer_of. destruct (Nat.ltb_spec k 1); [|lia]. assert (k = 0%nat) as -> by lia.
  unfold rsum. cbn [seq map fold_right Nat.div Nat.divmod Nat.add fst X entry Nat.eqb].
  apply Rmax_right. pose proof (Rle_0_sqr (entry W' 0%nat 0%nat)). unfold Rsqr in *. nra.
Qed.
