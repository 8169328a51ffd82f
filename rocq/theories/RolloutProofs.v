(** Proofs about rollouts. *)
From Coq Require Import String Reals List Bool Arith Lia Lra Psatz.
From Verif Require Import Prelude QuadModel QuadProofs RolloutModel RolloutSpec.
Import ListNotations.
Local Open Scope R_scope.

Lemma iterate_comm {A} n f (x : A) : iterate n f (f x) = f (iterate n f x).
Proof. induction n as [|n IH]; [reflexivity|]. simpl. rewrite IH. reflexivity. Qed.
Lemma iterate_add {A} n m f (x : A) : iterate (n + m) f x = iterate n f (iterate m f x).
Proof. induction n as [|n IH]; [reflexivity|]. simpl. rewrite IH. reflexivity. Qed.

Lemma simulate_by_row n step dyn b : by_row step dyn -> simulate n dyn b = Ok (map (iterate n step) b).
Proof.
  intros H. revert b. induction n as [|n IH]; intros b; simpl.
  - rewrite map_id. reflexivity.
  - rewrite H. simpl. rewrite IH, map_map. f_equal. apply map_ext. intros x. apply iterate_comm.
Qed.

Lemma map2_dist (x e : row) : length x = length e ->
  fold_right Rplus 0 (map2 (fun a b => Rsqr (a - b)) x e) = rsum (length x) (fun i => Rsqr (nth i x 0 - nth i e 0)).
Proof.
  unfold rsum. revert e. induction x as [|a x IH]; intros [|b e] Hl; try discriminate; [reflexivity|].
  cbn [map2 fold_right length seq map nth]. injection Hl as Hl. rewrite (IH e Hl). f_equal.
  rewrite <- seq_shift, map_map. reflexivity.
Qed.
Lemma norm_diff_distance (x e : row) : length x = length e -> norm_diff x e = distance x e.
Proof. intros H. unfold norm_diff, distance. rewrite map2_dist; auto. Qed.

Lemma near_ok tol e b : Forall (fun x => length x = length e) b ->
  near tol e b = Ok (map (fun x => if Rle_dec (distance x e) tol then true else false) b).
Proof.
  intros F. unfold near. induction F as [|x b Hx F IH]; [reflexivity|]. cbn [mapM map].
  rewrite Hx, Nat.eqb_refl. cbn [bind]. rewrite IH. cbn [bind]. rewrite (norm_diff_distance x e Hx). reflexivity.
Qed.

Lemma iterate_width step d n x : (forall y : row, length y = d -> length (step y) = d) -> length x = d ->
  length (iterate n step x) = d.
Proof. intros H Hx. induction n as [|n IH]; [auto|]. simpl. auto. Qed.

Lemma trajectories_by_row n step dyn d : by_row step dyn -> (forall y : row, length y = d -> length (step y) = d) ->
  forall b, Forall (fun x => length x = d) b ->
  trajectories n (length b) d dyn b = Ok (map (fun t => map (iterate t step) b) (seq 0 (S n))).
Proof.
  intros H W. induction n as [|n IH]; intros b F.
  - simpl. rewrite map_id. reflexivity.
  - cbn [trajectories]. rewrite H. cbn [bind]. unfold check_shape. rewrite map_length, Nat.eqb_refl.
    assert (F' : Forall (fun x => length x = d) (map step b)).
    { apply Forall_forall. intros x Hx. apply in_map_iff in Hx. destruct Hx as (y & <- & Hy).
      apply W. rewrite Forall_forall in F. auto. }
    assert (fb : forallb (fun x => Nat.eqb (length x) d) (map step b) = true).
    { apply forallb_forall. intros x Hx. apply Nat.eqb_eq. rewrite Forall_forall in F'. auto. }
    rewrite fb. cbn [andb bind]. specialize (IH (map step b) F'). rewrite map_length in IH. rewrite IH. cbn [bind].
    f_equal. change (seq 0 (S (S n))) with (0%nat :: seq 1 (S n)). cbn [map]. f_equal; [rewrite map_id; reflexivity|].
    rewrite <- seq_shift, map_map. apply map_ext. intros t. rewrite map_map. apply map_ext. intros x. apply iterate_comm.
Qed.

(** Rollout of rewards. *)
Lemma max_abs_ok l : l <> [] -> exists m, max_abs l = Ok m /\ (forall x, In x l -> Rabs x <= m) /\ exists x, In x l /\ m = Rabs x.
Proof.
  destruct l as [|a l]; [congruence|]. intros _. cbn [max_abs]. eexists; split; [reflexivity|].
  assert (G : forall l m, m <= fold_left (fun m y => Rmax m (Rabs y)) l m /\
     (forall x, In x l -> Rabs x <= fold_left (fun m y => Rmax m (Rabs y)) l m) /\
     (fold_left (fun m y => Rmax m (Rabs y)) l m = m \/ exists x, In x l /\ fold_left (fun m y => Rmax m (Rabs y)) l m = Rabs x)).
  { clear. induction l as [|b l IH]; intros m; [cbn; split; [lra|split; [tauto|auto]]|].
    cbn [fold_left]. destruct (IH (Rmax m (Rabs b))) as (h1 & h2 & h3).
    split; [pose proof (Rmax_l m (Rabs b)); lra|]. split.
    - intros x [<-|Hx]; [pose proof (Rmax_r m (Rabs b)); lra|auto].
    - destruct h3 as [h3|(x & Hx & h3)]; [|right; exists x; split; [right; auto|auto]].
      unfold Rmax in *. destruct (Rle_dec m (Rabs b)); [right; exists b; split; [left; auto|auto]|left; auto]. }
  destruct (G l (Rabs a)) as (h1 & h2 & h3). split.
  - intros x [<-|Hx]; auto.
  - destruct h3 as [->|(x & Hx & ->)]; [exists a; split; [left; auto|auto]|exists x; split; [right; auto|auto]].
Qed.

Lemma map2_plus_map {A} (f g : A -> R) l : map2 Rplus (map f l) (map g l) = map (fun x => f x + g x) l.
Proof. induction l as [|a l IH]; [reflexivity|]. cbn. rewrite IH. reflexivity. Qed.

Lemma rollout_loop_spec step dyn r rew g tol points : by_row step dyn -> by_row r rew -> points <> [] ->
  forall n t,
  exists T, (t <= T <= t + n)%nat /\
    rollout_loop n t dyn rew g tol (map (iterate t step) points) (map (return_of g step r t) points)
      = Ok (map (return_of g step r T) points) /\
    (T = (t + n)%nat \/ (t < T)%nat /\ forall x, In x points -> Rabs (g ^ (T - 1) * r (iterate (T - 1) step x)) < tol) /\
    (forall s, (t <= s)%nat -> (S s < T)%nat -> exists x, In x points /\ tol <= Rabs (g ^ s * r (iterate s step x))).
Proof.
  intros HD HR ne. induction n as [|n IH]; intros t.
  - exists t. split; [lia|]. split; [reflexivity|]. split; [left; lia|]. lia.
  - cbn [rollout_loop]. rewrite HR. cbn [bind]. rewrite !map_length, Nat.eqb_refl.
    set (terms := map _ (map r _)).
    assert (et : terms = map (fun x => g ^ t * r (iterate t step x)) points) by (unfold terms; rewrite !map_map; reflexivity).
    assert (nt : terms <> []) by (rewrite et; destruct points; [congruence|discriminate]).
    destruct (max_abs_ok terms nt) as (m & -> & ub & xm & Hm & em). cbn [bind].
    assert (es : map2 Rplus (map (return_of g step r t) points) terms = map (return_of g step r (S t)) points).
    { rewrite et, map2_plus_map. apply map_ext. intros x. unfold return_of. rewrite rsum_S. reflexivity. }
    rewrite es. destruct (Rlt_dec m tol) as [lt|ge].
    + exists (S t). split; [lia|]. split; [reflexivity|]. split; [|lia]. right. split; [lia|].
      intros x Hx. replace (S t - 1)%nat with t by lia.
      eapply Rle_lt_trans; [|exact lt]. apply ub. rewrite et. apply in_map_iff. exists x. auto.
    + rewrite HD. cbn [bind]. rewrite map_map. destruct (IH (S t)) as (T & HT & E & st & nst).
      exists T. split; [lia|]. split; [exact E|]. split.
      * destruct st as [->|[? st]]; [left; lia|right; split; [lia|exact st]].
      * intros s Hs HsT. assert (s = t \/ S t <= s)%nat as [->|Hs'] by lia; [|apply nst; auto].
        rewrite et in Hm. apply in_map_iff in Hm. destruct Hm as (x & <- & Hx).
        exists x. split; [auto|]. lra.
Qed.

Lemma geometric_tail g T N : 0 <= g < 1 -> (T <= N)%nat ->
  (1 - g) * rsum (N - T) (fun k => g ^ (T + k)) <= g ^ T.
Proof.
  intros [g0 g1] HT. set (M := (N - T)%nat). clearbody M. clear HT N.
  assert (E : (1 - g) * rsum M (fun k => g ^ (T + k)) = g ^ T - g ^ (T + M)).
  { induction M as [|M IH]; [rewrite rsum_0, Nat.add_0_r; ring|].
    rewrite rsum_S, Rmult_plus_distr_l, IH. replace (T + S M)%nat with (S (T + M)) by lia. simpl. ring. }
  rewrite E. pose proof (pow_le g (T + M) g0). lra.
Qed.
Lemma rsum_abs n f : Rabs (rsum n f) <= rsum n (fun i => Rabs (f i)).
Proof.
  induction n as [|n IH]; [rewrite !rsum_0, Rabs_R0; lra|]. rewrite !rsum_S.
  eapply Rle_trans; [apply Rabs_triang|]. lra.
Qed.
Lemma rsum_le' n f g : (forall i, (i < n)%nat -> f i <= g i) -> rsum n f <= rsum n g.
Proof.
  induction n as [|n IH]; intros H; [rewrite !rsum_0; lra|]. rewrite !rsum_S. pose proof (H n ltac:(lia)).
  assert (rsum n f <= rsum n g) by (apply IH; intros; apply H; lia). lra.
Qed.
(** The terms after T are small if they are bounded by b g^t. *)
Lemma tail_bound g b step r x T N : 0 <= g < 1 -> (T <= N)%nat ->
  (forall t, (T <= t)%nat -> Rabs (g ^ t * r (iterate t step x)) <= b * g ^ t) ->
  0 <= b ->
  (1 - g) * Rabs (return_of g step r N x - return_of g step r T x) <= b * g ^ T.
Proof.
  intros Hg HT H b0. unfold return_of. replace N with (T + (N - T))%nat at 1 by lia. rewrite rsum_app.
  match goal with |- (1 - g) * Rabs (?a + ?c - ?a) <= _ => replace (a + c - a) with c by ring end.
  apply Rle_trans with ((1 - g) * (b * rsum (N - T) (fun k => g ^ (T + k)))).
  - apply Rmult_le_compat_l; [lra|]. eapply Rle_trans; [apply rsum_abs|]. rewrite <- rsum_scal.
    apply rsum_le'. intros k _. apply H. lia.
  - pose proof (geometric_tail g T N Hg HT). nra.
Qed.

(** Closed loop response. *)
Lemma response_spec dyn pol sd ad step act : 
  (forall x, length x = sd -> pol x = Ok (act x) /\ length (act x) = ad) ->
  (forall x u, length x = sd -> length u = ad -> dyn x u = Ok (step x u) /\ length (step x u) = sd) ->
  forall refs x, length x = sd -> Forall (fun r => length r = ad) refs ->
  exists states actions, response_loop dyn pol sd ad refs x = Ok (states, actions) /\
    length states = length refs /\ length actions = length refs /\
    (forall i, (i < length refs)%nat -> length (nth i states []) = sd) /\
    (refs <> [] -> nth 0 states [] = x) /\
    (forall i, (i < length refs)%nat -> nth i actions [] = act (nth i states [])) /\
    (forall i, (S i < length refs)%nat ->
       nth (S i) states [] = step (nth i states []) (map2 Rplus (act (nth i states [])) (nth i refs []))).
Proof.
  intros HP HD. induction refs as [|r refs IH]; intros x Hx F.
  - exists [], []. cbn. repeat split; try lia. congruence.
  - pose proof (Forall_inv F) as lr. pose proof (Forall_inv_tail F) as F'. cbn beta in lr. cbn [response_loop].
    destruct (HP x Hx) as [ep la]. rewrite ep. cbn [bind]. unfold check_width at 1. rewrite la, Nat.eqb_refl. cbn [bind].
    assert (ls : length (map2 Rplus (act x) r) = ad).
    { clear - la lr. rewrite <- lr in *. clear lr. revert r la. generalize (act x). induction l as [|a l IHl]; intros [|b r] E; try discriminate; [reflexivity|]. cbn. f_equal. apply IHl. injection E; auto. }
    destruct (HD x (map2 Rplus (act x) r) Hx ls) as [ed ld]. rewrite ed. cbn [bind].
    assert (cw : match refs with [] => Ok (step x (map2 Rplus (act x) r)) | _ => check_width sd (step x (map2 Rplus (act x) r)) end
                 = Ok (step x (map2 Rplus (act x) r))).
    { destruct refs; [reflexivity|]. unfold check_width. rewrite ld, Nat.eqb_refl. reflexivity. }
    rewrite cw. cbn [bind]. clear cw.
    destruct (IH (step x (map2 Rplus (act x) r)) ld F') as (ss & us & e & l1 & l2 & w & s0 & ea & es).
    rewrite e. cbn [bind fst snd]. exists (x :: ss), (act x :: us). split; [reflexivity|].
    cbn [length]. split; [lia|]. split; [lia|]. split; [|split; [|split]].
    + intros [|i] Hi; cbn [nth]; [auto|apply w; lia].
    + reflexivity.
    + intros [|i] Hi; cbn [nth]; [reflexivity|apply ea; lia].
    + intros [|i] Hi; cbn [nth].
      * apply s0. destruct refs; [cbn in Hi; lia|discriminate].
      * apply es. lia.
Qed.
