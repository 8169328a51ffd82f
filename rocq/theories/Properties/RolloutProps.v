(** Properties C56, C63 and C64: regions of attraction, rollouts and closed-loop
    responses. *)
From Coq Require Import String Reals List Bool Arith Lia Lra Psatz.
From Verif Require Import Prelude QuadModel QuadProofs RolloutModel RolloutSpec RolloutProofs.
Import ListNotations.
Local Open Scope R_scope.

(** [compute_roa] marks the states that are within tol after horizon - 1 steps. *)
Theorem C56_marks points d step dyn horizon tol e : by_row step dyn ->
  (forall x : row, length x = d -> length (step x) = d) ->
  Forall (fun x => length x = d) points -> (match e with Some e => length e = d | None => True end) ->
  exists roa, compute_roa points d dyn horizon tol e = Ok roa /\ length roa = length points /\
    forall i, (i < length points)%nat ->
      (nth i roa false = true <->
       distance (iterate (horizon - 1) step (nth i points [])) (match e with Some e => e | None => repeat 0 d end) <= tol).
Proof.
  intros H W F He. unfold compute_roa. rewrite (simulate_by_row _ step) by auto. cbn [bind].
  set (eq := match e with Some e => e | None => repeat 0 d end).
  assert (le : length eq = d) by (unfold eq; destruct e; [auto|apply repeat_length]).
  replace (match e with Some e0 => e0 | None => repeat 0 d end) with eq by reflexivity.
  replace (match e with None => repeat 0 d | Some e0 => e0 end) with eq by (unfold eq; destruct e; reflexivity).
  rewrite near_ok.
  2:{ apply Forall_forall. intros x Hx. apply in_map_iff in Hx. destruct Hx as (y & <- & Hy).
      rewrite le. apply iterate_width; auto. rewrite Forall_forall in F. auto. }
  eexists. split; [reflexivity|]. rewrite !map_length. split; [reflexivity|].
  intros i Hi. rewrite map_map.
  rewrite (nth_indep _ false (if Rle_dec (distance (iterate (horizon - 1) step []) eq) tol then true else false))
    by (rewrite map_length; auto).
  rewrite (map_nth (fun x => if Rle_dec (distance (iterate (horizon - 1) step x) eq) tol then true else false)).
  destruct (Rle_dec _ _); split; auto; try discriminate.
Qed.

(** With trajectories the marks are the same, and the trajectories are those of the
    closed loop. *)
Theorem C56_trajectories points d step dyn horizon tol e : by_row step dyn ->
  (forall x : row, length x = d -> length (step x) = d) ->
  Forall (fun x => length x = d) points -> (match e with Some e => length e = d | None => True end) ->
  (1 <= horizon)%nat ->
  exists roa traj, compute_roa points d dyn horizon tol e = Ok roa /\
    compute_roa_trajectories points d dyn horizon tol e = Ok (roa, traj) /\
    length traj = horizon /\
    forall t i, (t < horizon)%nat -> (i < length points)%nat ->
      nth i (nth t traj []) [] = iterate t step (nth i points []).
Proof.
  intros H W F He Hh. destruct horizon as [|h]; [lia|].
  unfold compute_roa, compute_roa_trajectories. rewrite (simulate_by_row _ step) by auto. cbn [bind].
  replace (S h - 1)%nat with h by lia. rewrite (trajectories_by_row _ step) by auto. cbn [bind].
  rewrite seq_S, map_app. cbn [map]. rewrite last_last. cbn [Nat.add].
  match goal with |- context [near tol ?e ?b] => assert (N : exists roa, near tol e b = Ok roa) end.
  { eexists. apply near_ok. apply Forall_forall. intros x Hx. apply in_map_iff in Hx. destruct Hx as (y & <- & Hy).
    rewrite (iterate_width step d); auto; [destruct e; [auto|symmetry; apply repeat_length]|]. rewrite Forall_forall in F. auto. }
  destruct N as [roa N]. rewrite N. cbn [bind]. exists roa. eexists. split; [reflexivity|]. split; [reflexivity|].
  change [map (iterate h step) points] with (map (fun t => map (iterate t step) points) [h]).
  rewrite <- map_app. change [h] with [(0 + h)%nat]. rewrite <- seq_S.
  split; [rewrite map_length, seq_length; reflexivity|]. intros t i Ht Hi.
  rewrite (nth_indep _ [] (map (iterate 0 step) points)) by (rewrite map_length, seq_length; auto).
  rewrite (map_nth (fun t => map (iterate t step) points)), seq_nth by auto. cbn [Nat.add].
  rewrite (nth_indep _ [] (iterate t step [])) by (rewrite map_length; auto).
  apply map_nth.
Qed.

(** If the ball of radius tol is invariant, a longer horizon keeps the marks. *)
Theorem C56_longer_horizon points d step dyn h h' tol e roa roa' : by_row step dyn ->
  (forall x : row, length x = d -> length (step x) = d) ->
  Forall (fun x => length x = d) points -> length e = d ->
  (forall x, length x = d -> distance x e <= tol -> distance (step x) e <= tol) ->
  (1 <= h <= h')%nat ->
  compute_roa points d dyn h tol (Some e) = Ok roa -> compute_roa points d dyn h' tol (Some e) = Ok roa' ->
  forall i, (i < length points)%nat -> nth i roa false = true -> nth i roa' false = true.
Proof.
  intros H W F He inv Hh E E' i Hi M.
  destruct (C56_marks points d step dyn h tol (Some e) H W F He) as (r1 & e1 & _ & m1).
  destruct (C56_marks points d step dyn h' tol (Some e) H W F He) as (r2 & e2 & _ & m2).
  assert (r1 = roa) as -> by congruence. assert (r2 = roa') as -> by congruence.
  apply m2; auto. apply m1 in M; auto. cbn beta iota in *.
  assert (lx : length (nth i points []) = d) by (rewrite Forall_forall in F; apply F, nth_In; auto).
  replace (h' - 1)%nat with ((h' - h) + (h - 1))%nat by lia. rewrite iterate_add.
  assert (G : forall n x, length x = d -> distance x e <= tol -> distance (iterate n step x) e <= tol).
  { induction n as [|n IH]; intros x Hx Hd; [auto|]. simpl. apply inv; [apply iterate_width; auto|]. auto. }
  apply G; [apply iterate_width; auto|auto].
Qed.

(** A horizon of zero steps is an error only with trajectories. *)
Theorem C56_no_horizon points d dyn tol e :
  compute_roa_trajectories points d dyn 0 tol e = Err IndexError /\
  compute_roa points d dyn 0 tol e = compute_roa points d dyn 1 tol e.
Proof. split; reflexivity. Qed.

Definition flip (x : row) : row := map (fun a => 1 - a) x.
Definition halve (x : row) : row := map (fun a => a / 2) x.
Lemma distance1 a b : distance [a] [b] = Rabs (a - b).
Proof. unfold distance, rsum. cbn. rewrite Rplus_0_r. apply sqrt_Rsqr_abs. Qed.

Example C56_ex : compute_roa [[1]; [2]; [-8]] 1 (fun b => Ok (map halve b)) 3 (1 / 2) None = Ok [true; true; false].
Proof.
  unfold compute_roa. cbn [Nat.sub simulate bind map]. unfold halve. cbn [map]. rewrite near_ok.
  2:{ repeat constructor. }
  f_equal. cbn [map repeat]. rewrite !distance1.
  destruct (Rle_dec (Rabs (1 / 2 / 2 - 0)) (1 / 2)) as [_|L1]; [|unfold Rabs in L1; destruct (Rcase_abs _) in L1; lra].
  destruct (Rle_dec (Rabs (2 / 2 / 2 - 0)) (1 / 2)) as [_|L1]; [|unfold Rabs in L1; destruct (Rcase_abs _) in L1; lra].
  destruct (Rle_dec (Rabs (-8 / 2 / 2 - 0)) (1 / 2)) as [L1|_]; [unfold Rabs in L1; destruct (Rcase_abs _) in L1; lra|].
  reflexivity.
Qed.

(** The marks are not the region of attraction: a marked state need not converge
    (here it is at the equilibrium in every second step only), ... *)
Theorem C56_marked_converges_refuted :
  exists points roa, compute_roa points 1 (fun b => Ok (map flip b)) 2 (1 / 1000) None = Ok roa /\
    nth 0 roa false = true /\ ~ converges flip (nth 0 points []) [0].
Proof.
  exists [[1]].
  destruct (C56_marks [[1]] 1 flip (fun b => Ok (map flip b)) 2 (1 / 1000) None) as (roa & E & _ & M).
  - intros b; reflexivity.
  - intros x Hx. unfold flip. rewrite map_length. auto.
  - repeat constructor.
  - exact I.
  - exists roa. split; [exact E|]. split.
    + apply M; [cbn; lia|]. cbn [Nat.sub iterate nth repeat flip map]. rewrite distance1.
      replace (1 - 1 - 0) with 0 by ring. rewrite Rabs_R0. lra.
    + intros C. destruct (C (1 / 2) ltac:(lra)) as [N HN]. cbn [nth] in HN.
      assert (ev : forall k, iterate (k + k) flip [1] = [1]).
      { induction k as [|k IH]; [reflexivity|]. replace (S k + S k)%nat with (S (S (k + k))) by lia.
        cbn [iterate]. rewrite IH. unfold flip. cbn [map]. f_equal. ring. }
      specialize (HN (N + N)%nat ltac:(lia)). rewrite ev, distance1 in HN.
      replace (1 - 0) with 1 in HN by ring. rewrite Rabs_R1 in HN. lra.
Qed.
(** ... and a converging state need not be marked. *)
Theorem C56_converging_marked_refuted horizon :
  exists x roa, converges halve [x] [0] /\
    compute_roa [[x]] 1 (fun b => Ok (map halve b)) horizon (1 / 1000) None = Ok roa /\ nth 0 roa false = false.
Proof.
  assert (it : forall n x, iterate n halve [x] = [x / 2 ^ n]).
  { induction n as [|n IH]; intros x; [cbn; f_equal; field|]. cbn [iterate]. rewrite IH. unfold halve. cbn [map pow]. f_equal. field. apply pow_nonzero. lra. }
  exists (2 ^ (horizon - 1)).
  destruct (C56_marks [[2 ^ (horizon - 1)]] 1 halve (fun b => Ok (map halve b)) horizon (1 / 1000) None) as (roa & E & _ & M).
  - intros b; reflexivity.
  - intros x Hx. unfold halve. rewrite map_length. auto.
  - repeat constructor.
  - exact I.
  - exists roa. split; [|split; [exact E|]].
    + intros eps He. set (x := 2 ^ (horizon - 1)).
      assert (px : 0 < x) by (apply pow_lt; lra).
      destruct (pow_lt_1_zero (1 / 2) ltac:(rewrite Rabs_pos_eq; lra) (eps / x) ltac:(apply Rdiv_lt_0_compat; auto)) as [N HN].
      exists N. intros n Hn. specialize (HN n Hn). rewrite it, distance1, Rminus_0_r.
      replace (x / 2 ^ n) with ((1 / 2) ^ n * x).
      2:{ replace (1 / 2) with (/ 2) by lra. rewrite pow_inv. field. apply pow_nonzero. lra. }
      rewrite Rabs_mult, (Rabs_pos_eq x) by lra.
      apply (Rmult_lt_compat_r x) in HN; auto. unfold Rdiv in HN. rewrite Rmult_assoc, Rinv_l in HN; lra.
    + destruct (nth 0 roa false) eqn:Z; [|reflexivity]. exfalso. apply M in Z; [|cbn; lia]. cbn [nth repeat] in Z.
      rewrite it, distance1 in Z. unfold Rdiv in Z. rewrite Rinv_r, Rminus_0_r, Rabs_R1 in Z; [lra|]. apply pow_nonzero. lra.
Qed.

(** [reward_rollout] adds up the discounted rewards of T steps: up to the horizon,
    or up to the first time at which all terms are below tol. *)
Theorem C63_rollout points step dyn r rew discount horizon tol : by_row step dyn -> by_row r rew -> points <> [] ->
  exists T, (T <= horizon)%nat /\
    reward_rollout points dyn rew discount horizon tol = Ok (map (return_of discount step r T) points) /\
    (T = horizon \/ (0 < T)%nat /\ forall x, In x points -> Rabs (discount ^ (T - 1) * r (iterate (T - 1) step x)) < tol) /\
    (forall t, (S t < T)%nat -> exists x, In x points /\ tol <= Rabs (discount ^ t * r (iterate t step x))).
Proof.
  intros HD HR ne. destruct (rollout_loop_spec step dyn r rew discount tol points HD HR ne horizon 0) as (T & HT & E & st & ns).
  exists T. split; [lia|]. split.
  - unfold reward_rollout. rewrite <- E. f_equal.
    + symmetry. apply map_id.
    + clear. induction points as [|x p IH]; [reflexivity|]. cbn. f_equal. exact IH.
  - split; [destruct st as [->|st]; [left; lia|right; exact st]|]. intros t Ht. apply ns; lia.
Qed.

(** If rewards never exceed b in absolute value, any longer return differs by at
    most b discount^T / (1 - discount); ... *)
Theorem C63_error_bound step r discount b x T N : 0 <= discount < 1 -> (forall y, Rabs (r y) <= b) -> (T <= N)%nat ->
  Rabs (return_of discount step r N x - return_of discount step r T x) <= b * discount ^ T / (1 - discount).
Proof.
  intros Hd Hb HT.
  assert (b0 : 0 <= b) by (eapply Rle_trans; [apply Rabs_pos|apply (Hb [])]).
  apply (Rmult_le_reg_l (1 - discount)); [lra|].
  eapply Rle_trans; [apply (tail_bound discount b step r x T N Hd HT); [|exact b0]|].
  - intros t _. rewrite Rabs_mult, (Rabs_pos_eq (discount ^ t)) by (apply pow_le; lra). rewrite Rmult_comm.
    apply Rmult_le_compat_r; [apply pow_le; lra|apply Hb].
  - apply Req_le. field. lra.
Qed.
(** ... and stopping early costs at most tol discount / (1 - discount) if rewards
    shrink along trajectories, ... *)
Theorem C63_early_stop step r discount tol x T N : 0 <= discount < 1 ->
  (forall y, Rabs (r (step y)) <= Rabs (r y)) -> (1 <= T <= N)%nat ->
  Rabs (discount ^ (T - 1) * r (iterate (T - 1) step x)) < tol ->
  Rabs (return_of discount step r N x - return_of discount step r T x) <= tol * discount / (1 - discount).
Proof.
  intros Hd Hm HT Hs.
  set (b := Rabs (r (iterate (T - 1) step x))) in *.
  assert (Hb : forall t, (T - 1 <= t)%nat -> Rabs (r (iterate t step x)) <= b).
  { intros t Ht. replace t with ((t - (T - 1)) + (T - 1))%nat by lia. rewrite iterate_add.
    induction (t - (T - 1))%nat as [|n IH]; [apply Rle_refl|]. cbn [iterate]. eapply Rle_trans; [apply Hm|exact IH]. }
  apply (Rmult_le_reg_l (1 - discount)); [lra|].
  eapply Rle_trans; [apply (tail_bound discount b step r x T N Hd (proj2 HT)); [|apply Rabs_pos]|].
  - intros t Ht. rewrite Rabs_mult, (Rabs_pos_eq (discount ^ t)) by (apply pow_le; lra). rewrite Rmult_comm.
    apply Rmult_le_compat_r; [apply pow_le; lra|apply Hb; lia].
  - replace ((1 - discount) * (tol * discount / (1 - discount))) with (tol * discount) by (field; lra).
    replace T with (S (T - 1)) at 1 by lia. cbn [pow].
    rewrite Rabs_mult, (Rabs_pos_eq (discount ^ (T - 1))) in Hs by (apply pow_le; lra).
    fold b in Hs. nra.
Qed.

(** ... but not in general: a reward that comes later is lost. *)
Definition late (x : row) : R := if Rle_dec 3 (nth 0 x 0) then 1000 else 0.
Definition count (x : row) : row := map (fun a => a + 1) x.
(** Together: with bounded rewards whose size never grows along a trajectory the
    result misses no longer return by more than the larger of both bounds. *)
Theorem C63_close points step dyn r rew discount b horizon tol : by_row step dyn -> by_row r rew -> points <> [] ->
  0 <= discount < 1 -> (forall y, Rabs (r y) <= b) -> (forall y, Rabs (r (step y)) <= Rabs (r y)) ->
  exists out, reward_rollout points dyn rew discount horizon tol = Ok out /\ length out = length points /\
    forall i N, (i < length points)%nat -> (horizon <= N)%nat ->
      Rabs (return_of discount step r N (nth i points []) - nth i out 0) <=
        Rmax (tol * discount / (1 - discount)) (b * discount ^ horizon / (1 - discount)).
Proof.
  intros HD HR ne Hd Hb Hm.
  destruct (C63_rollout points step dyn r rew discount horizon tol HD HR ne) as (T & HT & E & st & _).
  exists (map (return_of discount step r T) points). split; [exact E|]. split; [apply map_length|].
  intros i N Hi HN. rewrite (nth_indep _ 0 (return_of discount step r T [])) by (rewrite map_length; exact Hi).
  rewrite map_nth. set (x := nth i points []).
  destruct st as [->|[T0 st]].
  - eapply Rle_trans; [apply (C63_error_bound step r discount b x horizon N); auto|apply Rmax_r].
  - eapply Rle_trans; [apply (C63_early_stop step r discount tol x T N); auto; try lia|apply Rmax_l].
    apply st. apply nth_In. exact Hi.
Qed.

Theorem C63_early_stop_refuted horizon : (4 <= horizon)%nat ->
  exists points, reward_rollout points (fun b => Ok (map count b)) (fun b => Ok (map late b)) 1 horizon (1 / 1000) = Ok [0] /\
    return_of 1 count late horizon (nth 0 points []) >= 1000.
Proof.
  intros Hh. exists [[0]]. split.
  - assert (Z : late [0] = 0) by (unfold late; cbn; destruct (Rle_dec 3 0); [lra|reflexivity]).
    unfold reward_rollout. destruct horizon as [|h]; [lia|]. cbn [rollout_loop bind map length repeat Nat.eqb map2 max_abs fold_left pow].
    rewrite Z, Rmult_0_r, Rabs_R0. destruct (Rlt_dec 0 (1 / 1000)); [|lra]. f_equal. f_equal. ring.
  - cbn [nth]. unfold return_of.
    assert (it : forall n, iterate n count [0] = [INR n]).
    { induction n as [|n IH]; [reflexivity|]. cbn [iterate]. rewrite IH, S_INR. reflexivity. }
    assert (nn : forall t, 0 <= 1 ^ t * late (iterate t count [0])).
    { intros t. rewrite pow1, Rmult_1_l. unfold late. destruct (Rle_dec 3 _); lra. }
    assert (G : forall n, (4 <= n)%nat -> rsum n (fun t => 1 ^ t * late (iterate t count [0])) >= 1000).
    { intros n Hn. induction n as [|n IH]; [lia|]. rewrite rsum_S. assert (n = 3 \/ 4 <= n)%nat as [->|Hn'] by lia.
      - assert (0 <= rsum 3 (fun t => 1 ^ t * late (iterate t count [0]))).
        { rewrite !rsum_S, rsum_0. pose proof (nn 0%nat); pose proof (nn 1%nat); pose proof (nn 2%nat). lra. }
        assert (L : 1 ^ 3 * late (iterate 3 count [0]) = 1000).
        { rewrite pow1, Rmult_1_l, it. unfold late. cbn [nth]. destruct (Rle_dec 3 (INR 3)) as [|Q]; [reflexivity|]. simpl in Q. lra. }
        lra.
      - specialize (IH Hn'). pose proof (nn n). lra. }
    apply G. exact Hh.
Qed.

Example C63_ex : reward_rollout [[4]] (fun b => Ok (map halve b)) (fun b => Ok (map (fun x => nth 0 x 0) b)) (1 / 2) 2 (1 / 1000)
  = Ok [5].
Proof.
  unfold reward_rollout. cbn [rollout_loop bind map length repeat Nat.eqb map2 max_abs fold_left pow nth].
  destruct (Rlt_dec (Rabs (1 * 4)) (1 / 1000)) as [L|_]; [unfold Rabs in L; destruct (Rcase_abs _) in L; lra|].
  cbn [rollout_loop bind map length repeat Nat.eqb map2 max_abs fold_left pow nth halve].
  destruct (Rlt_dec _ _); f_equal; f_equal; field.
Qed.

(** The closed-loop response: what the arrays contain. *)
Theorem C64_response dyn pol sd ad step act steps dt reference const ic r :
  (forall x, length x = sd -> pol x = Ok (act x) /\ length (act x) = ad) ->
  (forall x u, length x = sd -> length u = ad -> dyn x u = Ok (step x u) /\ length (step x u) = sd) ->
  (match ic with Some x => length x = sd | None => True end) ->
  reference_signal reference steps ad dt const = Ok r ->
  exists states actions times,
    closedloop_response dyn pol sd ad steps dt reference const ic = Ok (states, actions, times, r) /\
    length states = S steps /\ length actions = S steps /\ length times = S steps /\ length r = S steps /\
    nth 0 states [] = match ic with Some x => x | None => repeat 0 sd end /\
    (forall i, (i <= steps)%nat -> nth i actions [] = act (nth i states [])) /\
    (forall i, (i < steps)%nat ->
       nth (S i) states [] = step (nth i states []) (map2 Rplus (nth i actions []) (nth i r []))) /\
    (forall i, (i <= steps)%nat -> nth i times 0 = dt * INR i).
Proof.
  intros HP HD Hi Er. unfold closedloop_response. rewrite Er. cbn [bind].
  assert (lr : length r = S steps /\ Forall (fun u => length u = ad) r).
  { revert Er. unfold reference_signal.
    destruct (String.eqb reference "impulse"); [|destruct (String.eqb reference "step"); [|destruct (String.eqb reference "zero"); [|discriminate]]];
    intros E; injection E as <-.
    - cbn [length]. rewrite repeat_length. split; [reflexivity|]. constructor; [apply repeat_length|].
      apply Forall_forall. intros u Hu. apply repeat_spec in Hu. subst. apply repeat_length.
    - rewrite repeat_length. split; [lia|]. apply Forall_forall. intros u Hu. apply repeat_spec in Hu. subst. apply repeat_length.
    - rewrite repeat_length. split; [lia|]. apply Forall_forall. intros u Hu. apply repeat_spec in Hu. subst. apply repeat_length. }
  destruct lr as [lr F].
  set (x0 := match ic with Some x => x | None => repeat 0 sd end).
  assert (lx : length x0 = sd) by (unfold x0; destruct ic; [auto|apply repeat_length]).
  assert (ex : match ic with None => Ok (repeat 0 sd) | Some x => check_width sd x end = Ok x0).
  { unfold x0, check_width. destruct ic; [rewrite Hi, Nat.eqb_refl|]; reflexivity. }
  rewrite ex. cbn [bind].
  destruct (response_spec dyn pol sd ad step act HP HD r x0 lx F) as (ss & us & e & l1 & l2 & w & s0 & ea & es).
  rewrite e. cbn [bind fst snd]. exists ss, us. eexists. split; [reflexivity|].
  rewrite l1, l2, map_length, seq_length. repeat split; try lia.
  - apply s0. destruct r; [discriminate lr|discriminate].
  - intros i Hi'. apply ea. lia.
  - intros i Hi'. rewrite ea by lia. apply es. lia.
  - intros i Hi'. rewrite (nth_indep _ 0 (dt * INR 0)) by (rewrite map_length, seq_length; lia).
    rewrite (map_nth (fun i => dt * INR i)), seq_nth by lia. reflexivity.
Qed.

(** The three references; the impulse has area one; anything else is an error. *)
Theorem C64_references steps ad dt const r name :
  (reference_signal name steps ad dt const = Ok r ->
     (name = "impulse"%string /\ forall i j, (i <= steps)%nat -> (j < ad)%nat -> nth j (nth i r []) 0 = if Nat.eqb i 0 then 1 / dt else 0) \/
     (name = "step"%string /\ forall i j, (i <= steps)%nat -> (j < ad)%nat -> nth j (nth i r []) 0 = const) \/
     (name = "zero"%string /\ forall i j, (i <= steps)%nat -> (j < ad)%nat -> nth j (nth i r []) 0 = 0)) /\
  (name <> "impulse"%string -> name <> "step"%string -> name <> "zero"%string ->
     reference_signal name steps ad dt const = Err NameError).
Proof.
  assert (R2 : forall (v : R) n i j, (i < n)%nat -> (j < ad)%nat -> nth j (nth i (repeat (repeat v ad) n) []) 0 = v).
  { intros v n i j Hi Hj. rewrite (nth_indep _ [] (repeat v ad)) by (rewrite repeat_length; auto).
    rewrite nth_repeat, (nth_indep _ 0 v) by (rewrite repeat_length; auto). apply nth_repeat. }
  unfold reference_signal. split.
  - destruct (String.eqb_spec name "impulse"); [|destruct (String.eqb_spec name "step"); [|destruct (String.eqb_spec name "zero"); [|discriminate]]];
    intros E; injection E as <-.
    + left. split; [auto|]. intros [|i] j Hi Hj; cbn [nth Nat.eqb].
      * rewrite (nth_indep _ 0 (1 / dt)) by (rewrite repeat_length; auto). apply nth_repeat.
      * apply R2; auto.
    + right; left. split; [auto|]. intros i j Hi Hj. apply R2; [lia|auto].
    + right; right. split; [auto|]. intros i j Hi Hj. apply R2; [lia|auto].
  - intros n1 n2 n3. destruct (String.eqb_spec name "impulse"); [congruence|]. destruct (String.eqb_spec name "step"); [congruence|].
    destruct (String.eqb_spec name "zero"); [congruence|]. reflexivity.
Qed.

Theorem C64_impulse_area steps ad dt const r j : dt <> 0 -> (j < ad)%nat ->
  reference_signal "impulse" steps ad dt const = Ok r ->
  rsum (S steps) (fun i => dt * nth j (nth i r []) 0) = 1.
Proof.
  intros nd Hj E. destruct (C64_references steps ad dt const r "impulse") as [H _].
  destruct (H E) as [[_ V]|[[X _]|[X _]]]; [|discriminate|discriminate].
  rewrite (rsum_ext _ _ (fun i => if Nat.eqb i 0 then 1 else 0)).
  - clear. induction steps as [|n IH]; [unfold rsum; cbn; ring|]. rewrite rsum_S, IH. cbn. ring.
  - intros i Hi. rewrite V by (auto; lia). destruct (Nat.eqb i 0); [field; auto|ring].
Qed.

(** Started at an equilibrium and without reference, the response stays there. *)
Theorem C64_equilibrium dyn pol sd ad step act steps dt const x states actions times r :
  (forall x, length x = sd -> pol x = Ok (act x) /\ length (act x) = ad) ->
  (forall x u, length x = sd -> length u = ad -> dyn x u = Ok (step x u) /\ length (step x u) = sd) ->
  length x = sd -> step x (act x) = x ->
  closedloop_response dyn pol sd ad steps dt "zero" const (Some x) = Ok (states, actions, times, r) ->
  forall i, (i <= steps)%nat -> nth i states [] = x /\ nth i actions [] = act x.
Proof.
  intros HP HD lx fx E.
  assert (Er : reference_signal "zero" steps ad dt const = Ok (repeat (repeat 0 ad) (steps + 1))) by reflexivity.
  destruct (C64_response dyn pol sd ad step act steps dt "zero" const (Some x) _ HP HD lx Er)
    as (ss & us & ts & E' & _ & _ & _ & _ & s0 & ea & es & _).
  assert (ss = states /\ us = actions) as [-> ->] by (rewrite E in E'; split; congruence).
  assert (er : r = repeat (repeat 0 ad) (steps + 1)) by (rewrite E in E'; congruence).
  assert (G : forall i, (i <= steps)%nat -> nth i states [] = x).
  { induction i as [|i IH]; intros Hi; [exact s0|]. rewrite es by lia. rewrite ea by lia. rewrite IH by lia.
    rewrite (nth_indep _ [] (repeat 0 ad)) by (rewrite repeat_length; lia). rewrite nth_repeat.
    assert (Z : forall l : row, map2 Rplus l (repeat 0 (length l)) = l).
    { induction l as [|a l IHl]; [reflexivity|]. cbn. rewrite IHl. f_equal. ring. }
    destruct (HP x lx) as [_ la]. rewrite <- la, Z. exact fx. }
  intros i Hi. split; [auto|]. rewrite ea by auto. f_equal. auto.
Qed.

Example C64_ex : closedloop_response (fun x u => Ok (map2 Rplus x u)) (fun x => Ok (map (fun a => - a / 2) x)) 1 1 1 (1 / 10) "step" 1 (Some [4])
  = Ok ([[4]; [3]], [[-2]; [-3 / 2]], [0; 1 / 10], [[1]; [1]]).
Proof.
  unfold closedloop_response. cbn. assert (E1 : - (4) / 2 = -2) by field. rewrite E1.
  assert (E2 : 4 + (-2 + 1) = 3) by ring. rewrite E2. rewrite Rmult_0_r, Rmult_1_r. do 2 f_equal.
Qed.
