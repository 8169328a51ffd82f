(** Proofs about the safe policy update. *)
From Coq Require Import Reals List Bool Arith ZArith Lia Lra FunctionalExtensionality.
From Coquelicot Require Import Coquelicot.
From Verif Require Import Prelude FunModel QuadModel QuadProofs NNModel AutoNetProofs2.
From Verif Require Import NumModel NumProofs ListFacts GridModel GridSpec GridProofs TriModel TriSpec TriProofs TriProofs2 SafeModel CertModel RLModel RLProofs
  TriLyapModel AutoTriModel AutoTriSpec AutoTriProofs Properties.AutoTriProps PolGradModel PolGradSpec PolGradProofs ConsGradModel ConsGradSpec.
Import ListNotations.
Local Open Scope R_scope.

(** ** Gradients *)
Lemma unit_vec_length m j : length (unit_vec m j) = m.
Proof. unfold unit_vec. now rewrite map_length, seq_length. Qed.
Lemma gradient_unique n f a d d' : length a = n -> is_gradient n f a d -> is_gradient n f a d' -> d = d'.
Proof.
  intros La [Ld H] [Ld' H']. apply nth_ext with (d := 0) (d' := 0); [lia|]. intros k Hk. rewrite Ld in Hk.
  pose (c := fun z => map2 (fun x e => x + z * e) a (unit_vec n k)).
  assert (c0 : c 0 = a).
  { unfold c. apply nth_ext with (d := 0) (d' := 0); [rewrite map2_length, unit_vec_length; lia|]. intros i Hi. rewrite map2_length, unit_vec_length in Hi.
    rewrite (nth_map2 _ _ _ _ 0 0) by (try rewrite unit_vec_length; lia). ring. }
  assert (Lc : forall z, length (c z) = n) by (intros z; unfold c; rewrite map2_length, unit_vec_length; lia).
  assert (Dc : forall i, (i < n)%nat -> is_derive (fun z => coordinate (c z) i) 0 (coordinate (unit_vec n k) i)).
  { intros i Hi. apply (is_derive_ext (fun z => coordinate a i + z * coordinate (unit_vec n k) i)).
    - intros z. unfold c, coordinate. rewrite (nth_map2 _ _ _ _ 0 0) by (try rewrite unit_vec_length; lia). reflexivity.
    - auto_derive; [exact I|ring]. }
  assert (E : forall e, length e = n -> sumn n (fun i => coordinate e i * coordinate (unit_vec n k) i) = coordinate e k).
  { intros e _. rewrite <- (sumn_delta n k (fun i => coordinate e i) Hk). apply sumn_ext. intros i Hi. rewrite unit_vec_coord by auto.
    unfold delta. destruct (i =? k)%nat; ring. }
  pose proof (is_derive_unique _ _ _ (H c _ c0 Lc Dc)) as U. pose proof (is_derive_unique _ _ _ (H' c _ c0 Lc Dc)) as U'.
  rewrite U in U'. rewrite !E in U' by auto. exact U'.
Qed.
Lemma gradient_ext n f f' a d : (forall a', length a' = n -> f a' = f' a') -> is_gradient n f a d -> is_gradient n f' a d.
Proof. intros X [L H]. split; [exact L|]. intros c v c0 Lc Dc. eapply is_derive_ext; [|exact (H c v c0 Lc Dc)]. intros z. apply X, Lc. Qed.
Lemma gradient_scale n f a d w : is_gradient n f a d -> is_gradient n (fun a' => w * f a') a (vscale w d).
Proof.
  intros [L H]. split; [unfold vscale; now rewrite map_length|]. intros c v c0 Lc Dc. eapply dconv; [apply dscal; exact (H c v c0 Lc Dc)|].
  rewrite <- sumn_scal. apply sumn_ext. intros k Hk. unfold vscale, coordinate. rewrite (nth_map_lt _ _ _ 0) by lia. ring.
Qed.
Lemma gradient_plus n f f' a d d' : is_gradient n f a d -> is_gradient n f' a d' -> is_gradient n (fun a' => f a' + f' a') a (vadd d d').
Proof.
  intros [L H] [L' H']. split; [unfold vadd; rewrite map2_length; lia|]. intros c v c0 Lc Dc.
  eapply dconv; [apply (dplus (fun z => f (c z)) (fun z => f' (c z))); [exact (H c v c0 Lc Dc)|exact (H' c v c0 Lc Dc)]|].
  rewrite <- sumn_plus. apply sumn_ext. intros k Hk. unfold vadd, coordinate. rewrite (nth_map2 _ _ _ _ 0 0) by lia. ring.
Qed.
Lemma gradient_shift n f a d r : is_gradient n f a d -> is_gradient n (fun a' => f a' + r) a d.
Proof.
  intros [L H]. split; [exact L|]. intros c v c0 Lc Dc. eapply dconv; [apply (dplus (fun z => f (c z)) (fun _ => r)); [exact (H c v c0 Lc Dc)|apply dconst]|]. ring.
Qed.
Lemma errors_scale P E m n s a w d : length a = n -> length d = m -> right_errors P E m n s a -> E s a (vscale w d) = vscale w (E s a d).
Proof.
  intros La Ld R. apply (gradient_unique n (fun a' => sumn m (fun j => coordinate (vscale w d) j * coordinate (error_of P s a') j)) a); auto.
  - apply R. unfold vscale. now rewrite map_length.
  - apply (gradient_ext n (fun a' => w * sumn m (fun j => coordinate d j * coordinate (error_of P s a') j))).
    + intros a' _. rewrite <- sumn_scal. apply sumn_ext. intros j Hj. unfold vscale, coordinate at 3. rewrite (nth_map_lt _ _ _ 0) by lia. unfold coordinate. ring.
    + apply gradient_scale. now apply R.
Qed.

(** ** The Lyapunov function *)
Lemma lv_steep T lf tau x : lv_scalar (safe_lyapunov T lf tau) x = steepness (current T) x.
Proof.
  unfold lv_scalar, safe_lyapunov, steepness, largest_gradient. cbn [lip_v].
  destruct (gradient (current T) [x]) as [[|[|r [|? ?]] [|? ?]]|]; cbn [length Nat.ltb Nat.leb nth]; reflexivity.
Qed.
Lemma sum_scal c l : CertModel.sum (map (fun e => c * e) l) = c * CertModel.sum l.
Proof. unfold CertModel.sum. induction l as [|x l IH]; cbn [map fold_right]; [ring|rewrite IH; ring]. Qed.
Lemma error_steep T lf tau mean err : weighted_error (safe_lyapunov T lf tau) mean err = steepness (current T) mean * CertModel.sum err.
Proof.
  unfold weighted_error, safe_lyapunov, steepness, largest_gradient. cbn [lip_v].
  destruct (gradient (current T) [mean]) as [[|[|r [|? ?]] [|? ?]]|]; apply sum_scal.
Qed.
Lemma sum_sumn l : CertModel.sum l = sumn (length l) (coordinate l).
Proof. unfold CertModel.sum. induction l as [|x l IH]; [reflexivity|]. cbn [fold_right length]. rewrite sumn_S_l, IH. reflexivity. Qed.

Section Value.
Variables (dl : list vec -> delaunay) (inv : mat -> res mat) (g : grid) (values : mat) (project : bool) (t : tri) (T : tf_tri).
Hypothesis SU : TriSpec.setup dl inv g values 1 project t.
Hypothesis WR : wraps T t values.

Lemma current_is : current T = t.
Proof using SU WR.
  destruct WR as [EV [old EI]]. destruct (setup_wf _ _ _ _ _ _ _ SU) as (_ & PE & _). unfold current. rewrite EV, EI. destruct t; cbn in *; now rewrite PE.
Qed.
Lemma val_triangulated x : length x = dims g -> val t x = triangulated t x.
Proof using SU.
  intros L. unfold val, objective, triangulated, tri_eval. cbn [mapM].
  destruct (find dl inv g values 1 project t SU x L) as (id & verts & vp & w & G & c & q & y & r & Lo).
  destruct (eval_located dl inv g values 1 project t SU _ _ _ _ _ _ _ _ _ _ Lo) as (out & E & Lout & _).
  rewrite E. cbn [bind]. unfold coordinate. cbn. ring.
Qed.
Lemma back_plus x b c : length x = dims g ->
  exists dx dx' dx'' s s' s'', tf_backprop1 T x [b] = Ok (dx, s) /\ tf_backprop1 T x [c] = Ok (dx', s') /\
    tf_backprop1 T x [b + c] = Ok (dx'', s'') /\ vadd dx dx' = dx''.
Proof using SU WR.
  intros L. destruct (find dl inv g values 1 project t SU x L) as (id & verts & vp & w & G & cc & q & y & r & Lo).
  destruct (back_located dl inv g values 1 project t SU T WR _ _ _ _ _ _ _ _ _ _ [b] Lo L eq_refl) as (dx & E & Ldx & Hdx).
  destruct (back_located dl inv g values 1 project t SU T WR _ _ _ _ _ _ _ _ _ _ [c] Lo L eq_refl) as (dx' & E' & Ldx' & Hdx').
  destruct (back_located dl inv g values 1 project t SU T WR _ _ _ _ _ _ _ _ _ _ [b + c] Lo L eq_refl) as (dx'' & E'' & Ldx'' & Hdx'').
  do 6 eexists. split; [exact E|]. split; [exact E'|]. split; [exact E''|].
  apply nth_ext with (d := 0) (d' := 0); [unfold vadd; rewrite map2_length; lia|]. intros j Hj. unfold vadd in *. rewrite map2_length in Hj.
  rewrite (nth_map2 _ _ _ _ 0 0) by lia. fold (coordinate dx j) (coordinate dx' j) (coordinate dx'' j). rewrite Hdx, Hdx', Hdx'' by lia.
  cbn [sumn]. unfold coordinate. cbn [nth]. unfold passes, maximum_grad, minimum_grad. destruct project; [|ring]. repeat destruct Rle_dec; ring.
Qed.
Lemma steep_near id x y : find_simplex t x = Ok id -> find_simplex t y = Ok id -> steepness t x = steepness t y.
Proof using.
  intros Ex Ey. unfold steepness. unfold gradient, get_weights_gradient. cbn [mapM]. rewrite Ex, Ey. reflexivity.
Qed.
End Value.

(** ** Reduction to the update without a constraint *)
Section Reduce.
Variables (dl : list vec -> delaunay) (inv : mat -> res mat) (g : grid) (values : mat) (project : bool) (t : tri).
Variables (P : learner) (D : rates) (E : error_rates) (U : update) (n : nat).
Hypothesis SU : TriSpec.setup dl inv g values 1 project t.
Hypothesis WR : wraps (rl_value P) t values.
Hypothesis UN : uncertain P (dims g) n.

Definition fixed_cost (lf : R) (s : list R) : R := triangulated t s + steepness t s * (1 + lf) * u_tau U.
Definition penalised : learner :=
  {| rl_policy := rl_policy P; rl_dynamics := rl_dynamics P;
     rl_reward := fun s a => rl_reward P s a + - multiplier U * (steepness t (next_of P s a) * CertModel.sum (error_of P s a)) + - multiplier U * fixed_cost (ca U) s;
     rl_value := rl_value P; rl_gamma := rl_gamma P + multiplier U |}.
Definition penalised_rates : rates :=
  {| d_reward := fun s a => vadd (d_reward D s a) (E s a (map (fun _ => - multiplier U * steepness t (next_of P s a)) (error_of P s a)));
     d_dynamics := d_dynamics D |}.

Lemma constrained_value lip s a : length a = n ->
  exists v, future_value penalised None (Some a) None s = Ok v /\
    future_value P None (Some a) (Some (safe_lyapunov (rl_value P) (ca U + cb U * lip) (u_tau U), multiplier U)) s =
      Ok (v + - multiplier U * (steepness t s * cb U * u_tau U) * lip).
Proof using SU WR UN.
  intros La. destruct (UN s a La) as (mean & err & ED & Lm & Le).
  destruct (value_ok dl inv g values project t (rl_value P) SU WR mean Lm) as [EV _].
  unfold future_value. cbn [penalised rl_dynamics rl_value rl_reward rl_gamma]. rewrite ED. rewrite EV. cbn [bind].
  eexists. split; [reflexivity|]. f_equal. unfold v_decrease_bound, v_decrease_confidence. cbn [safe_lyapunov lyapunov_function CertModel.tau].
  unfold threshold. rewrite error_steep, lv_steep, (current_is dl inv g values project t _ SU WR). unfold lf_scalar. cbn [safe_lyapunov lip_f].
  unfold next_of, error_of. rewrite ED. unfold fixed_cost, neg_triangulated. rewrite <- (val_triangulated dl inv g values project t SU mean Lm). ring.
Qed.

Lemma constrained_back s a w : length a = n -> right_errors P E (dims g) n s a -> length (d_reward D s a) = n ->
  constrained_backprop1 P D E U s a w = future_backprop1 penalised penalised_rates s a w.
Proof using SU WR UN.
  intros La RE Lr. destruct (UN s a La) as (mean & err & ED & Lm & Le). unfold constrained_backprop1, future_backprop1.
  cbn [penalised penalised_rates rl_dynamics rl_value rl_gamma d_reward d_dynamics]. unfold next_of, error_of. rewrite ED.
  destruct (back_plus dl inv g values project t (rl_value P) SU WR mean (rl_gamma P * w) (multiplier U * w) Lm) as (dx & dx' & dx'' & sl & sl' & sl'' & E1 & E2 & E3 & Q).
  replace (- multiplier U * w * -1) with (multiplier U * w) by ring. replace ((rl_gamma P + multiplier U) * w) with (rl_gamma P * w + multiplier U * w) by ring.
  rewrite E1, E2, E3. cbn [bind fst]. f_equal. rewrite Q. f_equal. rewrite lv_steep, (current_is dl inv g values project t _ SU WR).
  replace (map (fun _ => - multiplier U * w * steepness t mean) err) with (vscale w (map (fun _ => - multiplier U * steepness t mean) err)).
  2:{ unfold vscale. rewrite map_map. apply map_ext. intros; ring. }
  rewrite (errors_scale P E (dims g) n) by (auto; now rewrite map_length).
  assert (LE : length (E s a (map (fun _ => - multiplier U * steepness t mean) err)) = n) by (apply RE; now rewrite map_length).
  unfold vadd, vscale. apply nth_ext with (d := 0) (d' := 0); [rewrite !map2_length, !map_length, map2_length; reflexivity|].
  intros k Hk. rewrite map2_length, !map_length, Lr, LE in Hk.
  rewrite (nth_map2 _ _ _ _ 0 0) by (rewrite map_length; lia). rewrite !(nth_map_lt _ _ _ 0) by (try rewrite map2_length; lia).
  rewrite (nth_map2 _ _ _ _ 0 0) by lia. ring.
Qed.

Lemma penalised_smooth s a : length a = n -> smooth_state P D g t n s a -> right_errors P E (dims g) n s a ->
  smooth_state penalised penalised_rates g t n s a.
Proof using SU UN.
  intros La SS RE. pose proof SS as [SR SL SD SX SP]. constructor; auto.
  cbn [penalised penalised_rates rl_reward d_reward]. apply gradient_shift. apply gradient_plus; [exact SR|].
  destruct SX as (id & r & Hr & Near).
  pose (lv := steepness t (next_of P s a)).
  assert (G0 : is_gradient n (fun a' => - multiplier U * (lv * CertModel.sum (error_of P s a'))) a (E s a (map (fun _ => - multiplier U * lv) (error_of P s a)))).
  { destruct (UN s a La) as (mean & err & ED & Lm & Le).
    apply (gradient_ext n (fun a' => sumn (dims g) (fun j => coordinate (map (fun _ => - multiplier U * lv) (error_of P s a)) j * coordinate (error_of P s a') j))).
    - intros a' La'. destruct (UN s a' La') as (mean' & err' & ED' & Lm' & Le'). unfold error_of. rewrite ED, ED'. rewrite sum_sumn, Le', <- Rmult_assoc, <- sumn_scal.
      apply sumn_ext. intros j Hj. unfold coordinate at 1. rewrite (nth_map_lt _ _ _ 0) by lia. reflexivity.
    - apply RE. unfold error_of. rewrite ED. now rewrite map_length. }
  destruct G0 as [LG HG]. split; [exact LG|]. intros c v c0 Lc Dc.
  apply (is_derive_ext_loc (fun z => - multiplier U * (lv * CertModel.sum (error_of P s (c z))))); [|exact (HG c v c0 Lc Dc)].
  assert (Du : forall j, (j < dims g)%nat -> exists u, is_derive (fun z => coordinate (next_of P s (c z)) j) 0 u).
  { intros j Hj. destruct (SD (unit_vec (dims g) j) (unit_vec_length _ _)) as [_ G]. eexists.
    eapply is_derive_ext; [|exact (G c v c0 Lc Dc)]. intros z. cbn beta.
    etransitivity; [|exact (sumn_delta (dims g) j (fun i => coordinate (next_of P s (c z)) i) Hj)]. apply sumn_ext. intros i Hi.
    rewrite unit_vec_coord by auto. unfold delta. destruct (i =? j)%nat; ring. }
  apply (filter_imp (fun z => forall j, (j < dims g)%nat -> Rabs (coordinate (next_of P s (c z)) j - coordinate (next_of P s (c 0)) j) < r)).
  - intros z Hz. f_equal. f_equal. apply (steep_near t id).
    + apply Near; [now apply SL|]. intros j Hj. rewrite Rminus_diag_eq, Rabs_R0; auto.
    + apply Near; [now apply SL|]. intros j Hj. rewrite <- c0. now apply Hz.
  - apply locally_all. intros j Hj. destruct (Du j Hj) as (u & Hu). apply (locally_near (fun z => coordinate (next_of P s (c z)) j) u); auto.
Qed.
End Reduce.
