(** Proofs about the example systems. *)
From Coq Require Import Reals List Bool Arith Lia Lra Psatz.
From Coquelicot Require Import Coquelicot.
From Verif Require Import Prelude DynModel DynSpec.
Import List ListNotations.
Local Open Scope R_scope.

Lemma scale_inverse x d : length x = length d -> Forall (fun t => t <> 0) d ->
  map2 Rmult (map2 Rmult x (inverse d)) d = x /\ map2 Rmult (map2 Rmult x d) (inverse d) = x /\
  length (map2 Rmult x d) = length d /\ length (map2 Rmult x (inverse d)) = length d.
Proof.
  revert d. induction x as [|a x IH]; intros [|b d] Hl F; try discriminate.
  - repeat split; reflexivity.
  - injection Hl as Hl. inversion F as [|? ? nb F']; subst. destruct (IH d Hl F') as (e1 & e2 & e3 & e4).
    cbn [map2 inverse map length] in *. unfold inverse in *. rewrite e1, e2, e3, e4.
    repeat split; f_equal; field; auto.
Qed.
Lemma inverse_length d : length (inverse d) = length d.
Proof. apply map_length. Qed.

Lemma normalize_inv nm x u y v : nonzero nm -> normalize nm x u = Ok (y, v) -> denormalize nm y v = Ok (x, u).
Proof.
  destruct nm as [[Tx Tu]|]; [|intros _ H; injection H as <- <-; reflexivity]. intros [Fx Fu].
  cbn [normalize denormalize fst snd]. unfold rescale, matmul_diag. cbn [fst snd]. rewrite inverse_length.
  destruct (Nat.eqb_spec (length x) (length Tx)) as [lx|]; [|discriminate]. cbn [bind].
  destruct (scale_inverse x Tx lx Fx) as (e1 & _ & _ & l1).
  destruct u as [u|].
  - rewrite inverse_length. destruct (Nat.eqb_spec (length u) (length Tu)) as [lu|]; [|discriminate]. cbn [bind].
    destruct (scale_inverse u Tu lu Fu) as (e2 & _ & _ & l2).
    intros H; injection H as <- <-. rewrite l1, l2, !Nat.eqb_refl. cbn [bind]. rewrite e1, e2. reflexivity.
  - intros H; injection H as <- <-. rewrite l1, Nat.eqb_refl. cbn [bind]. rewrite e1. reflexivity.
Qed.
Lemma denormalize_inv nm x u y v : nonzero nm -> denormalize nm x u = Ok (y, v) -> normalize nm y v = Ok (x, u).
Proof.
  destruct nm as [[Tx Tu]|]; [|intros _ H; injection H as <- <-; reflexivity]. intros [Fx Fu].
  cbn [normalize denormalize fst snd]. unfold rescale, matmul_diag. cbn [fst snd]. rewrite inverse_length.
  destruct (Nat.eqb_spec (length x) (length Tx)) as [lx|]; [|discriminate]. cbn [bind].
  destruct (scale_inverse x Tx lx Fx) as (_ & e1 & l1 & _).
  destruct u as [u|].
  - rewrite inverse_length. destruct (Nat.eqb_spec (length u) (length Tu)) as [lu|]; [|discriminate]. cbn [bind].
    destruct (scale_inverse u Tu lu Fu) as (_ & e2 & l2 & _).
    intros H; injection H as <- <-. rewrite l1, l2, !Nat.eqb_refl. cbn [bind]. rewrite e1, e2. reflexivity.
  - intros H; injection H as <- <-. rewrite l1, Nat.eqb_refl. cbn [bind]. rewrite e1. reflexivity.
Qed.
Lemma normalize_None nm x u y v : normalize nm x u = Ok (y, v) -> normalize nm x None = Ok (y, None).
Proof.
  destruct nm as [d|]; cbn [normalize]; [|congruence]. unfold rescale.
  destruct (matmul_diag x _) as [z|]; [|discriminate]. cbn [bind].
  destruct u as [u|]; [destruct (matmul_diag u _); [|discriminate]|]; cbn [bind]; congruence.
Qed.

(** Normalised models are the physical ones in other units. *)
Lemma denorm_lengths nm x u y v : denormalize nm x (Some u) = Ok (y, v) ->
  length y = length x /\ exists w, v = Some w /\ length w = length u.
Proof.
  destruct nm as [[Tx Tu]|]; cbn [denormalize].
  2:{ intros H. injection H as <- <-. split; [auto|]. eauto. }
  unfold rescale, matmul_diag. cbn [fst snd].
  destruct (Nat.eqb_spec (length x) (length Tx)) as [lx|]; [|discriminate]. cbn [bind].
  destruct (Nat.eqb_spec (length u) (length Tu)) as [lu|]; [|discriminate]. cbn [bind].
  intros H; injection H as <- <-.
  assert (L : forall a b : row, length a = length b -> length (map2 Rmult a b) = length a).
  { induction a as [|? a IH]; intros [|? b] Hl; try discriminate; [reflexivity|]. cbn. f_equal. apply IH. auto. }
  split; [apply L; auto|]. eexists. split; [reflexivity|]. apply L; auto.
Qed.
Lemma split1_app n (x u : row) : length x = n -> length u = 1%nat -> split1 n (x ++ u) = Ok (x, u).
Proof.
  intros <- Hu. unfold split1. rewrite app_length, Hu, Nat.eqb_refl.
  rewrite firstn_app, Nat.sub_diag, firstn_all. cbn [firstn]. rewrite app_nil_r.
  rewrite skipn_app, Nat.sub_diag, skipn_all. reflexivity.
Qed.
Lemma run_scaled n nm dt ode (x u : row) : length x = n -> length u = 1%nat ->
  run_model n nm dt ode (x ++ u) =
  (do xu <- denormalize nm x (Some u);
   match xu with
   | (x', Some u') => do y <- run_model n None dt ode (x' ++ u'); do y' <- normalize nm y None; Ok (fst y')
   | (_, None) => Err TypeError
   end).
Proof.
  intros lx lu. unfold run_model at 1. rewrite split1_app by auto. cbn [bind fst snd].
  destruct (denormalize nm x (Some u)) as [[x' u']|] eqn:D; [|reflexivity]. cbn [bind fst snd].
  destruct (denorm_lengths _ _ _ _ _ D) as (lx' & w & -> & lw).
  unfold run_model. rewrite split1_app by congruence. cbn [bind fst snd denormalize].
  destruct (repeat_euler 10 _ _ _); [|reflexivity]. reflexivity.
Qed.

(** Fixed points. *)
Lemma euler_zero dt x : euler dt x (repeat 0 (length x)) = x.
Proof. unfold euler. induction x as [|a x IH]; [reflexivity|]. cbn [length repeat map2]. rewrite IH. f_equal. ring. Qed.
Lemma repeat_euler_fixed k dt f x : f x = Ok (repeat 0 (length x)) -> repeat_euler k dt f x = Ok x.
Proof. intros E. induction k as [|k IH]; [reflexivity|]. cbn [repeat_euler]. rewrite E. cbn [bind]. rewrite euler_zero. exact IH. Qed.
Lemma run_fixed n nm dt ode (x u y w : row) : nonzero nm -> length x = n -> length u = 1%nat ->
  denormalize nm x (Some u) = Ok (y, Some w) -> ode y w = Ok (repeat 0 (length y)) ->
  run_model n nm dt ode (x ++ u) = Ok x.
Proof.
  intros nz lx lu D E. unfold run_model. rewrite split1_app by auto. cbn [bind fst snd]. rewrite D. cbn [bind fst snd].
  rewrite (repeat_euler_fixed _ _ _ _ E). cbn [bind].
  rewrite (normalize_None _ _ _ _ _ (denormalize_inv _ _ _ _ _ nz D)). reflexivity.
Qed.

(** First order consistency of the Euler steps. *)
Definition smooth_at (f : row -> res row) (x : row) : Prop :=
  forall c : R -> row, (forall t, length (c t) = length x) -> c 0 = x ->
    (forall i, ex_derive (fun t => nth i (c t) 0) 0) ->
    exists g : R -> row, (forall t, f (c t) = Ok (g t)) /\ (forall t, length (g t) = length x) /\
      forall i, ex_derive (fun t => nth i (g t) 0) 0.

Lemma nth_euler dt : forall x dx i, length dx = length x ->
  nth i (euler dt x dx) 0 = nth i x 0 + dt * nth i dx 0.
Proof.
  unfold euler. induction x as [|a x IH]; intros [|b dx] i Hl; try discriminate.
  - destruct i; cbn; ring.
  - destruct i; cbn; [reflexivity|]. apply IH. auto.
Qed.
Lemma euler_length dt x dx : length dx = length x -> length (euler dt x dx) = length x.
Proof.
  unfold euler. revert dx. induction x as [|a x IH]; intros [|b dx] Hl; try discriminate; [reflexivity|].
  cbn. f_equal. apply IH. auto.
Qed.

Lemma euler_consistent f x y k : smooth_at f x -> f x = Ok y -> forall c d,
  (forall t, length (c t) = length x) -> c 0 = x ->
  (forall i, is_derive (fun t => nth i (c t) 0) 0 (d i)) ->
  exists h : R -> row, (forall t, repeat_euler k (t / 10) f (c t) = Ok (h t)) /\ h 0 = x /\
    (forall t, length (h t) = length x) /\
    forall i, is_derive (fun t => nth i (h t) 0) 0 (d i + INR k / 10 * nth i y 0).
Proof.
  intros sm fy. induction k as [|k IH]; intros c d lc c0 dc.
  - exists c. split; [reflexivity|]. split; [auto|]. split; [auto|]. intros i.
    replace (d i + INR 0 / 10 * nth i y 0) with (d i) by (simpl; lra). apply dc.
  - destruct (sm c lc c0) as (g & eg & lg & dg).
    { intros i. exists (d i). apply dc. }
    assert (g0 : g 0 = y) by (specialize (eg 0); rewrite c0, fy in eg; congruence).
    destruct (IH (fun t => euler (t / 10) (c t) (g t)) (fun i => d i + 1 / 10 * nth i y 0)) as (h & eh & h0 & lh & dh).
    + intros t. rewrite euler_length; auto. rewrite lg, lc. reflexivity.
    + assert (G : 0 / 10 = 0) by lra. rewrite G, c0. clear - lg g0. specialize (lg 0). 
      assert (Z : forall a b : row, length b = length a -> euler 0 a b = a).
      { unfold euler. induction a as [|p a IH]; intros [|q b] Hl; try discriminate; [reflexivity|].
        cbn. rewrite IH by auto. f_equal. ring. }
      apply Z. exact lg.
    + intros i. destruct (dg i) as [g' dg'].
      apply is_derive_ext with (fun t => nth i (c t) 0 + t / 10 * nth i (g t) 0).
      { intros t. symmetry. apply nth_euler. rewrite lg, lc. reflexivity. }
      apply (is_derive_plus (fun t => nth i (c t) 0) (fun t => t / 10 * nth i (g t) 0)); [apply dc|].
      assert (D : is_derive (fun t => t / 10 * nth i (g t) 0) 0 (1 / 10 * nth i (g 0) 0 + 0 / 10 * g')).
      { apply (is_derive_mult (fun t => t / 10) (fun t => nth i (g t) 0)); [|exact dg'|intros; apply Rmult_comm].
        auto_derive; [exact I|]. field. }
      rewrite g0 in D. replace (1 / 10 * nth i y 0) with (1 / 10 * nth i y 0 + 0 / 10 * g') by (unfold Rdiv; ring). exact D.
    + exists h. split; [intros t; cbn [repeat_euler]; rewrite eg; cbn [bind]; apply eh|]. split; [auto|]. split; [auto|].
      intros i. rewrite S_INR. replace (d i + (INR k + 1) / 10 * nth i y 0) with (d i + 1 / 10 * nth i y 0 + INR k / 10 * nth i y 0) by lra.
      apply dh.
Qed.

Lemma run_consistent n ode x u y i : length x = n -> length u = 1%nat ->
  smooth_at (fun z => ode z u) x -> ode x u = Ok y ->
  derivable_pt_lim (fun dt => component i (run_model n None dt ode (x ++ u))) 0 (nth i y 0).
Proof.
  intros lx lu sm E. apply is_derive_Reals.
  destruct (euler_consistent _ _ _ 10 sm E (fun _ => x) (fun _ => 0)) as (h & eh & _ & _ & dh); auto.
  { intros j. apply (is_derive_const (nth j x 0) 0). }
  apply is_derive_ext with (fun t => nth i (h t) 0).
  - intros t. unfold run_model. rewrite split1_app by auto. cbn [bind fst snd denormalize]. rewrite eh. reflexivity.
  - specialize (dh i). replace (nth i y 0) with (0 + INR 10 / 10 * nth i y 0) by (simpl; field). exact dh.
Qed.

Lemma run_value n ode x u : length x = n -> length u = 1%nat ->
  smooth_at (fun z => ode z u) x -> run_model n None 0 ode (x ++ u) = Ok x.
Proof.
  intros lx lu sm. destruct (sm (fun _ => x)) as (g & eg & lg & _); auto.
  { intros i. exists 0. apply (is_derive_const (nth i x 0) 0). }
  destruct (euler_consistent _ _ _ 10 sm (eg 0) (fun _ => x) (fun _ => 0)) as (h & eh & h0 & _ & _); auto.
  { intros j. apply (is_derive_const (nth j x 0) 0). }
  unfold run_model. rewrite split1_app by auto. cbn [bind fst snd denormalize]. rewrite eh. cbn [bind normalize fst]. rewrite h0. reflexivity.
Qed.

(** The three equations are smooth. *)
Lemma curve2 (c : R -> row) : (forall t, length (c t) = 2%nat) -> (forall i, ex_derive (fun t => nth i (c t) 0) 0) ->
  exists a b : R -> R, (forall t, c t = [a t; b t]) /\ ex_derive a 0 /\ ex_derive b 0.
Proof.
  intros H D. exists (fun t => nth 0 (c t) 0), (fun t => nth 1 (c t) 0). split; [|split; apply D].
  intros t. specialize (H t). destruct (c t) as [|a [|b [|? ?]]]; try discriminate. reflexivity.
Qed.
Lemma curve4 (c : R -> row) : (forall t, length (c t) = 4%nat) -> (forall i, ex_derive (fun t => nth i (c t) 0) 0) ->
  exists a b d e : R -> R, (forall t, c t = [a t; b t; d t; e t]) /\ ex_derive a 0 /\ ex_derive b 0 /\ ex_derive d 0 /\ ex_derive e 0.
Proof.
  intros H D. exists (fun t => nth 0 (c t) 0), (fun t => nth 1 (c t) 0), (fun t => nth 2 (c t) 0), (fun t => nth 3 (c t) 0).
  split; [|repeat split; apply D].
  intros t. specialize (H t). destruct (c t) as [|a [|b [|? [|? [|? ?]]]]]; try discriminate. reflexivity.
Qed.
Lemma derive_zero i : ex_derive (fun _ : R => nth i (@nil R) 0) 0.
Proof. exists 0. apply (is_derive_const (nth i (@nil R) 0) 0). Qed.

Lemma pendulum_smooth p x u : length x = 2%nat -> length u = 1%nat -> smooth_at (fun z => pendulum_ode p z u) x.
Proof.
  intros lx lu c lc c0 dc. destruct u as [|u [|? ?]]; try discriminate.
  assert (lc' : forall t, length (c t) = 2%nat) by (intros t; rewrite lc; exact lx).
  destruct (curve2 c lc' dc) as (a & b & cc & da & db).
  exists (fun t => [b t;
     let a := gravity / arm p * sin (a t) + u / inertia p in
     if Rlt_dec 0 (friction p) then a - friction p / inertia p * b t else a]).
  split; [intros t; rewrite (cc t); reflexivity|]. split; [intros t; rewrite lx; reflexivity|].
  intros [|[|i]]; cbn [nth]; cbv zeta.
  - exact db.
  - destruct (Rlt_dec 0 (friction p)); auto_derive; auto.
  - apply derive_zero.
Qed.

Lemma cartpole_smooth p x u : length x = 4%nat -> length u = 1%nat ->
  pole_length p <> 0 -> cart_mass p + pole_mass p * Rsqr (sin (nth 1 x 0)) <> 0 ->
  smooth_at (fun z => cartpole_ode p z u) x.
Proof.
  intros lx lu nL nd c lc c0 dc. destruct u as [|u [|? ?]]; try discriminate.
  assert (lc' : forall t, length (c t) = 4%nat) by (intros t; rewrite lc; exact lx).
  destruct (curve4 c lc' dc) as (a & b & d & e & cc & da & db & dd & de).
  exists (fun t => match cartpole_ode p [a t; b t; d t; e t] [u] with Ok y => y | Err _ => [] end).
  split; [intros t; rewrite (cc t); reflexivity|]. split; [intros t; rewrite lx; reflexivity|].
  assert (nz : pole_length p * (cart_mass p + pole_mass p * Rsqr (sin (b 0))) <> 0).
  { rewrite <- c0, (cc 0) in nd. cbn [nth] in nd. apply Rmult_integral_contrapositive_currified; auto. }
  intros [|[|[|[|i]]]]; unfold cartpole_ode; cbn [nth]; unfold Rsqr in *; cbv zeta.
  - exact dd.
  - exact de.
  - auto_derive; auto 20.
  - auto_derive; auto 20.
  - apply derive_zero.
Qed.

Lemma vanderpol_smooth v x : length x = 2%nat -> smooth_at (vanderpol_ode v) x.
Proof.
  intros lx c lc c0 dc.
  assert (lc' : forall t, length (c t) = 2%nat) by (intros t; rewrite lc; exact lx).
  destruct (curve2 c lc' dc) as (a & b & cc & da & db).
  exists (fun t => [- b t; a t + damping v * (a t ^ 2 - 1) * b t]).
  split; [intros t; rewrite (cc t); reflexivity|]. split; [intros t; rewrite lx; reflexivity|].
  intros [|[|i]]; cbn [nth].
  - auto_derive; auto.
  - auto_derive; auto.
  - apply derive_zero.
Qed.
