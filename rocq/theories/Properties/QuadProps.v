(** Property C51: [QuadraticFunction] and [LinearSystem]. *)
From Coq Require Import Reals List Bool Arith Lia Lra.
From Verif Require Import Prelude FunModel QuadModel QuadSpec QuadProofs.
Import ListNotations.
Local Open Scope R_scope.

(** Square matrix, inputs with n columns altogether: the value is x'Px, one row per
    point, where x is a row of the concatenated input. *)
Theorem C51_quadratic_value n N P args :
  rows P = n -> cols P = n -> args <> [] -> Forall (fun t => rows t = N) args -> total_cols args = n ->
  exists X v, hcat args = Ok X /\ quadratic_eval (quadratic_function (Matrix P)) args = Ok v /\
    rows v = N /\ cols v = 1%nat /\
    forall r, (r < N)%nat -> entry v r 0%nat = form n (entry P) (entry X r).
Proof.
  intros rP cP ne FN tc. destruct (quadratic_square n N P args rP cP ne FN tc) as (X & v & H1 & H2 & H3 & H4 & H5).
  exists X, v. repeat split; auto.
Qed.

(** [gradient] is the derivative of that value in every direction, for symmetric
    and non-symmetric matrices, ... *)
Theorem C51_quadratic_gradient n P X :
  rows P = n -> cols P = n -> cols X = n ->
  exists g, quadratic_gradient (quadratic_function (Matrix P)) X = Ok g /\ rows g = rows X /\ cols g = n /\
  forall r h, derivable_pt_lim (fun t => form n (entry P) (fun i => entry X r i + t * h i)) 0
                (dot n (entry g r) h).
Proof.
  intros rP cP cX. destruct (gradient_square n P X rP cP cX) as (g & E & rg & cg & e).
  exists g. repeat split; auto. intros r h.
  replace (dot n (entry g r) h) with
    (dot n (fun k => rsum n (fun j => entry X r j * (entry P j k + entry P k j))) h).
  - apply form_derivative.
  - unfold dot. apply rsum_ext. intros i Hi. rewrite e; auto.
Qed.

(** ... and the remainder of the linearisation is exactly the value at the step. *)
Theorem C51_quadratic_expansion n P X :
  rows P = n -> cols P = n -> cols X = n ->
  exists g, quadratic_gradient (quadratic_function (Matrix P)) X = Ok g /\
  forall r h, form n (entry P) (fun i => entry X r i + h i) =
              form n (entry P) (entry X r) + dot n (entry g r) h + form n (entry P) h.
Proof.
  intros rP cP cX. destruct (gradient_square n P X rP cP cX) as (g & E & rg & cg & e).
  exists g. split; auto. intros r h.
  rewrite form_expand. f_equal. f_equal. unfold dot. apply rsum_ext. intros i Hi. rewrite e; auto.
Qed.

(** A matrix that is not square is not rejected: a column (p, q) gives
    (p x + q y)(x + y). *)
Theorem C51_square_required_refuted : exists P v, rows P = 2%nat /\ cols P = 1%nat /\
  quadratic_eval (quadratic_function (Matrix P))
    [{| rows := 1; cols := 2; entry := fun _ j => INR (S j) |}] = Ok v /\ entry v 0%nat 0%nat = 15.
Proof.
  exists {| rows := 2; cols := 1; entry := fun i _ => 1 + INR i |}. eexists.
  split; [reflexivity|]; split; [reflexivity|]. split; [reflexivity|].
  unfold rsum. simpl. lra.
Qed.

(** Several matrices and as many inputs of matching width: row r of the result is
    A1 x1 + A2 x2 + ... for the rows r of the inputs. *)
Theorem C51_linear m N As Xs :
  As <> [] -> Forall2 (fun A X => cols A = cols X) As Xs ->
  Forall (fun A => rows A = m) As -> Forall (fun X => rows X = N) Xs ->
  exists M Y, linear_system (map Matrix As) = Ok M /\ linear_eval M Xs = Ok Y /\
    rows Y = N /\ cols Y = m /\
    forall r o, (r < N)%nat -> (o < m)%nat -> entry Y r o = linear_sum As Xs r o.
Proof.
  intros ne F2 FA FX.
  destruct (hcat_ok m As ne FA) as (M & EM & rM & cM).
  destruct (hcat_ok N Xs) as (X & EX & rX & cX); auto.
  { destruct F2; congruence. }
  assert (E : linear_system (map Matrix As) = Ok M).
  { unfold linear_system. rewrite map_map. simpl. rewrite map_id. exact EM. }
  unfold linear_eval, matmul, transpose. rewrite EX. cbn [bind rows cols entry].
  pose proof (total_eq As Xs F2). exists M. rewrite (proj2 (Nat.eqb_eq (cols X) (cols M))) by congruence.
  eexists. split; [auto|]. split; [reflexivity|]. repeat split; auto.
  intros r o _ _. cbn [entry]. rewrite <- (hcat_dot m N As Xs F2 ne FA FX M X EM EX r o).
  unfold dot. replace (cols X) with (cols M) by congruence.
  apply rsum_ext. intros; ring.
Qed.

(** The total width of the inputs must be that of the matrices; how they are split
    does not matter for being accepted. *)
Theorem C51_linear_inputs M N Xs :
  Xs <> [] -> Forall (fun X => rows X = N) Xs ->
  (exists Y, linear_eval M Xs = Ok Y) <-> total_cols Xs = cols M.
Proof.
  intros ne FX. destruct (hcat_ok N Xs ne FX) as (X & EX & rX & cX).
  unfold linear_eval, matmul. rewrite EX. simpl. rewrite cX.
  destruct (Nat.eqb_spec (total_cols Xs) (cols M)); split.
  - auto.
  - eexists; reflexivity.
  - intros [Y H]; discriminate.
  - congruence.
Qed.

(** Numbers and vectors may be given in place of matrices. *)
Theorem C51_arrays a l :
  quadratic_function a = meaning a /\
  linear_system l = linear_system (map (fun a => Matrix (meaning a)) l).
Proof.
  assert (E : forall a, atleast_2d a = meaning a) by (intros [| |[]]; reflexivity).
  split; [apply E|]. unfold linear_system. rewrite map_map. f_equal. apply map_ext. intros b. apply E.
Qed.

(** Matrices of different height are rejected, and nothing else. *)
Theorem C51_linear_heights l :
  (exists M, linear_system l = Ok M) \/ linear_system l = Err ValueError.
Proof.
  unfold linear_system. generalize (map atleast_2d l). clear l.
  induction l as [|t [|u l] IH]; [right; reflexivity|left; eexists; reflexivity|].
  change (hcat (t :: u :: l)) with (bind (hcat (u :: l)) (hcat2 t)).
  destruct IH as [(M & ->)| ->]; [|right; reflexivity]. cbn [bind]. unfold hcat2.
  destruct (rows t =? rows M)%nat; [left; eexists|right]; reflexivity.
Qed.
Theorem C51_linear_accepted l :
  (exists M, linear_system l = Ok M) <-> exists m, l <> [] /\ Forall (fun a => height a = m) l.
Proof.
  assert (H : forall ts, (exists M, hcat ts = Ok M) <-> exists m, ts <> [] /\ Forall (fun t => rows t = m) ts).
  { induction ts as [|t [|u ts] IH].
    - split; [intros [M [=]]|intros (m & H & _); congruence].
    - split; [|intros _; eexists; reflexivity]. intros _. exists (rows t). split; [discriminate|auto].
    - change (hcat (t :: u :: ts)) with (bind (hcat (u :: ts)) (hcat2 t)). split.
      + intros (M & E). destruct (hcat (u :: ts)) as [w|] eqn:Ew; [|discriminate].
        destruct (proj1 IH (ex_intro _ w eq_refl)) as (m & ne & F).
        destruct (hcat_ok m (u :: ts) ne F) as (w' & Ew' & Rw & _). rewrite Ew in Ew'. injection Ew' as <-.
        cbn [bind] in E. unfold hcat2 in E. destruct (Nat.eqb_spec (rows t) (rows w)); [|discriminate].
        exists m. split; [discriminate|]. constructor; [congruence|auto].
      + intros (m & _ & F). inversion F as [|? ? Ft F']; subst.
        destruct (hcat_ok (rows t) (u :: ts)) as (w & -> & Rw & _); [discriminate|auto|].
        cbn [bind]. unfold hcat2. rewrite Rw, Nat.eqb_refl. eauto. }
  unfold linear_system. rewrite H. split; intros (m & ne & F); exists m; (split; [destruct l; [destruct (ne eq_refl)|discriminate]|]).
  - rewrite Forall_map in F. eapply Forall_impl; [|exact F]. intros [| |]; auto.
  - rewrite Forall_map. eapply Forall_impl; [|exact F]. intros [| |]; auto.
Qed.

(** A 2d array in place of the list of matrices is taken apart into rows: a system
    with one output and as many inputs as the array has entries, row after row. *)
Theorem C51_single_array_flattened A : (0 < rows A)%nat ->
  exists M, linear_system (iterate A) = Ok M /\ rows M = 1%nat /\ cols M = (rows A * cols A)%nat /\
    forall i j, (i < rows A)%nat -> (j < cols A)%nat -> entry M 0%nat (i * cols A + j)%nat = entry A i j.
Proof.
  intros H. unfold linear_system, iterate. rewrite map_map.
  assert (G : forall n s, (0 < n)%nat ->
    exists M, hcat (map (fun i => atleast_2d (Vector (cols A) (entry A i))) (seq s n)) = Ok M /\
      rows M = 1%nat /\ cols M = (n * cols A)%nat /\
      forall i j, (i < n)%nat -> (j < cols A)%nat -> entry M 0%nat (i * cols A + j)%nat = entry A (s + i) j).
  { induction n as [|n IH]; intros s Hn; [lia|]. destruct n as [|n].
    - eexists. split; [reflexivity|]. cbn [rows cols entry atleast_2d]. split; [reflexivity|]. split; [lia|].
      intros i j Hi Hj. replace i with 0%nat by lia. rewrite Nat.add_0_r. reflexivity.
    - destruct (IH (S s) ltac:(lia)) as (M & EM & rM & cM & e).
      change (seq s (S (S n))) with (s :: seq (S s) (S n)). cbn [map].
      match goal with |- exists M, hcat (?t :: ?l) = _ /\ _ =>
        change (hcat (t :: l)) with (bind (hcat l) (hcat2 t)) end.
      rewrite EM. cbn [bind]. unfold hcat2. rewrite rM. cbn [rows cols entry atleast_2d Nat.eqb].
      eexists. split; [reflexivity|]. cbn [rows cols entry]. split; [reflexivity|]. split; [rewrite cM; lia|].
      intros i j Hi Hj. destruct i as [|i].
      + rewrite Nat.add_0_r. cbn [Nat.mul Nat.add]. rewrite (proj2 (Nat.ltb_lt j (cols A)) Hj). reflexivity.
      + destruct (Nat.ltb_spec (S i * cols A + j) (cols A)) as [L|L]; [cbn [Nat.mul] in L; lia|].
        replace (S i * cols A + j - cols A)%nat with (i * cols A + j)%nat by (cbn [Nat.mul]; lia).
        rewrite e by lia. f_equal. lia. }
  destruct (G (rows A) 0%nat H) as (M & EM & rM & cM & e). exists M. auto.
Qed.
Definition eye2 : tensor := {| rows := 2; cols := 2; entry := fun i j => if Nat.eqb i j then 1 else 0 |}.
Theorem C51_single_array_refuted : exists M e, linear_system (iterate eye2) = Ok M /\
  linear_eval M [{| rows := 1; cols := 2; entry := fun _ _ => 1 |}] = Err e.
Proof.
  destruct (C51_single_array_flattened eye2) as (M & E & r & c & _); [simpl; lia|].
  exists M, ValueError. split; [auto|]. unfold linear_eval, matmul. cbn [hcat bind transpose rows cols].
  rewrite c. reflexivity.
Qed.

(** A concrete system: two states, one input; and a non-symmetric quadratic form. *)
Definition A_ex : tensor := {| rows := 2; cols := 2; entry := fun i j => INR (i + j) |}.
Definition B_ex : tensor := {| rows := 2; cols := 1; entry := fun i _ => INR i |}.
Definition x_ex : tensor := {| rows := 1; cols := 2; entry := fun _ j => INR (S j) |}.
Definition u_ex : tensor := {| rows := 1; cols := 1; entry := fun _ _ => 3 |}.
Example C51_linear_ex : exists M Y, linear_system [Matrix A_ex; Matrix B_ex] = Ok M /\
  linear_eval M [x_ex; u_ex] = Ok Y /\ entry Y 0%nat 0%nat = 2 /\ entry Y 0%nat 1%nat = 8.
Proof.
  destruct (C51_linear 2 1 [A_ex; B_ex] [x_ex; u_ex]) as (M & Y & E1 & E2 & r & c & e);
    [discriminate | repeat constructor | repeat constructor | repeat constructor |].
  exists M, Y. split; [exact E1|]. split; [exact E2|].
  rewrite !e by lia. unfold linear_sum, dot, rsum. simpl. lra.
Qed.
Definition P_ex : tensor := {| rows := 2; cols := 2; entry := fun i j => if Nat.eqb i 0 then 1 + INR j else 1 |}.
Example C51_quadratic_ex : exists v g, quadratic_eval P_ex [x_ex] = Ok v /\ entry v 0%nat 0%nat = 11 /\
  quadratic_gradient P_ex x_ex = Ok g /\ entry g 0%nat 0%nat = 8 /\ entry g 0%nat 1%nat = 7.
Proof.
  destruct (C51_quadratic_value 2 1 P_ex [x_ex]) as (X & v & E1 & E2 & r & c & e);
    [reflexivity | reflexivity | discriminate | repeat constructor | reflexivity |].
  destruct (gradient_square 2 P_ex x_ex) as (g & E3 & _ & _ & e3); [reflexivity | reflexivity | reflexivity |].
  injection E1 as <-.
  exists v, g. split; [exact E2|]. rewrite e by lia. split; [unfold form, rsum; simpl; lra|].
  split; [exact E3|]. rewrite !e3 by lia. unfold rsum; simpl; lra.
Qed.

Print Assumptions C51_quadratic_gradient.
Print Assumptions C51_linear.
