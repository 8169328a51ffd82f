(** GP data and function stacks: proofs. *)
From Coq Require Import Reals List Bool Arith Lia Lra.
From Verif Require Import Prelude ListFacts FunModel StackModel.
Import ListNotations.
Local Open Scope R_scope.

Section GP.
Context {C : Type} (compute : list (list R) -> list (list R) -> res C).
Notation gp := (@gp C).
Notation add := (add_data_point compute).

(** As many inputs as outputs, the cache computed from them, and everything in the
    feed dictionary. *)
Definition consistent (g : gp) : Prop :=
  length (data (gX g)) = length (data (gY g)) /\
  compute (data (gX g)) (data (gY g)) = Ok (cache g) /\
  fed g = (gX g, gY g, cache g).

Definition rows_of (x : nd) : list (list R) := data (atleast_2d x).

Lemma add_ok g x y g' : add g x y = (g', Ok tt) ->
  ncol (atleast_2d x) = ncol (gX g) /\ ncol (atleast_2d y) = ncol (gY g) /\
  gX g' = {| ncol := ncol (gX g); data := data (gX g) ++ rows_of x |} /\
  gY g' = {| ncol := ncol (gY g); data := data (gY g) ++ rows_of y |} /\
  compute_cache compute (gX g') (gY g') = Ok (cache g') /\ fed g' = (gX g', gY g', cache g').
Proof.
  unfold add_data_point, vstack.
  destruct (Nat.eqb_spec (ncol (gX g)) (ncol (atleast_2d x))); [|discriminate].
  destruct (Nat.eqb_spec (ncol (gY g)) (ncol (atleast_2d y))); [|discriminate].
  match goal with |- context [compute_cache compute ?X ?Y] =>
    destruct (compute_cache compute X Y) as [c|] eqn:E end; [|discriminate].
  intros H; injection H as <-. simpl. auto 10.
Qed.

Lemma add_consistent g x y g' : consistent g -> (1 <= length (data (gY g)))%nat ->
  (1 <= length (rows_of y))%nat -> add g x y = (g', Ok tt) ->
  consistent g' /\ length (rows_of x) = length (rows_of y) /\
  data (gX g') = data (gX g) ++ rows_of x /\ data (gY g') = data (gY g) ++ rows_of y.
Proof.
  intros (L & K & F) H1 H2 E. apply add_ok in E as (_ & _ & EX & EY & EC & EF).
  unfold consistent. rewrite EX, EY in *. simpl in *.
  unfold compute_cache in EC. simpl in EC. rewrite !app_length in EC.
  rewrite !app_length.
  destruct (Nat.eqb_spec (length (data (gY g)) + length (rows_of y)) (length (data (gX g)) + length (rows_of x))).
  - repeat split; auto; lia.
  - destruct (Nat.eqb_spec (length (data (gY g)) + length (rows_of y)) 1); [lia|discriminate].
Qed.

Fixpoint run (g : gp) (calls : list (nd * nd)) : gp * list (res unit) :=
  match calls with
  | [] => (g, [])
  | (x, y) :: t => let '(g1, r) := add g x y in let '(g2, rs) := run g1 t in (g2, r :: rs)
  end.

Lemma run_consistent : forall calls g g' rs, consistent g -> (1 <= length (data (gY g)))%nat ->
  Forall (fun c => (1 <= length (rows_of (snd c)))%nat) calls ->
  run g calls = (g', rs) -> Forall (fun r => r = Ok tt) rs ->
  consistent g' /\
  data (gX g') = data (gX g) ++ flat_map (fun c => rows_of (fst c)) calls /\
  data (gY g') = data (gY g) ++ flat_map (fun c => rows_of (snd c)) calls.
Proof.
  induction calls as [|[x y] t IH]; intros g g' rs Cg H1 F E R; simpl in *.
  - injection E as <- <-. rewrite !app_nil_r. auto.
  - destruct (add g x y) as [g1 r] eqn:E1. destruct (run g1 t) as [g2 rs'] eqn:E2.
    injection E as <- <-. inversion R as [|? ? Hr R']; subst. inversion F as [|? ? Hy F']; subst. simpl in Hy.
    destruct (add_consistent _ _ _ _ Cg H1 Hy E1) as (C1 & L & DX & DY).
    destruct (IH g1 g2 rs' C1) as (C2 & X2 & Y2); auto.
    { rewrite DY, app_length; lia. }
    split; auto. rewrite X2, Y2, DX, DY, <- !app_assoc. auto.
Qed.

(** What a failed call leaves behind. *)
Lemma add_failed g x y g' e : add g x y = (g', Err e) ->
  cache g' = cache g /\ fed g' = fed g /\
  ((g' = g /\ ncol (atleast_2d x) <> ncol (gX g)) \/
   (gY g' = gY g /\ data (gX g') = data (gX g) ++ rows_of x /\
      ncol (atleast_2d x) = ncol (gX g) /\ ncol (atleast_2d y) <> ncol (gY g)) \/
   (data (gX g') = data (gX g) ++ rows_of x /\ data (gY g') = data (gY g) ++ rows_of y /\
      ncol (atleast_2d x) = ncol (gX g) /\ ncol (atleast_2d y) = ncol (gY g) /\
      compute_cache compute (gX g') (gY g') = Err e)).
Proof.
  unfold add_data_point, vstack.
  destruct (Nat.eqb_spec (ncol (gX g)) (ncol (atleast_2d x))).
  2:{ intros H; injection H as <- <-. auto 10. }
  destruct (Nat.eqb_spec (ncol (gY g)) (ncol (atleast_2d y))).
  2:{ intros H; injection H as <- <-. simpl. auto 10. }
  match goal with |- context [compute_cache compute ?X ?Y] =>
    destruct (compute_cache compute X Y) as [c|] eqn:E end; [discriminate|].
  intros H; injection H as <- <-. simpl. auto 10.
Qed.

Lemma stuck_step g x y : length (data (gX g)) <> length (data (gY g)) ->
  (1 <= length (data (gY g)))%nat -> (1 <= length (rows_of y))%nat ->
  length (rows_of x) = length (rows_of y) ->
  exists g' e, add g x y = (g', Err e) /\ fed g' = fed g /\
    (ncol (atleast_2d x) = ncol (gX g) -> ncol (atleast_2d y) = ncol (gY g) ->
     length (data (gX g')) <> length (data (gY g')) /\ (1 <= length (data (gY g')))%nat /\
     ncol (gX g') = ncol (gX g) /\ ncol (gY g') = ncol (gY g)).
Proof.
  intros N H1 H2 L. unfold add_data_point, vstack, rows_of in *.
  destruct (Nat.eqb_spec (ncol (gX g)) (ncol (atleast_2d x))).
  2:{ do 2 eexists. split; [reflexivity|]. simpl. split; [reflexivity|intros; congruence]. }
  destruct (Nat.eqb_spec (ncol (gY g)) (ncol (atleast_2d y))).
  2:{ do 2 eexists. split; [reflexivity|]. simpl. split; [reflexivity|intros; congruence]. }
  unfold compute_cache. simpl. rewrite !app_length.
  destruct (Nat.eqb_spec (length (data (gY g)) + length (data (atleast_2d y)))
                         (length (data (gX g)) + length (data (atleast_2d x)))); [lia|].
  destruct (Nat.eqb_spec (length (data (gY g)) + length (data (atleast_2d y))) 1); [lia|].
  do 2 eexists. split; [reflexivity|]. simpl. split; auto. intros _ _. rewrite !app_length. lia.
Qed.

Lemma stuck : forall calls g g' rs, length (data (gX g)) <> length (data (gY g)) ->
  (1 <= length (data (gY g)))%nat ->
  Forall (fun c => (1 <= length (rows_of (snd c)))%nat /\ length (rows_of (fst c)) = length (rows_of (snd c)) /\
     ncol (atleast_2d (fst c)) = ncol (gX g) /\ ncol (atleast_2d (snd c)) = ncol (gY g)) calls ->
  run g calls = (g', rs) -> fed g' = fed g /\ Forall (fun r => exists e, r = Err e) rs.
Proof.
  induction calls as [|[x y] t IH]; intros g g' rs N H1 F E; simpl in *.
  - injection E as <- <-. auto.
  - inversion F as [|? ? (Hy & L & Cx & Cy) F']; subst. simpl in *.
    destruct (stuck_step g x y N H1 Hy L) as (g1 & e & E1 & Ef & K).
    destruct (K Cx Cy) as (N' & H1' & Kx & Ky). rewrite E1 in E.
    destruct (run g1 t) as [g2 rs'] eqn:E2. injection E as <- <-.
    destruct (IH g1 g2 rs' N' H1') as [A B]; auto.
    { rewrite Kx, Ky. auto. }
    split; [congruence|]. constructor; eauto.
Qed.

(** ** Stacks *)
Lemma add_each_ok : forall (fs : list gp) x r,
  length fs = length r ->
  (forall k, (k < length fs)%nat -> forall d, exists f', add (nth k fs d) x (Scal (nth k r 0)) = (f', Ok tt)) ->
  exists fs', add_each compute fs x (map Scal r) = (fs', Ok tt) /\ length fs' = length fs /\
    forall k d, (k < length fs)%nat -> add (nth k fs d) x (Scal (nth k r 0)) = (nth k fs' d, Ok tt).
Proof.
  induction fs as [|f fs IH]; intros x [|v r] L H; simpl in *; try discriminate.
  - eexists; split; [reflexivity|]. split; auto. intros; lia.
  - destruct (H 0%nat ltac:(lia) f) as (f' & E). rewrite E.
    destruct (IH x r) as (fs' & E' & L' & K); [lia| |].
    { intros k Hk d. apply (H (S k)); lia. }
    rewrite E'. eexists; split; [reflexivity|]. simpl. split; [lia|].
    intros [|k] d Hk; auto. apply K; lia.
Qed.
End GP.

(** ** Evaluation of a stack *)
Definition offset (l : list tensor) (k : nat) : nat :=
  fold_right (fun t n => cols t + n)%nat 0%nat (firstn k l).

Lemma hcat_ok : forall l n, l <> [] -> Forall (fun t => rows t = n) l ->
  exists t, hcat l = Ok t /\ rows t = n /\ cols t = offset l (length l) /\
    forall k d i j, (k < length l)%nat -> (j < cols (nth k l d))%nat ->
      entry t i (offset l k + j) = entry (nth k l d) i j.
Proof.
  induction l as [|t l IH]; intros n Hne F; [contradiction|].
  inversion F as [|? ? Ht F']; subst. destruct l as [|u l].
  - exists t. simpl. repeat split; auto. { unfold offset; simpl; lia. }
    intros [|k] d i j Hk Hj; [reflexivity|lia].
  - destruct (IH (rows t) ltac:(discriminate) F') as (w & E & Rw & Cw & K).
    change (hcat (t :: u :: l)) with (do w <- hcat (u :: l); hcat2 t w). rewrite E. cbn [bind].
    unfold hcat2. rewrite Rw, Nat.eqb_refl. eexists; split; [reflexivity|]. cbn [rows cols entry].
    split; auto. split.
    { rewrite Cw. unfold offset. simpl. reflexivity. }
    intros [|k] d i j Hk Hj.
    + change (offset (t :: u :: l) 0) with 0%nat. simpl in Hj |- *.
      destruct (Nat.ltb_spec j (cols t)); [reflexivity|lia].
    + change (offset (t :: u :: l) (S k)) with (cols t + offset (u :: l) k)%nat.
      destruct (Nat.ltb_spec (cols t + offset (u :: l) k + j) (cols t)); [lia|].
      replace (cols t + offset (u :: l) k + j - cols t)%nat with (offset (u :: l) k + j)%nat by lia.
      apply (K k d i j); simpl in *; auto; lia.
Qed.

Lemma hcat_rows : forall l t, hcat l = Ok t -> Forall (fun u => rows u = rows t) l.
Proof.
  induction l as [|u l IH]; intros t H; [constructor|].
  destruct l as [|v l].
  - injection H as <-. auto.
  - change (hcat (u :: v :: l)) with (do w <- hcat (v :: l); hcat2 u w) in H.
    apply bind_ok in H as (w & E & H). unfold hcat2 in H.
    destruct (Nat.eqb_spec (rows u) (rows w)) as [Q|]; [|discriminate]. injection H as <-. simpl.
    constructor; auto. specialize (IH _ E). rewrite Q. exact IH.
Qed.
