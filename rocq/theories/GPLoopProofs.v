(** Proofs for safe learning with Gaussian processes: the bounds of the stack contain
    the true system. *)
From Coq Require Import Reals List Lra Lia.
From mathcomp Require Import all_ssreflect all_algebra.
From Verif Require Import Prelude CertModel CertSpec GPModel GPSpec LqrSpec GPProofs RField GPLoopModel GPLoopSpec ConfSpec.
From Verif Require Import Properties.GPProps Properties.ConfProps.
Set Implicit Arguments.
Unset Strict Implicit.
Unset Printing Implicit Defensive.
Import Order.Theory GRing.Theory Num.Theory.
Local Open Scope ring_scope.

Lemma sum_big (A : Type) (f : A -> R) (l : list A) : sum (List.map f l) = \sum_(i <- l) f i.
Proof. by elim: l => [|a l IH]; rewrite ?big_nil // big_cons -IH. Qed.
Lemma sum_index (A : Type) (f : A -> R) (d : A) (l : list A) :
  sum (List.map f l) = \sum_(i < length l) f (List.nth i l d).
Proof.
  elim: l => [|a l IH]; first by rewrite big_ord0.
  rewrite -[length (a :: l)]/((length l).+1) big_ord_recl /=; congr (_ + _); exact: IH.
Qed.

Definition expand n (X : 'I_n -> list R) (w : 'I_n -> R) : expansion :=
  List.map (fun i => (w i, X i)) (enum 'I_n).
Lemma combination_expand n (X : 'I_n -> list R) (w : 'I_n -> R) h :
  combination h (expand X w) = \sum_i w i * h (X i).
Proof. by rewrite /combination /expand List.map_map sum_big big_enum. Qed.
Lemma energy_expand n (X : 'I_n -> list R) (w : 'I_n -> R) k :
  energy k (expand X w) = \sum_i \sum_j w i * k (X i) (X j) * w j.
Proof.
  rewrite /energy combination_expand; apply: eq_bigr => i _.
  rewrite combination_expand mulr_sumr; apply: eq_bigr => j _.
  by rewrite -mulrA [k _ _ * _]mulrC.
Qed.
Lemma kernel_psd me : kernel (me_kern me) -> psd_kernel (params me).
Proof.
  move=> [sym pos]; split=> // n X w; rewrite /= -energy_expand; apply/RleP; exact: pos.
Qed.
Lemma powE (x : R) : (x ^ 2)%coqR = x ^+ 2.
Proof. by rewrite /= Rmult_1_r expr2. Qed.
Lemma norm_bound_norm k B h : norm_bound k B h -> norm_at_most (F := R_realFieldType) k B h.
Proof.
  move=> nb n X w; rewrite -combination_expand -energy_expand -!powE; apply/RleP; exact: nb.
Qed.
Lemma divE (x y : R) : y <> R0 -> (x / y)%coqR = x / y.
Proof. by move=> /eqP y0; rewrite /Rdiv /GRing.inv /= /Rinvx y0. Qed.
Lemma sqrt_root : square_root (F := R_realFieldType) R_sqrt.sqrt.
Proof.
  move=> x /RleP x0; split; first by apply/RleP; exact: sqrt_pos.
  by rewrite -powE /= Rmult_1_r; exact: sqrt_sqrt.
Qed.

Lemma member_right k me w x h : sensible me -> covers me k h w ->
  (Rabs (h x - (member_eval k me w x).1) <= (member_eval k me w x).2)%coqR.
Proof.
  move=> [ker kd np sc bp ch] [B [nb bb]].
  have pk := kernel_psd ker.
  have scn : scale (params me) != 0 by apply/eqP.
  have np' : 0 < noise (params me) by apply/RltP.
  have bp' : 0 <= me_beta me by apply/RleP.
  have kd' z : kern (params me) z z <= kdiag (params me) z by apply/RleP; exact: kd.
  have [cache ok] := C49_cache_succeeds (@inputs w) (outputs k w) (ch _) scn pk np'.
  pose f (z : list R) : 'rV[R_realFieldType]_1 := const_mx (h z).
  pose e : 'M[R_realFieldType]_(length w, 1) := \matrix_(i, j) (outputs k w i j - f (inputs i) 0 j).
  have data i : outputs k w i 0 = f (inputs i) 0 0 + e i 0.
    by rewrite [e _ _]mxE addrC subrK.
  have nb' : norm_at_most (kern (params me)) B (fun z => f z 0 0 - mean (params me) z 0 0).
    move=> n X u; have := norm_bound_norm nb X u; congr (_ ^+ 2 <= _).
    by apply: eq_bigr => i _; rewrite !mxE.
  have bb' : B ^+ 2 + (\sum_i e i 0 ^+ 2) / noise (params me) <= me_beta me ^+ 2.
    apply/RleP; rewrite -!powE.
    have -> : \sum_i e i 0 ^+ 2 = sum (List.map (fun p => ((List.nth k (snd p) 0 - h (fst p)) ^ 2)%coqR) w).
      rewrite (sum_index _ (nil, nil)); apply: eq_bigr => i _.
      by rewrite powE !mxE.
    rewrite -divE; last by apply/eqP; rewrite lt0r_neq0.
    exact: bb.
  have [[M E] [ev ct]] := interval_contains (fun _ : 'I_1 => x) sqrt_root (proj1 (ch _)) scn
    kd' pk np' bp' ok data nb' bb'.
  rewrite /member_eval ok ev /=; have /RleP := ct 0; rewrite /= mxE; exact.
Qed.

Lemma stack_length ms w x : forall k, length (stack_from k ms w x) = length ms.
Proof. by elim: ms => //= me ms IH k; rewrite IH. Qed.
Lemma stack_nth ms w x : forall k j, (j < length ms)%coq_nat ->
  exists me, List.nth_error ms j = Some me /\
    List.nth j (List.map fst (stack_from k ms w x)) R0 = (member_eval (k + j) me w x).1 /\
    List.nth j (List.map snd (stack_from k ms w x)) R0 = (member_eval (k + j) me w x).2.
Proof.
  elim: ms => [|me ms IH] k j /= jl; first by lia.
  case: j jl => [|j] jl; first by exists me; rewrite addn0.
  have [me' [E1 [E2 E3]]] := IH k.+1 j ltac:(lia).
  by exists me'; rewrite /= E1 E2 E3 addSnnS; split.
Qed.

(** The bounds of the stack contain the true successor. *)
Lemma stack_right ms F w x : (forall me, List.In me ms -> sensible me) -> measured ms F w ->
  length (F x) = length ms ->
  within (F x) (List.map fst (stack_from 0 ms w x)) (List.map snd (stack_from 0 ms w x)).
Proof.
  move=> sen me_ lF; split; first by rewrite List.map_length stack_length.
  split; first by rewrite !List.map_length.
  move=> j; rewrite List.map_length stack_length => jl.
  have [me [E1 [-> ->]]] := stack_nth w x 0 jl; rewrite add0n.
  apply: (@member_right j me w x (fun z => List.nth j (F z) R0)); last exact: me_.
  by apply: sen; apply: List.nth_error_In E1.
Qed.

(** Without data the prediction is the prior. *)
Lemma prior_eval k me x : sensible me ->
  member_eval k me nil x = (me_mean me x, (me_beta me * R_sqrt.sqrt (me_kdiag me x))%coqR).
Proof.
  move=> [ker kd np sc bp ch].
  have pk := kernel_psd ker.
  have scn : scale (params me) != 0 by apply/eqP.
  have np' : 0 < noise (params me) by apply/RltP.
  have [[L alpha] ok] := C49_cache_succeeds (@inputs nil) (outputs k nil) (ch _) scn pk np'.
  have [S inv] := C49_posterior_exists (proj1 (ch _)) scn ok.
  have [V [VE Ve]] := diag_ok_any (proj1 (ch _)) ok scn inv (fun _ : 'I_1 => x).
  have ME := mean_ok (proj1 (ch _)) ok scn inv (fun _ : 'I_1 => x).
  rewrite /member_eval ok /evaluate ME VE /=; congr pair.
  - rewrite !mxE big1 ?addr0 //; by case.
  - rewrite !mxE Ve !mxE big1 ?subr0; last by case.
    by rewrite addrC subrK.
Qed.

(** For every data set the prediction is defined. *)
Lemma member_predicts k me w x : sensible me ->
  exists cache (m v : R),
    compute_cache (params me) (@me_chol me (length w)) (@inputs w) (outputs k w) = Ok cache /\
    predict_mean (params me) cache (@inputs w) (fun _ : 'I_1 => x) = Ok (const_mx m) /\
    predict_diag (params me) cache (@inputs w) (fun _ : 'I_1 => x) = Ok (const_mx v) /\
    member_eval k me w x = (m, (me_beta me * R_sqrt.sqrt v)%coqR) /\
    (me_kdiag me x - me_kern me x x <= v)%coqR /\ (v <= me_kdiag me x)%coqR.
Proof.
  move=> [ker kd np sc bp ch].
  have pk := kernel_psd ker.
  have scn : scale (params me) != 0 by apply/eqP.
  have np' : 0 < noise (params me) by apply/RltP.
  have [cache ok] := C49_cache_succeeds (@inputs w) (outputs k w) (ch _) scn pk np'.
  have [S inv] := C49_posterior_exists (proj1 (ch _)) scn ok.
  have [M [_ [V [ME [_ [VE _]]]]]] := C49_posterior (fun _ : 'I_1 => x) (proj1 (ch _)) scn ok inv.
  have [_ [V' [_ [VE' [bnd _]]]]] := C50_variance_bounds (fun _ : 'I_1 => x) (proj1 (ch _)) scn pk np' ok.
  move: VE' bnd; rewrite VE => -[<-] /(_ 0 0) /andP [/RleP lo /RleP hi].
  exists cache, (M 0 0), (V 0 0).
  have one (A : 'M[R_realFieldType]_(1, 1)) : const_mx (A 0 0) = A by apply/matrixP => i j; rewrite !ord1 mxE.
  rewrite !one; split=> //; split=> //; split=> //; split.
    by rewrite /member_eval ok /evaluate ME VE /= !mxE.
  by split.
Qed.
