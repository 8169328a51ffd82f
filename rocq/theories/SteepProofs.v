(** Gaussian processes whose [Kdiag] exceeds [K] by little. *)
From Coq Require Import Reals List Lra Lia.
From mathcomp Require Import all_ssreflect all_algebra.
From Verif Require Import Prelude MxRing CertModel GPModel GPSpec LqrSpec LqrProofs GPProofs RField GPLoopModel GPLoopSpec GPLoopProofs SpreadSpec SpreadProofs.
From Verif Require Import Properties.GPProps.
Set Implicit Arguments.
Unset Strict Implicit.
Unset Printing Implicit Defensive.
Import Order.Theory GRing.Theory Num.Theory.
Local Open Scope ring_scope.

(** The same model with [K] in place of [Kdiag]. *)
Definition plain (me : member) : member :=
  {| me_kern := me_kern me; me_kdiag := fun x => me_kern me x x; me_mean := me_mean me; me_noise := me_noise me;
     me_scale := me_scale me; me_beta := me_beta me; me_chol := me_chol me |}.
Lemma plain_sensible me : sensible me -> sensible (plain me).
Proof. move=> [ker kd nz sc bp ch]; constructor=> //= x; lra. Qed.

Lemma plain_eval k me w x e : sensible me -> (me_kdiag me x - me_kern me x x <= e)%coqR ->
  ((member_eval k (plain me) w x).2 <= (member_eval k me w x).2)%coqR /\
  ((member_eval k me w x).2 <= (member_eval k (plain me) w x).2 + me_beta me * R_sqrt.sqrt e)%coqR.
Proof.
  move=> se he; have [ker kd nz sc bp ch] := se.
  have pk := kernel_psd ker.
  have scn : scale (params me) != 0 by apply/eqP.
  have np' : 0 < noise (params me) by apply/RltP.
  have [[L alpha] ok] := C49_cache_succeeds (@inputs w) (outputs k w) (ch _) scn pk np'.
  have [S inv] := C49_posterior_exists (proj1 (ch _)) scn ok.
  have ev : (member_eval k me w x).2 =
      (me_beta me * R_sqrt.sqrt (pc (params me) (@inputs w) S x x + (me_kdiag me x - me_kern me x x)))%coqR.
    have [V [VE Ve]] := diag_ok_any (proj1 (ch _)) ok scn inv (fun _ : 'I_1 => x).
    have ME := mean_ok (proj1 (ch _)) ok scn inv (fun _ : 'I_1 => x).
    rewrite /member_eval ok /evaluate ME VE /= mxE Ve -[_ - _ *m _]/(pcov (params me) (@inputs w) (fun _ : 'I_1 => x) S).
    by rewrite pcovE.
  have ker' : kernel (me_kern (plain me)) := ker.
  have pk' := kernel_psd ker'.
  have ok' : compute_cache (params (plain me)) (@me_chol (plain me) _) (@inputs w) (outputs k w) = Ok (L, alpha) := ok.
  have inv' : S *m data_cov (params (plain me)) (@inputs w) = 1%:M := inv.
  have scn' : scale (params (plain me)) != 0 := scn.
  have ev' : (member_eval k (plain me) w x).2 =
      (me_beta me * R_sqrt.sqrt (pc (params me) (@inputs w) S x x))%coqR.
    have [V [VE Ve]] := diag_ok_any (proj1 (ch _)) ok' scn' inv' (fun _ : 'I_1 => x).
    have ME := mean_ok (proj1 (ch _)) ok' scn' inv' (fun _ : 'I_1 => x).
    rewrite /member_eval ok' /evaluate ME VE /= mxE Ve -[_ - _ *m _]/(pcov (params me) (@inputs w) (fun _ : 'I_1 => x) S).
    by rewrite pcovE /= subrr addr0.
  have p0 : (0 <= pc (params me) (@inputs w) S x x)%coqR.
    have := pc_psd pk np' inv x x 1 0; rewrite !mul1r !mulr1 !mulr0 !mul0r !addr0; by move/RleP.
  have kx := kd x.
  rewrite ev ev' -Rmult_plus_distr_l; move: p0; set p := pc _ _ _ _ _ => p0.
  split; apply: Rmult_le_compat_l => //; first by apply: sqrt_le_1_alt; lra.
  have e0 : (0 <= e)%coqR by lra.
  have sp := sqrt_sqrt _ p0; have s1 := sqrt_pos p; have sE := sqrt_sqrt _ e0; have s2 := sqrt_pos e.
  rewrite -(sqrt_square (R_sqrt.sqrt p + R_sqrt.sqrt e)); last by lra.
  apply: sqrt_le_1_alt.
  have : (0 <= R_sqrt.sqrt p * R_sqrt.sqrt e)%coqR by apply: Rmult_le_pos.
  lra.
Qed.
