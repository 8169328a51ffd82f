(** Vocabulary for the gradient steps in the training of Lyapunov networks. *)
From Coq Require Import Reals List Bool Arith.
From Verif Require Import Prelude FunModel QuadModel LyapNetModel.
From Verif Require Import CertModel LoopModel ExUtilModel RoaTrainModel TrainGradModel.
Import ListNotations.
Local Open Scope R_scope.

(** The objective with the normalization of the decrease kept at the values [V0]. *)
Definition frozen_objective (v : lyapunov_network) (safe_level lagrange eps : R) (b : batch) (V0 : tensor) (ps : list tensor) : res R :=
  do V <- lyapunov_eval v ps (b_states b);
  do V' <- lyapunov_eval v ps (b_next b);
  let n := rows (b_states b) in
  Ok (rsum n (fun i =>
        classifier_loss safe_level (b_weights b i) (to_float (b_labels b i)) (FunModel.entry V i 0%nat) +
        lagrange * (to_float (b_labels b i) * Rmax (FunModel.entry V' i 0%nat - FunModel.entry V i 0%nat) 0 /
                    (FunModel.entry V0 i 0%nat + eps))) / INR n).

(** No state is exactly on the boundary of the level set, and no labelled one has a value
    that stays exactly the same. *)
Definition no_ties (safe_level : R) (b : batch) (V V' : tensor) : Prop :=
  forall i, (i < rows (b_states b))%nat -> FunModel.entry V i 0%nat <> safe_level /\
    (b_labels b i = true -> FunModel.entry V' i 0%nat <> FunModel.entry V i 0%nat).
