(** The numbers that examples/adaptive_safety_verification.ipynb records while it collects
    data (cells "Recording" and the loop after it, lines 504-508 and 533-563 of the file).

    Simplification: the certificates of each update are an argument; they depend on the data
    that [update_gp] has added.  [np.sum] of the boolean safe set counts. *)
From Coq Require Import Reals List Bool Arith ZArith.
From Verif Require Import Prelude SafeModel.
Import ListNotations.
Local Open Scope R_scope.

(** Lines 505-508. *)
Record metrics := {
  safe_level : list R;
  safe_set_fraction : list R;
  num_measurements : list Z;
  update_count : Z
}.
Definition no_metrics : metrics :=
  {| safe_level := []; safe_set_fraction := []; num_measurements := []; update_count := 0 |}.

(** Lines 534 and 551-556, for a grid with [nindex] states. *)
Definition record_metrics (nindex : Z) (data_per_update : Z) (L : lyap) (m : metrics) : res metrics :=
  let count := (update_count m + 1)%Z in
  let fraction := IZR (Z.of_nat (length (filter (fun b => b) (l_safe L)))) / IZR nindex in
  do num <- (if (count =? 1)%Z then Ok data_per_update
             else do last <- py_nth (num_measurements m) (-1); Ok (last + data_per_update)%Z);
  Ok {| safe_level := safe_level m ++ [l_cmax L];
        safe_set_fraction := safe_set_fraction m ++ [fraction];
        num_measurements := num_measurements m ++ [num];
        update_count := count |}.

(** Lines 533-563: one update per certificate, with [can_shrink=False]. *)
Fixpoint collect (nindex data_per_update max_refinement : Z) (bs : nat) (order : list nat)
    (certificates : list cert) (L : lyap) (m : metrics) : res (lyap * metrics) :=
  match certificates with
  | [] => Ok (L, m)
  | C :: rest =>
    do L' <- update_safe_set L C false max_refinement bs order;
    do m' <- record_metrics nindex data_per_update L' m;
    collect nindex data_per_update max_refinement bs order rest L' m'
  end.
