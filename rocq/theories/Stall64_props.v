(** The stalled run of C108 in binary64. *)
From Coq Require Import List ZArith Floats.SpecFloat.
From Verif Require Import Scalar Cset_model Armijo_model Problem_model Solver_model Solver_spec Cold64_proofs.
Import ListNotations.

(** C108. Minimise 1/2 x^2 + 150 y^2 subject to x + 47 <= 0 and -2 x + y - 236 <= 0 from (0, 300) and zero multipliers, in binary64 arithmetic with the default
    parameters, cubic interpolation included: the solver uses up its 100 iterations and returns a point with x < -49 and y > 4; the solution is (-47, 0). *)
Theorem C108_binary64_refuted :
  exists s x y,
    fl_run (default_params (K := FSc)) = Ret (s, MAX_ITERS_REACHED)
    /\ r_num_iters (res s) = 100 /\ r_x (res s) = [x; y]
    /\ SFltb x (fz (-49)) = true /\ SFltb (fz 4) y = true.
Proof. exact fl_cold_refuted. Qed.
Print Assumptions C108_binary64_refuted.
