(** Theorems about settings made before a solve (C100). *)
From Coq Require Import List QArith.
From Verif Require Import Scalar Cset_model Armijo_model Problem_model Solver_model Solver_examples Settings_spec Settings_proofs.
Import ListNotations.

(** C100. Calls of setPenalty and setProxParameter before solve have no effect on it: solve starts with the values given to the constructor.
    This is for all scalars, problems, states, oracles and arguments, and for the returned state with the record of events. *)
Theorem C100_settings_lost : forall (K : Sc) (O : oracles K) fo fi fls fin (P : @params K) p l (s : solver_state O) x0 l0,
  run_solve O fo fi fls fin P p (Some (settings l s)) x0 l0 = run_solve O fo fi fls fin P p (Some s) x0 l0.
Proof. exact @settings_lost. Qed.
Print Assumptions C100_settings_lost.
(** solve does not move the target of the proximal term to the start x0: with rho_init = 1 the first step from x = 2 goes to the minimiser of
    x^2/2 - 3x + (x - 0)^2/2, which is 3/2, and raises the objective.  With the target at x0 it would be lowered (C98_descends). *)
Theorem C100_target_refuted : exists s' f x, ex_run QSc params3 problem3 (Some (ex_setup QSc params3 problem3 [])) [2%Q] [] = Ret (s', f) /\
  r_x (res s') = [x] /\ (x == 3 # 2)%Q /\ (obj3 2 < obj3 x)%Q.
Proof. exact target_stale. Qed.
Print Assumptions C100_target_refuted.

(** The calls of examples/equality-qp.cpp:60-61 do change the state, and so the parameters of its constraint sets, but not the result. *)
Example C100_example : let s := ex_setup QSc params3 problem3 [CEq (K := QSc) (1 # 100)] in let l := [Penalty (K := QSc) (1 # 10000); Prox (K := QSc) (1 # 100000000)] in
  s_mu _ _ (settings l s) = (1 # 10000)%Q /\ sets (settings l s) = [CEq (K := QSc) (1 # 10000)] /\ s_mu _ _ s <> (1 # 10000)%Q /\
  ex_run QSc params3 problem3 (Some (settings l s)) [2%Q] [] = ex_run QSc params3 problem3 (Some s) [2%Q] [].
Proof. split; [reflexivity|]. split; [reflexivity|]. split; [discriminate|]. apply C100_settings_lost. Qed.
