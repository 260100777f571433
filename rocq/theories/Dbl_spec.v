(** Specification for the stopping criterion of the inner loop with a penalty (C107). *)
From Coq Require Import Reals List Arith.
From Verif Require Import Scalar Cset_model Cset_spec Armijo_model Problem_model Solver_model Solver_spec Lin_spec Ldlt_spec Bk_spec Descent_spec Qp_spec Fac_spec Act_spec Glob_spec.
Import ListNotations.
Local Open Scope R_scope.

(** x, l solves the subproblem of the method of multipliers for 1/2 x'Qx + q'x + kap g(A x - b), where g is given by C: the gradient of the Lagrangian is zero
    and l is a subgradient of kap g at A x - b + mu (le - l). *)
Definition weighted_subproblem (kap : R) (n m : nat) Q q A b (C : rset) (mu : R) (le x l : nat -> R) : Prop :=
  let z := (fun k => qp_con n A b x k + mu * (le k - l k)) in
  (forall i, (i < n)%nat -> qp_lag n m Q q A x l i = 0) /\ in_set C (tab m z) /\
  forall w, length w = m -> in_set C w -> rsum m (fun k => l k * (nth k w 0 - z k)) <= kap * (penalty C w - penalty C (tab m z)).
(** The weight of the penalty in the two linear systems (prox-solver.hxx:332-341). *)
Definition weight (k : kkt_system) : R := match k with KKT_CLASSIC => 1 | KKT_PRIMAL_DUAL => 2 end.
