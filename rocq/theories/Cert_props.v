(** Theorems about what SUCCESS says about the objective (C105). *)
From Coq Require Import Reals List Arith ZArith Lia Lra.
From Verif Require Import Scalar Cset_model Cset_spec Armijo_model Problem_model Solver_model Solver_spec Lin_spec Qp_spec QpR_spec Ldlt_model FacX_proofs Cert_spec Cert_proofs.
Import ListNotations.
Local Open Scope R_scope.

(** C105. Let the objective be convex and the constraint functions affine, with any constraint sets and l1 penalties.  If solve returns SUCCESS at x, l,
    the constraint values are within the tolerance t of a point z of the sets, and no point y with values cy in the sets is better than x by more than
    t (|y - x|_1 + |l|_1) + (t / mu) |cy - z|_1, for the penalty parameter mu at the end.  With equality constraints cy = z = 0. *)
Theorem C105_gap : forall (O : oracles RSc) fo fi fls fin P p (s : solver_state O) x0 lams0 s',
  mul_update P = MM_NEWTON -> 0 < mu_init P -> 0 < mu_lower P -> sets_fit (sets s) (p_cons p) ->
  run_solve O fo fi fls fin P p (Some s) x0 lams0 = Ret (s', SUCCESS) -> let r := res s' in let t := target_tol P in
  length (r_lams r) = rows_of (p_cons p) -> convex_program p (r_x r) ->
  let C := product_of (map (set_prox (K := RSc) (r_mu r)) (sets s)) (map f_nr (p_cons p)) in let m := rows_of (p_cons p) in
  exists c z, stacked_values (r_x r) (p_cons p) c /\ length z = m /\ in_set C z /\ (forall k, (k < m)%nat -> Rabs (nth k c 0 - nth k z 0) < t) /\
    forall y cy fx fy, length y = p_ndx p -> p_cost p (r_x r) = Some fx -> p_cost p y = Some fy -> stacked_values y (p_cons p) cy -> in_set C cy ->
      fx + penalty C z <= fy + penalty C cy + t * far (p_ndx p) y (r_x r) + t * rsum m (fun k => Rabs (nth k (r_lams r) 0)) + t / r_mu r * far m cy z.
Proof. exact solve_gap. Qed.
Print Assumptions C105_gap.
(** The last term is there: SUCCESS does not mean that x is nearly optimal.  Minimise 1/2 x^2 subject to x <= 10, with mu_init = 1e-8 and the other parameters at
    their defaults, from x = -50 and the multiplier 50: solve returns SUCCESS at x = -50 without a step, where the objective is 1250; it is 0 at the feasible 0. *)
Theorem C105_optimal_refuted : exists P p (s s' : solver_state (dense_oracles 2)), P = started (1 / 100000000) 0 /\ target_tol P = 1 / 1000000 /\ sets s = [CNeg (K := RSc) 1] /\
  p_cons p = qp_cons 1 (fun _ _ => 1) (fun _ => 10) 0 [1%nat] /\ (forall x, p_cost p [x] = Some (1 / 2 * (x * x))) /\
  run_solve (dense_oracles 2) 1001 101 1 1 P p (Some s) [-50] [50] = Ret (s', SUCCESS) /\ r_x (res s') = [-50].
Proof. exact optimal_false. Qed.
Print Assumptions C105_optimal_refuted.
(** The same for the l1 penalty, without a constraint: 1/2 x^2 + |x| is 1300 at the returned point and 0 at the minimiser. *)
Theorem C105_l1_refuted : exists P p (s s' : solver_state (dense_oracles 2)), P = started (1 / 100000000) 0 /\ target_tol P = 1 / 1000000 /\ sets s = [CL1 (K := RSc) 1] /\
  p_cons p = qp_cons 1 (fun _ _ => 1) (fun _ => 0) 0 [1%nat] /\ (forall x, p_cost p [x] = Some (1 / 2 * (x * x))) /\
  run_solve (dense_oracles 2) 1001 101 1 1 P p (Some s) [-50] [50] = Ret (s', SUCCESS) /\ r_x (res s') = [-50].
Proof. exact l1_false. Qed.
Print Assumptions C105_l1_refuted.

(** The hypotheses of the bound are met by the run of the refutation. *)
Example C105_example : exists s', run_solve (dense_oracles 2) 1001 101 1 1 steep (hill 10) (Some (hill_start 10 (CNeg (K := RSc) 1))) [-50] [50] = Ret (s', SUCCESS) /\
  mul_update steep = MM_NEWTON /\ 0 < mu_init steep /\ 0 < mu_lower steep /\ sets_fit (sets (hill_start 10 (CNeg (K := RSc) 1))) (p_cons (hill 10)) /\
  length (r_lams (res s')) = rows_of (p_cons (hill 10)) /\ convex_program (hill 10) (r_x (res s')).
Proof. exact gap_case. Qed.
