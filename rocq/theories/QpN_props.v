(** Theorems about the result of the solver on quadratic problems with affine equality constraints (C95). *)
From Coq Require Import Reals List Bool Arith ZArith Lia Lra.
From Verif Require Import Scalar Cset_model Problem_model Armijo_model Solver_model Solver_spec Ldlt_model Lin_spec Ldlt_spec Bk_spec Descent_spec Qp_spec QpX_proofs Fac_model Fac_spec FacX_proofs QpN_proofs QpNX_proofs.
Import ListNotations.
Local Open Scope R_scope.

(** C95. What the solver returns is near the solution: under the hypotheses of C86, for x'Qx >= c |x|^2, the multipliers are no farther from the optimal
    ones than at the start, and distance and objective differ from those of the solution xs by terms that vanish with the tolerance. *)
Theorem C95_near : forall (O : oracles RSc) (P : @params RSc) n Q q ms A b p c xs ls D Rn T fo fi fls fin (s : solver_state O) mus x0 l0 s' f, let m := total ms in let K := (Rn * S T + T)%nat in
  answers_like n p (qp n Q q ms A b) ->
  plain O P n -> outer_params O P D Rn T -> strongly_convex n Q c -> 0 < c -> (forall mu, mu_lower P <= mu <= mu_init P -> handles O n m Q A mu) ->
  qp_optimal n m Q q A b xs ls -> rsum m (fun k => (nth k l0 0 - ls k) * (nth k l0 0 - ls k)) <= D * D -> length x0 = n -> length l0 = m ->
  sets s = map CEq mus -> length mus = length ms -> buffers_fit p s ->
  (K < max_al_iters P)%nat -> (S K < max_iters P)%nat -> (max_al_iters P < fo)%nat -> (1 < fi)%nat -> (0 < fls)%nat -> (0 < fin)%nat ->
  run_solve O fo fi fls fin P p (Some s) x0 l0 = Ret (s', f) ->
  let x := fun i => nth i (r_x (res s')) 0 in let l := fun k => nth k (r_lams (res s')) 0 in let t := target_tol P in
  rsum m (fun k => (l k - ls k) * (l k - ls k)) <= D * D /\
  rsum n (fun i => (x i - xs i) * (x i - xs i)) <= INR n * (t / c) * (t / c) + 2 * sqrt (INR m) * D * t / c /\
  - (rsum m (fun k => Rabs (ls k)) * t) <= qp_obj n Q q x - qp_obj n Q q xs <= rsum m (fun k => Rabs (ls k)) * t + INR n * t * t / (2 * c) + sqrt (INR m) * D * t.
Proof. exact solve_near. Qed.
Print Assumptions C95_near.
(** The optimal pair of the theorems is the minimiser: no feasible point is better, and no other is as good. *)
Theorem C95_minimiser : forall n m Q q A b xs ls, qp_convex n m Q A -> qp_optimal n m Q q A b xs ls -> forall y, (forall k, (k < m)%nat -> qp_con n A b y k = 0) ->
  qp_obj n Q q xs <= qp_obj n Q q y /\ (qp_obj n Q q y = qp_obj n Q q xs -> forall i, (i < n)%nat -> y i = xs i).
Proof. exact optimal_min. Qed.
Print Assumptions C95_minimiser.
(** The numbers R and T of C86 exist for all parameters in the usual order. *)
Theorem C95_iterations : forall (O : oracles RSc) (P : @params RSc) D, mul_update P = MM_NEWTON -> rho_init P = 0 -> (forall x y, 0 < x -> o_pow O x y = Rpower x y) ->
  0 < mu_lower P <= mu_init P -> mu_init P < mu_upper P -> 0 < mu_factor P < 1 -> 0 <= dual_alpha P -> 0 < dual_beta P -> 0 <= prim_alpha P -> 0 < prim_beta P ->
  0 < target_tol P -> 0 <= inner_tol0 P -> 0 <= prim_tol0 P -> 0 <= inner_tol_min P -> 2 * inner_tol_min P <= target_tol P ->
  2 * (inner_tol0 P * Rpower (mu_lower P) (dual_alpha P)) <= target_tol P -> 0 <= D -> 2 * (mu_lower P * D) <= target_tol P -> exists Rn T, outer_params O P D Rn T.
Proof. exact iterations. Qed.
Print Assumptions C95_iterations.

(** Minimise x^2 + xy + y^2 subject to x + y = 2, solution (1, 1), with the dense factorisation, default parameters, from (5, -7) and multiplier 10:
    the squared distance to the solution is at most 41 / 1000000. *)
Example C95_example : let P := default_params (K := RSc) in let O := dense_oracles 3 in let p := qp 2 ex_q (fun _ => 0) [1%nat] (fun _ _ => 1) (fun _ => 2) in
  let s := setup (K := RSc) (dldlt RSc) unit P p [CEq (1 / 100)] [0; 0] (dldlt_new (K := RSc) 3) tt : solver_state O in
  exists (s' : solver_state O) f, run_solve O 1001 2 1 1 P p (Some s) [5; -7] [10] = Ret (s', f) /\
    (nth 0 (r_x (res s')) 0 - 1) * (nth 0 (r_x (res s')) 0 - 1) + (nth 1 (r_x (res s')) 0 - 1) * (nth 1 (r_x (res s')) 0 - 1) <= 41 / 1000000.
Proof. exact ex95. Qed.
