(** Theorems about the solver on quadratic problems with affine equality constraints (C85-C87). *)
From Coq Require Import Reals List Arith ZArith Lia Lra.
From Verif Require Import Scalar Cset_model Armijo_model Problem_model Solver_model Solver_spec Lin_spec Ldlt_spec Bk_model Bk_spec Descent_spec Qp_spec Qp_proofs QpD_proofs QpT_proofs QpC_proofs QpF_proofs QpX_proofs.
Import ListNotations.
Local Open Scope R_scope.

(** The problem p is any that answers like the quadratic problem at points of the right size (C93 has one made of objects).
    C85. On a convex quadratic problem with equality constraints the inner loop makes at most one step.  It either leaves the
    point alone, because one of its two stopping tests holds there, or it ends at the exact minimiser of the augmented
    Lagrangian: the gradient of the Lagrangian vanishes and the new multipliers are the old ones plus c(x)/mu. *)
Theorem C85_one_step : forall (O : oracles RSc) (P : @params RSc) n Q q ms A b p fi fls fin (s : solver_state O), let m := total ms in
  answers_like n p (qp n Q q ms A b) ->
  plain O P n -> qp_convex n m Q A -> handles O n m Q A (mu s) -> qp_state n ms s -> 0 <= s_inner_tol _ _ s ->
  (S (r_num_iters (res s)) < max_iters P)%nat -> (1 < fi)%nat -> (0 < fls)%nat -> (0 < fin)%nat ->
  exists s' : solver_state O, inner_loop (o_integrate O) (o_px_val O) (o_px_grad O) (o_px_hess O) (o_fac O) (o_compute O) (o_signature O) (o_solve O) (o_bfgs O) (o_bfgs_update O) (o_qr O)
      fi fls fin P p s 0 = Ret s' /\
    qp_state n ms s' /\ mu s' = mu s /\ (r_num_iters (res s') <= S (r_num_iters (res s)))%nat /\
    let x := fun i => nth i (r_x (res s')) 0 in let l := fun k => nth k (r_lams (res s')) 0 in let le := fun k => nth k (w_lams_prev _ _ (wsp s)) 0 in
    is_max_abs (qp_con n A b x) m (r_prim_infeas (res s')) /\ is_max_abs (qp_lag n m Q q A x l) n (r_dual_infeas (res s')) /\
    ((r_x (res s') = r_x (res s) /\ r_lams (res s') = r_lams (res s) /\
      (((forall i, (i < n)%nat -> Rabs (qp_lag n m Q q A x l i) <= s_inner_tol _ _ s) /\ (forall k, (k < m)%nat -> Rabs (qp_con n A b x k - mu s * (l k - le k)) <= s_inner_tol _ _ s)) \/
       (r_prim_infeas (res s') <= target_tol P /\ r_dual_infeas (res s') <= target_tol P))) \/
     (forall i, (i < n)%nat -> qp_lag n m Q q A x l i = 0) /\ (forall k, (k < m)%nat -> qp_con n A b x k = mu s * (l k - le k))).
Proof. exact inner_final. Qed.
Print Assumptions C85_one_step.
(** Default parameters, Bunch-Kaufman factorisation, minimise x^2/2 - 3x subject to x = 1 from x = 0: both tests fail at the start, so a step is made. *)
Example C85_example : plain small_oracles (default_params (K := RSc)) 1 /\ qp_convex 1 1 one one /\ handles small_oracles 1 1 one one (mu small_state) /\ qp_state 1 [1%nat] small_state /\
  0 <= s_inner_tol _ _ small_state /\ (S (r_num_iters (res small_state)) < max_iters (default_params (K := RSc)))%nat /\
  s_inner_tol _ _ small_state < Rabs (qp_lag 1 1 one (fun _ => -3) one (fun _ => 0) (fun _ => 0) 0).
Proof.
  split; [exact small_plain|]. split; [exact small_convex|]. split; [apply small_handles; cbn; lra|]. split; [|split; [|split]].
  - constructor; cbn; try reflexivity; lra.
  - cbn. lra.
  - cbn. lia.
  - unfold qp_lag, qp_grad, one. cbn. rewrite Rabs_left; lra.
Qed.

(** C86. The whole solve converges on every convex quadratic problem with equality constraints that has a solution: after at
    most R (T + 1) + T outer iterations and one more step both residuals are within the target tolerance; the solver
    says so unless a residual is exactly the tolerance. *)
Theorem C86_converges : forall (O : oracles RSc) (P : @params RSc) n Q q ms A b p xs ls D Rn T fo fi fls fin (s : solver_state O) mus x0 l0, let m := total ms in let K := (Rn * S T + T)%nat in
  answers_like n p (qp n Q q ms A b) ->
  plain O P n -> outer_params O P D Rn T -> qp_convex n m Q A -> (forall mu, mu_lower P <= mu <= mu_init P -> handles O n m Q A mu) ->
  qp_optimal n m Q q A b xs ls -> rsum m (fun k => (nth k l0 0 - ls k) * (nth k l0 0 - ls k)) <= D * D -> length x0 = n -> length l0 = m ->
  sets s = map CEq mus -> length mus = length ms -> buffers_fit p s ->
  (K < max_al_iters P)%nat -> (S K < max_iters P)%nat -> (max_al_iters P < fo)%nat -> (1 < fi)%nat -> (0 < fls)%nat -> (0 < fin)%nat ->
  exists (s' : solver_state O) f, run_solve O fo fi fls fin P p (Some s) x0 l0 = Ret (s', f) /\ length (r_x (res s')) = n /\ length (r_lams (res s')) = m /\
    let x := fun i => nth i (r_x (res s')) 0 in let l := fun k => nth k (r_lams (res s')) 0 in
    (forall k, (k < m)%nat -> Rabs (qp_con n A b x k) <= target_tol P) /\ (forall i, (i < n)%nat -> Rabs (qp_lag n m Q q A x l i) <= target_tol P) /\
    ((f = SUCCESS /\ (r_al_iters (res s') <= K)%nat /\ (r_num_iters (res s') <= S K)%nat) \/
     (exists k, (k < m)%nat /\ Rabs (qp_con n A b x k) = target_tol P) \/ (exists i, (i < n)%nat /\ Rabs (qp_lag n m Q q A x l i) = target_tol P)).
Proof. exact solve_final. Qed.
Print Assumptions C86_converges.
(** The default parameters meet the conditions whenever the first multipliers are at distance at most 500 of the optimal ones:
    24 outer iterations and 25 steps are enough. *)
Theorem C86_default_params : forall (O : oracles RSc) D, (forall x y, 0 < x -> o_pow O x y = Rpower x y) -> 0 <= D <= 500 -> outer_params O (default_params (K := RSc)) D 4 4 /\
  (4 * S 4 + 4 < max_al_iters (default_params (K := RSc)))%nat /\ (S (4 * S 4 + 4) < max_iters (default_params (K := RSc)))%nat.
Proof. intros O D H1 H2. split; [exact (default_outer O D H1 H2)|]. cbn [default_params max_al_iters max_iters]. split; lia. Qed.
Print Assumptions C86_default_params.
Example C86_example : plain small_oracles (default_params (K := RSc)) 1 /\ outer_params small_oracles (default_params (K := RSc)) 2 4 4 /\ qp_convex 1 1 one one /\
  (forall mu, mu_lower (default_params (K := RSc)) <= mu <= mu_init (default_params (K := RSc)) -> handles small_oracles 1 1 one one mu) /\
  qp_optimal 1 1 one (fun _ => -3) one (fun _ => 1) (fun _ => 1) (fun _ => 2) /\ rsum 1 (fun k => (nth k [0] 0 - 2) * (nth k [0] 0 - 2)) <= 2 * 2 /\
  sets small_state = map CEq [1 / 100] /\ buffers_fit small_qp small_state.
Proof.
  split; [exact small_plain|]. split; [apply default_outer; [reflexivity|lra]|]. split; [exact small_convex|]. split; [|split; [exact small_optimal|split; [cbn; lra|split; [reflexivity|]]]].
  - intros mu [H _]. apply small_handles. cbn in H. lra.
  - repeat split.
Qed.

(** Why the last two cases are there: the inner loop stops at a residual equal to the tolerance, the outer loop asks for a smaller one.
    Started at such a point the solver stays there for all its outer iterations and returns with the flag UNINIT. *)
Theorem C86_boundary : forall (O : oracles RSc) (P : @params RSc) n Q q ms A b p fo fi fls fin (s : solver_state O) mus x0 l0, let m := total ms in
  let x := fun i => nth i x0 0 in let l := fun k => nth k l0 0 in
  answers_like n p (qp n Q q ms A b) ->
  pdal_beta P = 1 / 2 -> hess_approx P = HM_EXACT \/ hess_approx P = HM_GAUSS_NEWTON ->
  mul_update P = MM_NEWTON -> rho_init P = 0 -> (forall x y, 0 < x -> o_pow O x y = Rpower x y) -> 0 < mu_lower P <= mu_init P -> mu_init P < mu_upper P -> 0 <= inner_tol_min P ->
  (forall k, (k < m)%nat -> Rabs (qp_con n A b x k) <= target_tol P) -> (forall i, (i < n)%nat -> Rabs (qp_lag n m Q q A x l i) <= target_tol P) ->
  (exists k, (k < m)%nat /\ Rabs (qp_con n A b x k) = target_tol P) \/ (exists i, (i < n)%nat /\ Rabs (qp_lag n m Q q A x l i) = target_tol P) ->
  length x0 = n -> length l0 = m -> sets s = map CEq mus -> length mus = length ms -> buffers_fit p s ->
  (max_al_iters P < fo)%nat -> (0 < fi)%nat ->
  exists s' : solver_state O, run_solve O fo fi fls fin P p (Some s) x0 l0 = Ret (s', UNINIT) /\ r_x (res s') = x0 /\ r_lams (res s') = l0.
Proof. exact boundary_final. Qed.
Print Assumptions C86_boundary.
(** With the default parameters: x = 1 is the solution, and the multiplier is off by exactly 1e-6. *)
Theorem C86_refuted : exists s' : solver_state small_oracles, run_solve small_oracles 1001 2 1 1 (default_params (K := RSc)) small_qp (Some small_state) [1] [2 + 1 / 1000000] = Ret (s', UNINIT) /\
  qp_con 1 one (fun _ => 1) (fun i => nth i (r_x (res s')) 0) 0 = 0 /\
  qp_lag 1 1 one (fun _ => -3) one (fun i => nth i (r_x (res s')) 0) (fun k => nth k (r_lams (res s')) 0) 0 = target_tol (default_params (K := RSc)).
Proof. exact small_stuck. Qed.
Print Assumptions C86_refuted.

(** C87. The Bunch-Kaufman factorisation meets the hypothesis of C85 and C86 (at most 32 rows) for every convex problem, as long as
    the computed signature has no zero. *)
Theorem C87_bunch_kaufman : forall pw ig pv pg ph bf bu qr n m Q A mu, (n + m <= 32)%nat -> qp_convex n m Q A -> 0 < mu ->
  (forall F, ~ In 0%Z (bk_sig (K := RSc) (bk_fac (K := RSc) (n + m) F (qp_kkt n m Q A mu)))) ->
  handles (mkOracles (K := RSc) pw ig pv pg ph (bk RSc) (bk_fac (K := RSc) (n + m)) (bk_sig (K := RSc)) (bk_solve_list (K := RSc)) bf bu qr) n m Q A mu.
Proof. exact bk_handles. Qed.
Print Assumptions C87_bunch_kaufman.
Example C87_example : qp_convex 1 1 one one /\ forall mu, 0 < mu -> handles small_oracles 1 1 one one mu.
Proof. split; [exact small_convex|exact small_handles]. Qed.
