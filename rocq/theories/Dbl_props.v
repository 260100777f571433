(** Theorems about the problem that the inner loop solves with a penalty (C107). *)
From Coq Require Import Reals List Arith ZArith Lia Lra.
From Verif Require Import Scalar Cset_model Cset_spec Armijo_model Problem_model Solver_model Solver_spec Lin_spec Ldlt_model Ldlt_spec Bk_spec Descent_spec Qp_spec Fac_model Fac_spec FacX_proofs QpR_spec Act_spec ActX_proofs
  Glob_spec GlobX_proofs Dbl_spec Dbl_proofs.
Import ListNotations.
Local Open Scope R_scope.

(** C107. Minimise 1/2 x'Qx + q'x + g(A x - b), where g is given by any product of constraint sets and penalties.  The stopping criterion of the inner loop
    is zero exactly at the solutions of the subproblem of the method of multipliers; with KKT_CLASSIC for the given problem, with KKT_PRIMAL_DUAL for
    the problem with 2 g in place of g.  The two agree when g is the indicator of a set, but not for the l1 penalty. *)
Theorem C107_criterion : forall (O : oracles RSc) (P : @params RSc) n Q q ms A b p (s : solver_state O), answers_like n p (qp n Q q ms A b) -> plain O P n -> act_state n ms p s ->
  exists d, run_diagnose O P p s = Ret d /\
    (d_inner_crit _ _ d = 0 <-> weighted_subproblem (weight (kkt_sys P)) n (total ms) Q q A b (product_of (sets s) ms) (mu s)
       (fun k => nth k (w_lams_prev _ _ (wsp s)) 0) (fun i => nth i (r_x (res s)) 0) (fun k => nth k (r_lams (res s)) 0)).
Proof. exact criterion_final. Qed.
Print Assumptions C107_criterion.
(** Refuted: a solve with the default parameters and the primal-dual system finds the minimiser of 1/2 x^2 - 20 x + |x|.  It returns SUCCESS at x = 18, which minimises
    1/2 x^2 - 20 x + 2 |x|; the minimiser is 19. *)
Theorem C107_refuted : exists P p (s : solver_state (dense_oracles 2)) x, let d := default_params (K := RSc) in P = pd_started (mu_init d) (max_iters d) /\ rho_init d = 0 /\ sets s = [CL1 (K := RSc) 1] /\
  p_cons p = qp_cons 1 (fun _ _ => 1) (fun _ => 0) 0 [1%nat] /\ (forall y, p_cost p [y] = Some (1 / 2 * (y * y) - 20 * y)) /\
  (forall fo fi fls fin, (7 <= fo)%nat -> (1 <= fi)%nat -> exists s', run_solve (dense_oracles 2) fo fi fls fin P p (Some s) [18] [2] = Ret (s', SUCCESS) /\ r_x (res s') = [x] /\ r_lams (res s') = [2]) /\
  let f := (fun y => 1 / 2 * (y * y) - 20 * y + Rabs y) in f 19 = f x - 1 / 2 /\ forall y, f 19 <= f y.
Proof. exact edge_refuted. Qed.
Print Assumptions C107_refuted.

(** The two subproblems differ: for 1/2 x^2 - 20 x + |x| at the multiplier estimate 2, x = 18 and l = 2 solve the one with the doubled penalty and not the right one. *)
Example C107_example : kkt_sys edge_params = KKT_PRIMAL_DUAL /\ plain (dense_oracles 2) edge_params 1 /\
  let C := product_of [CL1 (K := RSc) 1] [1%nat] in
  weighted_subproblem 2 1 1 (fun _ _ => 1) ramp_q (fun _ _ => 1) (fun _ => 0) C (1 / 100) (fun _ => 2) (fun _ => 18) (fun _ => 2) /\
  ~ weighted_subproblem 1 1 1 (fun _ _ => 1) ramp_q (fun _ _ => 1) (fun _ => 0) C (1 / 100) (fun _ => 2) (fun _ => 18) (fun _ => 2) /\
  weighted_subproblem 1 1 1 (fun _ _ => 1) ramp_q (fun _ _ => 1) (fun _ => 0) C (1 / 100) (fun _ => 1) (fun _ => 19) (fun _ => 1).
Proof.
  split; [reflexivity|]. split; [exact (pd_started_plain 1 2 (1 / 100) 100)|]. intros C. unfold weighted_subproblem, qp_lag, qp_grad, qp_con, ramp_q. cbn. split; [|split].
  - split; [intros i Hi; lra|]. split; [auto|]. intros w Hw _. destruct w as [|a [|b w]]; try discriminate. cbn. rewrite (Rabs_pos_eq (0 + 1 * 18 - 0 + 1 / 100 * (2 - 2))) by lra. pose proof (Rle_abs a). lra.
  - intros (_ & _ & H). specialize (H [20] eq_refl ltac:(auto)). cbn in H. rewrite (Rabs_pos_eq 20), (Rabs_pos_eq (0 + 1 * 18 - 0 + 1 / 100 * (2 - 2))) in H by lra.
    lra.
  - split; [intros i Hi; lra|]. split; [auto|]. intros w Hw _. destruct w as [|a [|b w]]; try discriminate. cbn. rewrite (Rabs_pos_eq (0 + 1 * 19 - 0 + 1 / 100 * (1 - 1))) by lra. pose proof (Rle_abs a). lra.
Qed.
