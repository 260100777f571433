(** C81-C83: the direction of the step, the refinement loop, and the decrease of the merit function. *)
From Coq Require Import Reals List Arith ZArith.
From Verif Require Import Scalar Cset_model Cset_spec Armijo_model Problem_model Solver_model Solver_spec Merit_spec Lin_spec Ldlt_spec Bk_model Bk_spec
  Solver_examples Descent_spec Descent_proofs Refine_proofs DescentX_proofs.
Import ListNotations.
Local Open Scope R_scope.

(** C81. Slope of the merit function along an exact solution x of the (regularised) KKT system: between
    -a - 2q and -a - q, where a is the form of the Hessian block plus J' D^-1 J at x and q the squared norm of
    the stored dual gradient over mu.  So when that form is positive definite the slope is negative,
    unless gradients and step are zero. *)
Theorem C81_descent : forall (O : oracles RSc) (P : @params RSc) (p : @problem RSc) (s : solver_state O) d dd delta M1 x,
  let ndx := p_ndx p in let nd := rows_of (p_cons p) in
  consistent p s -> pdal_beta P = 1 / 2 -> run_diagnose O P p s = Ret d -> agrees P p s (d_m _ _ d) ->
  kkt_dual_diag P p (mu s) (sets s) (m_shift_pd (d_m _ _ d)) = Ret dd ->
  plus_diag ndx delta (step_matrix (o_fac O) (o_bfgs O) P p d dd) M1 ->
  solves (ndx + nd) (entries M1) x (fun i => - nth i (step_rhs (o_fac O) (o_bfgs O) P p d) 0) ->
  (let q := rsum nd (fun k => nth k (d_md _ _ d) 0 * nth k (d_md _ _ d) 0) / mu s in
   - al_form ndx (ndx + nd) (entries M1) x - 2 * q <= slope p d x <= - al_form ndx (ndx + nd) (entries M1) x - q) /\
  (al_convex ndx (ndx + nd) (entries M1) ->
   slope p d x < 0 \/ ((forall i, (i < ndx)%nat -> nth i (d_mg _ _ d) 0 = 0) /\ (forall k, (k < nd)%nat -> nth k (d_md _ _ d) 0 = 0) /\ forall i, (i < ndx + nd)%nat -> x i = 0)).
Proof. exact step_slope. Qed.
Print Assumptions C81_descent.
(** minimise x + x^2/2 subject to x + 1 = 0, from x = 0: the step is -1 and the slope -3. *)
Example C81_example : consistent good_p good_s /\ exists d dd x, let P := default_params (K := RSc) in
  run_diagnose (ex_oracles RSc) P good_p good_s = Ret d /\ agrees P good_p good_s (d_m _ _ d) /\
  kkt_dual_diag P good_p (mu good_s) (sets good_s) (m_shift_pd (d_m _ _ d)) = Ret dd /\
  (let M := step_matrix (o_fac (ex_oracles RSc)) (o_bfgs (ex_oracles RSc)) P good_p d dd in
   sym 2 M /\ al_convex 1 2 (entries M) /\ solves 2 (entries M) x (fun i => - nth i (step_rhs (o_fac (ex_oracles RSc)) (o_bfgs (ex_oracles RSc)) P good_p d) 0)) /\
  slope good_p d x = -3.
Proof. split; [exact good_consistent|exact good_step]. Qed.

(** With the default parameters and an inequality whose two shifted values have different signs the
    exact step goes up, although the form is positive definite: slope 22. *)
Theorem C81_refuted : exists (p : @problem RSc) (s : solver_state (ex_oracles RSc)) d dd x,
  let P := default_params (K := RSc) in let O := ex_oracles RSc in let M := step_matrix (o_fac O) (o_bfgs O) P p d dd in
  consistent p s /\ pdal_beta P = 1 / 2 /\ run_diagnose O P p s = Ret d /\
  kkt_dual_diag P p (mu s) (sets s) (m_shift_pd (d_m _ _ d)) = Ret dd /\
  p_ndx p = 1%nat /\ rows_of (p_cons p) = 1%nat /\ al_convex 1 2 (entries M) /\
  solves 2 (entries M) x (fun i => - nth i (step_rhs (o_fac O) (o_bfgs O) P p d) 0) /\ slope p d x = 22.
Proof. exact bad_step. Qed.
Print Assumptions C81_refuted.

(** C82. The step that the refinement loop returns.  The loop uses the matrix without the regularisation
    together with the factorisation of the regularised one, so for delta > 0 it does not converge to
    the solution of either in general; it is still a descent direction, for any number of passes, when the regularised form
    is positive definite, and it is the exact solution when delta = 0. *)
Theorem C82_refined_step : forall (O : oracles RSc) (P : @params RSc) (p : @problem RSc) (s : solver_state O) d dd delta M1 F,
  let ndx := p_ndx p in let nd := rows_of (p_cons p) in let M := step_matrix (o_fac O) (o_bfgs O) P p d dd in
  let st := iterative_refinement (o_fac O) (o_solve O) P F M (step_rhs (o_fac O) (o_bfgs O) P p d) in
  consistent p s -> pdal_beta P = 1 / 2 -> run_diagnose O P p s = Ret d -> agrees P p s (d_m _ _ d) ->
  kkt_dual_diag P p (mu s) (sets s) (m_shift_pd (d_m _ _ d)) = Ret dd ->
  0 <= delta -> sym (ndx + nd) M -> plus_diag ndx delta M M1 -> exact_solver (ndx + nd) (entries M1) (o_solve O F) ->
  length st = (ndx + nd)%nat /\
  (al_convex ndx (ndx + nd) (entries M1) ->
   (delta = 0 -> solves (ndx + nd) (entries M) (fun i => nth i st 0) (fun i => - nth i (step_rhs (o_fac O) (o_bfgs O) P p d) 0)) /\
   (slope p d (fun i => nth i st 0) < 0 \/
    ((forall i, (i < ndx)%nat -> nth i (d_mg _ _ d) 0 = 0) /\ (forall k, (k < nd)%nat -> nth k (d_md _ _ d) 0 = 0) /\ forall i, (i < ndx + nd)%nat -> nth i st 0 = 0))).
Proof. exact refined_step. Qed.
Print Assumptions C82_refined_step.
(** minimise x - x^2/4: the loop of the inertia correction ends with delta = 1, whose factorisation solves
    exactly. *)
Example C82_example : consistent nc_p nc_s /\ exact_solver 1 (entries [[- 1 / 2 + 1]]) (o_solve (ex_oracles RSc) [[- 1 / 2 + 1]]) /\
  plus_diag 1 1 [[- 1 / 2]] [[- 1 / 2 + 1]] /\ al_convex 1 1 (entries [[- 1 / 2 + 1]]).
Proof. exact nc_setting. Qed.

(** On that problem the solution of the regularised system is -2; five passes of the loop, the default
    number, give -126. *)
Theorem C82_refuted : exists (p : @problem RSc) (s : solver_state (ex_oracles RSc)) d F,
  let P := default_params (K := RSc) in let O := ex_oracles RSc in let M := step_matrix (o_fac O) (o_bfgs O) P p d [] in
  run_diagnose O P p s = Ret d /\ M = [[- 1 / 2]] /\ step_rhs (o_fac O) (o_bfgs O) P p d = [1] /\
  run_inertia O 4 P 1 0 M (w_fac _ _ (wsp (d_state _ _ d))) (delta_init P) 0 = Ret (M, F, 1, 1) /\
  o_solve O F [-1] = [-2] /\ iterative_refinement (o_fac O) (o_solve O) P F M [1] = [-126].
Proof. exists nc_p, nc_s. exact nc_run. Qed.
Print Assumptions C82_refuted.

(** C83. One whole step of the inner loop, when the merit function can be evaluated along the step, the inertia correction
    ends within its bound, and the factorisation is [faithful]: the direction descends (or everything is stationary), the new point is the
    old one moved along it by the accepted step length, and the recorded merit is below the old one by c1 times the predicted
    decrease, unless the step length is the minimal one, the slope is under the threshold, or the line search used up its
    evaluations. *)
Theorem C83_merit_decrease : forall (O : oracles RSc) fls fin (P : @params RSc) (p : @problem RSc) (s : solver_state O) d dl r,
  let ndx := p_ndx p in let nd := rows_of (p_cons p) in let N := (ndx + nd)%nat in let s0 := d_state _ _ d in let M := step_matrix (o_fac O) (o_bfgs O) P p d in
  consistent p s -> pdal_beta P = 1 / 2 -> (0 < fls)%nat ->
  0 <= delta_init P -> 0 < delta_nz_init P -> 0 < delta_min P -> 0 <= del_inc_k P -> 0 <= del_inc_big P ->
  faithful O ndx nd -> run_diagnose O P p s = Ret d -> agrees P p s (d_m _ _ d) ->
  (forall dd, kkt_dual_diag P p (mu s) (sets s) (m_shift_pd (d_m _ _ d)) = Ret dd -> sym N (M dd) /\
     forall M' F delta dl', run_inertia O fin P ndx nd (M dd) (w_fac _ _ (wsp s0)) (delta_init P) dl = Ret (M', F, delta, dl') -> delta <= delta_max P) ->
  (forall dx dl a, length dx = ndx -> length dl = nd -> exists v m, run_phi O P p s0 dx dl a = Ret (v, m)) ->
  run_step O fls fin P p d dl = Ret r ->
  exists pd lr, let dx := firstn ndx pd in let dlam := skipn ndx pd in let sl := slope p d (fun i => nth i pd 0) in
    let alpha := w_alpha _ _ (wsp (state_of r)) in
    length pd = N /\
    (sl < 0 \/ ((forall i, (i < ndx)%nat -> nth i (d_mg _ _ d) 0 = 0) /\ (forall k, (k < nd)%nat -> nth k (d_md _ _ d) 0 = 0) /\ forall i, (i < N)%nat -> nth i pd 0 = 0)) /\
    r_x (res (state_of r)) = o_integrate O (r_x (res s0)) (scaled alpha dx) /\
    r_lams (res (state_of r)) = vadd (K := RSc) (r_lams (res s0)) (scaled alpha dlam) /\
    run (o_qr O) (fun _ a => phi_opt (o_integrate O) (o_px_val O) (o_fac O) (o_bfgs O) P p s0 dx dlam a) fls (lsopt P) (r_merit (res s0)) sl = Some lr /\
    r_merit (res (state_of r)) = r_phi lr /\ alpha = r_alpha lr /\
    (enough (armijo_c1 (lsopt P)) sl (r_merit (res s0)) alpha (r_merit (res (state_of r))) \/
     alpha = alpha_min (lsopt P) \/ Rabs sl < dphi_thresh (lsopt P) \/ length (r_trace lr) = S (max_num_steps (lsopt P))).
Proof. exact pass_decrease. Qed.
Print Assumptions C83_merit_decrease.
(** All hypotheses hold for a step of the problem of C81. *)
Example C83_example : consistent good_p good_s /\ faithful (ex_oracles RSc) 1 1 /\ exists d, let P := default_params (K := RSc) in let O := ex_oracles RSc in
  run_diagnose O P good_p good_s = Ret d /\ agrees P good_p good_s (d_m _ _ d) /\
  (forall dd, kkt_dual_diag P good_p (mu good_s) (sets good_s) (m_shift_pd (d_m _ _ d)) = Ret dd ->
    sym 2 (step_matrix (o_fac O) (o_bfgs O) P good_p d dd) /\
    forall M' F delta dl', run_inertia O 1 P 1 1 (step_matrix (o_fac O) (o_bfgs O) P good_p d dd) (w_fac _ _ (wsp (d_state _ _ d))) (delta_init P) 0 = Ret (M', F, delta, dl') -> delta <= delta_max P) /\
  (forall dx dl a, length dx = 1%nat -> length dl = 1%nat -> exists v m, run_phi O P good_p (d_state _ _ d) dx dl a = Ret (v, m)) /\
  exists r, run_step O 1 1 P good_p d 0 = Ret r.
Proof. split; [exact good_consistent|]. split; [exact ex_faithful|exact good_run]. Qed.

(** The Bunch-Kaufman factorisation is faithful up to 32 rows, whatever the other oracles are. *)
Theorem C83_bunch_kaufman : forall pw ig pv pg ph bf bu qr ndx nd, (ndx + nd <= 32)%nat ->
  faithful (mkOracles (K := RSc) pw ig pv pg ph (bk RSc) (bk_fac (K := RSc) (ndx + nd)) (bk_sig (K := RSc)) (bk_solve_list (K := RSc)) bf bu qr) ndx nd.
Proof. exact bk_faithful. Qed.
Print Assumptions C83_bunch_kaufman.
