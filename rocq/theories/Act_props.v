(** Theorems about the solver on quadratic problems with inequality constraints (C101). *)
From Coq Require Import Reals List Arith ZArith Lia Lra.
From Verif Require Import Scalar Cset_model Cset_spec Armijo_model Problem_model Solver_model Solver_spec Lin_spec Ldlt_model Ldlt_spec Bk_spec Descent_spec Qp_spec Fac_model Fac_spec FacX_proofs QpR_spec Act_spec ActF_proofs ActX_proofs.
Import ListNotations.
Local Open Scope R_scope.

(** C101. Minimise 1/2 x'Qx + q'x subject to A x - b in C, where C is any product of equalities, inequalities and boxes, with Q positive definite and
    no proximal term.  Let xs, ls solve the subproblem of the method of multipliers for the current multipliers.  If the points that the solver projects
    lie in the same pieces of C at the start and at xs, ls (the active constraints are identified), then the inner loop makes at most one step: it leaves
    the point alone because one of its two stopping tests holds there, or it ends exactly at xs, ls.  The reported residuals are those of the final point. *)
Theorem C101_one_step : forall (O : oracles RSc) (P : @params RSc) n Q q ms A b p fi fls fin (s : solver_state O) xs ls, let m := total ms in let C := product_of (sets s) ms in
  let x := (fun i => nth i (r_x (res s)) 0) in let l := (fun k => nth k (r_lams (res s)) 0) in let le := (fun k => nth k (w_lams_prev _ _ (wsp s)) 0) in
  answers_like n p (qp n Q q ms A b) -> plain O P n -> kkt_sys P = KKT_CLASSIC -> definite n Q -> handles_rows O n m Q A (mu s) -> act_state n ms p s -> 0 <= s_inner_tol _ _ s ->
  (S (r_num_iters (res s)) < max_iters P)%nat -> (1 < fi)%nat -> (0 < fls)%nat -> (0 < fin)%nat ->
  subproblem n m Q q A b C (mu s) le xs ls -> right_pieces n m A b C (mu s) le x l xs ls ->
  exists s' : solver_state O, inner_loop (o_integrate O) (o_px_val O) (o_px_grad O) (o_px_hess O) (o_fac O) (o_compute O) (o_signature O) (o_solve O) (o_bfgs O) (o_bfgs_update O) (o_qr O)
      fi fls fin P p s 0 = Ret s' /\
    act_state n ms p s' /\ mu s' = mu s /\ sets s' = sets s /\ w_lams_prev _ _ (wsp s') = w_lams_prev _ _ (wsp s) /\
    (let x' := (fun i => nth i (r_x (res s')) 0) in let l' := (fun k => nth k (r_lams (res s')) 0) in
     is_max_abs (qp_lag n m Q q A x' l') n (r_dual_infeas (res s')) /\
     exists z, projected C m (fun k => qp_con n A b x' k + mu s * l' k) z /\ is_max_abs (fun k => qp_con n A b x' k - z k) m (r_prim_infeas (res s'))) /\
    ((r_x (res s') = r_x (res s) /\ r_lams (res s') = r_lams (res s) /\ r_num_iters (res s') = r_num_iters (res s) /\
      ((r_prim_infeas (res s') <= target_tol P /\ r_dual_infeas (res s') <= target_tol P) \/
       (forall i, (i < n)%nat -> Rabs (qp_lag n m Q q A x l i) <= s_inner_tol _ _ s) /\
       exists z, projected C m (shift_at n A b (mu s) le x) z /\ forall k, (k < m)%nat -> Rabs (shift_at n A b (mu s) le x k - z k - mu s * l k) <= s_inner_tol _ _ s)) \/
     r_x (res s') = tab n xs /\ r_lams (res s') = tab m ls /\ r_num_iters (res s') = S (r_num_iters (res s))).
Proof. exact active_final. Qed.
Print Assumptions C101_one_step.
(** The hypothesis on the pieces holds near xs, ls when the shifted constraint value there is at distance g from the limits of C; if the gradient of
    the Lagrangian at the start exceeds both tolerances, the loop takes the step and ends at xs, ls. *)
Theorem C101_local : forall (O : oracles RSc) (P : @params RSc) n Q q ms A b p fi fls fin (s : solver_state O) xs ls g i, let m := total ms in let C := product_of (sets s) ms in
  let x := (fun i => nth i (r_x (res s)) 0) in let l := (fun k => nth k (r_lams (res s)) 0) in let le := (fun k => nth k (w_lams_prev _ _ (wsp s)) 0) in
  answers_like n p (qp n Q q ms A b) -> plain O P n -> kkt_sys P = KKT_CLASSIC -> definite n Q -> handles_rows O n m Q A (mu s) -> act_state n ms p s -> 0 <= s_inner_tol _ _ s ->
  (S (r_num_iters (res s)) < max_iters P)%nat -> (1 < fi)%nat -> (0 < fls)%nat -> (0 < fin)%nat ->
  subproblem n m Q q A b C (mu s) le xs ls -> 0 < g -> clear_of g C (tab m (shift_at n A b (mu s) le xs)) ->
  (forall k, (k < m)%nat -> Rabs (rsum n (fun j => A k j * (x j - xs j))) < g /\ Rabs (rsum n (fun j => A k j * (x j - xs j)) - mu s / 2 * (l k - ls k)) < g / 2) ->
  (i < n)%nat -> s_inner_tol _ _ s < Rabs (qp_lag n m Q q A x l i) -> target_tol P < Rabs (qp_lag n m Q q A x l i) ->
  exists s' : solver_state O, inner_loop (o_integrate O) (o_px_val O) (o_px_grad O) (o_px_hess O) (o_fac O) (o_compute O) (o_signature O) (o_solve O) (o_bfgs O) (o_bfgs_update O) (o_qr O)
      fi fls fin P p s 0 = Ret s' /\ r_x (res s') = tab n xs /\ r_lams (res s') = tab m ls /\ r_num_iters (res s') = S (r_num_iters (res s)).
Proof. exact local_final. Qed.
Print Assumptions C101_local.
(** The dense factorisation meets the hypothesis on the linear solver for every choice of active rows. *)
Theorem C101_dense : forall pw ig pv pg ph bf bu qr n m Q A mu c, strongly_convex n Q c -> tiny (K := RSc) < c -> tiny (K := RSc) < mu ->
  handles_rows (mkOracles (K := RSc) pw ig pv pg ph (dldlt RSc) (dense_fac (K := RSc) (n + m)) (dense_sig (K := RSc)) (dense_solve_list (K := RSc)) bf bu qr) n m Q A mu.
Proof. exact dense_rows. Qed.
Print Assumptions C101_dense.
(** Minimise 1/2 x^2 - 20 x subject to x <= 10 and -50 <= x <= 50 from x = 13, mu = 1, zero multipliers: the inequality is active, the box is not, and
    the first inner loop moves to x = 15 with multipliers 5 and 0. *)
Example C101_example : let O := dense_oracles 3 in let P := started 1 0 in
  plain O P 1 /\ kkt_sys P = KKT_CLASSIC /\ definite 1 (fun _ _ => 1) /\ handles_rows O 1 2 (fun _ _ => 1) (fun _ _ => 1) (mu ramp_state) /\ act_state 1 [1%nat; 1%nat] ramp ramp_state /\
  right_pieces 1 2 (fun _ _ => 1) ramp_b (product_of ramp_sets [1%nat; 1%nat]) 1 (fun k => nth k [0; 0] 0) (fun i => nth i [13] 0) (fun k => nth k [0; 0] 0) (fun _ => 15) ramp_l /\
  exists s' : solver_state O, inner_loop (o_integrate O) (o_px_val O) (o_px_grad O) (o_px_hess O) (o_fac O) (o_compute O) (o_signature O) (o_solve O) (o_bfgs O) (o_bfgs_update O) (o_qr O)
      2 1 1 P ramp ramp_state 0 = Ret s' /\ r_x (res s') = [15] /\ r_lams (res s') = [5; 0].
Proof.
  intros O P. pose proof tiny_default as TD. pose proof (started_plain 1 3 1 : plain O P 1) as Pl. assert (Df : definite 1 (fun _ _ => 1)) by (apply (strong_definite 1 _ 1); [lra|exact ramp_strong]).
  assert (Hr : handles_rows O 1 2 (fun _ _ => 1) (fun _ _ => 1) (mu ramp_state)).
  { apply (C101_dense _ _ _ _ _ _ _ _ 1 2 _ _ _ 1 ramp_strong); [cbn [car RSc] in *; lra|]. change (mu ramp_state) with 1. cbn [car RSc] in *. lra. }
  split; [exact Pl|]. split; [reflexivity|]. split; [exact Df|]. split; [exact Hr|]. split; [exact ramp_act|]. split.
  - unfold right_pieces, shift_pd_at, shift_at, qp_con, ramp_b, ramp_l. cbn. split; split; try (split; [|exact I]); intros [|[|k]]; cbn; intros; try lia; repeat split; intros; try lra; cbn in *; try lra; destruct k; lra.
  - destruct (C101_local O P 1 (fun _ _ => 1) ramp_q [1%nat; 1%nat] (fun _ _ => 1) ramp_b ramp 2 1 1 ramp_state (fun _ => 15) ramp_l 5 0) as (s' & E & X & L & _);
      try solve [assumption|reflexivity|exact ramp_act|exact ramp_sub|exact ramp_clear|cbn; lra|cbn; lia].
    + split; [reflexivity|]. split; [intros; repeat split|]. repeat constructor.
    + intros k Hk. assert (Hk' : k = 0%nat \/ k = 1%nat) by (cbn in Hk; lia). destruct Hk' as [->| ->]; cbn; unfold ramp_l; cbn; split; unfold Rabs; destruct Rcase_abs; lra.
    + unfold qp_lag, qp_grad, ramp_q. cbn. unfold Rabs; destruct Rcase_abs; lra.
    + unfold qp_lag, qp_grad, ramp_q. cbn. unfold Rabs; destruct Rcase_abs; lra.
    + exists s'. split; [exact E|]. split; [exact X|exact L].
Qed.
