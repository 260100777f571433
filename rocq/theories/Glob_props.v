(** Theorems about the inner loop with the primal-dual system on convex quadratic problems (C104). *)
From Coq Require Import Reals List Arith ZArith Lia Lra.
From Verif Require Import Scalar Cset_model Cset_spec Armijo_model Problem_model Solver_model Solver_spec Lin_spec Symb_model Ldlt_model Ldlt_spec Bk_spec Descent_spec Qp_spec Fac_model Fac_spec FacX_proofs QpR_spec Act_spec ActX_proofs
  Glob_spec GlobF_proofs GlobX_proofs.
Import ListNotations.
Local Open Scope R_scope.

(** C104. Minimise 1/2 x'Qx + q'x + g(A x - b), where Q is symmetric positive semidefinite and g is given by any product of constraint sets: equalities,
    inequalities, boxes and the l1 penalty.  Use the primal-dual system, without proximal term.  From every starting point and every multipliers, the inner
    loop ends after at most N steps, where N is the start value of the merit function above a lower bound of the objective, divided by the decrease
    c1 (low abar) tol^2 / gam that one step brings.  It throws nothing and never reaches the limit on iterations.  The merit function does not
    increase, the reported residuals are those of the final point, and one of the two stopping tests holds there: the residuals are below the target
    tolerance, or the gradient of the Lagrangian is at most tol, and A x - b + mu (le - l) is within tol of the proximal point of the shifted constraint value.
    theta bounds |A y|^2 by theta y'Qy; gam bounds the criterion by the slope; [searches] says that the line search reaches steps of length abar. *)
Theorem C104_inner_loop : forall (O : oracles RSc) (P : @params RSc) n Q q ms A b p fi fls fin (s : solver_state O) N theta gam lo v, let m := total ms in let C := product_of (sets s) ms in
  let x := (fun i => nth i (r_x (res s)) 0) in let l := (fun k => nth k (r_lams (res s)) 0) in let le := (fun k => nth k (w_lams_prev _ _ (wsp s)) 0) in let tol := s_inner_tol _ _ s in
  let c1 := armijo_c1 (lsopt P) in let abar := (1 - c1) / (3 / 2 + 2 * theta / mu s) in let low := Rmin (contraction_min (lsopt P)) (1 / 2) in
  answers_like n p (qp n Q q ms A b) -> plain O P n -> kkt_sys P = KKT_PRIMAL_DUAL -> handles_pd O n m Q A (mu s) -> act_state n ms p s ->
  (forall i j, (i < n)%nat -> (j < n)%nat -> Q i j = Q j i) -> (forall y, 0 <= form n Q y) -> (forall y, lo <= qp_obj n Q q y) ->
  0 <= theta -> (forall y, rsum m (fun k => rsum n (fun j => A k j * y j) * rsum n (fun j => A k j * y j)) <= theta * form n Q y) ->
  mu s <= gam -> (forall i, (i < n)%nat -> 2 * Q i i + 4 / mu s * rsum m (fun k => A k i * A k i) <= gam) -> gam * dphi_thresh (lsopt P) <= tol * tol -> 0 < tol ->
  searches (lsopt P) abar ->
  merit_at n m Q q A b C (mu s) le x l v -> v - lo <= INR N * (c1 * (low * abar) * (tol * tol / gam)) ->
  (r_num_iters (res s) + N < max_iters P)%nat -> (N < fi)%nat -> (0 < fls)%nat -> (0 < fin)%nat ->
  exists s' : solver_state O, inner_loop (o_integrate O) (o_px_val O) (o_px_grad O) (o_px_hess O) (o_fac O) (o_compute O) (o_signature O) (o_solve O) (o_bfgs O) (o_bfgs_update O) (o_qr O)
      fi fls fin P p s 0 = Ret s' /\
    act_state n ms p s' /\ mu s' = mu s /\ sets s' = sets s /\ w_lams_prev _ _ (wsp s') = w_lams_prev _ _ (wsp s) /\ r_conv (res s') = r_conv (res s) /\
    (r_num_iters (res s) <= r_num_iters (res s') <= r_num_iters (res s) + N)%nat /\
    let x' := (fun i => nth i (r_x (res s')) 0) in let l' := (fun k => nth k (r_lams (res s')) 0) in
    (exists v', merit_at n m Q q A b C (mu s) le x' l' v' /\ v' <= v) /\
    is_max_abs (qp_lag n m Q q A x' l') n (r_dual_infeas (res s')) /\
    (exists z, nearest C m (mu s) (fun k => qp_con n A b x' k + mu s * l' k) z /\ is_max_abs (fun k => qp_con n A b x' k - z k) m (r_prim_infeas (res s'))) /\
    ((r_prim_infeas (res s') <= target_tol P /\ r_dual_infeas (res s') <= target_tol P) \/
     (forall i, (i < n)%nat -> Rabs (qp_lag n m Q q A x' l' i) <= tol) /\
     exists z, nearest C m (mu s) (shift_pd_at n A b (mu s) le x' l') z /\ forall k, (k < m)%nat -> Rabs (qp_con n A b x' k + mu s * (le k - l' k) - z k) <= tol).
Proof. exact global_final. Qed.
Print Assumptions C104_inner_loop.
(** The dense factorisation meets the hypothesis on the linear solver, for every choice of active rows. *)
Theorem C104_dense : forall pw ig pv pg ph bf bu qr n m Q A mu c, strongly_convex n Q c -> tiny (K := RSc) < c -> tiny (K := RSc) < mu / 2 ->
  handles_pd (mkOracles (K := RSc) pw ig pv pg ph (dldlt RSc) (dense_fac (K := RSc) (n + m)) (dense_sig (K := RSc)) (dense_solve_list (K := RSc)) bf bu qr) n m Q A mu.
Proof. exact dense_pd. Qed.
Print Assumptions C104_dense.
(** So does the block-sparse factorisation that the solver allocates. *)
Theorem C104_block : forall fuel junk pw ig pv pg ph bf bu qr prims duals, let n := Qp_spec.total prims in let m := Qp_spec.total duals in let k := (length prims + length duals)%nat in
  (0 < k)%nat -> (k ^ k < fuel)%nat -> exists b, allocate_bldlt (K := RSc) fuel junk prims duals = Ret b /\
    forall Q A mu c, strongly_convex n Q c -> tiny (K := RSc) < c -> tiny (K := RSc) < mu / 2 ->
      handles_pd (mkOracles (K := RSc) pw ig pv pg ph (bldlt RSc) (block_fac (K := RSc) (bl_sym b) (n + m)) (block_sig (K := RSc)) (block_solve_list (K := RSc)) bf bu qr) n m Q A mu.
Proof. exact block_pd. Qed.
Print Assumptions C104_block.
(** When Q is at least c times the identity, theta = |A|^2 / c and lo = -|q|^2 / (2c) meet the hypotheses. *)
Theorem C104_constants : forall n m Q q A c, 0 < c -> strongly_convex n Q c ->
  (forall y, rsum m (fun k => rsum n (fun j => A k j * y j) * rsum n (fun j => A k j * y j)) <= rsum m (fun k => rsum n (fun j => A k j * A k j)) / c * form n Q y) /\
  (forall y, - (rsum n (fun i => q i * q i) / (2 * c)) <= qp_obj n Q q y).
Proof. exact strong_constants. Qed.
Print Assumptions C104_constants.

(** Minimise 1/2 x^2 - 20 x subject to x <= 10 and -50 <= x <= 50 from x = 13, mu = 1, with the default line search: the merit function is -166.5 at the
    start, and for a suitable limit on the iterations the inner loop ends at its first tolerance, 1. *)
Example C104_example : exists N, let O := dense_oracles 3 in let P := pd_started 1 (S N) in
  plain O P 1 /\ handles_pd O 1 2 (fun _ _ => 1) (fun _ _ => 1) 1 /\ searches (lsopt P) ((1 - armijo_c1 (lsopt P)) / (3 / 2 + 2 * 2 / 1)) /\
  merit_at 1 2 (fun _ _ => 1) ramp_q (fun _ _ => 1) ramp_b (product_of ramp_sets [1%nat; 1%nat]) 1 (fun k => nth k [0; 0] 0) (fun i => nth i [13] 0) (fun k => nth k [0; 0] 0) (- (333 / 2)) /\
  exists s' : solver_state O, inner_loop (o_integrate O) (o_px_val O) (o_px_grad O) (o_px_hess O) (o_fac O) (o_compute O) (o_signature O) (o_solve O) (o_bfgs O) (o_bfgs_update O) (o_qr O)
      (S N) 1 1 P ramp (ramp_pd (S N)) 0 = Ret s' /\ Rabs (nth 0 (r_x (res s')) 0 - 20 + nth 0 (r_lams (res s')) 0 + nth 1 (r_lams (res s')) 0) <= 1.
Proof.
  pose proof tiny_default as TD.
  assert (Lw : Rmin (1 / 2) (1 / 2) = 1 / 2) by (unfold Rmin; destruct (Rle_dec (1 / 2) (1 / 2)); reflexivity).
  set (D := 1 / 10000 * (1 / 2 * ((1 - 1 / 10000) / (3 / 2 + 2 * 2 / 1))) * (1 * 1 / 10)).
  assert (Dp : 0 < D) by (unfold D; lra).
  assert (AU : exists N, 67 / 2 / D < INR N).
  { destruct (archimed (67 / 2 / D)) as [U _]. exists (Z.to_nat (up (67 / 2 / D))).
    assert (Z0 : 0 < 67 / 2 / D) by (apply Rdiv_lt_0_compat; lra).
    rewrite INR_IZR_INZ, Z2Nat.id; [exact U|]. apply le_IZR. apply Rlt_le. exact (Rlt_trans _ _ _ Z0 U). }
  destruct AU as [N HN]. exists N. intros O P.
  assert (Pl : plain O P 1) by apply pd_started_plain.
  assert (Hp : handles_pd O 1 2 (fun _ _ => 1) (fun _ _ => 1) 1) by (apply (C104_dense _ _ _ _ _ _ _ _ 1 2 _ _ 1 1 ramp_strong); cbn [car RSc] in *; lra).
  assert (Se : searches (lsopt P) ((1 - armijo_c1 (lsopt P)) / (3 / 2 + 2 * 2 / 1))).
  { assert (E : Rmax (4 / 5) (1 / 2) = 4 / 5) by (unfold Rmax; destruct (Rle_dec (4 / 5) (1 / 2)); lra).
    constructor; cbn; unfold shalf, slit; cbn; rewrite ?Lw, ?E; lra. }
  assert (Me : merit_at 1 2 (fun _ _ => 1) ramp_q (fun _ _ => 1) ramp_b (product_of ramp_sets [1%nat; 1%nat]) 1 (fun k => nth k [0; 0] 0) (fun i => nth i [13] 0) (fun k => nth k [0; 0] 0) (- (333 / 2))).
  { exists (fun k => if Nat.eqb k 0 then 0 else 13). split; [split|].
    - cbn. repeat split; repeat constructor; lra.
    - intros [|a [|b' [|]]] L; try discriminate L. cbn. unfold shift_pd_at, shift_at, qp_con, ramp_b. cbn. intros [Ha [_ _]]. inversion Ha. subst. lra.
    - unfold qp_obj, shift_pd_at, shift_at, qp_con, ramp_b, ramp_q. cbn. lra. }
  split; [exact Pl|]. split; [exact Hp|]. split; [exact Se|]. split; [exact Me|].
  destruct (C104_inner_loop O P 1 (fun _ _ => 1) ramp_q [1%nat; 1%nat] (fun _ _ => 1) ramp_b ramp (S N) 1 1 (ramp_pd (S N)) N 2 10 (-200) (- (333 / 2))) as (s' & E & _ & _ & _ & _ & _ & _ & _ & Rd & _ & T);
    try solve [assumption|reflexivity|apply ramp_pd_act|cbn; lra|cbn; lia].
  - split; [reflexivity|]. split; [intros; repeat split|]. repeat constructor.
  - intros y. unfold form. cbn. pose proof (Rle_0_sqr (y 0%nat)) as S. unfold Rsqr in S. lra.
  - intros y. unfold qp_obj, ramp_q. cbn. pose proof (Rle_0_sqr (y 0%nat - 20)) as S. unfold Rsqr in S. lra.
  - intros y. unfold form. cbn. lra.
  - intros i _. cbn. lra.
  - cbn. unfold slit. cbn. rewrite Lw. change (- (333 / 2) - -200 <= INR N * D). apply (Rmult_lt_compat_r D) in HN; [|exact Dp]. replace (67 / 2 / D * D) with (67 / 2) in HN by (field; lra). lra.
  - exists s'. split; [exact E|].
    assert (L : forall c, Rabs (qp_lag 1 2 (fun _ _ => 1) ramp_q (fun _ _ => 1) (fun i => nth i (r_x (res s')) 0) (fun k => nth k (r_lams (res s')) 0) 0) <= c -> c <= 1 -> Rabs (nth 0 (r_x (res s')) 0 - 20 + nth 0 (r_lams (res s')) 0 + nth 1 (r_lams (res s')) 0) <= 1).
    { intros c H1 H2. eapply Rle_trans; [|exact H2]. eapply Rle_trans; [apply Req_le|exact H1]. f_equal. unfold qp_lag, qp_grad, ramp_q. cbn. lra. }
    destruct T as [[_ T]|[T _]].
    + apply (L (r_dual_infeas (res s'))); [apply Rd; cbn; lia|]. eapply Rle_trans; [exact T|]. cbn. lra.
    + apply (L 1); [apply (T 0%nat); lia|lra].
Qed.
