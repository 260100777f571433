(** Theorems about the whole solve with the primal-dual system on strongly convex quadratic problems (C106). *)
From Coq Require Import Reals List Arith ZArith Lia Lra.
From Verif Require Import Scalar Cset_model Cset_spec Armijo_model Problem_model Solver_model Solver_spec Lin_spec Ldlt_model Ldlt_spec Bk_spec Descent_spec Qp_spec Fac_model Fac_spec FacX_proofs QpR_spec Act_spec ActX_proofs
  Glob_spec GlobX_proofs Pdc_spec Pdc_proofs PdcO_proofs PdcX_proofs.
Import ListNotations.
Local Open Scope R_scope.

(** C106. Minimise 1/2 x'Qx + q'x subject to A x - b in C, where Q is at least c times the identity, C is any product of equalities, inequalities
    and boxes, and the problem has an optimal pair xs, ls.  Use the primal-dual system and the multiplier update MM_NEWTON, without proximal term.  Under the conditions
    [pd_outer] on the parameters, from every start with |l0 - ls| <= D and (x0 - xs)'Q(x0 - xs) <= X the solver ends with SUCCESS, after at most
    K = Rn (T + 1) + T outer iterations and (K + 1) N steps, and the two residuals of the final point are at most the target tolerance.
    The only exception: the larger residual of some outer iteration is exactly the target tolerance; the solver then has the
    solution, but goes on, since the inner loop stops at residuals up to the tolerance, and the outer loop only below it. *)
Theorem C106_solve : forall (O : oracles RSc) (P : @params RSc) n Q q ms A b p c theta gam lo X D G B xs ls Rn T N fo fi fls fin (s : solver_state O) x0 l0,
  let m := total ms in let K := (Rn * S T + T)%nat in let C := product_of (sets s) ms in
  answers_like n p (qp n Q q ms A b) -> plain O P n -> kkt_sys P = KKT_PRIMAL_DUAL -> pd_outer O P n m Q q A c theta gam lo X D G B xs ls Rn T N ->
  0 < c -> strongly_convex n Q c -> 0 <= theta -> (forall y, rsum m (fun k => rsum n (fun j => A k j * y j) * rsum n (fun j => A k j * y j)) <= theta * form n Q y) -> (forall y, lo <= qp_obj n Q q y) ->
  (forall mu, mu_lower P <= mu <= mu_init P -> handles_pd O n m Q A mu) -> sets_fit (sets s) (p_cons p) -> (forall z, penalty C z = 0) -> buffers_fit p s ->
  kkt_pair n m Q q A b C xs ls -> length x0 = n -> length l0 = m -> sqdist m (fun k => nth k l0 0) ls <= D * D -> form n Q (fun i => nth i x0 0 - xs i) <= X ->
  (K < max_al_iters P)%nat -> (S K * N < max_iters P)%nat -> (max_al_iters P < fo)%nat -> (N < fi)%nat -> (0 < fls)%nat -> (0 < fin)%nat ->
  (exists s' : solver_state O, run_solve O fo fi fls fin P p (Some s) x0 l0 = Ret (s', SUCCESS) /\ (r_al_iters (res s') <= K)%nat /\ (r_num_iters (res s') <= S K * N)%nat /\ length (r_x (res s')) = n /\ length (r_lams (res s')) = m /\
    exists mu, mu_lower P <= mu <= mu_init P /\ within n m Q q A b C mu (fun i => nth i (r_x (res s')) 0) (fun k => nth k (r_lams (res s')) 0) (target_tol P)) \/
  (exists fo' (s2 : solver_state O), (fo' < fo)%nat /\
    (let loop := outer_loop (o_pow O) (o_integrate O) (o_px_val O) (o_px_grad O) (o_px_hess O) (o_fac O) (o_compute O) (o_signature O) (o_solve O) (o_bfgs O) (o_bfgs_update O) (o_qr O) in
     loop fo fi fls fin P p (init_solve (o_pow O) (o_fac O) (o_bfgs O) P p x0 l0 s) = loop fo' fi fls fin P p s2) /\
    (r_al_iters (res s2) <= S K)%nat /\ (r_num_iters (res s2) <= S K * N)%nat /\
    exists mu, mu_lower P <= mu <= mu_init P /\
      let x := (fun i => nth i (r_x (res s2)) 0) in let l := (fun k => nth k (r_lams (res s2)) 0) in
      within n m Q q A b C mu x l (target_tol P) /\ touches n m Q q A b C mu x l (target_tol P)).
Proof. exact pd_solve_final. Qed.
Print Assumptions C106_solve.
(** What one outer iteration does to the multipliers: if the inner loop stops at the tolerance w, they end up at most [drift] farther from ls than before, so the
    exact method, w = 0, never increases the distance; and then the distance of the constraint value to the projected one is at most w + sqrt m w + 2 mu |le - l|. *)
Theorem C106_multipliers : forall n m Q q A b C c theta xs ls mu w le x l z D, 0 < c -> strongly_convex n Q c -> 0 <= theta ->
  (forall y, rsum m (fun k => rsum n (fun j => A k j * y j) * rsum n (fun j => A k j * y j)) <= theta * form n Q y) -> kkt_pair n m Q q A b C xs ls -> (forall z, penalty C z = 0) -> 0 < mu -> 0 <= w ->
  (forall i, (i < n)%nat -> Rabs (qp_lag n m Q q A x l i) <= w) -> nearest C m mu (shift_pd_at n A b mu le x l) z -> (forall k, (k < m)%nat -> Rabs (qp_con n A b x k + mu * (le k - l k) - z k) <= w) ->
  0 <= D -> sqdist m le ls <= D * D -> sqrt (sqdist m l ls) <= D + drift n m c theta mu w /\ sqrt (sqdist m le l) <= D + drift n m c theta mu w /\
  forall z' k, nearest C m mu (fun k => qp_con n A b x k + mu * l k) z' -> (k < m)%nat -> Rabs (qp_con n A b x k - z' k) <= w + sqrt (INR m) * w + 2 * (mu * sqrt (sqdist m le l)).
Proof. exact pd_step_final. Qed.
Print Assumptions C106_multipliers.

(** Minimise 1/2 x^2 - 20 x subject to x <= 10 from x = 0 without multipliers: the solver ends within 3 outer iterations, for a suitable limit on the inner ones. *)
Example C106_example : exists N, let O := dense_oracles 2 in let P := wall_params (S (4 * N)) in let C := product_of [CNeg (K := RSc) 1] [1%nat] in
  pd_outer O P 1 1 (fun _ _ => 1) ramp_q (fun _ _ => 1) 1 1 40002 (-200) 2702737 10 203 822 (fun _ => 10) (fun _ => 10) 1 1 N /\ kkt_pair 1 1 (fun _ _ => 1) ramp_q (fun _ _ => 1) (fun _ => 10) C (fun _ => 10) (fun _ => 10) /\
  ((exists s' : solver_state O, run_solve O 1001 (S N) 1 1 P wall (Some (wall_state (S (4 * N)))) [0] [0] = Ret (s', SUCCESS) /\ (r_al_iters (res s') <= 3)%nat /\
     Rabs (nth 0 (r_x (res s')) 0 - 20 + nth 0 (r_lams (res s')) 0) <= 1 / 5) \/
   exists fo' (s2 : solver_state O), (fo' < 1001)%nat /\
     (let loop := outer_loop (o_pow O) (o_integrate O) (o_px_val O) (o_px_grad O) (o_px_hess O) (o_fac O) (o_compute O) (o_signature O) (o_solve O) (o_bfgs O) (o_bfgs_update O) (o_qr O) in
      loop 1001%nat (S N) 1%nat 1%nat P wall (init_solve (o_pow O) (o_fac O) (o_bfgs O) P wall [0] [0] (wall_state (S (4 * N)))) = loop fo' (S N) 1%nat 1%nat P wall s2) /\
     exists mu, touches 1 1 (fun _ _ => 1) ramp_q (fun _ _ => 1) (fun _ => 10) C mu (fun i => nth i (r_x (res s2)) 0) (fun k => nth k (r_lams (res s2)) 0) (1 / 5)).
Proof.
  pose proof tiny_default as TD. destruct wall_outer as [N HN]. exists N. intros O P C. specialize (HN (S (4 * N))). split; [exact HN|]. split; [exact wall_kkt|].
  destruct (C106_solve O P 1 (fun _ _ => 1) ramp_q [1%nat] (fun _ _ => 1) (fun _ => 10) wall 1 1 40002 (-200) 2702737 10 203 822 (fun _ => 10) (fun _ => 10) 1 1 N 1001 (S N) 1 1 (wall_state (S (4 * N))) [0] [0])
    as [(s' & E & A1 & _ & _ & _ & mu & _ & W & _)|(fo' & s2 & F & E & _ & _ & mu & _ & _ & W)]; try solve [assumption|reflexivity|lra|apply wall_plain|exact ramp_strong|exact wall_kkt].
  - split; [reflexivity|]. split; [intros; repeat split|]. repeat constructor.
  - intros y. unfold form. cbn. lra.
  - intros y. unfold qp_obj, ramp_q. cbn. pose proof (Rle_0_sqr (y 0%nat - 20)) as S. unfold Rsqr in S. lra.
  - intros mu H. change (1 / 10000 <= mu <= 1 / 100) in H. apply (dense_pd _ _ _ _ _ _ _ _ 1 1 _ _ mu 1 ramp_strong); cbn [car RSc] in *; lra.
  - split; repeat constructor.
  - intros z. cbn. lra.
  - repeat split.
  - unfold sqdist. cbn. lra.
  - unfold form. cbn. lra.
  - cbn. lia.
  - cbn. lia.
  - cbn. lia.
  - cbn. lia.
  - cbn. lia.
  - cbn. lia.
  - left. exists s'. split; [exact E|]. split; [exact A1|]. specialize (W 0%nat ltac:(lia)). unfold qp_lag, qp_grad, ramp_q in W. cbn in W.
    eapply Rle_trans; [apply Req_le|exact W]. apply (f_equal Rabs). cbn [car RSc] in *. lra.
  - right. exists fo', s2. split; [exact F|]. split; [exact E|]. exists mu. exact W.
Qed.
