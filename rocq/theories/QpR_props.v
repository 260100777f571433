(** Theorems about the solver on quadratic problems with affine equality constraints and a proximal term (C98, C99). *)
From Coq Require Import Reals List Arith ZArith Lia Lra.
From Verif Require Import Scalar Cset_model Armijo_model Problem_model Solver_model Solver_spec Lin_spec Ldlt_spec Bk_spec Descent_spec Manifold_model Objects_model Objects_spec
  Qp_spec Ldlt_model Fac_model Fac_spec FacX_proofs QpR_spec QpR_proofs QpRC_proofs QpRF_proofs QpRO_proofs QpRX_proofs.
Import ListNotations.
Local Open Scope R_scope.

(** C98. With a proximal parameter rho > 0 and the target t the inner loop makes at most one step on every quadratic problem with a positive
    semidefinite Hessian and equality constraints; no condition on the kernel of the Hessian is needed.  It either leaves the point alone, because one
    of its two stopping tests holds there, or it ends at the exact minimiser of the augmented Lagrangian plus rho/2 |x - t|^2; the parameters and the target
    are not changed. *)
Theorem C98_one_step : forall (O : oracles RSc) (P : @params RSc) n Q q ms A b p fi fls fin (s : solver_state O), let m := total ms in let rho := s_rho _ _ s in let t := fun i => nth i (s_target _ _ s) 0 in
  answers_like n p (qp n Q q ms A b) ->
  plain_prox O P n -> convex_by n Q 0 -> handles O n m (prox_hessian Q rho) A (mu s) -> prox_state n ms s -> 0 <= s_inner_tol _ _ s ->
  (S (r_num_iters (res s)) < max_iters P)%nat -> (1 < fi)%nat -> (0 < fls)%nat -> (0 < fin)%nat ->
  exists s' : solver_state O, inner_loop (o_integrate O) (o_px_val O) (o_px_grad O) (o_px_hess O) (o_fac O) (o_compute O) (o_signature O) (o_solve O) (o_bfgs O) (o_bfgs_update O) (o_qr O)
      fi fls fin P p s 0 = Ret s' /\
    prox_state n ms s' /\ mu s' = mu s /\ s_rho _ _ s' = rho /\ s_target _ _ s' = s_target _ _ s /\ (r_num_iters (res s') <= S (r_num_iters (res s)))%nat /\
    let x := fun i => nth i (r_x (res s')) 0 in let l := fun k => nth k (r_lams (res s')) 0 in let le := fun k => nth k (w_lams_prev _ _ (wsp s)) 0 in
    is_max_abs (qp_con n A b x) m (r_prim_infeas (res s')) /\ is_max_abs (qp_lag n m Q q A x l) n (r_dual_infeas (res s')) /\
    ((r_x (res s') = r_x (res s) /\ r_lams (res s') = r_lams (res s) /\
      (((forall i, (i < n)%nat -> Rabs (qp_lag n m Q q A x l i + rho * (x i - t i)) <= s_inner_tol _ _ s) /\ (forall k, (k < m)%nat -> Rabs (qp_con n A b x k - mu s * (l k - le k)) <= s_inner_tol _ _ s)) \/
       (r_prim_infeas (res s') <= target_tol P /\ r_dual_infeas (res s') <= target_tol P))) \/
     (forall i, (i < n)%nat -> qp_lag n m Q q A x l i + rho * (x i - t i) = 0) /\ (forall k, (k < m)%nat -> qp_con n A b x k = mu s * (l k - le k))).
Proof. exact inner_final_r. Qed.
Print Assumptions C98_one_step.
(** Without constraints and with the target at the starting point, it lowers the objective by at least rho |x' - x|^2. *)
Theorem C98_descends : forall (O : oracles RSc) (P : @params RSc) n Q q A b p fi fls fin (s : solver_state O), answers_like n p (qp n Q q [] A b) ->
  plain_prox O P n -> convex_by n Q 0 -> handles O n 0 (prox_hessian Q (s_rho _ _ s)) A (mu s) -> prox_state n [] s -> 0 <= s_inner_tol _ _ s -> s_target _ _ s = r_x (res s) ->
  (S (r_num_iters (res s)) < max_iters P)%nat -> (1 < fi)%nat -> (0 < fls)%nat -> (0 < fin)%nat ->
  exists s' : solver_state O, inner_loop (o_integrate O) (o_px_val O) (o_px_grad O) (o_px_hess O) (o_fac O) (o_compute O) (o_signature O) (o_solve O) (o_bfgs O) (o_bfgs_update O) (o_qr O)
      fi fls fin P p s 0 = Ret s' /\ qp_obj n Q q (fun i => nth i (r_x (res s')) 0) + s_rho _ _ s * dist2 n (fun i => nth i (r_x (res s')) 0) (fun i => nth i (r_x (res s)) 0) <= qp_obj n Q q (fun i => nth i (r_x (res s)) 0).
Proof. exact descends. Qed.
Print Assumptions C98_descends.
(** The hypothesis on the penalty holds for the object that the constructor of the solver makes on a vector space (C92). *)
Theorem C98_object : forall junk N n h0 rho0 h r pw ig fac comp sg sv bf bu qr, new_prox (K := RSc) h0 (SVec n) rho0 = Ret (h, r) -> (4 <= N)%nat ->
  prox_penalty (mkOracles (K := RSc) pw ig (object_val junk N h r) (object_grad junk N n h r) (object_hess junk N n h r) fac comp sg sv bf bu qr) n.
Proof. exact object_penalty. Qed.
Print Assumptions C98_object.
(** Minimise 3 x subject to x = 1 from x = 0, with rho = mu = 1e-9: the Hessian is zero, both tests fail at the start. *)
Example C98_example : let O := prox_oracles 1 2 in let P := started (1 / 1000000000) (1 / 1000000000) in
  plain_prox O P 1 /\ convex_by 1 nil_q 0 /\ handles O 1 1 (prox_hessian nil_q (s_rho _ _ lp_state)) (fun _ _ => 1) (mu lp_state) /\ prox_state 1 [1%nat] lp_state /\ 0 <= s_inner_tol _ _ lp_state /\
  (S (r_num_iters (res lp_state)) < max_iters P)%nat /\ s_inner_tol _ _ lp_state < Rabs (qp_lag 1 1 nil_q (fun _ => 3) (fun _ _ => 1) (fun _ => 0) (fun _ => 0) 0).
Proof.
  intros O P. pose proof tiny_default as TD. split; [apply prox_plain|]. split; [apply nil_convex|]. split; [|split; [|split; [|split]]].
  - apply (dense_handles _ _ _ _ _ _ _ _ 1 1 _ _ _ (0 + 1 / 1000000000)); [apply prox_strong, nil_convex|cbn [car RSc] in *; lra|]. change (mu lp_state) with (1 / 1000000000). cbn [car RSc] in *. lra.
  - constructor; cbn; try reflexivity; lra.
  - cbn. lra.
  - cbn. lia.
  - unfold qp_lag, qp_grad, nil_q. cbn. rewrite Rabs_pos_eq; lra.
Qed.
Example C98_object_example : forall N, (4 <= N)%nat -> exists h r, new_prox (K := RSc) [] (SVec 2) 1 = Ret (h, r) /\
  object_val (fun _ _ => 7) N h r (1 / 2) [1; 1] [3; 4] = 1 / 2 / 2 * dist2 2 (fun i => nth i [3; 4] 0) (fun i => nth i [1; 1] 0).
Proof.
  intros N HN. destruct (new_prox (K := RSc) [] (SVec 2) 1) as [[h r]| | |] eqn:E; try discriminate. exists h, r. split; [reflexivity|].
  pose proof (C98_object (fun _ _ => 7) N 2 [] 1 h r Rpower (fun x _ => x) unit (fun u _ => u) (fun _ => []) (fun _ v => v) unit (fun _ _ _ H => (tt, H)) (fun _ _ _ _ _ _ => (0, 0)) E HN) as H.
  exact (proj1 (H (1 / 2) [1; 1] [3; 4] ltac:(lra) eq_refl eq_refl)).
Qed.
(** The objective x without constraints, target and start at 5. *)
Example C98_descends_example : let O := prox_oracles 1 1 in let P := started (1 / 100) (1 / 1000) in let p := qp 1 nil_q (fun _ => 1) [] (fun _ _ => 0) (fun _ => 0) in
  let s := setup (K := RSc) (dldlt RSc) unit P p [] [5] (dldlt_new (K := RSc) 1) tt : solver_state O in
  plain_prox O P 1 /\ handles O 1 0 (prox_hessian nil_q (s_rho _ _ s)) (fun _ _ => 0) (mu s) /\ prox_state 1 [] s /\ s_target _ _ s = r_x (res s) /\ 0 <= s_inner_tol _ _ s /\ 0 < s_rho _ _ s.
Proof.
  intros O P p s. pose proof tiny_default as TD. split; [apply prox_plain|]. split; [|split; [|split; [reflexivity|split; cbn; lra]]].
  - apply (dense_handles _ _ _ _ _ _ _ _ 1 0 _ _ _ (0 + 1 / 1000)); [apply prox_strong, nil_convex|cbn [car RSc] in *; lra|]. change (mu s) with (1 / 100). cbn [car RSc] in *. lra.
  - constructor; cbn; try reflexivity; lra.
Qed.

(** C99. The whole solve with a proximal term converges on every quadratic problem with positive semidefinite Hessian and equality constraints that has a
    solution xs, ls, for parameters as in [prox_params]: after at most K outer iterations and one more step both residuals are within the
    target tolerance, and the multipliers stay near ls. *)
Theorem C99_converges : forall (O : oracles RSc) (P : @params RSc) n Q q ms A b p xs ls e k D Rn T B fo fi fls fin (s : solver_state O) mus x0 l0, let m := total ms in let K := (Rn * S (T + B) + (T + B))%nat in
  answers_like n p (qp n Q q ms A b) ->
  plain_prox O P n -> prox_params O P n m e k D Rn T B xs ls (fun i => nth i x0 0) (fun i => nth i (s_target _ _ s) 0) (fun k => nth k l0 0) -> convex_by n Q e ->
  (forall mu j, mu_lower P <= mu <= mu_init P -> handles O n m (prox_hessian Q (rho_init P * rho_factor P ^ j)) A mu) ->
  qp_optimal n m Q q A b xs ls -> length x0 = n -> length (s_target _ _ s) = n -> length l0 = m ->
  sets s = map CEq mus -> length mus = length ms -> buffers_fit p s ->
  (K < max_al_iters P)%nat -> (S K < max_iters P)%nat -> (max_al_iters P < fo)%nat -> (1 < fi)%nat -> (0 < fls)%nat -> (0 < fin)%nat ->
  exists (s' : solver_state O) f, run_solve O fo fi fls fin P p (Some s) x0 l0 = Ret (s', f) /\ length (r_x (res s')) = n /\ length (r_lams (res s')) = m /\
    let x := fun i => nth i (r_x (res s')) 0 in let l := fun k => nth k (r_lams (res s')) 0 in
    (forall i, (i < m)%nat -> Rabs (qp_con n A b x i) <= target_tol P) /\ (forall i, (i < n)%nat -> Rabs (qp_lag n m Q q A x l i) <= target_tol P) /\
    ((f = SUCCESS /\ (r_al_iters (res s') <= K)%nat /\ (r_num_iters (res s') <= S K)%nat) \/
     (exists i, (i < m)%nat /\ Rabs (qp_con n A b x i) = target_tol P) \/ (exists i, (i < n)%nat /\ Rabs (qp_lag n m Q q A x l i) = target_tol P)) /\
    dist2 m l ls <= D * D.
Proof. exact solve_final_r. Qed.
Print Assumptions C99_converges.
(** The default parameters with 0 < rho_init <= 1e-8 qualify when x'Qx >= |x|^2, the start and the target are within 10 of the solution and the
    multipliers within 316. *)
Theorem C99_default : forall (O : oracles RSc) n m rho e xs ls x0 t0 l0, (forall x y, 0 < x -> o_pow O x y = Rpower x y) -> 0 < rho <= 1 / 100000000 -> 1 <= e ->
  dist2 n x0 xs <= 100 -> dist2 n t0 xs <= 100 -> dist2 m l0 ls <= 100000 ->
  prox_params O (started (1 / 100) rho) n m e (1 / 100000) 400 4 4 0 xs ls x0 t0 l0.
Proof. exact default_prox. Qed.
Print Assumptions C99_default.
(** Minimise x^2 + xy + y^2 subject to x + y = 2 from (5, -7), target 0, multiplier 10. *)
Example C99_default_example : convex_by 2 ex_q 1 /\ qp_optimal 2 1 ex_q (fun _ => 0) (fun _ _ => 1) (fun _ => 2) (fun _ => 1) (fun _ => -3) /\
  prox_params (prox_oracles 2 3) (started (1 / 100) (1 / 100000000)) 2 1 1 (1 / 100000) 400 4 4 0 (fun _ => 1) (fun _ => -3) (fun i => nth i [5; -7] 0) (fun i => nth i [0; 0] 0) (fun k => nth k [10] 0).
Proof. split; [exact ex_strong|]. split; [exact ex_best|]. apply C99_default; try lra; [reflexivity|unfold dist2; cbn; lra..]. Qed.
(** With the dense factorisation nothing is assumed of the linear solver. *)
Theorem C99_dense_converges : forall pw ig pv pg ph bf bu qr (P : @params RSc) n Q q ms A b p xs ls e k D Rn T B fo fi fls fin, let m := Qp_spec.total ms in let K := (Rn * S (T + B) + (T + B))%nat in
  let O := mkOracles (K := RSc) pw ig pv pg ph (dldlt RSc) (dense_fac (K := RSc) (n + m)) (dense_sig (K := RSc)) (dense_solve_list (K := RSc)) bf bu qr in forall (s : solver_state O) mus x0 l0,
  answers_like n p (qp n Q q ms A b) -> plain_prox O P n -> prox_params O P n m e k D Rn T B xs ls (fun i => nth i x0 0) (fun i => nth i (s_target _ _ s) 0) (fun k => nth k l0 0) -> convex_by n Q e ->
  (forall j, tiny (K := RSc) < e + rho_init P * rho_factor P ^ j) -> tiny (K := RSc) < mu_lower P ->
  qp_optimal n m Q q A b xs ls -> length x0 = n -> length (s_target _ _ s) = n -> length l0 = m ->
  sets s = map CEq mus -> length mus = length ms -> buffers_fit p s ->
  (K < max_al_iters P)%nat -> (S K < max_iters P)%nat -> (max_al_iters P < fo)%nat -> (1 < fi)%nat -> (0 < fls)%nat -> (0 < fin)%nat ->
  exists (s' : solver_state O) f, run_solve O fo fi fls fin P p (Some s) x0 l0 = Ret (s', f) /\ length (r_x (res s')) = n /\ length (r_lams (res s')) = m /\
    let x := fun i => nth i (r_x (res s')) 0 in let l := fun k => nth k (r_lams (res s')) 0 in
    (forall i, (i < m)%nat -> Rabs (qp_con n A b x i) <= target_tol P) /\ (forall i, (i < n)%nat -> Rabs (qp_lag n m Q q A x l i) <= target_tol P) /\
    ((f = SUCCESS /\ (r_al_iters (res s') <= K)%nat /\ (r_num_iters (res s') <= S K)%nat) \/
     (exists i, (i < m)%nat /\ Rabs (qp_con n A b x i) = target_tol P) \/ (exists i, (i < n)%nat /\ Rabs (qp_lag n m Q q A x l i) = target_tol P)) /\
    dist2 m l ls <= D * D.
Proof. exact dense_prox_converges. Qed.
Print Assumptions C99_dense_converges.
(** The linear program of C98_example: its hypotheses hold, and solve reaches x = 1 up to the tolerance. *)
Example C99_example : let O := prox_oracles 1 2 in let P := started (1 / 1000000000) (1 / 1000000000) in
  plain_prox O P 1 /\ prox_params O P 1 1 0 (16 / 1000000000) 4 0 1 0 (fun _ => 1) (fun _ => -3) (fun i => nth i [0] 0) (fun i => nth i (s_target _ _ lp_state) 0) (fun k => nth k [0] 0) /\ convex_by 1 nil_q 0 /\
  qp_optimal 1 1 nil_q (fun _ => 3) (fun _ _ => 1) (fun _ => 1) (fun _ => 1) (fun _ => -3) /\ sets lp_state = map CEq [1 / 1000000000] /\ buffers_fit lp_problem lp_state /\
  exists (s' : solver_state O) f, run_solve O 1001 2 1 1 P lp_problem (Some lp_state) [0] [0] = Ret (s', f) /\ Rabs (nth 0 (r_x (res s')) 0 - 1) <= 1 / 1000000.
Proof.
  intros O P. pose proof tiny_default as TD. assert (B : buffers_fit lp_problem lp_state) by (repeat split). split; [apply prox_plain|]. split; [exact lp_params|]. split; [apply nil_convex|]. split; [exact nil_optimal|]. split; [reflexivity|]. split; [exact B|].
  destruct (C99_dense_converges Rpower (fun x v => tab (length x) (fun i => nth i x 0 + nth i v 0)) (fun rho t x => rho / 2 * dist2 1 (fun i => nth i x 0) (fun i => nth i t 0)) (fun rho t x => tab 1 (fun i => rho * (nth i x 0 - nth i t 0)))
    (fun rho _ _ => tab 1 (fun i => tab 1 (fun j => if (i =? j)%nat then rho else 0))) unit (fun _ _ _ H => (tt, H)) (fun _ _ _ _ _ _ => (0, 0))
    P 1 nil_q (fun _ => 3) [1%nat] (fun _ _ => 1) (fun _ => 1) lp_problem (fun _ => 1) (fun _ => -3) 0 (16 / 1000000000) 4 0 1 0 1001 2 1 1 lp_state [1 / 1000000000] [0] [0]) as (s' & f & E & _ & _ & H & _);
    try solve [reflexivity|assumption|apply prox_plain|exact lp_params|apply nil_convex|exact nil_optimal|cbn; lia].
  - split; [reflexivity|]. split; [intros; repeat split|]. repeat constructor.
  - intros j. cbn [P started default_params rho_init rho_factor]. change (s1 (s := RSc)) with 1. rewrite pow1. cbn [car RSc] in *. lra.
  - change (mu_lower P) with (1 / 1000000000). cbn [car RSc] in *. lra.
  - exists s', f. split; [exact E|]. specialize (H 0%nat (le_n 1)). unfold qp_con in H. cbn [rsum] in H. cbv beta in H. change (target_tol P) with (1 / 1000000) in H.
    match type of H with Rabs (0 + 1 * ?u - 1) <= _ => apply (Rle_trans _ (Rabs (0 + 1 * u - 1))); [right; apply f_equal; cbn [car RSc]; change (u - 1 = 0 + 1 * u - 1); ring|exact H] end.
Qed.
