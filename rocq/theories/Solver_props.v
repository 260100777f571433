(** Properties C17-C29, C61, C62: the augmented Lagrangian solver. *)
From Coq Require Import Reals List Bool Arith ZArith QArith Qreals Lia Lra Floats.SpecFloat.
From Verif Require Import Scalar Cset_model Cset_spec Armijo_model Armijo_spec Problem_model Solver_model Solver_spec
  Solver_proofs SolverR_proofs SolverT_proofs SolverS_proofs SolverC_proofs SolverX_proofs Solver_examples.
Import ListNotations.
Local Open Scope R_scope.

(** C17. The solver returns (or throws) for every problem, every user function and every linear
    solver: fuel above the budgets and above some bound on the two internal loops is never
    exhausted.  [XSc]: reals with infinities and NaN. *)
Theorem C17_terminates : forall (O : oracles XSc) (P : @params XSc) k b z m d i M am,
  del_inc_k P = XFin k -> 1 < k -> del_inc_big P = XFin b -> 1 < b ->
  delta_nz_init P = XFin z -> 0 < z -> delta_min P = XFin m -> 0 < m ->
  del_dec_k P = XFin d -> 0 <= d -> delta_init P = XFin i -> 0 <= i -> delta_max P = XFin M ->
  alpha_min (lsopt P) = XFin am -> 0 < am <= 1 ->
  between (contraction_min (lsopt P)) 0 1 -> between (contraction_max (lsopt P)) 0 1 ->
  exists N, forall fo fi fls fin p so x0 lams0,
    (max_al_iters P < fo)%nat -> (max_iters P <= fi)%nat -> (N <= fls)%nat -> (N <= fin)%nat ->
    run_solve O fo fi fls fin P p so x0 lams0 <> Fuel.
Proof. exact solver_stops. Qed.
Print Assumptions C17_terminates.

Example C17_example : let P := default_params (K := XSc) in
  (exists k b z m d i M am, del_inc_k P = XFin k /\ 1 < k /\ del_inc_big P = XFin b /\ 1 < b /\
    delta_nz_init P = XFin z /\ 0 < z /\ delta_min P = XFin m /\ 0 < m /\
    del_dec_k P = XFin d /\ 0 <= d /\ delta_init P = XFin i /\ 0 <= i /\ delta_max P = XFin M /\
    alpha_min (lsopt P) = XFin am /\ 0 < am <= 1) /\
  between (contraction_min (lsopt P)) 0 1 /\ between (contraction_max (lsopt P)) 0 1.
Proof. exact default_stops. Qed.

(** The two budgets are respected, in every arithmetic. *)
Theorem C17_budgets : forall (K : Sc) (O : oracles K) fo fi fls fin P p so x0 lams0 s' f,
  run_solve O fo fi fls fin P p so x0 lams0 = Ret (s', f) ->
  (r_num_iters (res s') <= max_iters P)%nat /\ (r_al_iters (res s') <= max_al_iters P)%nat.
Proof. exact solver_budgets. Qed.
Print Assumptions C17_budgets.

(** A negative DELTA_INIT (a public member) makes the inertia loop run for ever as soon as the
    inertia is wrong. *)
Theorem C17_negative_delta_refuted : exists (O : oracles XSc) (P : @params XSc) M F,
  forall fuel delta_last, run_inertia O fuel P 1 0 M F (delta_init P) delta_last = Fuel.
Proof. exact negative_delta_loops. Qed.
Print Assumptions C17_negative_delta_refuted.

(** C18. SUCCESS certifies an approximate KKT point of the product of the constraint sets, with the
    parameter recorded in the results. *)
Theorem C18_success_is_kkt : forall (O : oracles RSc) fo fi fls fin P p (s : solver_state O) x0 lams0 s',
  mul_update P = MM_NEWTON -> 0 < mu_init P -> 0 < mu_lower P -> sets_fit (sets s) (p_cons p) ->
  run_solve O fo fi fls fin P p (Some s) x0 lams0 = Ret (s', SUCCESS) ->
  let r := res s' in
  0 < r_mu r /\
  kkt_residuals p (map (set_prox (K := RSc) (r_mu r)) (sets s)) (r_mu r) (r_x r) (r_lams r) (r_prim_infeas r) (r_dual_infeas r) /\
  r_prim_infeas r < target_tol P /\ r_dual_infeas r < target_tol P.
Proof. exact success_kkt. Qed.
Print Assumptions C18_success_is_kkt.

(** The hypotheses are met: minimise x^2/2 subject to x = 0, started at the solution (over the
    reals); over the rationals the same program needs three iterations for x = 1. *)
Example C18_example :
  let P := ex_params RSc 10 10 (1 / 1000) MM_NEWTON in
  let p := ex_problem RSc [ex_minus RSc 0] in
  let s := ex_setup RSc P p [CEq (K := RSc) 1] in
  sets_fit (sets s) (p_cons p) /\
  exists s', run_solve (ex_oracles RSc) 11 10 50 50 P p (Some s) [0] [0] = Ret (s', SUCCESS).
Proof. exact example_success. Qed.
Example C18_example_run :
  let P := ex_params QSc 30 30 (1 # 1000000) MM_NEWTON in
  let p := ex_problem QSc [ex_minus QSc (1 # 1)] in
  exists s', ex_run QSc P p (Some (ex_setup QSc P p [CEq (K := QSc) (1 # 100)])) [1 # 1] [] = Ret (s', SUCCESS) /\
    r_num_iters (res s') = 3%nat.
Proof.
  intros P p. destruct (seen_run _ (fun s f => (f, r_num_iters (res s))) (ex_run QSc P p (Some (ex_setup QSc P p [CEq (K := QSc) (1 # 100)])) [1 # 1] [])
    (SUCCESS, 3%nat) ltac:(vm_compute; reflexivity)) as (s & f & E & V). injection V as -> V. eauto.
Qed.

(** C19. What the flag means, in every arithmetic. *)
Theorem C19_flag_meaning : forall (K : Sc) (O : oracles K) fo fi fls fin P p so x0 lams0 s' f,
  run_solve O fo fi fls fin P p so x0 lams0 = Ret (s', f) ->
  (0 < max_iters P)%nat -> (0 < max_al_iters P)%nat ->
  let r := res s' in
  let below := sltb (smax (r_prim_infeas r) (r_dual_infeas r)) (target_tol P) in
  (f = SUCCESS <-> below = true) /\
  (f = MAX_ITERS_REACHED <-> below = false /\ r_num_iters r = max_iters P) /\
  (f = UNINIT <-> below = false /\ (r_num_iters r < max_iters P)%nat /\ r_al_iters r = max_al_iters P).
Proof. exact flag_meaning. Qed.
Print Assumptions C19_flag_meaning.

(** With a zero budget nothing is evaluated and the flag is UNINIT. *)
Theorem C19_zero_budget : forall (K : Sc) (O : oracles K) fo fi fls fin P p s x0 lams0,
  max_iters P = 0%nat \/ max_al_iters P = 0%nat ->
  exists s', run_solve O (S fo) fi fls fin P p (Some s) x0 lams0 = Ret (s', UNINIT) /\ r_x (res s') = x0.
Proof. exact zero_budget. Qed.
Print Assumptions C19_zero_budget.

(** All three flags occur (rationals). *)
Example C19_example :
  (exists s', ex_run QSc (ex_params QSc 100 5 (1 # 1000) MM_NEWTON) (ex_problem QSc [])
     (Some (ex_setup QSc (ex_params QSc 100 5 (1 # 1000) MM_NEWTON) (ex_problem QSc []) [])) [10 # 1] [] = Ret (s', SUCCESS)) /\
  (exists s', ex_run QSc (ex_params QSc 1 5 (1 # 1000) MM_NEWTON) (ex_problem QSc [])
     (Some (ex_setup QSc (ex_params QSc 1 5 (1 # 1000) MM_NEWTON) (ex_problem QSc []) [])) [10 # 1] [] = Ret (s', MAX_ITERS_REACHED)) /\
  (exists s', ex_run QSc (ex_params QSc 100 5 (1 # 1) MM_NEWTON) (ex_problem QSc [])
     (Some (ex_setup QSc (ex_params QSc 100 5 (1 # 1) MM_NEWTON) (ex_problem QSc []) [])) [1 # 1] [] = Ret (s', UNINIT)).
Proof. split; [|split]; apply seen_flag; vm_compute; reflexivity. Qed.

(** C20. A start strictly within the tolerance is accepted without a step; in the default mode the multipliers are left alone too. *)
Theorem C20_start_accepted : forall (O : oracles RSc) fo fi fls fin P p (s : solver_state O) x0 lams0 prim dual,
  hess_approx P = HM_GAUSS_NEWTON -> 0 < mu_init P -> (0 < max_iters P)%nat -> (0 < max_al_iters P)%nat ->
  (0 < fo)%nat -> (0 < fi)%nat ->
  sets_fit (sets s) (p_cons p) -> buffers_fit p s -> defined_at p x0 -> length lams0 = rows_of (p_cons p) ->
  kkt_residuals p (map (set_prox (K := RSc) (mu_init P)) (sets s)) (mu_init P) x0 lams0 prim dual ->
  prim < target_tol P -> dual < target_tol P ->
  exists s', run_solve O fo fi fls fin P p (Some s) x0 lams0 = Ret (s', SUCCESS) /\ r_x (res s') = x0 /\ r_num_iters (res s') = 0%nat /\
    (mul_update P = MM_NEWTON -> r_lams (res s') = lams0).
Proof. exact start_accepted. Qed.
Print Assumptions C20_start_accepted.

Example C20_example :
  let P := ex_params RSc 10 10 (1 / 1000) MM_NEWTON in
  let p := ex_problem RSc [ex_minus RSc 0] in
  let s := ex_setup RSc P p [CEq (K := RSc) 1] in
  sets_fit (sets s) (p_cons p) /\ buffers_fit p s /\ defined_at p [0] /\ 0 < mu_init P /\
  kkt_residuals p (map (set_prox (K := RSc) (mu_init P)) (sets s)) (mu_init P) [0] [0] 0 0.
Proof. exact example_start. Qed.

(** At equality the solver spins until [max_al_iters] and returns UNINIT: minimise x^2/2 from x = 1
    with target_tol = 1; the gradient at the start has norm exactly 1, and there is no constraint. *)
Theorem C20_equality_refuted :
  let P := ex_params QSc 100 1000 (1 # 1) MM_NEWTON in
  let p := ex_problem QSc [] in
  p_grad p [1 # 1] = Some [1 # 1] /\
  exists s', ex_run QSc P p (Some (ex_setup QSc P p [])) [1 # 1] [] = Ret (s', UNINIT) /\
    r_x (res s') = [1 # 1] /\ r_num_iters (res s') = 0%nat /\ r_al_iters (res s') = 1000%nat.
Proof.
  intros P p. split; [reflexivity|].
  destruct (seen_run _ (fun s f => (f, r_x (res s), r_num_iters (res s), r_al_iters (res s))) (ex_run QSc P p (Some (ex_setup QSc P p [])) [1 # 1] [])
    (UNINIT, [1 # 1], 0%nat, 1000%nat) ltac:(vm_compute; reflexivity)) as (s & f & E & V). injection V as -> V1 V2 V3. exists s. repeat split; try assumption; rewrite V1; reflexivity.
Qed.
Print Assumptions C20_equality_refuted.

(** C21. With SUCCESS and the default multiplier mode the reported infeasibilities are those of the
    returned point: this is the third conclusion of C18. *)
Theorem C21_reported_infeasibilities : forall (O : oracles RSc) fo fi fls fin P p (s : solver_state O) x0 lams0 s',
  mul_update P = MM_NEWTON -> 0 < mu_init P -> 0 < mu_lower P -> sets_fit (sets s) (p_cons p) ->
  run_solve O fo fi fls fin P p (Some s) x0 lams0 = Ret (s', SUCCESS) ->
  let r := res s' in
  forall prim dual, length (r_lams r) = rows_of (p_cons p) ->
    kkt_residuals p (map (set_prox (K := RSc) (r_mu r)) (sets s)) (r_mu r) (r_x r) (r_lams r) prim dual ->
    r_prim_infeas r = prim /\ r_dual_infeas r = dual.
Proof. exact reported_residuals. Qed.
Print Assumptions C21_reported_infeasibilities.

(** After MAX_ITERS_REACHED the reported infeasibility belongs to the previous iterate: one Newton
    step from x = 10 reaches the minimiser 0, where the gradient is 0; the report says 10. *)
Theorem C21_max_iters_refuted :
  let P := ex_params QSc 1 5 (1 # 1000) MM_NEWTON in
  let p := ex_problem QSc [] in
  exists s', ex_run QSc P p (Some (ex_setup QSc P p [])) [10 # 1] [] = Ret (s', MAX_ITERS_REACHED) /\
    r_x (res s') = [0 # 1] /\ p_grad p (r_x (res s')) = Some [0 # 1] /\ r_dual_infeas (res s') = (10 # 1)%Q.
Proof.
  intros P p.
  destruct (seen_run _ (fun s f => (f, r_x (res s), p_grad p (r_x (res s)), r_dual_infeas (res s))) (ex_run QSc P p (Some (ex_setup QSc P p [])) [10 # 1] [])
    (MAX_ITERS_REACHED, [0 # 1], Some [0 # 1], 10 # 1) ltac:(vm_compute; reflexivity)) as (s & f & E & V). injection V as -> V1 V2 V3. exists s. repeat split; try assumption; rewrite V1; reflexivity.
Qed.
Print Assumptions C21_max_iters_refuted.

(** With the PRIMAL multiplier mode SUCCESS is reported with multipliers whose true dual residual is
    x + lam = 1/100000, ten times the tolerance; the report says 0. *)
Theorem C21_primal_mode_refuted :
  let P := ex_params QSc 10 10 (1 # 1000000) MM_PRIMAL in
  let p := ex_problem QSc [ex_minus QSc (0 # 1)] in
  exists s' x lam, ex_run QSc P p (Some (ex_setup QSc P p [CEq (K := QSc) (1 # 100)])) [1 # 10000000] [-1 # 10000000] = Ret (s', SUCCESS) /\
    r_x (res s') = [x] /\ r_lams (res s') = [lam] /\ r_dual_infeas (res s') = (0 # 1)%Q /\ (x + lam == 1 # 100000)%Q.
Proof.
  intros P p.
  destruct (seen_run _ (fun s f => (f, r_x (res s), r_lams (res s), r_dual_infeas (res s)))
    (ex_run QSc P p (Some (ex_setup QSc P p [CEq (K := QSc) (1 # 100)])) [1 # 10000000] [-1 # 10000000])
    (SUCCESS, [1 # 10000000], [99 # 10000000], 0 # 1) ltac:(vm_compute; reflexivity)) as (s & f & E & V). injection V as -> V1 V2 V3.
  exists s, (1 # 10000000)%Q, (99 # 10000000)%Q. repeat split; try assumption.
Qed.
Print Assumptions C21_primal_mode_refuted.

(** C22. The result of a call depends on earlier calls: without initial multipliers the old ones are
    kept.  Same arguments, same options: 3 iterations the first time, 0 the second time, and
    different points. *)
Theorem C22_history_refuted :
  let P := ex_params QSc 30 30 (1 # 1000000) MM_NEWTON in
  let p := ex_problem QSc [ex_minus QSc (1 # 1)] in
  exists s1 s2,
    ex_run QSc P p (Some (ex_setup QSc P p [CEq (K := QSc) (1 # 100)])) [1 # 1] [] = Ret (s1, SUCCESS) /\
    ex_run QSc P p (Some s1) [1 # 1] [] = Ret (s2, SUCCESS) /\
    r_num_iters (res s1) = 3%nat /\ r_num_iters (res s2) = 0%nat /\ r_x (res s1) <> r_x (res s2).
Proof. exact history. Qed.
Print Assumptions C22_history_refuted.

(** C23. Penalty parameter: positive, within the safeguards, its inverse consistent, and seen by
    every constraint set; also the values recorded while the iterations ran. *)
Theorem C23_penalty_safeguard : forall (O : oracles RSc) fo fi fls fin P p (s : solver_state O) x0 lams0 s' f,
  0 < mu_lower P <= mu_init P -> 0 < mu_factor P <= 1 ->
  run_solve O fo fi fls fin P p (Some s) x0 lams0 = Ret (s', f) ->
  mu_lower P <= mu s' <= mu_init P /\ s_mu_inv _ _ s' = 1 / mu s' /\
  Forall (fun c => mu_of c = mu s') (sets s') /\
  exists evs, s_events _ _ s' = s_events _ _ s ++ evs /\
    Forall (fun e => (r_num_iters (ev_results e) < r_num_iters (res s'))%nat -> mu_lower P <= r_mu (ev_results e) <= mu_init P) evs.
Proof. exact penalty_safeguard. Qed.
Print Assumptions C23_penalty_safeguard.

Example C23_example : let P := default_params (K := RSc) in 0 < mu_lower P <= mu_init P /\ 0 < mu_factor P <= 1.
Proof. unfold default_params, slit. cbn. lra. Qed.

(** C24. The penalty over any number of failed outer iterations: geometric decrease, floor, reset.
    [st k]: state before iteration k; [tr k]: state when its failure is detected. *)
Theorem C24_penalty_schedule : forall (O : oracles RSc) P N (st tr : nat -> solver_state O),
  0 < mu_lower P < mu_init P -> 0 < mu_factor P < 1 ->
  mu_init P * mu_factor P ^ N <= mu_lower P -> (forall j, (j < N)%nat -> mu_lower P < mu_init P * mu_factor P ^ j) ->
  mu (st 0%nat) = mu_init P ->
  (forall k, mu (tr k) = mu (st k) /\ s_prim_tol _ _ (tr k) <= r_prim_infeas (res (tr k)) /\ mu (st (S k)) = mu (run_bcl O P (tr k))) ->
  forall k, mu (st k) = if (k mod S N =? N)%nat then mu_lower P else mu_init P * mu_factor P ^ (k mod S N).
Proof. exact penalty_schedule. Qed.
Print Assumptions C24_penalty_schedule.

(** Non-monotone: with the default values mu goes 1e-2, 1e-4, 1e-6, 1e-8, 1e-9, 1e-2, ... *)
Example C24_example :
  let P := default_params (K := RSc) in
  0 < mu_lower P < mu_init P /\ 0 < mu_factor P < 1 /\
  mu_init P * mu_factor P ^ 4 <= mu_lower P /\ (forall j, (j < 4)%nat -> mu_lower P < mu_init P * mu_factor P ^ j).
Proof. exact default_schedule. Qed.

(** C25. Tolerances after every update; a successful outer iteration never loosens them. *)
Theorem C25_tolerance_floors : forall (O : oracles RSc) P (s : solver_state O),
  inner_tol_min P <= s_inner_tol _ _ (run_bcl O P s) /\ target_tol P <= s_prim_tol _ _ (run_bcl O P s).
Proof. exact tolerance_floors. Qed.
Print Assumptions C25_tolerance_floors.

Theorem C25_success_tightens : forall (O : oracles RSc) P (s : solver_state O),
  (forall a e, 0 < a <= 1 -> 0 <= e -> 0 <= o_pow O a e <= 1) ->
  0 < mu s <= mu_upper P -> 0 <= dual_beta P -> 0 <= prim_beta P ->
  0 <= s_inner_tol _ _ s -> 0 <= s_prim_tol _ _ s ->
  inner_tol_min P <= s_inner_tol _ _ s -> target_tol P <= s_prim_tol _ _ s ->
  r_prim_infeas (res s) < s_prim_tol _ _ s ->
  s_inner_tol _ _ (run_bcl O P s) <= s_inner_tol _ _ s /\ s_prim_tol _ _ (run_bcl O P s) <= s_prim_tol _ _ s /\
  mu (run_bcl O P s) = mu s.
Proof. exact success_tightens. Qed.
Print Assumptions C25_success_tightens.

(** The hypothesis on pow holds for the real power function. *)
Example C25_example : forall a e : R, 0 < a <= 1 -> 0 <= e -> 0 <= Rpower a e <= 1.
Proof. exact Rpower_unit. Qed.

(** C26. Callbacks: one round per iteration and one at the end, in registration order, with the
    results of that moment. *)
Theorem C26_callbacks : forall (K : Sc) (O : oracles K) fo fi fls fin P p (s : solver_state O) x0 lams0 s' f,
  run_solve O fo fi fls fin P p (Some s) x0 lams0 = Ret (s', f) ->
  exists l,
    s_events _ _ s' = s_events _ _ s ++ flat_map (fun r => map (fun cb => mkEvent cb r) (callbacks P)) (l ++ [res s']) /\
    length l = r_num_iters (res s') /\
    forall k r, nth_error l k = Some r -> r_num_iters r = k.
Proof. exact callback_rounds. Qed.
Print Assumptions C26_callbacks.

Example C26_example :
  let P := ex_params QSc 30 30 (1 # 1000000) MM_NEWTON in
  let p := ex_problem QSc [ex_minus QSc (1 # 1)] in
  exists s', ex_run QSc P p (Some (ex_setup QSc P p [CEq (K := QSc) (1 # 100)])) [1 # 1] [] = Ret (s', SUCCESS) /\
    map (fun e => (ev_cb e, r_num_iters (ev_results e))) (s_events _ _ s') =
      [(0, 0); (1, 0); (0, 1); (1, 1); (0, 2); (1, 2); (0, 3); (1, 3)]%nat.
Proof.
  intros P p. destruct (seen_run _ (fun s f => (f, map (fun e => (ev_cb e, r_num_iters (ev_results e))) (s_events _ _ s)))
    (ex_run QSc P p (Some (ex_setup QSc P p [CEq (K := QSc) (1 # 100)])) [1 # 1] [])
    (SUCCESS, [(0, 0); (1, 0); (0, 1); (1, 1); (0, 2); (1, 2); (0, 3); (1, 3)]%nat) ltac:(vm_compute; reflexivity)) as (s & f & E & V).
  injection V as -> V. eauto.
Qed.

(** C27. Inertia check. *)
Theorem C27_inertia_check : forall ndx nc sig,
  (Forall (fun z => z = 1 \/ z = -1 \/ z = 0)%Z sig ->
   check_inertia ndx nc sig =
     Some (if (count 0 sig =? 0)%nat then
             (if (count 1 sig =? ndx)%nat && (count (-1) sig =? nc)%nat then INERTIA_OK else INERTIA_BAD)
           else INERTIA_HAS_ZEROS)) /\
  (~ Forall (fun z => z = 1 \/ z = -1 \/ z = 0)%Z sig -> check_inertia ndx nc sig = None).
Proof. exact check_inertia_spec. Qed.
Print Assumptions C27_inertia_check.

Example C27_example : check_inertia 2 1 [1; -1; 1]%Z = Some INERTIA_OK /\ check_inertia 2 1 [1; 0; 1]%Z = Some INERTIA_HAS_ZEROS /\
  check_inertia 2 1 [1; -1; -1]%Z = Some INERTIA_BAD /\ check_inertia 1 1 [2; -1]%Z = None.
Proof. repeat split. Qed.

(** C28. In exact arithmetic the inertia correction gives back the KKT matrix, and the factorised
    matrix differs from it by delta on the first [ndx] diagonal entries only; it has the right
    inertia unless the regularisation exceeded its bound. *)
Theorem C28_matrix_restored : forall (O : oracles RSc) fuel P ndx nc M F delta dl M' F' delta' dl',
  0 <= delta -> 0 < delta_nz_init P -> 0 < delta_min P -> 0 <= del_inc_k P -> 0 <= del_inc_big P ->
  run_inertia O fuel P ndx nc M F delta dl = Ret (M', F', delta', dl') ->
  M' = M /\
  ((exists F0 N, F' = o_compute O F0 N /\ plus_diag ndx delta' M N /\ 0 <= delta' <= delta_max P /\ dl' = delta' /\
      check_inertia ndx nc (o_signature O F') = Some INERTIA_OK)
   \/ (delta_max P < delta' /\ dl' = dl)).
Proof. intros O. exact (inertia_exact (o_fac O) (o_compute O) (o_signature O)). Qed.
Print Assumptions C28_matrix_restored.

(** A correction is really made: the 1 x 1 matrix -1 needs delta = 100 (= 1e-4 * 100^3). *)
Example C28_example : exists M' F' , run_inertia (ex_oracles QSc) 10 (default_params (K := QSc)) 1 0 [[-1 # 1]] [] (0 # 1) (0 # 1)
   = Ret (M', F', (100 # 1)%Q, (100 # 1)%Q) /\ M' = [[-1 # 1]] /\ F' = [[99 # 1]].
Proof. eexists. eexists. split; [vm_compute; reflexivity|]. split; reflexivity. Qed.

(** In binary64 the subtraction does not undo the addition: the entry 2^-100 comes back as 0. *)
Theorem C28_binary64_refuted : exists (O : oracles FSc) M F M' F' d' dl',
  run_inertia O 5 (default_params (K := FSc)) 1 0 M F (@s0 FSc) (@s0 FSc) = Ret (M', F', d', dl') /\
  M = [[S754_finite false 4503599627370496 (-152)]] /\ M' = [[S754_zero false]].
Proof. exact drift_f64. Qed.
Print Assumptions C28_binary64_refuted.

(** C29. KKT matrix: symmetric, with the Hessian block [kkt_hess], the projected Jacobian and its
    transpose, and the dual diagonal. *)
Theorem C29_kkt_symmetric : forall (P : @params RSc) ndx nd rho H PH V Jp d,
  square ndx H -> sym ndx H -> (0 < rho -> square ndx PH /\ sym ndx PH) -> Forall (fun v => square ndx v /\ sym ndx v) V ->
  let A := kkt_hess P rho H PH V in
  let M := assemble_kkt (K := RSc) ndx nd A Jp d in
  square (ndx + nd) M /\ sym (ndx + nd) M /\
  forall i j, (i < ndx + nd)%nat -> (j < ndx + nd)%nat ->
    nth j (nth i M []) 0 =
      if (i <? ndx)%nat then (if (j <? ndx)%nat then nth j (nth i A []) 0 else nth i (nth (j - ndx) Jp []) 0)
      else if (j <? ndx)%nat then nth j (nth (i - ndx) Jp []) 0
      else if (i =? j)%nat then nth (i - ndx) d 0 else 0.
Proof. exact kkt_matrix. Qed.
Print Assumptions C29_kkt_symmetric.

(** The dual diagonal: -mu everywhere (classic), or -mu on active and -mu/2 on inactive rows. *)
Theorem C29_dual_diagonal : forall (P : @params RSc) (p : @problem RSc) mu sets z o,
  sets_fit sets (p_cons p) -> length z = rows_of (p_cons p) -> length o = rows_of (p_cons p) ->
  exists d act, kkt_dual_diag P p mu sets z = Ret d /\ active_set (product_of sets (map f_nr (p_cons p))) z o = Some act /\
    length d = rows_of (p_cons p) /\ length act = rows_of (p_cons p) /\
    forall k, (k < rows_of (p_cons p))%nat ->
      nth k d 0 = match kkt_sys P with KKT_CLASSIC => - mu | KKT_PRIMAL_DUAL => if nth k act false then - mu else - mu / 2 end.
Proof. exact dual_diag. Qed.
Print Assumptions C29_dual_diagonal.

Example C29_example : square 2 [[1; 2]; [2; 5]] /\ sym 2 [[1; 2]; [2; 5]] /\
  sets_fit [CNeg (K := RSc) 1] [ex_minus RSc 3].
Proof. exact example_kkt. Qed.

(** C61. The guard recognises exactly NaN and infinities; a point reached by at least one step is
    returned only if it is finite. *)
Theorem C61_guard : forall v : list xr, bad_vec (K := XSc) v = true <-> Exists (fun a => a = XNaN \/ exists s, a = XInf s) v.
Proof. exact bad_vec_X. Qed.
Print Assumptions C61_guard.

Theorem C61_finite_point : forall (O : oracles XSc) fo fi fls fin P p (s : solver_state O) x0 lams0 s' f,
  run_solve O fo fi fls fin P p (Some s) x0 lams0 = Ret (s', f) -> (0 < r_num_iters (res s'))%nat ->
  Forall (fun a => exists r, a = XFin r) (r_x (res s')).
Proof. exact finite_point. Qed.
Print Assumptions C61_finite_point.

Example C61_example : bad_vec (K := XSc) [XFin 1; XNaN] = true /\ bad_vec (K := XSc) [XFin 1; XFin 2] = false.
Proof. split; reflexivity. Qed.

(** C62. A solver whose KKT matrix holds a NaN (left by an earlier solve that threw) never completes
    another solve, whatever the problem and the starting point. *)
Theorem C62_poisoned : forall (K : Sc) (O : oracles K) fo fi fls fin P p (s : solver_state O) x0 lams0 s' f,
  bad_mat (w_kkt _ _ (wsp s)) = true -> (0 < max_iters P)%nat -> (0 < max_al_iters P)%nat ->
  run_solve O fo fi fls fin P p (Some s) x0 lams0 <> Ret (s', f).
Proof. exact poisoned. Qed.
Print Assumptions C62_poisoned.

Example C62_example : exists s : solver_state (ex_oracles XSc), bad_mat (w_kkt _ _ (wsp s)) = true.
Proof.
  pose (s := ex_setup XSc (default_params (K := XSc)) (ex_problem XSc []) []). pose (w := wsp s).
  exists (mkState (K := XSc) _ _ (mu s) (s_mu_inv _ _ s) (s_rho _ _ s) (s_inner_tol _ _ s) (s_prim_tol _ _ s) (sets s) (s_target _ _ s) (res s)
    (mkWs (K := XSc) _ _ (w_lams_prev _ _ w) (w_x_prev _ _ w) (w_plus _ _ w) (w_pdal _ _ w) [[XNaN]] (w_hess _ _ w) (w_vhp _ _ w) (w_fac _ _ w) (w_bfgs _ _ w) (w_alpha _ _ w))
    (s_events _ _ s)).
  reflexivity.
Qed.
