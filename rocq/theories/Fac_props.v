(** Theorems about the DENSE and BLOCKSPARSE factorisations in the solver (C94). *)
From Coq Require Import Reals List Bool Arith ZArith Lia Lra.
From Verif Require Import Scalar Cset_model Problem_model Symb_model Armijo_model Solver_model Solver_spec Ldlt_model Ldlt_spec Lin_spec Bk_spec Descent_spec Qp_spec QpX_proofs Fac_model Fac_spec FacX_proofs.
Import ListNotations.
Local Open Scope R_scope.

(** C94. For strongly convex Q the DENSE and BLOCKSPARSE factorisations meet the hypothesis of C85, C86 and C93: for every size, every contents of the
    factorisation object and every penalty parameter above 2^-1022 the signature passes the inertia test and the systems are solved exactly. *)
Theorem C94_dense : forall pw ig pv pg ph bf bu qr n m Q A mu c, strongly_convex n Q c -> tiny (K := RSc) < c -> tiny (K := RSc) < mu ->
  handles (mkOracles (K := RSc) pw ig pv pg ph (dldlt RSc) (dense_fac (K := RSc) (n + m)) (dense_sig (K := RSc)) (dense_solve_list (K := RSc)) bf bu qr) n m Q A mu.
Proof. exact dense_handles. Qed.
Print Assumptions C94_dense.
Theorem C94_block : forall fuel junk pw ig pv pg ph bf bu qr prims duals, let n := total prims in let m := total duals in let k := (length prims + length duals)%nat in
  (0 < k)%nat -> (k ^ k < fuel)%nat -> exists b, allocate_bldlt (K := RSc) fuel junk prims duals = Ret b /\
    forall Q A mu c, strongly_convex n Q c -> tiny (K := RSc) < c -> tiny (K := RSc) < mu ->
      handles (mkOracles (K := RSc) pw ig pv pg ph (bldlt RSc) (block_fac (K := RSc) (bl_sym b) (n + m)) (block_sig (K := RSc)) (block_solve_list (K := RSc)) bf bu qr) n m Q A mu.
Proof. exact block_handles. Qed.
Print Assumptions C94_block.
(** The solver with these factorisations converges on strongly convex problems; nothing is assumed of the factorisation. *)
Theorem C94_dense_converges : forall pw ig pv pg ph bf bu qr (P : @params RSc) n Q q ms A b p c xs ls D Rn T fo fi fls fin, let m := total ms in let K := (Rn * S T + T)%nat in
  let O := mkOracles (K := RSc) pw ig pv pg ph (dldlt RSc) (dense_fac (K := RSc) (n + m)) (dense_sig (K := RSc)) (dense_solve_list (K := RSc)) bf bu qr in forall (s : solver_state O) mus x0 l0,
  answers_like n p (qp n Q q ms A b) -> plain O P n -> outer_params O P D Rn T -> strongly_convex n Q c -> tiny (K := RSc) < c -> tiny (K := RSc) < mu_lower P ->
  qp_optimal n m Q q A b xs ls -> rsum m (fun k => (nth k l0 0 - ls k) * (nth k l0 0 - ls k)) <= D * D -> length x0 = n -> length l0 = m ->
  sets s = map CEq mus -> length mus = length ms -> buffers_fit p s ->
  (K < max_al_iters P)%nat -> (S K < max_iters P)%nat -> (max_al_iters P < fo)%nat -> (1 < fi)%nat -> (0 < fls)%nat -> (0 < fin)%nat ->
  exists (s' : solver_state O) f, run_solve O fo fi fls fin P p (Some s) x0 l0 = Ret (s', f) /\ length (r_x (res s')) = n /\ length (r_lams (res s')) = m /\
    let x := fun i => nth i (r_x (res s')) 0 in let l := fun k => nth k (r_lams (res s')) 0 in
    (forall k, (k < m)%nat -> Rabs (qp_con n A b x k) <= target_tol P) /\ (forall i, (i < n)%nat -> Rabs (qp_lag n m Q q A x l i) <= target_tol P) /\
    ((f = SUCCESS /\ (r_al_iters (res s') <= K)%nat /\ (r_num_iters (res s') <= S K)%nat) \/
     (exists k, (k < m)%nat /\ Rabs (qp_con n A b x k) = target_tol P) \/ (exists i, (i < n)%nat /\ Rabs (qp_lag n m Q q A x l i) = target_tol P)).
Proof. exact dense_converges. Qed.
Print Assumptions C94_dense_converges.
Theorem C94_block_converges : forall fuel junk pw ig pv pg ph bf bu qr (P : @params RSc) prims Q q ms A b p c xs ls D Rn T fo fi fls fin, let n := total prims in let m := total ms in let k := (length prims + length ms)%nat in let K := (Rn * S T + T)%nat in
  (0 < k)%nat -> (k ^ k < fuel)%nat -> exists b0, allocate_bldlt (K := RSc) fuel junk prims ms = Ret b0 /\
  let O := mkOracles (K := RSc) pw ig pv pg ph (bldlt RSc) (block_fac (K := RSc) (bl_sym b0) (n + m)) (block_sig (K := RSc)) (block_solve_list (K := RSc)) bf bu qr in forall (s : solver_state O) mus x0 l0,
  answers_like n p (qp n Q q ms A b) -> plain O P n -> outer_params O P D Rn T -> strongly_convex n Q c -> tiny (K := RSc) < c -> tiny (K := RSc) < mu_lower P ->
  qp_optimal n m Q q A b xs ls -> rsum m (fun k => (nth k l0 0 - ls k) * (nth k l0 0 - ls k)) <= D * D -> length x0 = n -> length l0 = m ->
  sets s = map CEq mus -> length mus = length ms -> buffers_fit p s ->
  (K < max_al_iters P)%nat -> (S K < max_iters P)%nat -> (max_al_iters P < fo)%nat -> (1 < fi)%nat -> (0 < fls)%nat -> (0 < fin)%nat ->
  exists (s' : solver_state O) f, run_solve O fo fi fls fin P p (Some s) x0 l0 = Ret (s', f) /\ length (r_x (res s')) = n /\ length (r_lams (res s')) = m /\
    let x := fun i => nth i (r_x (res s')) 0 in let l := fun k => nth k (r_lams (res s')) 0 in
    (forall k, (k < m)%nat -> Rabs (qp_con n A b x k) <= target_tol P) /\ (forall i, (i < n)%nat -> Rabs (qp_lag n m Q q A x l i) <= target_tol P) /\
    ((f = SUCCESS /\ (r_al_iters (res s') <= K)%nat /\ (r_num_iters (res s') <= S K)%nat) \/
     (exists k, (k < m)%nat /\ Rabs (qp_con n A b x k) = target_tol P) \/ (exists i, (i < n)%nat /\ Rabs (qp_lag n m Q q A x l i) = target_tol P)).
Proof. exact block_converges. Qed.
Print Assumptions C94_block_converges.
(** The bound on c is needed: with the pivot 2^-1022 the signature passes the inertia test, and the solution of 2^-1022 x = 1 is returned as 0. *)
Theorem C94_tiny_refuted : forall pw ig pv pg ph bf bu qr mu, strongly_convex 1 (fun _ _ => tiny (K := RSc)) (tiny (K := RSc)) /\
  let O := mkOracles (K := RSc) pw ig pv pg ph (dldlt RSc) (dense_fac (K := RSc) 1) (dense_sig (K := RSc)) (dense_solve_list (K := RSc)) bf bu qr in
  forall F, let M := qp_kkt 1 0 (fun _ _ => tiny (K := RSc)) (fun _ _ => 0) mu in
    check_inertia 1 0 (o_signature O (o_compute O F M)) = Some INERTIA_OK /\ o_solve O (o_compute O F M) [1] = [0].
Proof. exact dense_tiny. Qed.
Print Assumptions C94_tiny_refuted.

(** Minimise x^2 + xy + y^2 subject to x + y = 2 with default parameters, a start at (5, -7) and multiplier 10. *)
Example C94_example : let P := default_params (K := RSc) in let O := dense_oracles 3 in
  strongly_convex 2 ex_q 1 /\ tiny (K := RSc) < 1 /\ tiny (K := RSc) < mu_lower P /\ plain O P 2 /\ outer_params O P 20 4 4 /\ qp_optimal 2 1 ex_q (fun _ => 0) (fun _ _ => 1) (fun _ => 2) (fun _ => 1) (fun _ => -3) /\
  rsum 1 (fun k => (nth k [10] 0 - -3) * (nth k [10] 0 - -3)) <= 20 * 20 /\
  let p := qp 2 ex_q (fun _ => 0) [1%nat] (fun _ _ => 1) (fun _ => 2) in
  let s := setup (K := RSc) (dldlt RSc) unit P p [CEq (1 / 100)] [0; 0] (dldlt_new (K := RSc) 3) tt : solver_state O in
  sets s = map CEq [1 / 100] /\ buffers_fit p s /\
  exists (s' : solver_state O) f, run_solve O 1001 2 1 1 P p (Some s) [5; -7] [10] = Ret (s', f) /\ Rabs (nth 0 (r_x (res s')) 0 + nth 1 (r_x (res s')) 0 - 2) <= 1 / 1000000.
Proof.
  intros P O. pose proof tiny_default as TD. assert (T1 : tiny (K := RSc) < 1) by (cbn [car RSc] in *; lra). assert (TL : tiny (K := RSc) < mu_lower P) by (cbn [P default_params mu_lower]; unfold slit; cbn [sdiv sofZ RSc]; cbn [car RSc] in *; lra).
  assert (Oo : outer_params O P 20 4 4) by (apply default_outer; [reflexivity|lra]).
  split; [exact ex_strong|]. split; [exact T1|]. split; [exact TL|]. split; [apply dense_plain|]. split; [exact Oo|]. split; [exact ex_best|]. split; [cbn; lra|].
  intros p s. assert (B : buffers_fit p s) by (repeat split). split; [reflexivity|]. split; [exact B|].
  pose proof (C94_dense_converges Rpower (fun x v => tab (length x) (fun i => nth i x 0 + nth i v 0)) (fun rho _ _ => rho) (fun _ _ _ => []) (fun _ _ _ => []) unit (fun _ _ _ H => (tt, H)) (fun _ _ _ _ _ _ => (0, 0))
    P 2 ex_q (fun _ => 0) [1%nat] (fun _ _ => 1) (fun _ => 2) p 1 (fun _ => 1) (fun _ => -3) 20 4 4 1001 2 1 1 s [1 / 100] [5; -7] [10]) as X.
  destruct X as (s' & f & E & _ & _ & H & _); try solve [reflexivity|assumption|apply dense_plain|exact ex_strong|exact ex_best|cbn; lra|cbn; lia].
  - split; [reflexivity|]. split; [intros; repeat split|]. repeat constructor.
  - exists s', f. split; [exact E|]. specialize (H 0%nat (le_n 1)). unfold qp_con in H. cbn [rsum] in H. cbv beta in H. cbn [P default_params target_tol] in H. unfold slit in H. cbn [sdiv sofZ RSc] in H.
    match type of H with Rabs (0 + 1 * ?u + 1 * ?v - 2) <= _ => apply (Rle_trans _ (Rabs (0 + 1 * u + 1 * v - 2))); [right; apply f_equal; cbn [car RSc]; change (u + v - 2 = 0 + 1 * u + 1 * v - 2); ring|exact H] end.
Qed.
(** The block factorisation of the same problem with one block of two variables and one of one constraint. *)
Example C94_block_example : exists b, allocate_bldlt (K := RSc) 5 (fun _ _ => 7) [2%nat] [1%nat] = Ret b.
Proof. destruct (C94_block 5 (fun _ _ => 7) Rpower (fun x _ => x) (fun _ _ _ => 0) (fun _ _ _ => []) (fun _ _ _ => []) unit (fun _ _ _ H => (tt, H)) (fun _ _ _ _ _ _ => (0, 0)) [2%nat] [1%nat]) as (b & E & _); [cbn; lia|cbn; lia|]. exists b. exact E. Qed.
