(** Theorems about the PROXSUITE alternative and about pivoted LDL' factorisations of other libraries (C97). *)
From Coq Require Import Reals List Bool Arith ZArith Lia Lra Permutation.
From Verif Require Import Scalar Cset_model Problem_model Symb_model Armijo_model Solver_model Solver_spec Ldlt_model Ldlt_spec Lin_spec Bk_spec Descent_spec Qp_spec Fac_model Fac_spec FacX_proofs PsLdlt_model PsLdlt_spec PsLdlt_proofs.
Import ListNotations.
Local Open Scope R_scope.

(** C97. If the external factorisation delivers a pivoted factorisation of A, the wrapper reconstructs A, solves systems with A exactly unless a pivot is
    negligible, and its signature passes the inertia test exactly for the convex matrices. *)
Theorem C97_object : forall n A p pt ld sg, ps_factored n A p pt ld -> let f := mkPs (K := RSc) n p pt ld (Some true) sg in
  (forall i j, (i < n)%nat -> (j < n)%nat -> ps_reconstruct (K := RSc) f i j = mirror A i j) /\
  (forall b, (forall i, (i < n)%nat -> tiny (K := RSc) < Rabs (ps_vectorD (K := RSc) f i)) -> solves n A (ps_solve (K := RSc) f b) b) /\
  (forall np, (np <= n)%nat -> regularised np n A -> (check_inertia np (n - np) (ps_sig (K := RSc) f) = Some INERTIA_OK <-> al_convex np n A)).
Proof. exact ps_object. Qed.
Print Assumptions C97_object.
Theorem C97_proxsuite_pivoted : forall fz pw ig pv pg ph bf bu qr N M, (forall p pt ld, fz N (entries M) = (p, pt, ld) -> ps_factored N (entries M) p pt ld) ->
  pivoted (mkOracles (K := RSc) pw ig pv pg ph (psldlt RSc) (ps_fac (K := RSc) fz N) (ps_sig (K := RSc)) (ps_solve_list (K := RSc)) bf bu qr) N M.
Proof. exact ps_pivoted. Qed.
Print Assumptions C97_proxsuite_pivoted.
(** Every pivoted factorisation, whatever its choice of pivots, meets the hypothesis of C85, C86 and C93 for strongly convex problems. *)
Theorem C97_handles : forall (O : oracles RSc) n m Q A mu c, pivoted O (n + m) (qp_kkt n m Q A mu) -> strongly_convex n Q c -> tiny (K := RSc) < c -> tiny (K := RSc) < mu -> handles O n m Q A mu.
Proof. exact pivoted_handles. Qed.
Print Assumptions C97_handles.
Theorem C97_converges : forall (O : oracles RSc) (P : @params RSc) n Q q ms A b p c xs ls D Rn T fo fi fls fin, let m := total ms in let K := (Rn * S T + T)%nat in
  forall (s : solver_state O) mus x0 l0,
  answers_like n p (qp n Q q ms A b) -> plain O P n -> outer_params O P D Rn T -> (forall mu, mu_lower P <= mu -> pivoted O (n + m) (qp_kkt n m Q A mu)) -> strongly_convex n Q c -> tiny (K := RSc) < c -> tiny (K := RSc) < mu_lower P ->
  qp_optimal n m Q q A b xs ls -> rsum m (fun k => (nth k l0 0 - ls k) * (nth k l0 0 - ls k)) <= D * D -> length x0 = n -> length l0 = m ->
  sets s = map CEq mus -> length mus = length ms -> buffers_fit p s ->
  (K < max_al_iters P)%nat -> (S K < max_iters P)%nat -> (max_al_iters P < fo)%nat -> (1 < fi)%nat -> (0 < fls)%nat -> (0 < fin)%nat ->
  exists (s' : solver_state O) f, run_solve O fo fi fls fin P p (Some s) x0 l0 = Ret (s', f) /\ length (r_x (res s')) = n /\ length (r_lams (res s')) = m /\
    let x := fun i => nth i (r_x (res s')) 0 in let l := fun k => nth k (r_lams (res s')) 0 in
    (forall k, (k < m)%nat -> Rabs (qp_con n A b x k) <= target_tol P) /\ (forall i, (i < n)%nat -> Rabs (qp_lag n m Q q A x l i) <= target_tol P) /\
    ((f = SUCCESS /\ (r_al_iters (res s') <= K)%nat /\ (r_num_iters (res s') <= S K)%nat) \/
     (exists k, (k < m)%nat /\ Rabs (qp_con n A b x k) = target_tol P) \/ (exists i, (i < n)%nat /\ Rabs (qp_lag n m Q q A x l i) = target_tol P)).
Proof. exact pivoted_converges. Qed.
Print Assumptions C97_converges.
(** sign() of the wrapper is never written: after the factorisation of the identity it is still ZeroSign. *)
Theorem C97_sign_refuted : exists n A p pt ld, ps_factored n A p pt ld /\ (forall i, (i < n)%nat -> 0 < ld i i) /\
  let f := ps_compute (K := RSc) (fun _ _ => (p, pt, ld)) (ps_new (K := RSc)) n A in ps_ok f = Some true /\ ps_sign f = ZeroSign.
Proof. exact ps_sign_kept. Qed.
Print Assumptions C97_sign_refuted.

(** Minimise x^2 subject to 3x = b with mu = 1: the matrix [2 3; 3 -1], factorised with the second pivot first: -1 and 11. *)
Example C97_example : let M := qp_kkt 1 1 (fun _ _ => 2) (fun _ _ => 3) 1 in let '(p, pt, ld) := ex_fz 2 (entries M) in
  ps_factored 2 (entries M) p pt ld /\ strongly_convex 1 (fun _ _ => 2) 2 /\ tiny (K := RSc) < 2 /\ tiny (K := RSc) < 1 /\
  handles (mkOracles (K := RSc) Rpower (fun x _ => x) (fun _ _ _ => 0) (fun _ _ _ => []) (fun _ _ _ => []) (psldlt RSc) (ps_fac (K := RSc) ex_fz 2) (ps_sig (K := RSc)) (ps_solve_list (K := RSc)) unit (fun _ _ _ H => (tt, H)) (fun _ _ _ _ _ _ => (0, 0))) 1 1 (fun _ _ => 2) (fun _ _ => 3) 1.
Proof.
  intros M. cbn [ex_fz]. assert (F : forall p pt ld, ex_fz 2 (entries M) = (p, pt, ld) -> ps_factored 2 (entries M) p pt ld).
  { intros p pt ld E. injection E as <- <- <-. split; [apply perm_swap|]. split; [apply perm_swap|]. split; [intros i Hi; destruct i as [|[|i]]; [reflexivity|reflexivity|lia]|].
    exists (fun i j => match i, j with O, O => 1 | S _, O => -3 | O, S _ => 0 | S _, S _ => 1 end), (fun i => match i with O => -1 | S _ => 11 end). split.
    - split; [split; [intros [|i] Hi; reflexivity|intros [|i] [|j] H1 H2; try lia; reflexivity]|].
      intros [|[|i]] [|[|j]] H1 H2; try lia; unfold ldl, renumber, mirror, entries, M, qp_kkt; cbn; lra.
    - split; [intros [|[|i]] [|j] H1 H2; try lia; reflexivity|intros [|[|i]] Hi; try lia; reflexivity]. }
  assert (SC : strongly_convex 1 (fun _ _ => 2) 2). { split; [reflexivity|]. intros x. cbn. lra. }
  pose proof tiny_default as TD. assert (T2 : tiny (K := RSc) < 2) by (cbn [car RSc] in *; lra). assert (T1 : tiny (K := RSc) < 1) by (cbn [car RSc] in *; lra).
  split; [apply F; reflexivity|]. split; [exact SC|]. split; [exact T2|]. split; [exact T1|]. apply (C97_handles _ 1 1 (fun _ _ => 2) (fun _ _ => 3) 1 2); [|exact SC|exact T2|exact T1]. apply C97_proxsuite_pivoted. exact F.
Qed.
