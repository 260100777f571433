(** Properties of the quadratic problems built by client programs. *)
From Coq Require Import Reals List Arith Bool Lia Lra.
From Verif Require Import Scalar Cset_model Armijo_model Problem_model Solver_model Solver_spec Lin_spec Bk_spec Descent_spec Qp_spec QpF_proofs QpX_proofs Manifold_model Manifold_spec Function_model Function_spec
  Objects_model Objects_spec Client_model Client_spec Client_proofs ClientX_proofs.
Import ListNotations.
Local Open Scope R_scope.

(** C93. The objects created by examples/equality-qp.cpp (a quadratic distance to the neutral element and a linear function) form the problem:
    minimise 1/2 x'Qx subject to A x + b = 0.  The second theorem is the same with a linear term and several constraints. *)
Theorem C93_example_program : forall junk h n (has : bool) Q A b, mat n n Q -> mat (length A) n A -> length b = length A ->
  exists h' p, equality_qp (K := RSc) h n has Q A b = Ret (h', p) /\
    forall k, (2 <= k)%nat -> answers_like n (memoryless junk k h' p) (blocks_qp n Q (repeat 0 n) (if has then [(A, b)] else [])).
Proof. exact equality_like. Qed.
Print Assumptions C93_example_program.
Theorem C93_sloped : forall junk h n Q q bl, mat n n Q -> length q = n -> Forall (block_ok n) bl ->
  exists h' p, sloped_qp (K := RSc) h n Q q bl = Ret (h', p) /\ forall k, (2 <= k)%nat -> answers_like n (memoryless junk k h' p) (blocks_qp n Q q bl).
Proof. exact sloped_like. Qed.
Print Assumptions C93_sloped.
(** The objects themselves, with their memory, give the answers of this problem to every sequence of requests in the order of the solver. *)
Theorem C93_requests : forall junk h n Q q bl h' p, sloped_qp (K := RSc) h n Q q bl = Ret (h', p) -> mat n n Q -> length q = n -> symmetric Q -> Forall (block_ok n) bl ->
  exists N, forall k, (N <= k)%nat -> forall cs b, ordered None cs -> Forall (fun c => length (call_point c) = n /\ call_lams c (map (fun ab => length (fst ab)) bl)) cs ->
    sized_buffers n (map (fun ab => length (fst ab)) bl) b ->
    exists b' h'', obj_run (K := RSc) junk k p h' b cs = Ret (b', h'') /\ pure_run (blocks_qp n Q q bl) b cs = Ret b'.
Proof. exact sloped_requests. Qed.
Print Assumptions C93_requests.
(** The solver converges on the problem of the example program whenever Q is positive semidefinite and definite on the kernel of A
    (the other hypotheses are those of C86: no proximal term, half weights, factorisations that work). *)
Theorem C93_converges : forall (O : oracles RSc) (P : @params RSc) junk h n Q A b h' p k xs ls D Rn T fo fi fls fin (s : solver_state O) mu0 x0 l0, let m := length A in let K := (Rn * S T + T)%nat in
  equality_qp (K := RSc) h n true Q A b = Ret (h', p) -> (2 <= k)%nat -> mat n n Q -> mat m n A -> length b = m ->
  plain O P n -> outer_params O P D Rn T -> qp_convex n m (entries Q) (entries A) -> (forall mu, mu_lower P <= mu <= mu_init P -> handles O n m (entries Q) (entries A) mu) ->
  qp_optimal n m (entries Q) (fun _ => 0) (entries A) (fun i => - nth i b 0) xs ls -> rsum m (fun k => (nth k l0 0 - ls k) * (nth k l0 0 - ls k)) <= D * D -> length x0 = n -> length l0 = m ->
  sets s = [CEq mu0] -> buffers_fit (memoryless junk k h' p) s ->
  (K < max_al_iters P)%nat -> (S K < max_iters P)%nat -> (max_al_iters P < fo)%nat -> (1 < fi)%nat -> (0 < fls)%nat -> (0 < fin)%nat ->
  exists (s' : solver_state O) f, run_solve O fo fi fls fin P (memoryless junk k h' p) (Some s) x0 l0 = Ret (s', f) /\ length (r_x (res s')) = n /\ length (r_lams (res s')) = m /\
    let x := fun i => nth i (r_x (res s')) 0 in let l := fun k => nth k (r_lams (res s')) 0 in
    (forall k, (k < m)%nat -> Rabs (rsum n (fun j => entries A k j * x j) + nth k b 0) <= target_tol P) /\
    (forall i, (i < n)%nat -> Rabs (rsum n (fun j => entries Q i j * x j) + rsum m (fun k => l k * entries A k i)) <= target_tol P) /\
    ((f = SUCCESS /\ (r_al_iters (res s') <= K)%nat /\ (r_num_iters (res s') <= S K)%nat) \/
     (exists k, (k < m)%nat /\ Rabs (rsum n (fun j => entries A k j * x j) + nth k b 0) = target_tol P) \/
     (exists i, (i < n)%nat /\ Rabs (rsum n (fun j => entries Q i j * x j) + rsum m (fun k => l k * entries A k i)) = target_tol P)).
Proof. exact equality_converges. Qed.
Print Assumptions C93_converges.

(** Minimise x^2 + xy + y^2 + x subject to x + y = 1 and x - y = 3, on a heap that holds another object.  Values and derivatives at (1, 2). *)
Example C93_example : exists h' p, sloped_qp (K := RSc) [OLinear (K := RSc) 1 [[7]] [7]] 2 [[2; 1]; [1; 2]] [1; 0] [([[1; 1]], [-1]); ([[1; -1]], [-3])] = Ret (h', p) /\
  Forall (block_ok 2) [([[1; 1]], [-1]); ([[1; -1]], [-3])] /\
  exists b h'', obj_run (K := RSc) (fun _ _ => 5) 3 p h' (mkBuffers (K := RSc) 0 [0; 0] [0; 0] [[0; 0]; [0; 0]] [[0; 0]; [0; 0]] [[[9; 9]; [9; 9]]; [[9; 9]; [9; 9]]]) [PEval [1; 2]; PDerivs [1; 2]; PHess true [1; 2] [[1]; [1]]] = Ret (b, h'') /\
    bf_val b = 8 /\ bf_con b = [2; -4] /\ bf_grad b = [5; 5] /\ bf_jac b = [[1; 1]; [1; -1]] /\ bf_hess b = [[2; 1]; [1; 2]] /\ bf_vhp b = [[[0; 0]; [0; 0]]; [[0; 0]; [0; 0]]].
Proof. exact ex93. Qed.
(** The example program with Q = 1, A = 1, b = -1 (minimise x^2 / 2 subject to x = 1) meets the hypotheses of the convergence theorem with default parameters. *)
Example C93_converges_example : exists h' p, equality_qp (K := RSc) [] 1 true [[1]] [[1]] [-1] = Ret (h', p) /\
  plain small_oracles (default_params (K := RSc)) 1 /\ outer_params small_oracles (default_params (K := RSc)) 2 4 4 /\ qp_convex 1 1 (entries [[1]]) (entries [[1]]) /\
  (forall mu, mu_lower (default_params (K := RSc)) <= mu <= mu_init (default_params (K := RSc)) -> handles small_oracles 1 1 (entries [[1]]) (entries [[1]]) mu) /\
  qp_optimal 1 1 (entries [[1]]) (fun _ => 0) (entries [[1]]) (fun i => - nth i [-1] 0) (fun _ => 1) (fun _ => -1) /\
  sets small_state = [CEq (1 / 100)] /\ buffers_fit (memoryless (fun _ _ => 5) 2 h' p) small_state.
Proof. exact ex93_converges. Qed.
