(** Properties of the program of examples/circle.cpp. *)
From Coq Require Import Reals List Arith Bool Lia Lra.
From Verif Require Import Scalar Cset_model Problem_model Solver_model Lin_spec Qp_spec Manifold_model Manifold_spec Function_model Function_spec Objects_model Objects_spec Client_model Disk_spec Disk_proofs Solver_spec Ldlt_model Fac_model FacX_proofs DiskS_proofs.
Import ListNotations.
Local Open Scope R_scope.

(** C109. The objects created by examples/circle.cpp pose the problem of the closest point of a disk: the cost is half the squared distance to p0, the
    constraint is |x|^2 - r^2 with Jacobian 2 x' and Hessian 2 I, in any dimension and whatever the heap holds. *)
Theorem C109_disk : forall junk h n p0 r, length p0 = n ->
  exists h' p, disk_program (K := RSc) h n p0 r = Ret (h', p) /\ forall k, (3 <= k)%nat -> answers_like n (memoryless junk k h' p) (disk_problem n p0 r).
Proof. exact disk_like. Qed.
Print Assumptions C109_disk.
(** The objects themselves, with their memory, give these answers to every sequence of requests in the order of the solver. *)
Theorem C109_requests : forall junk h n p0 r h' p, disk_program (K := RSc) h n p0 r = Ret (h', p) -> length p0 = n ->
  exists N, forall k, (N <= k)%nat -> forall cs b, ordered None cs -> Forall (fun c => length (call_point c) = n /\ call_lams c [1%nat]) cs -> sized_buffers n [1%nat] b ->
    exists b' h'', obj_run (K := RSc) junk k p h' b cs = Ret (b', h'') /\ pure_run (disk_problem n p0 r) b cs = Ret b'.
Proof. exact disk_requests. Qed.
Print Assumptions C109_requests.
(** The first-order conditions of this problem have one solution: p0 when it lies in the disk, otherwise the point of the circle on its ray. *)
Theorem C109_solution : forall n p r x l, 0 < r -> disk_kkt n p r x l ->
  let q := rsum n (fun i => p i ^ 2) in
  (q <= r ^ 2 -> l = 0 /\ forall i, (i < n)%nat -> x i = p i) /\
  (r ^ 2 < q -> l = (sqrt q / r - 1) / 2 /\ forall i, (i < n)%nat -> x i = r / sqrt q * p i).
Proof. exact disk_solution. Qed.
Print Assumptions C109_solution.
(** It is the closest point of the disk, and the only one. *)
Theorem C109_projection : forall n p r x l, disk_kkt n p r x l -> forall y, rsum n (fun i => y i ^ 2) <= r ^ 2 ->
  rsum n (fun i => (x i - p i) ^ 2) + rsum n (fun i => (y i - x i) ^ 2) <= rsum n (fun i => (y i - p i) ^ 2).
Proof. exact disk_projection. Qed.
Print Assumptions C109_projection.
(** SUCCESS on this problem, from any state, with any parameters that keep mu positive and with the default multiplier update: with t the target tolerance
    and v the violation at the point x that is returned, v < t, the multiplier is above - t / mu, one of the two vanishes up to these bounds, the
    gradient of the Lagrangian is at most t, and the cost of x exceeds that of any point y of the disk by terms in t only; the quadratic term on the left
    bounds the distance to y. *)
Theorem C109_success : forall (O : oracles RSc) fo fi fls fin P q (s : solver_state O) x0 l0 s' n p0 r m0,
  answers_like n q (disk_problem n p0 r) -> sets s = [CNeg (K := RSc) m0] -> mul_update P = MM_NEWTON -> 0 < mu_init P -> 0 < mu_lower P ->
  run_solve O fo fi fls fin P q (Some s) x0 l0 = Ret (s', SUCCESS) -> length (r_x (res s')) = n -> length (r_lams (res s')) = 1%nat ->
  let t := target_tol P in let mu := r_mu (res s') in let l := nth 0 (r_lams (res s')) 0 in let x := fun i => nth i (r_x (res s')) 0 in let p := fun i => nth i p0 0 in
  let v := rsum n (fun i => x i ^ 2) - r ^ 2 in
  v < t /\ - (t / mu) < l /\ (Rabs l < t / mu \/ Rabs v < t) /\ (forall i, (i < n)%nat -> Rabs (x i - p i + l * (2 * x i)) <= t) /\
  forall y, let gy := rsum n (fun i => y i ^ 2) - r ^ 2 in gy <= 0 ->
    1 / 2 * rsum n (fun i => (x i - p i) ^ 2) + (1 / 2 + l) * rsum n (fun i => (y i - x i) ^ 2) <=
    1 / 2 * rsum n (fun i => (y i - p i) ^ 2) + t * rsum n (fun i => Rabs (y i - x i)) + t * Rmax l 0 + t / mu * Rabs (gy - v).
Proof. exact disk_success. Qed.
Print Assumptions C109_success.

(** The program with its own target and radius, on a heap that holds another object: values and derivatives at (1, 1/2), multiplier 3. *)
Example C109_example : exists h' p, disk_program (K := RSc) [OLinear (K := RSc) 1 [[7]] [7]] 2 [-2 / 5; 7 / 10] (3 / 5) = Ret (h', p) /\
  exists b h'', obj_run (K := RSc) (fun _ _ => 5) 3 p h' (mkBuffers (K := RSc) 0 [0] [0; 0] [[0; 0]] [[0; 0]; [0; 0]] [[[9; 9]; [9; 9]]]) [PEval [1; 1 / 2]; PDerivs [1; 1 / 2]; PHess true [1; 1 / 2] [[3]]] = Ret (b, h'') /\
    bf_val b = 1 /\ bf_con b = [89 / 100] /\ bf_grad b = [7 / 5; -1 / 5] /\ bf_jac b = [[2; 1]] /\ bf_hess b = [[1; 0]; [0; 1]] /\ bf_vhp b = [[[6; 0]; [0; 6]]].
Proof. exact disk_example. Qed.
(** The closest point of the unit disk to (3, 4). *)
Example C109_kkt_example : disk_kkt 2 (fun i => nth i [3; 4] 0) 1 (fun i => nth i [3 / 5; 4 / 5] 0) 2.
Proof. exact disk_kkt_example. Qed.
(** A run with the default parameters that returns SUCCESS there. *)
Example C109_success_example : answers_like 2 (disk_problem 2 [3; 4] 1) (disk_problem 2 [3; 4] 1) /\ sets disk_start = [CNeg (K := RSc) 1] /\
  mul_update (default_params (K := RSc)) = MM_NEWTON /\ 0 < mu_init (default_params (K := RSc)) /\ 0 < mu_lower (default_params (K := RSc)) /\
  exists s', run_solve (dense_oracles 3) 1001 101 1 1 (default_params (K := RSc)) (disk_problem 2 [3; 4] 1) (Some disk_start) [3 / 5; 4 / 5] [2] = Ret (s', SUCCESS) /\
    r_x (res s') = [3 / 5; 4 / 5] /\ r_lams (res s') = [2].
Proof. split; [apply like_refl|]. split; [reflexivity|]. split; [reflexivity|]. split; [cbn; unfold slit; cbn; lra|]. split; [cbn; unfold slit; cbn; lra|]. exact disk_run. Qed.
