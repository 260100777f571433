(** Properties of problems built from function objects. *)
From Coq Require Import Reals List Arith Bool Lia Lra.
From Verif Require Import Scalar Cset_spec Cset_model Armijo_model Problem_model Solver_model Manifold_model Manifold_spec Function_model Function_spec FunctionX_proofs
  Objects_model Objects_spec Objects_proofs ObjectsX_proofs Prox_proofs Merit_spec ManifoldX_proofs Manifold_props.
Import ListNotations.
Local Open Scope R_scope.

(** C91. A problem built from function objects that keep residuals between calls and may share sub-objects answers every sequence
    of requests, in which derivatives are asked only at the point of the last evaluation, as if each question were put to fresh objects.
    This is the problem the model of the solver works with. *)
Theorem C91_memoryless : forall junk D s h p e es, represents s h p e es ->
  exists N, forall n, (N <= n)%nat -> forall cs b, ordered None cs ->
    Forall (fun c => regular D s e es (call_point c) /\ call_lams c (map snd (op_cons p))) cs -> sized_buffers (ndx s) (map snd (op_cons p)) b ->
    exists b' h', obj_run (K := RSc) junk n p h b cs = Ret (b', h') /\ pure_run (memoryless junk n h p) b cs = Ret b'.
Proof. exact objects_memoryless. Qed.
Print Assumptions C91_memoryless.
(** The inner loop keeps this order, whatever points the line search tries and wherever it stops. *)
Theorem C91_solver_order : forall ps k, ordered None (firstn k (flat_map (fun q => pass_calls (K := RSc) (fst (fst q)) (snd (fst q)) (snd q)) ps)).
Proof. exact solver_order. Qed.
Print Assumptions C91_solver_order.
(** The answers are the values and derivatives of the functions that the objects represent. *)
Theorem C91_cost : forall junk D s h p e es, represents s h p e es -> exists N, forall n x, (N <= n)%nat -> regular D s e es x ->
  let q := memoryless junk n h p in
    exists v g, sem e x = Ret [v] /\ p_cost q x = Some v /\ p_grad q x = Some g /\ length g = ndx s /\
      forall w c, length w = ndx s -> path (Geo s) x w c -> velocity (fun t => (do y <- c t; sem e y)%out) [inner g w].
Proof. exact memoryless_cost. Qed.
Print Assumptions C91_cost.
Theorem C91_constraints : forall junk D s h p e es, represents s h p e es -> exists N, forall n x, (N <= n)%nat -> regular D s e es x ->
  Forall2 (fun c f => f_nr c = xnr f /\ exists v J, sem f x = Ret v /\ length v = xnr f /\ f_val c x = Some v /\ f_jac c x = Some J /\ mat (xnr f) (ndx s) J /\
      forall w g, length w = ndx s -> path (Geo s) x w g -> velocity (fun t => (do y <- g t; sem f y)%out) (mat_vec J w)) (p_cons (memoryless junk n h p)) es.
Proof. exact memoryless_cons. Qed.
Print Assumptions C91_constraints.
(** Along the curve of a step this problem is smooth in the sense of the theorems on the merit function (C31). *)
Theorem C91_smooth : forall junk D s h p e es, represents s h p e es -> exists N, forall n x dx curve, (N <= n)%nat -> length dx = ndx s -> curve 0 = x ->
  (forall a, integrate (K := RSc) s x (line dx a) = Ret (curve a)) -> (forall a, regular D s e es (curve a)) -> smooth_along (memoryless junk n h p) x dx curve.
Proof. exact memoryless_smooth. Qed.
Print Assumptions C91_smooth.
(** The constructor of the problem and addConstraint give problems made of the functions they are given. *)
Theorem C91_constructed : forall h s cost cs e es, is_cost e -> repr h cost e -> steady_cost (ndx s) h e -> Forall2 (fun c f => repr h c f /\ steady_fun (ndx s) h f) cs es ->
  exists p, new_problem (K := RSc) h s cost cs = Ret p /\ represents s h p e es /\ map fst (op_cons p) = cs.
Proof. exact problem_new. Qed.
Print Assumptions C91_constructed.
Theorem C91_added : forall h s p e es c f, represents s h p e es -> repr h c f -> steady_fun (ndx s) h f ->
  exists p', add_object (K := RSc) h p c = Ret p' /\ represents s h p' e (es ++ [f]) /\ op_cons p' = op_cons p ++ [(c, xnr f)].
Proof. exact problem_add. Qed.
Print Assumptions C91_added.

(** Minimise x^2 / 2 subject to a constraint on 2 x (ObjectsX_proofs): two passes with trial points and Hessians of all constraints. *)
Example C91_example : exists N, forall n, (N <= n)%nat ->
  exists b' h', obj_run (K := RSc) (fun _ _ => 7) n ex91_p ex91 ex91_b (flat_map (fun q => pass_calls (K := RSc) (fst (fst q)) (snd (fst q)) (snd q))
      [([3], Some (true, [[5]]), [[4]; [2]]); ([2], None, [])]) = Ret (b', h') /\
    pure_run (memoryless (fun _ _ => 7) n ex91 ex91_p) ex91_b (flat_map (fun q => pass_calls (K := RSc) (fst (fst q)) (snd (fst q)) (snd q))
      [([3], Some (true, [[5]]), [[4]; [2]]); ([2], None, [])]) = Ret b'.
Proof.
  destruct (C91_memoryless (fun _ _ => 7) {| d_pt := fun _ _ => True; d_tg := fun _ _ => True; d_near := fun _ _ _ => True |} _ _ _ _ _ ex91_repr) as (N & H). exists N. intros n Hn. apply (H n Hn).
  - exact (C91_solver_order [([3], Some (true, [[5]]), [[4]; [2]]); ([2], None, [])] 100).
  - apply Forall_forall. intros c Hc. cbn in Hc. repeat (destruct Hc as [<-|Hc]; [split; [apply ex91_regular|first [exact I|reflexivity]]|]). contradiction.
  - split; [reflexivity|]. split; [apply ex91_mat|]. split; [apply ex91_mat|]. split; [reflexivity|]. constructor; [apply ex91_mat|constructor].
Qed.

(** The same problem, constructed without constraints and then given its constraint, is smooth along the line through 3. *)
Example C91_constructed_example : exists p0, new_problem (K := RSc) ex91 (SVec 1) (op_cost ex91_p) [] = Ret p0 /\ add_object (K := RSc) ex91 p0 (fst (hd (0%nat, 0%nat) (op_cons ex91_p))) = Ret ex91_p.
Proof. eexists. split; reflexivity. Qed.
Example C91_smooth_example : exists N, forall n, (N <= n)%nat -> smooth_along (memoryless (fun _ _ => 7) n ex91 ex91_p) [3] [2] (fun a => [3 + a * 2]).
Proof.
  destruct (C91_smooth (fun _ _ => 7) {| d_pt := fun _ _ => True; d_tg := fun _ _ => True; d_near := fun _ _ _ => True |} _ _ _ _ _ ex91_repr) as (N & H). exists N. intros n Hn. apply (H n); [exact Hn|reflexivity| | |].
  - cbn. do 2 f_equal; lra.
  - reflexivity.
  - intros a. apply ex91_regular.
Qed.

(** The order is needed: after an evaluation at another point the gradient is that of the other point. *)
Theorem C91_any_order_refuted : exists s h p e es b b1 b2 h1, represents s h p e es /\ (forall D x, length x = 1%nat -> regular D s e es x) /\
  (forall junk n, (6 <= n)%nat -> obj_run (K := RSc) junk n p h b [PEval [1]; PEval [2]; PDerivs [1]] = Ret (b1, h1)) /\
  (forall junk n, (6 <= n)%nat -> pure_run (memoryless junk n h p) b [PEval [1]; PEval [2]; PDerivs [1]] = Ret b2) /\ bf_grad b1 <> bf_grad b2.
Proof. exact order_needed. Qed.
Print Assumptions C91_any_order_refuted.
(** A quadratic cost that is the objective and, applied to another argument, part of a constraint, spoils the gradient of the objective
    even in the order of the solver. *)
Theorem C91_sharing_refuted : exists s h p e es b b1 b2 h1, represents s h p e es /\
  (forall D, good D (Geo s) [1] e 1 /\ Forall (fun f => good D (Geo s) [1] f (xnr f)) es) /\
  (forall junk n, (6 <= n)%nat -> obj_run (K := RSc) junk n p h b [PEval [1]; PDerivs [1]] = Ret (b1, h1)) /\
  (forall junk n, (6 <= n)%nat -> pure_run (memoryless junk n h p) b [PEval [1]; PDerivs [1]] = Ret b2) /\ bf_grad b1 <> bf_grad b2.
Proof. exact sharing_spoils. Qed.
Print Assumptions C91_sharing_refuted.

(** C92. The proximal penalty made by the constructor of the solver, whatever updates of its parameter and of its target follow, returns the
    value, the gradient and the Gauss-Newton Hessian of rho / 2 |x - target|^2 with the parameter and target set last.
    The passes of the inner loop ask for value, gradient and Hessian at one point, its line search only for values. *)
Theorem C92_penalty : forall junk D s h rho, leaves (leaf_sized D) s -> leaves (leaf_inverse D) s -> leaves (leaf_jacobians D) s ->
  is_normalized (K := RSc) s (neutral (K := RSc) s) = Ret true ->
  exists h' r, new_prox (K := RSc) h s rho = Ret (h', r) /\ (forall i o, nth_error h i = Some o -> nth_error h' i = Some o) /\
    exists N, forall n ops, (N <= n)%nat -> prox_near D s (neutral (K := RSc) s) ops ->
      exists l h'', prox_run (K := RSc) junk n h' r ops = Ret (l, h'') /\ prox_answers s rho (neutral (K := RSc) s) ops l.
Proof. exact prox_all. Qed.
Print Assumptions C92_penalty.
(** The oracles for the penalty in the model of the solver (o_px_val and o_px_grad), read off this object, have what the
    theorems on the merit function (C31) ask of them. *)
Theorem C92_along : forall junk D s h0 rho0 h r rho t x dx curve, leaves (leaf_sized D) s -> leaves (leaf_inverse D) s -> leaves (leaf_jacobians D) s ->
  is_normalized (K := RSc) s (neutral (K := RSc) s) = Ret true -> new_prox (K := RSc) h0 s rho0 = Ret (h, r) ->
  length dx = ndx s -> curve 0 = x -> (forall a, integrate (K := RSc) s x (line dx a) = Ret (curve a)) -> (forall a, near D s t (curve a)) ->
  forall n, (4 <= n)%nat -> prox_along rho (object_val junk n h r rho t) (object_grad junk n (ndx s) h r rho t) x dx curve.
Proof. exact prox_curve. Qed.
Print Assumptions C92_along.
(** On a space with rotations, parameter 1 at construction: a pass and a trial near the first target, then half the parameter, another target and a trial. *)
Example C92_example : exists h' r y, new_prox (K := RSc) [] ex_space 1 = Ret (h', r) /\ integrate ex_space ex_point ex_tangent = Ret y /\ exists N, forall n, (N <= n)%nat ->
  let ops := [XTarget (K := RSc) ex_point; XPass (K := RSc) y (repeat 0 5) (repeat (repeat 0 5) 5); XTrial (K := RSc) y; XRho (K := RSc) (1 / 2);
              XTarget (K := RSc) y; XTarget (K := RSc) ex_point; XTrial (K := RSc) y] in
  exists l h'', prox_run (K := RSc) (fun _ _ => 7) n h' r ops = Ret (l, h'') /\ prox_answers ex_space 1 (neutral (K := RSc) ex_space) ops l.
Proof.
  destruct (C92_penalty (fun _ _ => 7) so2_dom ex_space [] 1 ex_sized ex_inverse ex_jacobians eq_refl) as (h' & r & E & _ & N & H).
  destruct C37_example as (y & Ey & _ & Ny & _). exists h', r, y. split; [exact E|]. split; [exact Ey|]. exists N. intros n Hn ops. apply (H n ops Hn). unfold ops. cbn [prox_near].
  repeat split; try exact Ny; repeat constructor.
Qed.
Example C92_along_example : forall n, (4 <= n)%nat -> exists h r, new_prox (K := RSc) [] (SVec 2) 1 = Ret (h, r) /\
  prox_along (1 / 2) (object_val (fun _ _ => 7) n h r (1 / 2) [1; 1]) (object_grad (fun _ _ => 7) n 2 h r (1 / 2) [1; 1]) [3; 4] [1; 2] (fun a => [3 + a * 1; 4 + a * 2]).
Proof.
  intros n Hn. destruct (new_prox (K := RSc) [] (SVec 2) 1) as [[h r]| | |] eqn:E; try discriminate. exists h, r. split; [reflexivity|].
  apply (C92_along _ {| d_pt := fun _ _ => True; d_tg := fun _ _ => True; d_near := fun _ _ _ => True |} (SVec 2) [] 1 h r (1 / 2) [1; 1] [3; 4] [1; 2]); try exact I; try reflexivity; try exact E; try exact Hn.
  - cbn. repeat f_equal; lra.
  - intros a. split; reflexivity.
Qed.
