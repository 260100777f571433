(** Specification for quadratic problems with affine equality constraints. *)
From Coq Require Import Reals List Arith.
From Verif Require Import Scalar Cset_model Armijo_model Problem_model Solver_model Solver_spec Lin_spec Ldlt_spec Bk_spec Descent_spec.
Import ListNotations.
Local Open Scope R_scope.

(** The list f 0, ..., f (n-1). *)
Definition tab {A} (n : nat) (f : nat -> A) : list A := map f (seq 0 n).
(** Sum of the sizes. *)
Fixpoint total (ms : list nat) : nat := match ms with [] => 0%nat | m :: r => (m + total r)%nat end.

(** Objective 1/2 x'Qx + q'x, its gradient, and row k of A x - b; the point is given by its entries. *)
Definition qp_obj (n : nat) (Q : nat -> nat -> R) (q : nat -> R) (x : nat -> R) : R :=
  1 / 2 * rsum n (fun i => rsum n (fun j => x i * Q i j * x j)) + rsum n (fun i => q i * x i).
Definition qp_grad (n : nat) (Q : nat -> nat -> R) (q : nat -> R) (x : nat -> R) (i : nat) : R := rsum n (fun j => Q i j * x j) + q i.
Definition qp_con (n : nat) (A : nat -> nat -> R) (b : nat -> R) (x : nat -> R) (k : nat) : R := rsum n (fun j => A k j * x j) - b k.
(** The constraint functions: the rows of A x - b in blocks of the given sizes, starting at row [off]. *)
Fixpoint qp_cons (n : nat) (A : nat -> nat -> R) (b : nat -> R) (off : nat) (ms : list nat) : list (@cfun RSc) :=
  match ms with
  | [] => []
  | m :: r =>
      mkCfun (K := RSc) m (fun x => Some (map (qp_con n A b (fun i => nth i x 0)) (seq off m)))
             (fun _ => Some (map (fun k => tab n (A k)) (seq off m))) (fun _ _ => Some (tab n (fun _ => tab n (fun _ => 0))))
      :: qp_cons n A b (off + m) r
  end.
(** Minimise 1/2 x'Qx + q'x subject to A x = b. *)
Definition qp (n : nat) (Q : nat -> nat -> R) (q : nat -> R) (ms : list nat) (A : nat -> nat -> R) (b : nat -> R) : @problem RSc :=
  mkProblem (K := RSc) n (fun x => Some (qp_obj n Q q (fun i => nth i x 0))) (fun x => Some (tab n (qp_grad n Q q (fun i => nth i x 0))))
            (fun _ => Some (tab n (fun i => tab n (Q i)))) (qp_cons n A b 0 ms).

(** p answers like p' at all points with n entries. *)
Definition answers_like (n : nat) (p p' : @problem RSc) : Prop :=
  p_ndx p = p_ndx p' /\ (forall x, length x = n -> p_cost p x = p_cost p' x /\ p_grad p x = p_grad p' x /\ p_hess p x = p_hess p' x) /\
  Forall2 (fun f f' => f_nr f = f_nr f' /\ forall x, length x = n -> f_val f x = f_val f' x /\ f_jac f x = f_jac f' x /\ forall l, f_vhp f x l = f_vhp f' x l) (p_cons p) (p_cons p').

(** Gradient of the Lagrangian. *)
Definition qp_lag (n m : nat) Q q (A : nat -> nat -> R) (x l : nat -> R) (i : nat) : R := qp_grad n Q q x i + rsum m (fun k => l k * A k i).
(** x, l is an optimal pair of the problem. *)
Definition qp_optimal (n m : nat) Q q A b (x l : nat -> R) : Prop :=
  (forall i, (i < n)%nat -> qp_lag n m Q q A x l i = 0) /\ (forall k, (k < m)%nat -> qp_con n A b x k = 0).
(** Q is symmetric positive semidefinite, and definite on the kernel of A. *)
Definition qp_convex (n m : nat) (Q A : nat -> nat -> R) : Prop :=
  (forall i j, (i < n)%nat -> (j < n)%nat -> Q i j = Q j i) /\ (forall x, 0 <= form n Q x) /\
  (forall x, form n Q x = 0 -> (forall k, (k < m)%nat -> rsum n (fun j => A k j * x j) = 0) -> forall i, (i < n)%nat -> x i = 0).

(** The matrix [Q A'; A -mu I] of the Newton system. *)
Definition qp_kkt (n m : nat) (Q A : nat -> nat -> R) (mu : R) : list (list R) :=
  tab (n + m) (fun i => tab (n + m) (fun j =>
    if (i <? n)%nat then if (j <? n)%nat then Q i j else A (j - n)%nat i
    else if (j <? n)%nat then A (i - n)%nat j else if (i =? j)%nat then - mu else 0)).
(** The signature of the factorisation of this matrix passes the inertia test, and systems with it are solved exactly. *)
Definition handles (O : oracles RSc) (n m : nat) (Q A : nat -> nat -> R) (mu : R) : Prop :=
  forall F, let F' := o_compute O F (qp_kkt n m Q A mu) in
    check_inertia n m (o_signature O F') = Some INERTIA_OK /\ exact_solver (n + m) (entries (qp_kkt n m Q A mu)) (o_solve O F').

(** The parameters and the external code of the solver, as far as the step needs them: half weights in the merit function
    and an exact or Gauss-Newton Hessian (the defaults), a start of the inertia correction at zero, an Armijo constant below one
    half, a vector space and no proximal term. *)
Record plain (O : oracles RSc) (P : @params RSc) (n : nat) : Prop := {
  plain_beta : pdal_beta P = 1 / 2;
  plain_hess : hess_approx P = HM_EXACT \/ hess_approx P = HM_GAUSS_NEWTON;
  plain_delta : delta_init P = 0 /\ 0 <= delta_max P;
  plain_search : armijo_c1 (lsopt P) <= 1 / 2 /\ alpha_min (lsopt P) <= 1;
  plain_space : forall x v, length x = n -> length v = n -> o_integrate O x v = tab n (fun i => nth i x 0 + nth i v 0);
  plain_prox : forall t x, o_px_val O 0 t x = 0 }.

(** A state of a solver for these constraints: sizes, the penalty parameter and its copies, no proximal term. *)
Record qp_state {O : oracles RSc} (n : nat) (ms : list nat) (s : solver_state O) : Prop := {
  qs_pos : 0 < mu s; qs_inv : s_mu_inv _ _ s = 1 / mu s; qs_rho : s_rho _ _ s = 0; qs_sets : sets s = map (fun _ => CEq (mu s)) ms;
  qs_x : length (r_x (res s)) = n; qs_l : length (r_lams (res s)) = total ms; qs_le : length (w_lams_prev _ _ (wsp s)) = total ms;
  qs_plus : length (w_plus _ _ (wsp s)) = total ms; qs_pdal : length (w_pdal _ _ (wsp s)) = total ms;
  qs_act : length (r_active (res s)) = total ms; qs_vhp : length (w_vhp _ _ (wsp s)) = length ms }.

(** The parameters of the outer loop: multipliers as computed by the Newton steps, no proximal term, and penalty parameters and
    tolerances in the usual order.  D bounds the distance of the first multipliers to the optimal ones.  After R reductions
    the penalty parameter is the least one, and after T acceptances in a row both tolerances are below the target. *)
Record outer_params (O : oracles RSc) (P : @params RSc) (D : R) (Rn T : nat) : Prop := {
  op_mode : mul_update P = MM_NEWTON; op_rho : rho_init P = 0; op_pow : forall x y, 0 < x -> o_pow O x y = Rpower x y;
  op_mu : 0 < mu_lower P <= mu_init P /\ mu_init P < mu_upper P /\ 0 < mu_factor P < 1;
  op_exp : 0 <= dual_alpha P /\ 0 < dual_beta P /\ 0 <= prim_alpha P /\ 0 < prim_beta P;
  op_tol : 0 < target_tol P /\ 0 <= inner_tol0 P /\ 0 <= prim_tol0 P /\ 0 <= inner_tol_min P /\ 2 * inner_tol_min P <= target_tol P;
  op_low : 2 * (inner_tol0 P * Rpower (mu_lower P) (dual_alpha P)) <= target_tol P;
  op_D : 0 <= D /\ 2 * (mu_lower P * D) <= target_tol P;
  op_R : mu_init P * mu_factor P ^ Rn <= mu_lower P;
  op_T : inner_tol0 P * Rpower (mu_init P) (dual_alpha P) * Rpower (mu_init P / mu_upper P) (dual_beta P) ^ T <= target_tol P;
  op_Tp : prim_tol0 P * Rpower (mu_init P) (prim_alpha P) * Rpower (mu_init P / mu_upper P) (prim_beta P) ^ T <= target_tol P }.
