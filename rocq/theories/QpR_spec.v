(** Specification for quadratic problems with affine equality constraints, with the proximal term (C98, C99). *)
From Coq Require Import Reals List Arith.
From Verif Require Import Scalar Cset_model Armijo_model Problem_model Solver_model Solver_spec Lin_spec Ldlt_spec Bk_spec Descent_spec Qp_spec.
Import ListNotations.
Local Open Scope R_scope.

(** Squared distance of the first n entries. *)
Definition dist2 (n : nat) (x y : nat -> R) : R := rsum n (fun i => (x i - y i) * (x i - y i)).
(** Q + rho I: the Hessian of the objective with the term rho/2 |x - t|^2. *)
Definition prox_hessian (Q : nat -> nat -> R) (rho : R) (i j : nat) : R := Q i j + (if (i =? j)%nat then rho else 0).
(** The penalty of a vector space (C92): its value, gradient and Hessian at x for the target t. *)
Definition prox_penalty (O : oracles RSc) (n : nat) : Prop := forall rho t x, 0 < rho -> length t = n -> length x = n ->
  o_px_val O rho t x = rho / 2 * dist2 n (fun i => nth i x 0) (fun i => nth i t 0) /\
  o_px_grad O rho t x = tab n (fun i => rho * (nth i x 0 - nth i t 0)) /\
  o_px_hess O rho t x = tab n (fun i => tab n (fun j => if (i =? j)%nat then rho else 0)).
(** The parameters and the external code, as in [plain], with a proximal term. *)
Record plain_prox (O : oracles RSc) (P : @params RSc) (n : nat) : Prop := {
  pp_beta : pdal_beta P = 1 / 2;
  pp_hess : hess_approx P = HM_EXACT \/ hess_approx P = HM_GAUSS_NEWTON;
  pp_delta : delta_init P = 0 /\ 0 <= delta_max P;
  pp_search : armijo_c1 (lsopt P) <= 1 / 2 /\ alpha_min (lsopt P) <= 1;
  pp_space : forall x v, length x = n -> length v = n -> o_integrate O x v = tab n (fun i => nth i x 0 + nth i v 0);
  pp_prox : prox_penalty O n }.
(** Q is symmetric, and x'Qx >= e |x|^2; e may be zero. *)
Definition convex_by (n : nat) (Q : nat -> nat -> R) (e : R) : Prop :=
  (forall i j, (i < n)%nat -> (j < n)%nat -> Q i j = Q j i) /\ forall x, e * rsum n (fun i => x i * x i) <= form n Q x.
(** A state of a solver for these constraints, with a positive proximal parameter. *)
Record prox_state {O : oracles RSc} (n : nat) (ms : list nat) (s : solver_state O) : Prop := {
  rs_pos : 0 < mu s; rs_inv : s_mu_inv _ _ s = 1 / mu s; rs_rho : 0 < s_rho _ _ s; rs_sets : sets s = map (fun _ => CEq (mu s)) ms;
  rs_x : length (r_x (res s)) = n; rs_t : length (s_target _ _ s) = n; rs_l : length (r_lams (res s)) = total ms; rs_le : length (w_lams_prev _ _ (wsp s)) = total ms;
  rs_plus : length (w_plus _ _ (wsp s)) = total ms; rs_pdal : length (w_pdal _ _ (wsp s)) = total ms;
  rs_act : length (r_active (res s)) = total ms; rs_vhp : length (w_vhp _ _ (wsp s)) = length ms }.
(** Growth of the bound on the squared distance to the optimal multipliers over r reductions of the penalty parameter, by the factor f
    down to lo at most; k bounds rho |x - xs|^2. *)
Fixpoint grown (k lo f : R) (r : nat) (u : R) : R :=
  match r with O => u | S r => grown k lo f r (u + Rmin (k / lo) (u / f)) end.
(** The parameters of the outer loop with a proximal term, for a problem with x'Qx >= e |x|^2 and the solution xs, ls.
    k bounds rho |x - xs|^2 for all points, and D^2 bounds the squared distance of the multipliers to the optimal ones over Rn reductions of the
    penalty parameter.  After T acceptances in a row both tolerances are below the target; B more are needed if the dual residual that a
    step leaves, rho |x - t|, is not small at once. *)
Record prox_params (O : oracles RSc) (P : @params RSc) (n m : nat) (e k D : R) (Rn T B : nat) (xs ls x0 t0 l0 : nat -> R) : Prop := {
  rp_mode : mul_update P = MM_NEWTON; rp_pow : forall x y, 0 < x -> o_pow O x y = Rpower x y;
  rp_mu : 0 < mu_lower P <= mu_init P /\ mu_init P < mu_upper P /\ 0 < mu_factor P < 1;
  rp_rho : 0 < rho_init P /\ 0 < rho_factor P <= 1;
  rp_exp : 0 <= dual_alpha P /\ 0 < dual_beta P /\ 0 <= prim_alpha P /\ 0 < prim_beta P;
  rp_tol : 0 < target_tol P /\ 0 <= inner_tol0 P /\ 0 <= prim_tol0 P /\ 0 <= inner_tol_min P /\ 2 * inner_tol_min P < target_tol P;
  rp_low : 2 * (inner_tol0 P * Rpower (mu_lower P) (dual_alpha P)) < target_tol P;
  rp_R : mu_init P * mu_factor P ^ Rn <= mu_lower P;
  rp_one : (0 < T)%nat;
  rp_T : inner_tol0 P * Rpower (mu_init P) (dual_alpha P) * Rpower (mu_init P / mu_upper P) (dual_beta P) ^ T <= target_tol P;
  rp_Tp : prim_tol0 P * Rpower (mu_init P) (prim_alpha P) * Rpower (mu_init P / mu_upper P) (prim_beta P) ^ T <= target_tol P;
  rp_e : 0 <= e;
  rp_k : rho_init P * dist2 n x0 xs <= k /\ rho_init P * (mu_init P * (D * D)) <= k * (rho_init P + 2 * e);
  rp_D : 0 <= D /\ 2 * (mu_lower P * D) < target_tol P /\
    exists u, rho_init P * dist2 n x0 xs + mu_init P * dist2 m l0 ls <= mu_init P * u /\ rho_init P * dist2 n t0 xs + mu_init P * dist2 m l0 ls <= mu_init P * u /\
      grown k (mu_lower P) (mu_factor P) Rn u <= D * D;
  rp_B : 4 * (rho_init P * k) <= target_tol P * target_tol P \/ rho_init P * (mu_init P * (D * D)) < INR (S B) * (target_tol P * target_tol P) }.
(** The default parameters, with the constructor arguments mu_eq_init and rho_init (prox-solver.hpp:134-136). *)
Definition started (mu0 rho0 : R) : @params RSc :=
  let d := default_params (K := RSc) in
  mkParams (K := RSc) rho0 mu0 (mu_lower d) (mu_upper d) (pdal_beta d) (target_tol d) (inner_tol0 d) (prim_tol0 d) (inner_tol_min d) (prim_alpha d) (prim_beta d) (dual_alpha d) (dual_beta d)
    (mu_factor d) (rho_factor d) (del_inc_k d) (del_inc_big d) (del_dec_k d) (delta_min d) (delta_max d) (delta_nz_init d) (delta_init d) (max_iters d) (max_al_iters d) (max_refine d) (kkt_tolerance d)
    (mul_update d) (kkt_sys d) (hess_approx d) (lsopt d) (callbacks d).
