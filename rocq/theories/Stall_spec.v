(** The parameters and the function of the stalled runs (C108). *)
From Coq Require Import Reals List.
From Verif Require Import Scalar Armijo_model Solver_model.
Local Open Scope R_scope.

(** linesearch-base.hpp:19-22: the default options of the line search, with the given interpolation. *)
Definition halving (it : interp_type) : ls_options RSc := mkLs (K := RSc) (1 / 10000) (1 / 10000000000000) (1 / 1000000) 20 it (1 / 2) (4 / 5).

(** prox-solver.hpp:66-126 and 134-142, bcl-params.hpp:11-23: the default parameters of the solver with the options above and N iterations. *)
Definition halving_params (it : interp_type) (N : nat) : @params RSc :=
  let d := default_params (K := RSc) in
  mkParams (K := RSc) (rho_init d) (mu_init d) (mu_lower d) (mu_upper d) (pdal_beta d) (target_tol d) (inner_tol0 d) (prim_tol0 d) (inner_tol_min d) (prim_alpha d) (prim_beta d) (dual_alpha d) (dual_beta d)
    (mu_factor d) (rho_factor d) (del_inc_k d) (del_inc_big d) (del_dec_k d) (delta_min d) (delta_max d) (delta_nz_init d) (delta_init d) N (max_al_iters d) (max_refine d) (kkt_tolerance d)
    (mul_update d) (kkt_sys d) (hess_approx d) (halving it) (callbacks d).

(** The primal-dual augmented Lagrangian of 1/2 x^2 subject to x + 11 <= 0, with the penalty parameter 1/100, pdal-beta 1/2 and the
    estimate -400 of the multiplier (pdal.hxx:14-30): the shifted value of the constraint is x + 11 - 4 - l / 200. *)
Definition rising (x l : R) : R := 1 / 2 * (x * x) + 100 * (Rmax 0 (x + 7 - l / 200) * Rmax 0 (x + 7 - l / 200)) + l * l / 400.

(** The constraint functions x + 47 and -2 x + y - 236 of the run from zero multipliers, as rows A_k z - b_k. *)
Definition cold_rows (k i : nat) : R := match k, i with 0%nat, 0%nat => 1 | 1%nat, 0%nat => -2 | 1%nat, 1%nat => 1 | _, _ => 0 end.
Definition cold_bounds (k : nat) : R := match k with 0%nat => -47 | _ => 236 end.
