(** Specification for the whole solve with the primal-dual system on strongly convex quadratic problems with inequality constraints (C106). *)
From Coq Require Import Reals List Arith.
From Verif Require Import Scalar Cset_model Cset_spec Armijo_model Problem_model Solver_model Solver_spec Lin_spec Ldlt_spec Bk_spec Descent_spec Qp_spec Fac_spec Act_spec Glob_spec.
Import ListNotations.
Local Open Scope R_scope.

(** x, l is an optimal pair: the gradient of the Lagrangian is zero, the constraint value is in the set, and l is in the normal cone there. *)
Definition kkt_pair (n m : nat) Q q A b (C : rset) (x l : nat -> R) : Prop :=
  (forall i, (i < n)%nat -> qp_lag n m Q q A x l i = 0) /\ in_set C (tab m (qp_con n A b x)) /\
  forall w, length w = m -> in_set C w -> rsum m (fun k => l k * (nth k w 0 - qp_con n A b x k)) <= 0.
(** |u - v|^2. *)
Definition sqdist (m : nat) (u v : nat -> R) : R := rsum m (fun k => (u k - v k) * (u k - v k)).

(** The largest inner tolerance at the penalty parameter mu (bcl-params.hpp:11-23, prox-solver.hxx:200-237). *)
Definition widest (P : @params RSc) (mu : R) : R := Rmax (inner_tol0 P * Rpower mu (dual_alpha P)) (inner_tol_min P).
(** How much farther from the optimal multipliers one inexact outer iteration can end, when the inner loop stops at the tolerance w. *)
Definition drift (n m : nat) (c theta mu w : R) : R := let sg := sqrt (INR m) * w in
  2 * (sg / mu) + sqrt (INR n * (w * w) / (c * mu) + 4 * theta * (sg * sg) / (mu * mu * mu) + 5 * (sg * sg) / (mu * mu)).
(** A bound on the merit function at points with (x - xs)'Q(x - xs) <= X and multipliers at distance at most B of ls. *)
Definition merit_top (n m : nat) Q q (theta X B : R) (xs ls : nat -> R) (mu : R) : R := let L := rsum m (fun k => ls k * ls k) in
  qp_obj n Q q xs + X / 2 + (L + theta * X) / 2 + 2 * theta * X / mu + 6 * mu * (B * B + B * B / 4 + L / 4) + mu * (B * B + L) / 2.

(** Parameters of the outer loop: as in C86, and
    [pq_low] at the least penalty parameter an inner loop ends within the target tolerance;
    [pq_B] the multipliers stay at distance at most B over all outer iterations; [pq_X] so do the points;
    [pq_gam], [pq_search], [pq_N] the conditions of C104 for every penalty parameter in use and the least inner tolerance. *)
Record pd_outer (O : oracles RSc) (P : @params RSc) (n m : nat) Q q A (c theta gam lo X D G B : R) (xs ls : nat -> R) (Rn T N : nat) : Prop := {
  pq_mode : mul_update P = MM_NEWTON; pq_rho : rho_init P = 0; pq_pow : forall x y, 0 < x -> o_pow O x y = Rpower x y;
  pq_mu : 0 < mu_lower P <= mu_init P /\ mu_init P < mu_upper P /\ 0 < mu_factor P < 1;
  pq_exp : 0 <= dual_alpha P /\ 0 < dual_beta P /\ 0 <= prim_alpha P /\ 0 < prim_beta P;
  pq_tol : 0 < target_tol P /\ 0 <= inner_tol0 P /\ 0 <= prim_tol0 P /\ 0 < inner_tol_min P <= target_tol P;
  pq_low : (1 + sqrt (INR m)) * widest P (mu_lower P) + 2 * (mu_lower P * B) <= target_tol P;
  pq_R : mu_init P * mu_factor P ^ Rn <= mu_lower P;
  pq_T : inner_tol0 P * Rpower (mu_init P) (dual_alpha P) * Rpower (mu_init P / mu_upper P) (dual_beta P) ^ T <= target_tol P;
  pq_Tp : prim_tol0 P * Rpower (mu_init P) (prim_alpha P) * Rpower (mu_init P / mu_upper P) (prim_beta P) ^ T <= target_tol P;
  pq_G : forall mu, mu_lower P <= mu <= mu_init P -> drift n m c theta mu (widest P mu) <= G;
  pq_B : 0 <= D /\ D + INR (S (Rn * S T + T)) * G <= B;
  pq_X : forall mu, mu_lower P <= mu <= mu_init P -> 2 * INR n * (widest P mu * widest P mu) / c + 4 * theta * (B * B) <= X;
  pq_gam : mu_init P <= gam /\ (forall i, (i < n)%nat -> 2 * Q i i + 4 / mu_lower P * rsum m (fun k => A k i * A k i) <= gam) /\
    gam * dphi_thresh (lsopt P) <= inner_tol_min P * inner_tol_min P;
  pq_search : forall mu, mu_lower P <= mu <= mu_init P -> searches (lsopt P) ((1 - armijo_c1 (lsopt P)) / (3 / 2 + 2 * theta / mu));
  pq_N : forall mu, mu_lower P <= mu <= mu_init P -> merit_top n m Q q theta X B xs ls mu - lo <=
    INR N * (armijo_c1 (lsopt P) * (Rmin (contraction_min (lsopt P)) (1 / 2) * ((1 - armijo_c1 (lsopt P)) / (3 / 2 + 2 * theta / mu))) * (inner_tol_min P * inner_tol_min P / gam)) }.

(** Both residuals of the solver at x, l are at most t: the gradient of the Lagrangian, and the distance of A x - b from the projection of A x - b + mu l. *)
Definition within (n m : nat) Q q A b (C : rset) (mu : R) (x l : nat -> R) (t : R) : Prop :=
  (forall i, (i < n)%nat -> Rabs (qp_lag n m Q q A x l i) <= t) /\
  exists z, nearest C m mu (fun k => qp_con n A b x k + mu * l k) z /\ forall k, (k < m)%nat -> Rabs (qp_con n A b x k - z k) <= t.
(** One of them is exactly t. *)
Definition touches (n m : nat) Q q A b (C : rset) (mu : R) (x l : nat -> R) (t : R) : Prop :=
  (exists i, (i < n)%nat /\ Rabs (qp_lag n m Q q A x l i) = t) \/
  exists z k, nearest C m mu (fun k => qp_con n A b x k + mu * l k) z /\ (k < m)%nat /\ Rabs (qp_con n A b x k - z k) = t.
