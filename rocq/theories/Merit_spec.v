(** Specification of the merit function as a function of the step length, over the reals. *)
From Coq Require Import Reals List.
From Verif Require Import Scalar Cset_model Cset_spec Problem_model Solver_model Solver_spec.
Import ListNotations.
Local Open Scope R_scope.

Definition scaled (t : R) (v : list R) : list R := map (fun a => t * a) v.

(** Along the curve t -> [curve t] starting at x, objective and constraints are defined, and their
    derivatives at t = 0 are what the user's gradient and Jacobian at x say for the direction dx. *)
Definition smooth_along (p : @problem RSc) (x dx : list R) (curve : R -> list R) : Prop :=
  curve 0 = x /\
  exists (F : R -> R) (C : R -> list R),
    (forall t, p_cost p (curve t) = Some (F t)) /\
    (forall t, stacked_values (curve t) (p_cons p) (C t)) /\
    (forall g, p_grad p x = Some g -> derivable_pt_lim F 0 (inner g dx)) /\
    (forall J, stacked_jacobian (p_ndx p) x (p_cons p) J ->
       forall k, (k < rows_of (p_cons p))%nat -> derivable_pt_lim (fun t => nth k (C t) 0) 0 (inner (nth k J []) dx)).

(** The proximal term along the curve, with its gradient at the start. *)
Definition prox_along (rho : R) (value : list R -> R) (gradient : list R -> list R) (x dx : list R) (curve : R -> list R) : Prop :=
  (rho = 0 -> forall t, value (curve t) = 0) /\
  (0 < rho -> length (gradient x) = length dx /\ derivable_pt_lim (fun t => value (curve t)) 0 (inner (gradient x) dx)).

(** The situation in which the merit function is differentiated: a consistent state at a point where
    the problem is differentiable along the step [dx]. *)
Definition merit_setting {O : oracles RSc} (p : @problem RSc) (s : solver_state O) (dx dl : list R) : Prop :=
  let nd := rows_of (p_cons p) in let x := r_x (res s) in let curve := fun t => o_integrate O x (scaled t dx) in
  0 < mu s /\ s_mu_inv _ _ s = 1 / mu s /\ 0 <= s_rho _ _ s /\
  sets_fit (sets s) (p_cons p) /\ Forall (fun c => mu_of c = mu s) (sets s) /\
  length dx = p_ndx p /\ length dl = nd /\ length (r_lams (res s)) = nd /\
  length (w_lams_prev _ _ (wsp s)) = nd /\ length (w_plus _ _ (wsp s)) = nd /\ length (w_pdal _ _ (wsp s)) = nd /\
  smooth_along p x dx curve /\
  prox_along (s_rho _ _ s) (o_px_val O (s_rho _ _ s) (s_target _ _ s)) (o_px_grad O (s_rho _ _ s) (s_target _ _ s)) x dx curve.

