(** Specification for the direction of the step: consistent states, and when two points lie in the
    same piece of a constraint set. *)
From Coq Require Import Reals List Arith.
From Verif Require Import Scalar Cset_model Cset_spec Problem_model Solver_model Solver_spec Lin_spec Ldlt_spec Bk_spec.
Import ListNotations.
Local Open Scope R_scope.

(** Two points on the same smooth piece of the projection on the set; never for the penalty. *)
Fixpoint same_piece (c : rset) (z w : list R) {struct c} : Prop :=
  match c with
  | CEq _ => True
  | CNeg _ => forall k, 0 < nth k z 0 <-> 0 < nth k w 0
  | CBox _ lo up => forall k, (k < length lo)%nat ->
      (nth k up 0 < nth k z 0 <-> nth k up 0 < nth k w 0) /\ (nth k z 0 < nth k lo 0 <-> nth k w 0 < nth k lo 0)
  | CL1 _ => False
  | CProd _ comps =>
      (fix go (cs : list (rset * nat)) (z w : list R) {struct cs} : Prop :=
         match cs with
         | [] => True
         | (c', n) :: r => same_piece c' (firstn n z) (firstn n w) /\ go r (skipn n z) (skipn n w)
         end) comps z w
  end.

(** The sizes and parameters of the state agree with the problem. *)
Definition consistent {O : oracles RSc} (p : @problem RSc) (s : solver_state O) : Prop :=
  let nd := rows_of (p_cons p) in
  0 < mu s /\ s_mu_inv _ _ s = 1 / mu s /\
  sets_fit (sets s) (p_cons p) /\ Forall (fun c => mu_of c = mu s) (sets s) /\
  length (r_lams (res s)) = nd /\
  length (w_lams_prev _ _ (wsp s)) = nd /\ length (w_plus _ _ (wsp s)) = nd /\ length (w_pdal _ _ (wsp s)) = nd /\
  (0 < s_rho _ _ s -> length (o_px_grad O (s_rho _ _ s) (s_target _ _ s) (r_x (res s))) = p_ndx p).

(** The piece on which the right-hand side is built is the one on which the matrix is built: always
    with the primal-dual system, and otherwise when the two shifted points lie in the same piece. *)
Definition agrees {O : oracles RSc} (P : @params RSc) (p : @problem RSc) (s : solver_state O) (m : @mults RSc) : Prop :=
  kkt_sys P = KKT_PRIMAL_DUAL \/ same_piece (product_of (sets s) (map f_nr (p_cons p))) (m_shift m) (m_shift_pd m).

(** The slope of the merit function along x, from the gradients the solver has stored. *)
Definition slope {O : oracles RSc} (p : @problem RSc) (d : diag (K := RSc) (o_fac O) (o_bfgs O)) (x : nat -> R) : R :=
  rsum (p_ndx p) (fun i => nth i (d_mg _ _ d) 0 * x i) + rsum (rows_of (p_cons p)) (fun k => nth k (d_md _ _ d) 0 * x (p_ndx p + k)%nat).

(** The function G solves systems with the symmetric matrix whose lower triangle is A exactly. *)
Definition exact_solver (N : nat) (A : nat -> nat -> R) (G : list R -> list R) : Prop :=
  forall b, length b = N -> length (G b) = N /\ solves N A (fun i => nth i (G b) 0) (fun i => nth i b 0).

(** When the signature of the factorisation of a symmetric regularised matrix passes the test of the
    solver, that matrix is positive definite in the sense of [al_convex] and is solved exactly. *)
Definition faithful (O : oracles RSc) (ndx nd : nat) : Prop :=
  forall F M, let N := (ndx + nd)%nat in square N M -> sym N M -> regularised ndx N (entries M) ->
    check_inertia ndx nd (o_signature O (o_compute O F M)) = Some INERTIA_OK ->
    al_convex ndx N (entries M) /\ exact_solver N (entries M) (o_solve O (o_compute O F M)).

(** The same for the factorisations with [good]. *)
Definition faithful_on (O : oracles RSc) (good : o_fac O -> Prop) (ndx nd : nat) : Prop :=
  forall F M, let N := (ndx + nd)%nat in square N M -> sym N M -> regularised ndx N (entries M) -> good (o_compute O F M) ->
    check_inertia ndx nd (o_signature O (o_compute O F M)) = Some INERTIA_OK ->
    al_convex ndx N (entries M) /\ exact_solver N (entries M) (o_solve O (o_compute O F M)).

(** The state in the result of a pass. *)
Definition state_of {O : oracles RSc} (r : pass_result (K := RSc) (o_fac O) (o_bfgs O)) : solver_state O :=
  match r with Stop _ _ s => s | Next _ _ s _ => s end.

(** The merit function decreases fast enough: by the fraction c1 of what its slope predicts. *)
Definition enough (c1 slope phi0 alpha phi : R) : Prop := phi <= phi0 + c1 * alpha * slope.
