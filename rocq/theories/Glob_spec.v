(** Specification for the inner loop with the primal-dual system on convex quadratic problems (C104). *)
From Coq Require Import Reals List Arith.
From Verif Require Import Scalar Cset_model Cset_spec Armijo_model Problem_model Solver_model Solver_spec Lin_spec Ldlt_spec Bk_spec Descent_spec Qp_spec Act_spec.
Import ListNotations.
Local Open Scope R_scope.

(** The matrix of the primal-dual system: [Q B'; B -W], where B has the chosen rows of A, and W is mu on the chosen rows and mu/2 on the others. *)
Definition pd_kkt (n m : nat) (Q A : nat -> nat -> R) (mu : R) (sel : nat -> bool) : list (list R) :=
  tab (n + m) (fun i => tab (n + m) (fun j =>
    if (i <? n)%nat then if (j <? n)%nat then Q i j else chosen A sel (j - n)%nat i
    else if (j <? n)%nat then chosen A sel (i - n)%nat j else if (i =? j)%nat then - (if sel (i - n)%nat then mu else mu / 2) else 0)).
(** The factorisation passes the inertia test on it and solves with it exactly, for every choice of active rows. *)
Definition handles_pd (O : oracles RSc) (n m : nat) (Q A : nat -> nat -> R) (mu : R) : Prop :=
  forall sel F, let F' := o_compute O F (pd_kkt n m Q A mu sel) in
    check_inertia n m (o_signature O F') = Some INERTIA_OK /\ exact_solver (n + m) (entries (pd_kkt n m Q A mu sel)) (o_solve O F').

(** z is the proximal point of v for mu times the penalty on the set (the projection when there is no penalty). *)
Definition nearest (C : rset) (m : nat) (mu : R) (v z : nat -> R) : Prop :=
  in_set C (tab m z) /\ forall w, length w = m -> in_set C w -> rsum m (fun k => (v k - z k) * (nth k w 0 - z k)) <= mu * (penalty C w - penalty C (tab m z)).
(** The merit function of the solver at x, l: the objective, twice the envelope of the set at A x - b + mu (le - l/2), and mu |l|^2 / 4. *)
Definition merit_at (n m : nat) Q q A b (C : rset) (mu : R) (le x l : nat -> R) (v : R) : Prop :=
  exists z, nearest C m mu (shift_pd_at n A b mu le x l) z /\
    v = qp_obj n Q q x + 2 * penalty C (tab m z) + rsum m (fun k => (shift_pd_at n A b mu le x l k - z k) * (shift_pd_at n A b mu le x l k - z k)) / mu + mu * rsum m (fun k => l k * l k) / 4.

(** The line search can find steps: it accepts for step lengths up to abar, and gets there before it uses up its evaluations
    or falls to its least step length. *)
Record searches (o : ls_options RSc) (abar : R) : Prop := {
  se_c1 : 0 < armijo_c1 o < 1; se_abar : 0 < abar;
  se_con : 0 < contraction_min o <= contraction_max o /\ contraction_max o < 1;
  se_num : Rmax (contraction_max o) (1 / 2) ^ max_num_steps o <= abar;
  se_min : alpha_min o <= Rmin (contraction_min o) (1 / 2) * abar }.
