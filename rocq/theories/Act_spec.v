(** Specification for quadratic problems with inequality constraints (C101). *)
From Coq Require Import Reals List Arith.
From Verif Require Import Scalar Cset_model Cset_spec Armijo_model Problem_model Solver_model Solver_spec Lin_spec Ldlt_spec Bk_spec Descent_spec Qp_spec.
Import ListNotations.
Local Open Scope R_scope.

(** The rows of A that [sel] chooses; the other rows are zero. *)
Definition chosen (A : nat -> nat -> R) (sel : nat -> bool) (k i : nat) : R := if sel k then A k i else 0.
(** The factorisation handles the matrix of the Newton system for every choice of active rows. *)
Definition handles_rows (O : oracles RSc) (n m : nat) (Q A : nat -> nat -> R) (mu : R) : Prop := forall sel, handles O n m Q (chosen A sel) mu.
(** Q is symmetric and positive definite. *)
Definition definite (n : nat) (Q : nat -> nat -> R) : Prop :=
  (forall i j, (i < n)%nat -> (j < n)%nat -> Q i j = Q j i) /\ (forall x, 0 <= form n Q x) /\ (forall x, form n Q x = 0 -> forall i, (i < n)%nat -> x i = 0).

(** A state of a solver with any constraint sets: sizes, the penalty parameter and its copies, no proximal term. *)
Record act_state {O : oracles RSc} (n : nat) (ms : list nat) (p : @problem RSc) (s : solver_state O) : Prop := {
  as_pos : 0 < mu s; as_inv : s_mu_inv _ _ s = 1 / mu s; as_rho : s_rho _ _ s = 0;
  as_fit : sets_fit (sets s) (p_cons p); as_mu : Forall (fun c => mu_of c = mu s) (sets s);
  as_x : length (r_x (res s)) = n; as_l : length (r_lams (res s)) = total ms; as_le : length (w_lams_prev _ _ (wsp s)) = total ms;
  as_plus : length (w_plus _ _ (wsp s)) = total ms; as_pdal : length (w_pdal _ _ (wsp s)) = total ms;
  as_act : length (r_active (res s)) = total ms; as_vhp : length (w_vhp _ _ (wsp s)) = length ms }.

(** x, l solves the subproblem of the method of multipliers: the gradient of the Lagrangian is zero, the point A x - b + mu (le - l) is in
    the set, and l is in the normal cone of the set there. *)
Definition subproblem (n m : nat) (Q : nat -> nat -> R) (q : nat -> R) (A : nat -> nat -> R) (b : nat -> R) (C : rset) (mu : R) (le x l : nat -> R) : Prop :=
  let z := fun k => qp_con n A b x k + mu * (le k - l k) in
  (forall i, (i < n)%nat -> qp_lag n m Q q A x l i = 0) /\ in_set C (tab m z) /\
  forall w, length w = m -> in_set C w -> rsum m (fun k => l k * (nth k w 0 - z k)) <= 0.

(** The points whose projections the solver uses: A x - b + mu le, and the same minus half of mu l. *)
Definition shift_at (n : nat) A b (mu : R) (le x : nat -> R) (k : nat) : R := qp_con n A b x k + mu * le k.
Definition shift_pd_at (n : nat) A b (mu : R) (le x l : nat -> R) (k : nat) : R := shift_at n A b mu le x k - 1 / 2 * mu * l k.
(** Both lie in the same piece of the set at x, l and at y, k. *)
Definition right_pieces (n m : nat) A b (C : rset) (mu : R) (le x l y k : nat -> R) : Prop :=
  same_piece C (tab m (shift_at n A b mu le x)) (tab m (shift_at n A b mu le y)) /\
  same_piece C (tab m (shift_pd_at n A b mu le x l)) (tab m (shift_pd_at n A b mu le y k)).

(** z is the projection of v on the set. *)
Definition projected (C : rset) (m : nat) (v z : nat -> R) : Prop :=
  in_set C (tab m z) /\ forall w, length w = m -> in_set C w -> rsum m (fun k => (v k - z k) * (nth k w 0 - z k)) <= 0.
(** The point z is at distance g at least from the limits of the set, row by row; there is no penalty. *)
Fixpoint clear_of (g : R) (c : rset) (z : list R) {struct c} : Prop :=
  match c with
  | CEq _ => True
  | CNeg _ => Forall (fun a => g <= Rabs a) z
  | CBox _ lo up => Forall2 (fun l a => g <= Rabs (a - l)) lo z /\ Forall2 (fun u a => g <= Rabs (a - u)) up z
  | CL1 _ => False
  | CProd _ comps =>
      (fix go (cs : list (rset * nat)) (z : list R) {struct cs} : Prop :=
         match cs with
         | [] => True
         | (c', n) :: r => clear_of g c' (firstn n z) /\ go r (skipn n z)
         end) comps z
  end.
