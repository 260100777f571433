(** Specification of first-order optimality and of the other solver notions, over the reals,
    independent of the model's linear algebra. *)
From Coq Require Import Reals List Bool ZArith Arith.
From Verif Require Import Scalar Cset_model Cset_spec Problem_model Solver_model.
Import ListNotations.
Local Open Scope R_scope.

(** Total number of constraint rows of the problem. *)
Fixpoint rows_of (fs : list (@cfun RSc)) : nat :=
  match fs with [] => 0%nat | f :: r => (f_nr f + rows_of r)%nat end.
(** [c] stacks the values of the constraint functions at [x]. *)
Inductive stacked_values (x : list R) : list (@cfun RSc) -> list R -> Prop :=
| sv_nil : stacked_values x [] []
| sv_cons f fs v c : f_val f x = Some v -> length v = f_nr f -> stacked_values x fs c ->
    stacked_values x (f :: fs) (v ++ c).
(** [J] stacks their Jacobians, row after row; every row has [n] entries. *)
Inductive stacked_jacobian (n : nat) (x : list R) : list (@cfun RSc) -> list (list R) -> Prop :=
| sj_nil : stacked_jacobian n x [] []
| sj_cons f fs A J : f_jac f x = Some A -> length A = f_nr f -> Forall (fun row => length row = n) A ->
    stacked_jacobian n x fs J -> stacked_jacobian n x (f :: fs) (A ++ J).

(** Entry [i] of the gradient of the Lagrangian: g_i + sum over rows k of lam_k J_(k,i). *)
Fixpoint jt_lam (J : list (list R)) (lam : list R) (i : nat) : R :=
  match J, lam with
  | row :: J', l :: lam' => l * nth i row 0 + jt_lam J' lam' i
  | _, _ => 0
  end.
Definition lagrangian_grad (g : list R) (J : list (list R)) (lam : list R) (i : nat) : R :=
  nth i g 0 + jt_lam J lam i.

(** [m] is the largest absolute value of the family [f 0 .. f (n-1)] (0 if the family is empty). *)
Definition is_max_abs (f : nat -> R) (n : nat) (m : R) : Prop :=
  (forall i, (i < n)%nat -> Rabs (f i) <= m) /\
  ((n = 0%nat /\ m = 0) \/ exists i, (i < n)%nat /\ Rabs (f i) = m).

(** The Cartesian product of the constraint sets. *)
Definition product_of (sets : list rset) (ns : list nat) : rset := CProd (K := RSc) 0 (combine sets ns).
(** Penalty terms only at top level, where the solver's parameter reaches them. *)
Definition flat_l1 (c : rset) : Prop := match c with CProd _ _ => no_l1 c | _ => True end.
(** The sets fit the dimensions of the constraint functions. *)
Definition sets_fit (sets : list rset) (fs : list (@cfun RSc)) : Prop :=
  Forall2 (fun c f => shape c (f_nr f)) sets fs /\ Forall flat_l1 sets.

(** Scaled and shifted constraint value c + mu lam. *)
Fixpoint shifted (c : list R) (mu : R) (lam : list R) : list R :=
  match c, lam with a :: c', l :: lam' => (a + mu * l) :: shifted c' mu lam' | _, _ => [] end.

(** Residuals of the point (x, lam) with parameter mu: [dual] is the largest entry of the gradient
    of the Lagrangian, [prim] the largest entry of c(x) - s where s is the point of the product set
    closest (in the proximal sense, C12) to c(x) + mu lam: c + mu lam - s is normal at s. *)
Definition kkt_residuals (p : @problem RSc) (sets : list rset) (mu : R) (x lam : list R) (prim dual : R) : Prop :=
  exists g J c sl,
    p_grad p x = Some g /\ length g = p_ndx p /\
    stacked_jacobian (p_ndx p) x (p_cons p) J /\ stacked_values x (p_cons p) c /\
    is_max_abs (lagrangian_grad g J lam) (p_ndx p) dual /\
    length sl = rows_of (p_cons p) /\ in_set (product_of sets (map f_nr (p_cons p))) sl /\
    is_max_abs (fun k => nth k c 0 - nth k sl 0) (rows_of (p_cons p)) prim /\
    (forall w, length w = rows_of (p_cons p) -> in_set (product_of sets (map f_nr (p_cons p))) w ->
       inner (minus (shifted c mu lam) sl) (minus w sl)
         <= mu * (penalty (product_of sets (map f_nr (p_cons p))) w - penalty (product_of sets (map f_nr (p_cons p))) sl)).

(** Number of entries equal to [a]. *)
Fixpoint count (a : Z) (l : list Z) : nat :=
  match l with [] => 0%nat | b :: r => ((if Z.eq_dec a b then 1 else 0) + count a r)%nat end.

(** The result and workspace buffers have the sizes of the problem, as left by [setup]. *)
Definition buffers_fit {fac bfgs : Type} (p : @problem RSc) (s : @state RSc fac bfgs) : Prop :=
  let nd := rows_of (p_cons p) in
  length (w_plus _ _ (s_ws _ _ s)) = nd /\ length (w_pdal _ _ (s_ws _ _ s)) = nd /\
  length (r_active (s_res _ _ s)) = nd /\ length (w_vhp _ _ (s_ws _ _ s)) = length (p_cons p).
(** Objective value and Hessian are defined at [x]. *)
Definition defined_at (p : @problem RSc) (x : list R) : Prop :=
  (exists f, p_cost p x = Some f) /\
  exists H, p_hess p x = Some H /\ length H = p_ndx p /\ Forall (fun row => length row = p_ndx p) H.

(** [N] is [M] plus [delta] on the first [ndx] diagonal entries. *)
Definition plus_diag (ndx : nat) (delta : R) (M N : list (list R)) : Prop :=
  length N = length M /\ (forall i, length (nth i N []) = length (nth i M [])) /\
  forall i j, (i < length M)%nat -> (j < length (nth i M []))%nat ->
    nth j (nth i N []) 0 = nth j (nth i M []) 0 + (if (i =? j)%nat && (i <? ndx)%nat then delta else 0).

(** Square and symmetric matrices, as lists of rows. *)
Definition sym (n : nat) (A : list (list R)) : Prop := forall i j, (i < n)%nat -> (j < n)%nat -> nth j (nth i A []) 0 = nth i (nth j A []) 0.
Definition square (n : nat) (A : list (list R)) : Prop := length A = n /\ Forall (fun row => length row = n) A.
