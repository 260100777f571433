(** Model of include/proxsuite-nlp/problem-base.hpp (layout of the constraints) and of the
    per-constraint [solve] overload of include/proxsuite-nlp/prox-solver.hxx:31-49. *)
From Coq Require Import List Bool Arith.
From Verif Require Import Scalar Cset_model.
Import ListNotations.

(** Where a NaN check can fire (macro PROXSUITE_NLP_RAISE_IF_NAN_NAME, exceptions.hpp:12-20;
    call sites prox-solver.hxx:350, 351, 434, 457, 458, 459, 463). *)
Inductive nan_site := N_kkt_rhs | N_kkt_matrix | N_pd_step | N_alpha | N_x_trial | N_lams_trial | N_merit.

(** Exceptions that leave the library: multiplier count (prox-solver.hxx:39-43), missing setup
    (prox-solver.hxx:57-60), NaN checks, exceptions of user functions, invalid inertia signature
    (ldlt-allocator.hpp:213-216), wrong size (exceptions.hpp:12-15; function-ops.hpp:25-28), wrong
    argument index (vector-space.hpp:68), invalid target point (state-residual.hpp:37-40), function
    that is not scalar (cost-function.hpp:16-19), BFGS object without dimension
    (bfgs-strategy.hpp:35-38). *)
Inductive err := ErrCount | ErrSetup | ErrNaN (s : nan_site) | ErrUser | ErrSignature | ErrDim | ErrArg | ErrPoint | ErrCast | ErrBfgs.

(** Outcome of a call: normal return, exception (exceptions.hpp:12-15), undefined behaviour (an Eigen
    size assertion that is compiled out in release builds), or the evaluation budget of the model is used up. *)
Inductive outcome (A : Type) : Type := Ret (a : A) | Throw (e : err) | UB | Fuel.
Arguments Ret {A}. Arguments Throw {A}. Arguments UB {A}. Arguments Fuel {A}.

(** Sequencing of C++ statements, as in problem-base.hpp:76-83. *)
Definition bind {A B} (m : outcome A) (f : A -> outcome B) : outcome B :=
  match m with Ret a => f a | Throw e => Throw e | UB => UB | Fuel => Fuel end.
Declare Scope out_scope.
Delimit Scope out_scope with out.
Notation "'do' x <- m ; f" := (bind m (fun x => f)) (at level 200, x pattern, m at level 100, f at level 200) : out_scope.
(** An operation whose [None] is undefined behaviour (out of range access, problem-base.hpp:43-45). *)
Definition ub {A} (o : option A) : outcome A := match o with Some a => Ret a | None => UB end.
(** A call of a user function (problem-base.hpp:77, 81); [None]: it throws. *)
Definition user {A} (o : option A) : outcome A := match o with Some a => Ret a | None => Throw ErrUser end.

(** problem-base.hpp:107-111: [constraints_] (only the output dimensions matter here), [ncs_],
    [indices_], [nc_total_].  Sizes are C++ [int], modelled without overflow. *)
Record layout := mkLayout { ly_dims : list nat; ly_ncs : list nat; ly_indices : list nat; ly_total : nat }.

(** problem-base.hpp:119-125, the loop of [reset_constraint_dim_vars]. *)
Fixpoint reset_loop (nrs : list nat) (cursor : nat) (ncs idx : list nat) : list nat * list nat * nat :=
  match nrs with
  | [] => (ncs, idx, cursor)
  | nr :: r => reset_loop r (cursor + nr) (ncs ++ [nr]) (idx ++ [cursor])
  end.
(** problem-base.hpp:114-127 [reset_constraint_dim_vars]. *)
Definition reset_dims (p : layout) : layout :=
  let '(ncs, idx, total) := reset_loop (ly_dims p) 0 [] [] in
  mkLayout (ly_dims p) ncs idx total.
(** problem-base.hpp:34-41, the constructor. *)
Definition mk_layout (dims : list nat) : layout := reset_dims (mkLayout dims [] [] 0).
(** problem-base.hpp:59-62 [addConstraint]. *)
Definition add_constraint (nr : nat) (p : layout) : layout :=
  reset_dims (mkLayout (ly_dims p ++ [nr]) (ly_ncs p) (ly_indices p) (ly_total p)).

(** problem-base.hpp:48 [getNumConstraints]. *)
Definition num_constraints (p : layout) : nat := length (ly_dims p).
(** problem-base.hpp:53 [getConstraintDim]; [None] = out of range. *)
Definition get_dim (p : layout) (i : nat) : option nat := nth_error (ly_ncs p) i.
(** problem-base.hpp:74 [getIndex]; [None] = out of range. *)
Definition get_index (p : layout) (i : nat) : option nat := nth_error (ly_indices p) i.
(** problem-base.hpp:64-70 [getSegment], [getConstSegment]. *)
Definition get_segment {A} (p : layout) (v : list A) (i : nat) : option (list A) :=
  match get_index p i, get_dim p i with
  | Some s, Some n => segment s n v
  | _, _ => None
  end.

(** problem-base.hpp:130-141 [createConstraintWiseView]: the list of all segments. *)
Definition views {A} (p : layout) (v : list A) : option (list (list A)) :=
  fold_right (fun i acc => match get_segment p v i, acc with Some s, Some l => Some (s :: l) | _, _ => None end)
             (Some []) (seq 0 (num_constraints p)).

(** prox-solver.hxx:44-47: the loop writing [lams0[i]] into its segment. *)
Fixpoint pack_loop {A} (p : layout) (i : nat) (lams0 : list (list A)) (new_lam : list A) : outcome (list A) :=
  match lams0 with
  | [] => Ret new_lam
  | l :: r =>
      match get_index p i, get_dim p i with
      | Some s, Some n =>
          if Nat.eqb (length l) n && Nat.leb (s + n) (length new_lam)
          then pack_loop p (S i) r (write_segment s l new_lam)
          else UB
      | _, _ => UB
      end
  end.
(** prox-solver.hxx:31-49: the flat vector passed on to the other overload ([zero] is the
    scalar 0). *)
Definition pack_lams {A} (zero : A) (p : layout) (lams0 : list (list A)) : outcome (list A) :=
  if Nat.eqb (num_constraints p) (length lams0)
  then pack_loop p 0 lams0 (repeat zero (ly_total p))
  else Throw ErrCount.
