(** Specification for what SUCCESS says about the objective (C105). *)
From Coq Require Import Reals List Arith.
From Verif Require Import Scalar Cset_model Cset_spec Problem_model Solver_model Solver_spec Lin_spec.
Import ListNotations.
Local Open Scope R_scope.

(** Seen from x, the objective lies above its tangent, and the constraint functions are affine. *)
Definition convex_program (p : @problem RSc) (x : list R) : Prop :=
  forall y fx fy g J cx cy, length y = p_ndx p -> p_cost p x = Some fx -> p_cost p y = Some fy -> p_grad p x = Some g ->
    stacked_jacobian (p_ndx p) x (p_cons p) J -> stacked_values x (p_cons p) cx -> stacked_values y (p_cons p) cy ->
    fx + rsum (p_ndx p) (fun i => nth i g 0 * (nth i y 0 - nth i x 0)) <= fy /\
    forall k, (k < rows_of (p_cons p))%nat -> nth k cy 0 = nth k cx 0 + rsum (p_ndx p) (fun i => nth i (nth k J []) 0 * (nth i y 0 - nth i x 0)).
(** Sum of the absolute differences of the entries. *)
Definition far (n : nat) (x y : list R) : R := rsum n (fun i => Rabs (nth i x 0 - nth i y 0)).
