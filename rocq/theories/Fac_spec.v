(** Specification for C94: strongly convex problems. *)
From Coq Require Import Reals List Arith.
From Verif Require Import Scalar Lin_spec Ldlt_spec.
Local Open Scope R_scope.

(** x'Qx >= c |x|^2, and Q is symmetric. *)
Definition strongly_convex (n : nat) (Q : nat -> nat -> R) (c : R) : Prop :=
  (forall i j, (i < n)%nat -> (j < n)%nat -> Q i j = Q j i) /\ forall x, c * rsum n (fun i => x i * x i) <= form n Q x.
