(** Sums and matrix notions used by the specifications of the linear algebra. *)
From Coq Require Import Reals List Arith.
Import ListNotations.
Local Open Scope R_scope.

(** f 0 + ... + f (n-1) *)
Fixpoint rsum (n : nat) (f : nat -> R) : R := match n with O => 0 | S k => rsum k f + f k end.
(** L is lower triangular with ones on the diagonal (n rows). *)
Definition unit_lower (n : nat) (L : nat -> nat -> R) : Prop := (forall i, (i < n)%nat -> L i i = 1) /\ (forall i j, (i < j)%nat -> (j < n)%nat -> L i j = 0).
(** Entry (i, j) of L D L'. *)
Definition ldl (n : nat) (L : nat -> nat -> R) (D : nat -> R) (i j : nat) : R := rsum n (fun t => L i t * D t * L j t).
(** Entry i of A x. *)
Definition mvec (n : nat) (A : nat -> nat -> R) (x : nat -> R) (i : nat) : R := rsum n (fun j => A i j * x j).
Definition msym (n : nat) (A : nat -> nat -> R) : Prop := forall i j, (i < n)%nat -> (j < n)%nat -> A i j = A j i.
