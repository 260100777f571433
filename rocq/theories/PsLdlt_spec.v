(** Specification for the pivoted factorisations of other libraries (C97). *)
From Coq Require Import Reals List Bool Arith ZArith Permutation.
From Verif Require Import Scalar Symb_model Armijo_model Solver_model Solver_spec Lin_spec Ldlt_model Ldlt_spec Bk_spec Descent_spec.
Import ListNotations.
Local Open Scope R_scope.

(** What the external factorisation of the n x n matrix with the lower triangle A has to deliver: p and pt list a permutation and its
    inverse, and ld holds the factors of A renumbered by p. *)
Definition ps_factored (n : nat) (A : nat -> nat -> R) (p pt : list nat) (ld : nat -> nat -> R) : Prop :=
  Permutation (seq 0 n) p /\ Permutation (seq 0 n) pt /\ (forall i, (i < n)%nat -> nth (nth i p 0%nat) pt 0%nat = i) /\
  exists L D, factor_of n (renumber p A) L D /\ stores n ld L D.
(** The sign of each of the first n entries of D. *)
Definition signs (n : nat) (D : nat -> R) (sig : list Z) : Prop :=
  length sig = n /\ forall i, (i < n)%nat -> (0 < D i /\ nth i sig 0%Z = 1%Z) \/ (D i < 0 /\ nth i sig 0%Z = (-1)%Z) \/ (D i = 0 /\ nth i sig 0%Z = 0%Z).
(** The factorisation of M is an LDL' factorisation with some symmetric pivoting, the signature lists the signs of D, and systems are
    solved exactly unless a pivot is negligible.  This holds for the wrapper of ProxSuite (C97_proxsuite_pivoted), and it is the documented
    behaviour of Eigen::LDLT, which is used without a wrapper. *)
Definition pivoted (O : oracles RSc) (N : nat) (M : list (list R)) : Prop := forall F, exists p L D, let F' := o_compute O F M in
  Permutation (seq 0 N) p /\ factor_of N (renumber p (entries M)) L D /\ signs N D (o_signature O F') /\
  ((forall i, (i < N)%nat -> tiny (K := RSc) < Rabs (D i)) -> exact_solver N (entries M) (o_solve O F')).
