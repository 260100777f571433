(** Specification for the Bunch-Kaufman factorisation, over the reals. *)
From Coq Require Import Reals ZArith List Bool Arith.
From Verif Require Import Scalar Lin_spec Ldlt_spec.
Import ListNotations.
Local Open Scope R_scope.

(** The symmetric matrix with the lower triangle of A has no kernel. *)
Definition nonsingular (n : nat) (A : nat -> nat -> R) : Prop :=
  forall x, (forall i, (i < n)%nat -> mvec n (mirror A) x i = 0) -> forall i, (i < n)%nat -> x i = 0.
(** T is onto. *)
Definition onto (n : nat) (T : nat -> nat -> R) : Prop := forall b, exists x, forall i, (i < n)%nat -> mvec n T x i = b i.
(** The symmetric matrix with the lower triangle of A is T diag(sig) T' with T invertible: by
    Sylvester's law, sig has as many positive, negative and zero entries as A has eigenvalues. *)
Definition congruent (n : nat) (A : nat -> nat -> R) (sig : list Z) : Prop :=
  length sig = n /\ Forall (fun z => z = 1 \/ z = -1 \/ z = 0)%Z sig /\ exists T, onto n T /\
  forall i j, (i < n)%nat -> (j < n)%nat -> mirror A i j = rsum n (fun c => T i c * IZR (nth c sig 0%Z) * T j c).
(** For a KKT matrix [H J'; J -D] given by its lower triangle, D diagonal and positive, np columns in H:
    the value at x of the form with matrix H + J' D^-1 J (the Hessian of the augmented Lagrangian when
    D = mu I). *)
Definition al_form (np N : nat) (A : nat -> nat -> R) (x : nat -> R) : R :=
  form np (mirror A) x + rsum (N - np) (fun i => (rsum np (fun j => A (np + i)%nat j * x j)) ^ 2 / - A (np + i)%nat (np + i)%nat).
(** The last rows and columns of A are a negative diagonal matrix. *)
Definition regularised (np N : nat) (A : nat -> nat -> R) : Prop :=
  (forall i, (np <= i)%nat -> (i < N)%nat -> A i i < 0) /\
  (forall i j, (np <= j)%nat -> (j < i)%nat -> (i < N)%nat -> A i j = 0).
(** Positive definiteness of that form. *)
Definition al_convex (np N : nat) (A : nat -> nat -> R) : Prop :=
  forall x, (exists i, (i < np)%nat /\ x i <> 0) -> 0 < al_form np N A x.
(** Entry (i, j) of a list of rows. *)
Definition entries (M : list (list R)) (i j : nat) : R := nth j (nth i M []) 0.
(** First rows of the pivots, a negative entry of piv marking a pivot of two rows. *)
Inductive pivot_row (piv : nat -> Z) : nat -> Prop :=
| pivot_row_first : pivot_row piv 0
| pivot_row_one : forall k, pivot_row piv k -> (0 <= piv k)%Z -> pivot_row piv (k + 1)
| pivot_row_two : forall k, pivot_row piv k -> (piv k < 0)%Z -> pivot_row piv (k + 2).
(** The growth factor of Bunch and Kaufman, about 2.57 for each eliminated row. *)
Definition growth : R := 1 + 8 / (1 + sqrt 17).
