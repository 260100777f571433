(** Specification of the LDLT factorisations over the reals. *)
From Coq Require Import Reals List Bool Arith.
From Verif Require Import Scalar Problem_model Symb_model Lin_spec Symb_spec Ldlt_model.
Import ListNotations.
Local Open Scope R_scope.

(** The symmetric matrix with the lower triangle of A is L D L'. *)
Definition factor_of (n : nat) (A L : nat -> nat -> R) (D : nat -> R) : Prop :=
  unit_lower n L /\ forall i j, (j <= i)%nat -> (i < n)%nat -> A i j = ldl n L D i j.
(** a stores L below its diagonal and D on it. *)
Definition stores (n : nat) (a L : nat -> nat -> R) (D : nat -> R) : Prop :=
  (forall i j, (j < i)%nat -> (i < n)%nat -> a i j = L i j) /\ (forall i, (i < n)%nat -> a i i = D i).
(** Mirror the lower triangle. *)
Definition mirror (A : nat -> nat -> R) (i j : nat) : R := if Nat.leb j i then A i j else A j i.
(** What a sign says about n numbers. *)
Definition sign_is (n : nat) (D : nat -> R) (s : sign) : Prop :=
  match s with
  | PosSemi => (exists i, (i < n)%nat /\ 0 < D i) /\ forall i, (i < n)%nat -> 0 <= D i
  | NegSemi => (exists i, (i < n)%nat /\ D i < 0) /\ forall i, (i < n)%nat -> D i <= 0
  | ZeroSign => forall i, (i < n)%nat -> D i = 0
  | Indef => (exists i, (i < n)%nat /\ 0 < D i) /\ exists i, (i < n)%nat /\ D i < 0
  end.
(** x solves the system with the symmetric matrix given by the lower triangle of A. *)
Definition solves (n : nat) (A : nat -> nat -> R) (x b : nat -> R) : Prop := forall i, (i < n)%nat -> mvec n (mirror A) x i = b i.

(** Block sizes for which the structured product is defined and right: dst is r x m, lhs r x c, rhs m x c. *)
Definition sizes (kl kr : kind) (r m c : nat) : Prop :=
  match kl, kr with
  | Diag, Diag => Nat.min r c = Nat.min c m
  | Diag, Dense => r = c
  | Dense, Diag => m = c
  | TriL, Diag => (m <= c)%nat /\ (m <= r + 1)%nat
  | TriU, Diag => (m <= c)%nat /\ (m <= r)%nat
  | Diag, TriL => m = 0%nat \/ m = 1%nat /\ Nat.min r c = 1%nat
  | Diag, TriU => m = 0%nat \/ m = 1%nat /\ r = c
  | _, _ => True
  end.
(** rhs with the entries outside of its structure read as zero. *)
Definition mask (k : kind) (M : nat -> nat -> R) (p q : nat) : R := if mayb k p q then M p q else 0.

(** Structures of factors that the numeric block routines support: diagonal blocks diagonal or lower
    triangular, diagonal blocks below the diagonal square, below a diagonal block no lower triangular
    block, and no diagonal block below an upper triangular one or above one with fewer rows. *)
Definition supported (n : nat) (lens : list nat) (B : nat -> nat -> kind) : Prop :=
  (forall k, (k < n)%nat -> B k k = Diag \/ B k k = TriL) /\
  (forall k i, (k < i)%nat -> (i < n)%nat -> B i k = Diag -> nth i lens 0%nat = nth k lens 0%nat) /\
  (forall k i, (k < i)%nat -> (i < n)%nat -> B i k <> TriL) /\
  (forall k i j, (k < i)%nat -> (i < j)%nat -> (j < n)%nat -> B i k = TriU -> B j k <> Diag) /\
  (forall k i j, (k < i)%nat -> (i < j)%nat -> (j < n)%nat -> B i k = Diag -> B j k = TriU -> (nth i lens 0 <= nth j lens 0)%nat).
(** Structures with zero, dense and square diagonal blocks only, diagonal or dense on the diagonal. *)
Definition simple (n : nat) (lens : list nat) (B : nat -> nat -> kind) : Prop :=
  (forall k, (k < n)%nat -> pivot (B k k)) /\
  (forall i j, (i < n)%nat -> (j < n)%nat -> B i j = Zero \/ B i j = Dense \/ (B i j = Diag /\ nth i lens 0%nat = nth j lens 0%nat)).
(** The matrix A renumbered by idx. *)
Definition renumber (idx : list nat) (A : nat -> nat -> R) (i j : nat) : R := mirror A (nth i idx 0%nat) (nth j idx 0%nat).
(** The quadratic form of A. *)
Definition form (n : nat) (A : nat -> nat -> R) (x : nat -> R) : R := rsum n (fun i => rsum n (fun j => x i * A i j * x j)).
(** A is symmetric, positive definite on the coordinates with [pos] and negative definite on the others. *)
Definition quasi_definite (n : nat) (A : nat -> nat -> R) (pos : nat -> bool) : Prop :=
  msym n A /\
  (forall x, (forall i, (i < n)%nat -> pos i = false -> x i = 0) -> (exists i, (i < n)%nat /\ x i <> 0) -> 0 < form n A x) /\
  (forall x, (forall i, (i < n)%nat -> pos i = true -> x i = 0) -> (exists i, (i < n)%nat /\ x i <> 0) -> form n A x < 0).
(** The lower triangle of a regularised KKT matrix: positive definite in the first np rows and columns,
    a negative diagonal matrix in the last ones. *)
Definition kkt_matrix (np N : nat) (A : nat -> nat -> R) : Prop :=
  (forall x, (exists i, (i < np)%nat /\ x i <> 0) -> 0 < form np (mirror A) x) /\
  (forall i, (np <= i)%nat -> (i < N)%nat -> A i i < 0) /\
  (forall i j, (np <= j)%nat -> (j < i)%nat -> (i < N)%nat -> A i j = 0).
(** Kinds of diagonal blocks that the triangular solves accept. *)
Definition solvable (k : kind) : Prop := k = Diag \/ k = TriL \/ k = TriU.
