(** Specification of the symbolic block structures. *)
From Coq Require Import Reals List Bool Arith Permutation.
From Verif Require Import Scalar Problem_model Symb_model Lin_spec.
Import ListNotations.

(** Positions of a block that may be non-zero. *)
Definition may (k : kind) (p q : nat) : Prop :=
  match k with Zero => False | Diag => p = q | TriL => q <= p | TriU => p <= q | Dense => True end.
(** The r x c matrix M has structure k. *)
Definition fits (k : kind) (r c : nat) (M : nat -> nat -> R) : Prop :=
  forall p q, p < r -> q < c -> ~ may k p q -> M p q = 0%R.
(** Every matrix with structure a has structure b. *)
Definition finer (a b : kind) : Prop := forall p q, may a p q -> may b p q.

(** Arrays of a symbolic matrix have the sizes its constructors give them. *)
Definition well (s : symb) : Prop := length (sy_data s) = sy_n s * sy_stride s /\ length (sy_lens s) = sy_n s /\ sy_n s <= sy_stride s.
(** Block (i, j), column major. *)
Definition blk (s : symb) (i j : nat) : kind := nth (i + j * sy_stride s) (sy_data s) Zero.
(** Where block i starts. *)
Fixpoint start (lens : list nat) (i : nat) {struct i} : nat := match i, lens with S k, l :: r => l + start r k | _, _ => 0 end.
Definition total (lens : list nat) : nat := start lens (length lens).
(** A matrix (of size [total lens]) has the block structure B. *)
Definition has_structure (n : nat) (lens : list nat) (B : nat -> nat -> kind) (A : nat -> nat -> R) : Prop :=
  forall i j, i < n -> j < n -> fits (B i j) (nth i lens 0) (nth j lens 0) (fun p q => A (start lens i + p) (start lens j + q)).
(** Structure of a symmetric matrix. *)
Definition sym_structure (n : nat) (B : nat -> nat -> kind) : Prop := forall i j, i < n -> j < n -> B j i = trans (B i j).
(** A pivot the symbolic factorisation accepts. *)
Definition pivot (k : kind) : Prop := k = Diag \/ k = Dense.

(** Number of pairs (p, q), p < r, q < c, that may be non-zero. *)
Definition mayb (k : kind) (p q : nat) : bool :=
  match k with Zero => false | Diag => Nat.eqb p q | TriL => Nat.leb q p | TriU => Nat.leb p q | Dense => true end.
Definition places (k : kind) (r c : nat) : nat :=
  length (filter (fun pq => mayb k (fst pq) (snd pq)) (list_prod (seq 0 r) (seq 0 c))).
(** The same over all blocks. *)
Definition all_places (n : nat) (lens : list nat) (B : nat -> nat -> kind) : nat :=
  list_sum (map (fun i => list_sum (map (fun j => places (B i j) (nth i lens 0) (nth j lens 0)) (seq 0 n))) (seq 0 n)).

(** Structure and lengths after renumbering the blocks. *)
Definition reorder {A} (p : list nat) (B : nat -> nat -> A) : nat -> nat -> A := fun i j => B (nth i p 0) (nth j p 0).
Definition reorder_lens (p lens : list nat) : list nat := map (fun j => nth j lens 0) p.
Definition is_perm (n : nat) (p : list nat) : Prop := Permutation (seq 0 n) p.
(** s is a symbolic matrix with n blocks of sizes lens and structure B. *)
Definition same (s : symb) (n : nat) (lens : list nat) (B : nat -> nat -> kind) : Prop :=
  well s /\ sy_n s = n /\ sy_lens s = lens /\ forall i j, i < n -> j < n -> blk s i j = B i j.
(** The factor of the structure renumbered by p has c possibly non-zero entries. *)
Definition fill (src : symb) (p : list nat) (c : nat) : Prop :=
  exists s1 s2, same s1 (sy_n src) (reorder_lens p (sy_lens src)) (reorder p (blk src)) /\ llt_in_place s1 = Ret (s2, true) /\ count_nnz s2 = Ret c.
(** idx moves the blocks of sizes lens as a whole: block i of the result is block (p i). *)
Definition moves_blocks (lens p idx : list nat) : Prop :=
  forall i q, i < length p -> q < nth i (reorder_lens p lens) 0 ->
    nth_error idx (start (reorder_lens p lens) i + q) = Some (start lens (nth i p 0) + q).
(** b holds the symbolic factor of the structure of src renumbered by p, the transposed structure of
    that factor, and the scalar permutation of p. *)
Definition permuted (src : symb) (p : list nat) (b : bsym) : Prop :=
  let n := sy_n src in let lens' := reorder_lens p (sy_lens src) in
  bs_perm b = p /\
  (exists s1 s2 ok, same s1 n lens' (reorder p (blk src)) /\ llt_in_place s1 = Ret (s2, ok) /\ same (bs_struct b) n lens' (blk s2)) /\
  same (bs_tr b) n lens' (fun i j => trans (blk (bs_struct b) j i)) /\
  Permutation (seq 0 (total (sy_lens src))) (bs_idx b) /\ moves_blocks (sy_lens src) p (bs_idx b).
(** Block (j, i) may be non-zero exactly where the transpose of block (i, j) may. *)
Definition sym_pattern (n : nat) (B : nat -> nat -> kind) : Prop := forall i j, i < n -> j < n -> forall p q, may (B j i) p q <-> may (B i j) q p.
