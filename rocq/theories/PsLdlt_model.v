(** Model of include/proxsuite-nlp/linalg/proxsuite-ldlt-wrap.hpp, the PROXSUITE alternative of the variant ldlt_.

    The factorisation itself is code of another library (proxsuite/linalg/dense/ldlt.hpp); it is a parameter here, from the size and the matrix to
    the index lists of the permutations P and P' and to the matrix that holds L below the diagonal and D on it.  The memory of the stack ldl_stack is
    not modelled; a right-hand side has one column. *)
From Coq Require Import List Bool Arith ZArith.
From Verif Require Import Scalar Problem_model Symb_model Ldlt_model.
Import ListNotations.
Local Open Scope sc_scope.

Section PsLdlt.
  Context {K : Sc}.
  Local Notation M := (mat K).
  Local Notation V := (vecf K).
  Variable factorize : nat -> M -> list nat * list nat * M.

  (** proxsuite-ldlt-wrap.hpp:54-56, the members m_ldlt (its size, p(), pt(), ld_col()) and m_info, and the inherited m_sign (ldlt-base.hpp:47-49). *)
  Record psldlt := mkPs { ps_n : nat; ps_p : list nat; ps_pt : list nat; ps_ld : M; ps_ok : option bool; ps_sign : sign }.
  (** proxsuite-ldlt-wrap.hpp:58-68, the constructor: memory is reserved, the factorisation is empty. *)
  Definition ps_new : psldlt := mkPs 0 [] [] (fun _ _ => 0) None ZeroSign.
  (** proxsuite-ldlt-wrap.hpp:70-79 [compute]: m_info is always Success, m_sign is not written. *)
  Definition ps_compute (f : psldlt) (n : nat) (a : M) : psldlt :=
    let '(p, pt, ld) := factorize n a in mkPs n p pt ld (Some true) (ps_sign f).
  (** proxsuite-ldlt-wrap.hpp:27-36, the loop over the diagonal. *)
  Definition ps_diag (n : nat) (ld : M) (b : V) : V :=
    fold_left (fun b i => freezev n (fun r => if Nat.eqb r i then (if tiny <? sabs (ld i i) then b i / ld i i else 0) else b r)) (seq 0 n) b.
  (** proxsuite-ldlt-wrap.hpp:17-38 [solve_impl]. *)
  Definition ps_solve_impl (n : nat) (ld : M) (b : V) : V := bwd 0 n (fun r c => ld c r) (ps_diag n ld (fwd 0 n ld b)).
  (** proxsuite-ldlt-wrap.hpp:81-99 [solveInPlace]; always returns true.  A permutation with the index list q moves row i to row q[i]. *)
  Definition ps_solve (f : psldlt) (b : V) : V :=
    let work := ps_solve_impl (ps_n f) (ps_ld f) (perm_fwd (ps_n f) (ps_pt f) b) in perm_fwd (ps_n f) (ps_p f) work.
  (** proxsuite-ldlt-wrap.hpp:108-110 [vectorD]. *)
  Definition ps_vectorD (f : psldlt) : V := fun i => ps_ld f i i.
  (** proxsuite-ldlt-wrap.hpp:112-124 [reconstructedMatrix]: U, then D U, L (D U), times P' from the right
      (column j becomes column pt[j]), times P from the left. *)
  Definition ps_reconstruct (f : psldlt) : M :=
    let n := ps_n f in let ld := ps_ld f in
    let r1 : M := fun i j => if Nat.eqb i j then 1 else if Nat.ltb i j then ld j i else 0 in
    let r2 : M := fun i j => ps_vectorD f i * r1 i j in
    let r3 : M := freeze n n (fun i j => ssum n (fun t => (if Nat.eqb i t then 1 else if Nat.ltb t i then ld i t else 0) * r2 t j)) in
    let r4 : M := fun i j => r3 i (nth j (ps_pt f) 0%nat) in
    fun i j => perm_fwd n (ps_p f) (fun r => r4 r j) i.

  (** prox-solver.hxx:403-405 with this alternative. *)
  Definition ps_fac (N : nat) (F : psldlt) (A : list (list (car K))) : psldlt := ps_compute F N (fun i j => nth j (nth i A []) 0).
  (** prox-solver.hxx:406-407, ldlt-allocator.hpp:184-187: the signs of vectorD(). *)
  Definition ps_sig (F : psldlt) : list Z := map (fun i => if 0 <? ps_vectorD F i then 1%Z else if ps_vectorD F i <? 0 then (-1)%Z else 0%Z) (seq 0 (ps_n F)).
  (** prox-solver.hxx:531-532, 538-540. *)
  Definition ps_solve_list (F : psldlt) (b : list (car K)) : list (car K) := map (ps_solve F (fun i => nth i b 0)) (seq 0 (ps_n F)).
End PsLdlt.
Arguments psldlt : clear implicits.
