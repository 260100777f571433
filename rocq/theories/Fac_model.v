(** The DENSE and BLOCKSPARSE alternatives of the variant ldlt_ as they are used by the solver: the matrix and the right-hand side
    are lists.  The BUNCHKAUFMAN alternative is in Bk_model. *)
From Coq Require Import List Bool Arith ZArith.
From Verif Require Import Scalar Problem_model Symb_model Ldlt_model.
Import ListNotations.
Local Open Scope sc_scope.

Section Fac.
  Context {K : Sc}.
  Notation rows := (list (list (car K))).

  (** prox-solver.hxx:403-405: compute() with DenseLDLT (dense.hpp:182-188); it always returns (C50, C51). *)
  Definition dense_fac (N : nat) (F : dldlt K) (A : rows) : dldlt K :=
    match dldlt_compute F N (fun i j => nth j (nth i A []) 0) with Ret d => d | _ => F end.
  (** prox-solver.hxx:406-407, ldlt-allocator.hpp:184-187. *)
  Definition dense_sig (F : dldlt K) : list Z := d_signature (dl_n F) (dl_mat F).
  (** prox-solver.hxx:531-532, 538-540: solveInPlace of a vector (dense.hpp:192-195). *)
  Definition dense_solve_list (F : dldlt K) (b : list (car K)) : list (car K) := map (dldlt_solve F (fun i => nth i b 0)) (seq 0 (dl_n F)).

  (** prox-solver.hxx:403-405: compute() with BlockLDLT (block-ldlt.hpp:322-344).  [y] is the structure of the object, which compute
      does not change; undefined behaviour leaves the object as it is (excluded in C73 and C94). *)
  Definition block_fac (y : bsym) (N : nat) (F : bldlt K) (A : rows) : bldlt K :=
    match bldlt_compute (mkBldlt y (bl_n F) (bl_mat F) (bl_ok F) (bl_sign F)) N (fun i j => nth j (nth i A []) 0) with Ret b => b | _ => F end.
  (** prox-solver.hxx:406-407, ldlt-allocator.hpp:184-187. *)
  Definition block_sig (F : bldlt K) : list Z := d_signature (bl_n F) (bl_mat F).
  (** prox-solver.hxx:531-532, 538-540: solveInPlace of a vector (block-ldlt.hxx:72-98); undefined behaviour leaves the vector as it is. *)
  Definition block_solve_list (F : bldlt K) (b : list (car K)) : list (car K) :=
    match bldlt_solve F (fun i => nth i b 0) with Ret (x, _) => map x (seq 0 (bl_n F)) | _ => b end.
End Fac.
