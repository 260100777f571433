(** Model of the memory of BlockLDLT (include/proxsuite-nlp/linalg/block-ldlt.hpp, .hxx) and of
    SymbolicBlockMatrix (include/proxsuite-nlp/linalg/block-kind.hpp): who allocates, shares and frees the
    arrays m_data and segment_lens.  Their contents are in Symb_model; the matrices and std::vectors manage
    their own memory and are left out. *)
From Coq Require Import List Bool Arith.
Import ListNotations.

(** The pointers of m_structure and m_struct_tr (block-kind.hpp:48-50, block-ldlt.hpp:213-214), as
    numbers of arrays, and m_structure.performed_llt (block-kind.hpp:55). *)
Record bl := mkBl { b_data : nat; b_lens : nat; b_tdata : nat; b_tlens : nat; b_llt : bool }.
(** The four pointers, in the order of the delete expressions of block-ldlt.hpp:256-263. *)
Definition ptrs (o : bl) : list nat := [b_data o; b_lens o; b_tdata o; b_tlens o].
(** The arrays allocated so far by block-kind.hpp:58-61 (true: not deleted yet) and the objects at their addresses. *)
Record mem := mkMem { arrays : list bool; blocks : nat -> option bl }.
(** Assignment to the members of one object (block-ldlt.hpp:213-214). *)
Definition set_block (m : mem) (x : nat) (o : option bl) : mem := mkMem (arrays m) (fun y => if Nat.eqb y x then o else blocks m y).
(** block-kind.hpp:57-61, 65-68 and src/block-kind.cpp:53-57 [copy]: two new arrays; the first of them. *)
Definition new2 (m : mem) : mem * nat := (mkMem (arrays m ++ [true; true]) (blocks m), length (arrays m)).
(** delete[] of array i (block-ldlt.hpp:256-263); None: deleted before. *)
Definition delete (a : list bool) (i : nat) : option (list bool) :=
  if nth i a false then Some (firstn i a ++ false :: skipn (S i) a) else None.
(** delete[] of several arrays in turn (block-ldlt.hpp:256-263). *)
Fixpoint deletes (a : list bool) (l : list nat) : option (list bool) :=
  match l with [] => Some a | i :: r => match delete a i with None => None | Some b => deletes b r end end.
(** Reading arrays (block-kind.hpp:92-97): undefined behaviour if one was deleted. *)
Definition readable (a : list bool) (l : list nat) : bool := forallb (fun i => nth i a false) l.

(** block-ldlt.hpp:228-235: copy of the given structure, and its transpose (block-kind.hpp:127-136). *)
Definition construct (m : mem) (x : nat) (llt : bool) : mem :=
  let '(m1, i) := new2 m in
  let '(m2, j) := new2 m1 in
  set_block m2 x (Some (mkBl i (S i) j (S j) llt)).
(** block-ldlt.hxx:35-41 [analyzePattern]: the old arrays of m_struct_tr are not deleted; [ok] is what
    llt_in_place leaves in performed_llt. *)
Definition analyze (m : mem) (x : nat) (o : bl) (ok : bool) : mem :=
  if b_llt o then m else
  let '(m1, j) := new2 m in
  set_block m1 x (Some (mkBl (b_data o) (b_lens o) j (S j) ok)).
(** The operations of a program, by the lines cited at each (block-ldlt.hpp:228-263); objects are named by addresses. *)
Inductive mop :=
| Construct (x : nat) (llt : bool)  (** block-ldlt.hpp:228-235, with a structure of the caller *)
| CopyConstruct (x y : nat)         (** block-ldlt.hpp:237-246; also moves, there is no move constructor *)
| Assign (x y : nat)                (** the implicit copy assignment, also used for moves *)
| Analyze (x : nat) (ok : bool)     (** block-ldlt.hxx:35-41 *)
| Permute (x : nat) (ok : bool)     (** block-ldlt.hxx:13-33: setBlockPermutation, findSparsifyingPermutation *)
| Use (x : nat)                     (** block-ldlt.hpp:312-344, block-ldlt.hxx:72-98: compute, solveInPlace *)
| Delete (x : nat).                 (** block-ldlt.hpp:256-263 *)
(** One operation, by the lines cited at [mop] (block-ldlt.hpp:228-263); None: undefined behaviour, or an object that does not exist (or already exists, for the
    constructors). *)
Definition mstep (m : mem) (o : mop) : option mem :=
  match o with
  | Construct x llt => match blocks m x with Some _ => None | None => Some (construct m x llt) end
  | CopyConstruct x y => match blocks m x, blocks m y with
                         | None, Some q => if readable (arrays m) [b_data q; b_lens q] then Some (construct m x (b_llt q)) else None
                         | _, _ => None
                         end
  | Assign x y => match blocks m x, blocks m y with Some _, Some q => Some (set_block m x (Some q)) | _, _ => None end
  | Analyze x ok => match blocks m x with
                    | Some p => if b_llt p || readable (arrays m) [b_data p; b_lens p] then Some (analyze m x p ok) else None
                    | None => None
                    end
  | Permute x ok => match blocks m x with
                    | Some p => if readable (arrays m) [b_data p; b_lens p] then Some (analyze (fst (new2 m)) x p ok) else None
                    | None => None
                    end
  | Use x => match blocks m x with Some p => if readable (arrays m) (ptrs p) then Some m else None | None => None end
  | Delete x => match blocks m x with
                | Some p => match deletes (arrays m) (ptrs p) with Some a => Some (mkMem a (fun y => if Nat.eqb y x then None else blocks m y)) | None => None end
                | None => None
                end
  end.
(** A program that uses the class of block-ldlt.hpp:205-344: operations in turn. *)
Fixpoint mexec (m : mem) (l : list mop) : option mem :=
  match l with [] => Some m | o :: r => match mstep m o with None => None | Some m1 => mexec m1 r end end.
(** No array and no object: the state before the first constructor (block-ldlt.hpp:228-235). *)
Definition mstart : mem := mkMem [] (fun _ => None).
