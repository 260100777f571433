(** Model of the symbolic block structures: src/block-kind.cpp, linalg/block-kind.hpp,
    ldlt-allocator.hpp:46-93 and the symbolic half of linalg/block-ldlt.hpp, .hxx (headers below
    include/proxsuite-nlp). *)
From Coq Require Import List Bool Arith ZArith.
From Verif Require Import Scalar Problem_model.
Import ListNotations.
Local Open Scope out_scope.

(** block-kind.hpp:22-33 [BlockKind]. *)
Inductive kind := Zero | Diag | TriL | TriU | Dense.
(** The values of the enumerators, block-kind.hpp:22-33. *)
Definition kval (a : kind) : nat := match a with Zero => 0 | Diag => 1 | TriL => 2 | TriU => 3 | Dense => 4 end.
(** Comparison of enumerators, block-kind.cpp:31, 39, 111. *)
Definition keqb (a b : kind) : bool := Nat.eqb (kval a) (kval b).
(** block-kind.cpp:14-27 [trans]. *)
Definition trans (a : kind) : kind := match a with TriL => TriU | TriU => TriL | _ => a end.
(** std::max at block-kind.cpp:34. *)
Definition kmax (a b : kind) : kind := if Nat.ltb (kval a) (kval b) then b else a.
(** block-kind.cpp:30-35 [add]. *)
Definition kadd (a b : kind) : kind :=
  if keqb a Dense || keqb b Dense || Nat.eqb (kval a + kval b) (kval TriL + kval TriU) then Dense else kmax a b.
(** block-kind.cpp:38-43 [mul]. *)
Definition kmul (a b : kind) : kind := if keqb a Zero || keqb b Zero then Zero else kadd a b.

(** A for loop over the listed values of its counter (block-kind.cpp:63-73, 160-208; the order of
    the list is the order of the iterations). *)
Fixpoint for_each {S : Type} (l : list nat) (f : nat -> S -> outcome S) (s : S) : outcome S :=
  match l with [] => Ret s | i :: r => do s' <- f i s; for_each r f s' end.
(** The values a, a+1, ..., b-1 of a loop counter (block-kind.cpp:63-73). *)
Definition range (a b : nat) : list nat := seq a (b - a).
(** Reading one element of an array (block-kind.hpp:95-97); outside of it: undefined behaviour. *)
Definition load {A} (d : list A) (p : nat) : outcome A := ub (nth_error d p).
(** Assignment to one element of an array (block-kind.hpp:92-94). *)
Fixpoint put {A} (d : list A) (p : nat) (v : A) : list A :=
  match d, p with [], _ => [] | _ :: r, O => v :: r | x :: r, S q => x :: put r q v end.
(** The same; outside of the array: undefined behaviour (block-kind.hpp:92-94). *)
Definition store {A} (d : list A) (p : nat) (v : A) : outcome (list A) :=
  if Nat.ltb p (length d) then Ret (put d p v) else UB.

(** block-kind.hpp:48-55 [SymbolicBlockMatrix], with the arrays it points to.  Sizes are [isize],
    modelled without overflow. *)
Record symb := mkSymb { sy_data : list kind; sy_lens : list nat; sy_n : nat; sy_stride : nat; sy_llt : bool }.
(** block-kind.hpp:92-98, 103-107 [ptr], [operator()], for the view starting at [off]. *)
Definition at_ (off stride i j : nat) : nat := off + (i + j * stride).

(** block-kind.cpp:171-186, one iteration of the loop under a dense pivot. *)
Definition fill_column (off stride i : nat) (d : list kind) : outcome (list kind) :=
  do k <- load d (at_ off stride i 0);
  match k with
  | Zero | Diag => store d (at_ off stride i 0) TriU
  | TriL => store d (at_ off stride i 0) Dense
  | TriU | Dense => Ret d
  end.
(** block-kind.cpp:200-207, one iteration of the inner update loop. *)
Definition update_pair (off stride i j : nat) (d : list kind) : outcome (list kind) :=
  do a <- load d (at_ off stride i j);
  do b <- load d (at_ off stride i 0);
  do c <- load d (at_ off stride j 0);
  let v := kadd a (kmul b (trans c)) in
  do d1 <- store d (at_ off stride i j) v;
  store d1 (at_ off stride j i) (trans v).
(** block-kind.cpp:195-208, one iteration of the outer update loop. *)
Definition update_row (off stride n i : nat) (d : list kind) : outcome (list kind) :=
  do a <- load d (at_ off stride i i);
  do b <- load d (at_ off stride i 0);
  do d1 <- store d (at_ off stride i i) (kadd a (kmul b (trans b)));
  for_each (range (S i) n) (fun j d' => update_pair off stride i j d') d1.
(** block-kind.cpp:148-212 [llt_in_place] on the n x n view at [off]; the recursive call is on
    submatrix(1, n-1) (lines 47-51), a view of the same array.  The boolean is the result; the flag
    performed_llt is in [llt_in_place]. *)
Fixpoint llt_view (n : nat) (off stride : nat) (d : list kind) : outcome (list kind * bool) :=
  match n with
  | O => Ret (d, true)
  | S m =>
    do d <- for_each (range 1 n) (fun j d' => store d' (at_ off stride 0 j) Zero) d;
    do p <- load d (at_ off stride 0 0);
    match p with
    | TriL | TriU | Zero => Ret (d, false)
    | Dense | Diag =>
      do d <- match p with
              | Dense =>
                do d1 <- store d (at_ off stride 0 0) TriL;
                for_each (range 1 n) (fun i d' => fill_column off stride i d') d1
              | _ => Ret d
              end;
      do d <- for_each (range 1 n) (fun i d' => update_row off stride n i d') d;
      llt_view m (at_ off stride 1 1) stride d
    end
  end.
(** block-kind.cpp:148-212 [llt_in_place] with the flag: written at lines 151 and 210, not when a
    pivot of the outermost call is refused (line 168). *)
Definition llt_in_place (s : symb) : outcome (symb * bool) :=
  do r <- llt_view (sy_n s) 0 (sy_stride s) (sy_data s);
  let '(d, b) := r in
  let refused := match sy_n s with
    | O => false
    | S _ => match nth_error (sy_data s) 0 with Some Diag | Some Dense => false | _ => true end
    end in
  Ret (mkSymb d (sy_lens s) (sy_n s) (sy_stride s) (if refused then sy_llt s else b), b).

(** block-kind.cpp:59-76 [symbolic_deep_copy]; [None]: perm is nullptr. *)
Definition deep_copy (src dst : symb) (perm : option (list nat)) : outcome symb :=
  let n := sy_n dst in
  let idx i := match perm with Some p => load p i | None => Ret i end in
  do l <- for_each (range 0 n) (fun i l' => do pi <- idx i; do v <- load (sy_lens src) pi; store l' i v) (sy_lens dst);
  do d <- for_each (range 0 n) (fun i d' => for_each (range 0 n) (fun j d'' =>
      do pi <- idx i; do pj <- idx j;
      do v <- load (sy_data src) (at_ 0 (sy_stride src) pi pj);
      store d'' (at_ 0 (sy_stride dst) i j) v) d') (sy_data dst);
  Ret (mkSymb d l n (sy_stride dst) (sy_llt src)).
(** block-kind.hpp:58-61, 66-69, the allocating constructor; the new elements are uninitialised, [junk]. *)
Definition symb_alloc (junk : kind) (njunk n stride : nat) : symb := mkSymb (repeat junk (n * stride)) (repeat njunk n) n stride false.
(** block-kind.cpp:53-57 [copy]. *)
Definition symb_copy (s : symb) : outcome symb := deep_copy s (symb_alloc Dense 0 (sy_n s) (sy_stride s)) None.
(** block-kind.hpp:124-133 [transpose]. *)
Definition symb_transpose (s : symb) : outcome symb :=
  do o <- symb_copy s;
  do d <- for_each (range 0 (sy_n s)) (fun i d' => for_each (range 0 (sy_n s)) (fun j d'' =>
      do v <- load (sy_data s) (at_ 0 (sy_stride s) j i);
      store d'' (at_ 0 (sy_stride o) i j) (trans v)) d') (sy_data o);
  Ret (mkSymb d (sy_lens o) (sy_n o) (sy_stride o) (sy_llt o)).
(** block-kind.cpp:106-117 [check_if_symmetric]. *)
Definition check_if_symmetric (s : symb) : outcome bool :=
  for_each (range 0 (sy_n s)) (fun i (acc : bool) => for_each (range 0 i) (fun j (acc' : bool) =>
    if acc' then
      do a <- load (sy_data s) (at_ 0 (sy_stride s) i j);
      do b <- load (sy_data s) (at_ 0 (sy_stride s) j i);
      Ret (keqb a b)
    else Ret false) acc) true.
(** block-kind.cpp:126-142, the switch of [count_nnz]. *)
Definition block_nnz (k : kind) (li lj : nat) : nat :=
  match k with Zero => 0 | Diag => li | TriL | TriU => li * (li + 1) / 2 | Dense => li * lj end.
(** block-kind.cpp:119-146 [count_nnz]. *)
Definition count_nnz (s : symb) : outcome nat :=
  for_each (range 0 (sy_n s)) (fun i acc => for_each (range 0 (sy_n s)) (fun j acc' =>
    do k <- load (sy_data s) (at_ 0 (sy_stride s) i j);
    do li <- load (sy_lens s) i;
    do lj <- load (sy_lens s) j;
    Ret (acc' + block_nnz k li lj)) acc) 0.

(** std::next_permutation at block-kind.cpp:102, as specified by its usual implementation on a list:
    from the right, find the first ascent a < b, swap a with the rightmost larger element of the
    suffix and reverse the suffix.  [None] stands for false (the sequence was the last one).
    The argument of [np_swap] is the suffix after a, reversed: the first element > a in it is swapped. *)
Fixpoint np_swap (a : nat) (rev_suffix : list nat) : option (nat * list nat) :=
  match rev_suffix with
  | [] => None
  | x :: r => if Nat.ltb a x then Some (x, a :: r) else
      match np_swap a r with Some (y, r') => Some (y, x :: r') | None => None end
  end.
(** std::next_permutation, as called at block-kind.cpp:102. *)
Fixpoint next_perm (l : list nat) : option (list nat) :=
  match l with
  | [] => None
  | a :: r =>
    match next_perm r with
    | Some r' => Some (a :: r')
    | None => match np_swap a (rev r) with Some (x, s) => Some (x :: s) | None => None end
    end
  end.
(** block-kind.cpp:86-103, the do loop of [brute_force_best_permutation]; [best]: best_perm and its
    count after the first iteration. [fuel] bounds the number of iterations. *)
Fixpoint brute_loop (fuel : nat) (src dst : symb) (work : list nat) (perm : list nat) (best : option nat) : outcome (symb * list nat * bool) :=
  match fuel with
  | O => Fuel
  | S f =>
    do c <- deep_copy src dst (Some work);
    do r <- llt_in_place (mkSymb (sy_data c) (sy_lens c) (sy_n c) (sy_stride c) false);
    let '(c', ok) := r in
    if negb ok then Ret (c', perm, false) else
    do nnz <- count_nnz c';
    let better := match best with None => true | Some b => Nat.ltb nnz b end in
    let perm' := if better then work else perm in
    let best' := if better then Some nnz else best in
    match next_perm work with
    | Some w => brute_loop f src c' w perm' best'
    | None => Ret (c', perm', true)
    end
  end.
(** block-kind.cpp:78-104 [brute_force_best_permutation]; true stands for Eigen::Success. *)
Definition brute_force (fuel : nat) (src dst : symb) (perm : list nat) : outcome (symb * list nat * bool) :=
  brute_loop fuel src dst (seq 0 (sy_n src)) perm None.

(** block-ldlt.hpp:211-221, the members of [BlockLDLT] that describe the structure: m_structure,
    m_struct_tr, m_permutation.indices(), m_perm, m_start_idx.  m_perm_inv is never used. *)
Record bsym := mkBsym { bs_struct : symb; bs_tr : symb; bs_idx : list nat; bs_perm : list nat; bs_start : list nat }.
(** block-ldlt.hpp:228-235, the constructor. *)
Definition bsym_new (size : nat) (s : symb) : outcome bsym :=
  do c <- symb_copy s;
  do t <- symb_transpose c;
  Ret (mkBsym c t (seq 0 size) (seq 0 (sy_n c)) (repeat 0 (sy_n c))).
(** block-ldlt.hpp:249-254 [computeStartIndices]; with no block, m_start_idx[0] is out of range. *)
Definition start_indices (st lens : list nat) (n : nat) : outcome (list nat) :=
  do s0 <- store st 0 0;
  for_each (range 0 (n - 1)) (fun i s => do a <- load s i; do l <- load lens i; store s (i + 1) (a + l)) s0.
(** indices.segment(idx, len).setLinSpaced(i0, i0 + len - 1), block-ldlt.hxx:54; a segment that does
    not fit is an Eigen assertion. *)
Definition fill_segment (idx : list nat) (pos len i0 : nat) : outcome (list nat) :=
  if Nat.leb (pos + len) (length idx) then Ret (firstn pos idx ++ seq i0 len ++ skipn (pos + len) idx) else UB.
(** block-ldlt.hxx:43-58 [updateBlockPermutationMatrix]. *)
Definition update_indices (b : bsym) (init : symb) : outcome bsym :=
  do st <- start_indices (bs_start b) (sy_lens init) (sy_n (bs_struct b));
  do r <- for_each (range 0 (sy_n (bs_struct b))) (fun i s =>
      let '(ix, pos) := s in
      do j <- load (bs_perm b) i;
      do len <- load (sy_lens init) j;
      do i0 <- load st j;
      do ix' <- fill_segment ix pos len i0;
      Ret (ix', pos + len)) (bs_idx b, 0);
  Ret (mkBsym (bs_struct b) (bs_tr b) (fst r) (bs_perm b) st).
(** block-ldlt.hxx:35-41 [analyzePattern]. *)
Definition analyze (b : bsym) : outcome (bsym * bool) :=
  if sy_llt (bs_struct b) then Ret (b, true) else
  do r <- llt_in_place (bs_struct b);
  let '(s, flag) := r in
  do t <- symb_transpose s;
  Ret (mkBsym s t (bs_idx b) (bs_perm b) (bs_start b), flag).
(** block-ldlt.hxx:13-23 [setBlockPermutation]; [None]: new_perm is nullptr.  The flag written at
    line 19 is overwritten by the copy of line 20.  copy_n of a list that
    is shorter than the number of blocks reads out of range. *)
Definition set_permutation (b : bsym) (new_perm : option (list nat)) : outcome bsym :=
  do init <- symb_copy (bs_struct b);
  let n := sy_n (bs_struct b) in
  do p <- match new_perm with
          | None => Ret (bs_perm b)
          | Some q => if Nat.leb n (length q) then Ret (firstn n q ++ skipn n (bs_perm b)) else UB
          end;
  do s <- deep_copy init (bs_struct b) (Some p);
  do r <- analyze (mkBsym s (bs_tr b) (bs_idx b) p (bs_start b));
  update_indices (fst r) init.
(** block-ldlt.hxx:25-33 [findSparsifyingPermutation]. *)
Definition find_permutation (fuel : nat) (b : bsym) : outcome bsym :=
  do init <- symb_copy (bs_struct b);
  do r <- brute_force fuel init (bs_struct b) (bs_perm b);
  let '(s, p, _) := r in
  do s' <- deep_copy init s (Some p);
  do a <- analyze (mkBsym s' (bs_tr b) (bs_idx b) p (bs_start b));
  update_indices (fst a) init.

(** ldlt-allocator.hpp:46-93 [create_default_block_structure]; every element is written by one of
    the loops (lines 68-91). *)
Definition default_structure (prims duals : list nat) : symb :=
  let np := length prims in
  let n := np + length duals in
  let entry i j := if Nat.ltb i np || Nat.ltb j np then Dense else if Nat.eqb i j then Diag else Zero in
  mkSymb (flat_map (fun j => map (fun i => entry i j) (seq 0 n)) (seq 0 n)) (prims ++ duals) n n false.
(** ldlt-allocator.hpp:95-99 [get_total_dim_helper]. *)
Definition total_dim (prims duals : list nat) : nat := fold_left Nat.add prims 0 + fold_left Nat.add duals 0.
(** ldlt-allocator.hpp:113-119, the block-sparse branch of [allocate_ldlt_from_sizes]. *)
Definition allocate_block (fuel : nat) (prims duals : list nat) : outcome bsym :=
  do b <- bsym_new (total_dim prims duals) (default_structure prims duals);
  find_permutation fuel b.
