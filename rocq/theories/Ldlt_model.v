(** Model of the dense and block-sparse LDLT factorisations:
    include/proxsuite-nlp/linalg/ldlt-base.hpp, dense.hpp, gemmt.hpp, block-triangular.hpp,
    block-ldlt.hpp, block-ldlt.hxx.

    Matrices are index functions with separate sizes; writing a region leaves the other entries as
    they are.  A right-hand side has one column (the code treats the columns of a right-hand side
    one by one).  Eigen's matrix products and triangular solves are written out; their summation
    order is left to right here, unspecified in Eigen. *)
From Coq Require Import ZArith List Bool Arith.
From Verif Require Import Scalar Problem_model Symb_model.
Import ListNotations.

(** Eigen::internal::SignMatrix, used at ldlt-base.hpp:24, 52. *)
Inductive sign := PosSemi | NegSemi | ZeroSign | Indef.

Section Ldlt.
  Context {K : Sc}.
  Local Open Scope out_scope.
  Local Open Scope sc_scope.
  Local Notation M := (mat K).
  Local Notation V := (vecf K).

  (** dense.hpp:18-38 [update_sign_matrix]. *)
  Definition update_sign (s : sign) (x : car K) : sign :=
    match s with
    | PosSemi => if x <? 0 then Indef else s
    | NegSemi => if 0 <? x then Indef else s
    | ZeroSign => if 0 <? x then PosSemi else if x <? 0 then NegSemi else s
    | Indef => s
    end.
  (** dense.hpp:49-58, the branch n <= 1 of [ldlt_in_place_unblocked]. *)
  Definition small_sign (n : nat) (a : M) : sign :=
    if Nat.eqb n 0 then ZeroSign else if 0 <? a 0%nat 0%nat then PosSemi else if a 0%nat 0%nat <? 0 then NegSemi else ZeroSign.
  (** dense.hpp:66: work = l10.transpose().cwiseProduct(d0), stored in the last column. *)
  Definition unb_work (n j : nat) (a : M) : M := fun r c => if Nat.eqb c (n - 1) && Nat.ltb r j then a j r * a r r else a r c.
  (** dense.hpp:68-69: akk -= work.dot(l10). *)
  Definition unb_pivot (n j : nat) (a : M) : M :=
    fun r c => if Nat.eqb c j && Nat.eqb r j then a j j - ssum j (fun t => a t (n - 1)%nat * a j t) else a r c.
  (** dense.hpp:79-83: l21 -= l20 * work, l21 *= 1 / akk. *)
  Definition unb_col (n j : nat) (a : M) : M :=
    fun r c => if Nat.eqb c j && Nat.ltb j r && Nat.ltb r n then (a r j - ssum j (fun t => a r t * a t (n - 1)%nat)) * (1 / a j j) else a r c.
  (** dense.hpp:62-86, one iteration. *)
  Definition unb_step (n : nat) (st : M * sign) (j : nat) : M * sign :=
    let '(a, sg) := st in
    let a2 := freeze n n (unb_pivot n j (unb_work n j a)) in
    let sg' := update_sign sg (a2 j j) in
    if Nat.eqb (j + 1) n then (a2, sg') else (freeze n n (unb_col n j a2), sg').
  (** dense.hpp:44-87 [ldlt_in_place_unblocked]; the returned boolean is always true. *)
  Definition unblocked (n : nat) (a : M) (sg : sign) : M * sign :=
    if Nat.leb n 1 then (a, small_sign n a) else fold_left (unb_step n) (seq 0 n) (a, sg).

  (** dense.hpp:89 [UNBLK_THRESHOLD]. *)
  Definition threshold : nat := 128.
  (** Eigen solve with the transposed unit lower triangle of the bs x bs block at (o, o), from the
      right, for the rows r0 .. r0+m-1 of the columns o .. o+bs-1: dense.hpp:112-114,
      block-ldlt.hpp:74-75, 83-84. *)
  Definition solve_right (o bs r0 m : nat) (a : M) : M :=
    fold_left (fun a q => freeze (r0 + m) (o + bs) (fun r c =>
      if Nat.eqb c (o + q) && Nat.leb r0 r && Nat.ltb r (r0 + m) then a r (o + q)%nat - ssum q (fun t => a r (o + t)%nat * a (o + q)%nat (o + t)%nat) else a r c)) (seq 0 bs) a.
  (** dense.hpp:116-117: work (above the diagonal) = l10. *)
  Definition rec_work (bs n : nat) (a : M) : M := fun r c => if Nat.ltb r bs && Nat.leb bs c && Nat.ltb c n then a c r else a r c.
  (** dense.hpp:118: l10 = l10 * d0.asDiagonal().inverse(). *)
  Definition rec_scale (bs n : nat) (a : M) : M := fun r c => if Nat.ltb c bs && Nat.leb bs r && Nat.ltb r n then a r c * (1 / a c c) else a r c.
  (** dense.hpp:120: the lower triangle of l11 -= l10 * work.transpose(). *)
  Definition rec_update (bs n : nat) (a : M) : M :=
    fun r c => if Nat.leb bs c && Nat.leb c r && Nat.ltb r n then a r c - ssum bs (fun t => a r t * a t c) else a r c.
  (** A view of the block at (o, o) (Eigen::Ref of a.block, dense.hpp:105-107). *)
  Definition view (o : nat) (a : M) : M := fun r c => a (o + r)%nat (o + c)%nat.
  (** Writing back the block of [view] (dense.hpp:105-109, 122). *)
  Definition paste (o m : nat) (b a : M) : M :=
    fun r c => if Nat.leb o r && Nat.ltb r (o + m) && Nat.leb o c && Nat.ltb c (o + m) then b (r - o)%nat (c - o)%nat else a r c.
  (** dense.hpp:93-124 [dense_ldlt_in_place]; [fuel] bounds the recursion depth.  Always returns true. *)
  Fixpoint dense_in_place (fuel n : nat) (a : M) (sg : sign) : outcome (M * sign) :=
    match fuel with
    | O => Fuel
    | S f =>
      if Nat.leb n threshold then Ret (unblocked n a sg) else
      let bs := Nat.div (n + 1) 2 in
      let rem := (n - bs)%nat in
      do r <- dense_in_place f bs (view 0 a) sg;
      let '(l00, sg1) := r in
      let a1 := solve_right 0 bs bs rem (paste 0 bs l00 a) in
      let a2 := rec_update bs n (rec_scale bs n (rec_work bs n a1)) in
      do r <- dense_in_place f rem (view bs a2) sg1;
      let '(l11, sg2) := r in
      Ret (paste bs rem l11 a2, sg2)
    end.

  (** Eigen solve with the unit lower triangle of the n0 x n0 block at (o, o): dense.hpp:132,
      block-triangular.hpp:132. *)
  Definition fwd (o n0 : nat) (L : M) (b : V) : V :=
    fold_left (fun b c => freezev (o + n0) (fun i => if Nat.eqb i (o + c) then b (o + c)%nat - ssum c (fun t => L (o + c)%nat (o + t)%nat * b (o + t)%nat) else b i)) (seq 0 n0) b.
  (** The same for the unit upper triangle: dense.hpp:144, block-triangular.hpp:132. *)
  Definition bwd (o n0 : nat) (U : M) (b : V) : V :=
    fold_left (fun b c => freezev (o + n0) (fun i => if Nat.eqb i (o + c) then b (o + c)%nat - ssum (n0 - 1 - c) (fun t => U (o + c)%nat (o + (c + 1 + t))%nat * b (o + (c + 1 + t))%nat) else b i)) (rev (seq 0 n0)) b.
  (** std::numeric_limits<double>::min(), dense.hpp:136, block-ldlt.hxx:82. *)
  Definition tiny : car K := slit 1 (2 ^ 1022).
  (** dense.hpp:137-142, block-ldlt.hxx:83-88. *)
  Definition dsolve (n : nat) (a : M) (b : V) : V := fun i => if Nat.ltb i n then (if tiny <? sabs (a i i) then b i / a i i else 0) else b i.
  (** dense.hpp:128-146 [dense_ldlt_solve_in_place]. *)
  Definition dense_solve (n : nat) (a : M) (b : V) : V := bwd 0 n (fun r c => a c r) (dsolve n a (fwd 0 n a b)).
  (** dense.hpp:148-160 [dense_ldlt_reconstruct] applied to the matrix [res]. *)
  Definition reconstruct (n : nat) (a res : M) : M :=
    let r1 : M := freeze n n (fun i j => ssum n (fun t => (if Nat.eqb i t then 1 else if Nat.ltb i t then a t i else 0) * res t j)) in
    let r2 : M := fun i j => a i i * r1 i j in
    fun i j => ssum n (fun t => (if Nat.eqb i t then 1 else if Nat.ltb t i then a i t else 0) * r2 t j).
  (** res.setIdentity(), dense.hpp:206, block-ldlt.hxx:64. *)
  Definition ident : M := fun i j => if Nat.eqb i j then 1 else 0.

  (** dense.hpp:164-217 [DenseLDLT]: size and m_matrix, m_info ([None]: not set yet, true: Success),
      m_sign. *)
  Record dldlt := mkDldlt { dl_n : nat; dl_mat : M; dl_ok : option bool; dl_sign : sign }.
  (** dense.hpp:172-174, the constructor from a size. *)
  Definition dldlt_new (n : nat) : dldlt := mkDldlt n (fun _ _ => 0) None ZeroSign.
  (** dense.hpp:182-188 [compute]; the fuel is the size. *)
  Definition dldlt_compute (d : dldlt) (n : nat) (a : M) : outcome dldlt :=
    do r <- dense_in_place (n + 1) n a (dl_sign d);
    Ret (mkDldlt n (fst r) (Some true) (snd r)).
  (** dense.hpp:176-180, the constructor from a matrix. *)
  Definition dldlt_of (n : nat) (a : M) : outcome dldlt := dldlt_compute (dldlt_new n) n a.
  (** dense.hpp:192-195 [solveInPlace]; always returns true. *)
  Definition dldlt_solve (d : dldlt) (b : V) : V := dense_solve (dl_n d) (dl_mat d) b.
  (** dense.hpp:204-209 [reconstructedMatrix]. *)
  Definition dldlt_reconstruct (d : dldlt) : M := reconstruct (dl_n d) (dl_mat d) ident.

  (** ** gemmt.hpp: dst (r x m) += alpha * lhs (r x c) * rhs (m x c) transposed.
      Operands of different sizes in an Eigen expression: undefined behaviour. *)
  (** A column of dst: dst.col(j) changed in the rows f .. f+k-1 by [v p], as written by the loops of
      gemmt.hpp:43-46, 61-64, 87-89, 138-140. *)
  Definition add_col (j f k : nat) (v : nat -> car K) (dst : M) : M := fun p q => if Nat.eqb q j && Nat.leb f p && Nat.ltb p (f + k) then dst p q + v p else dst p q.
  (** gemmt.hpp:23-31 GemmT<Diag, Diag>. *)
  Definition gemm_dd (r m c : nat) (dst lhs rhs : M) (al : car K) : outcome M :=
    if Nat.eqb (Nat.min r c) (Nat.min c m) && Nat.leb (Nat.min r c) (Nat.min r m)
    then Ret (fun p q => if Nat.eqb p q && Nat.ltb p (Nat.min r c) then dst p q + al * (lhs p p * rhs p p) else dst p q) else UB.
  (** gemmt.hpp:33-48 GemmT<Diag, TriL>: lhs.diagonal() against the first j+1 entries of a column. *)
  Definition gemm_dl (r m c : nat) (dst lhs rhs : M) (al : car K) : outcome M :=
    for_each (seq 0 m) (fun j d =>
      if Nat.leb (j + 1) r && Nat.leb (j + 1) c && Nat.eqb (Nat.min r c) (j + 1) then Ret (add_col j 0 (j + 1) (fun p => al * (lhs p p * rhs j p)) d) else UB) dst.
  (** gemmt.hpp:50-66 GemmT<Diag, TriU>: against the last r-j entries of a column of size c. *)
  Definition gemm_du (r m c : nat) (dst lhs rhs : M) (al : car K) : outcome M :=
    for_each (seq 0 m) (fun j d =>
      if Nat.leb j r && Nat.leb (r - j) c && Nat.eqb (Nat.min r c) (r - j)
      then Ret (add_col j j (r - j) (fun p => al * (lhs (p - j)%nat (p - j)%nat * rhs j (c - (r - j) + (p - j))%nat)) d) else UB) dst.
  (** gemmt.hpp:68-74 GemmT<Diag, Dense>. *)
  Definition gemm_dx (r m c : nat) (dst lhs rhs : M) (al : car K) : outcome M :=
    if Nat.eqb (Nat.min r c) c && Nat.eqb r c then Ret (fun p q => if Nat.ltb p r && Nat.ltb q m then dst p q + al * (lhs p p * rhs q p) else dst p q) else UB.
  (** gemmt.hpp:76-91 GemmT<TriL, Diag>. *)
  Definition gemm_ld (r m c : nat) (dst lhs rhs : M) (al : car K) : outcome M :=
    for_each (seq 0 m) (fun j d => if Nat.leb j r && Nat.ltb j c then Ret (add_col j j (r - j) (fun p => al * rhs j j * lhs p j) d) else UB) dst.
  (** gemmt.hpp:128-142 GemmT<TriU, Diag>. *)
  Definition gemm_ud (r m c : nat) (dst lhs rhs : M) (al : car K) : outcome M :=
    for_each (seq 0 m) (fun j d => if Nat.leb (j + 1) r && Nat.ltb j c then Ret (add_col j 0 (j + 1) (fun p => al * rhs j j * lhs p j) d) else UB) dst.
  (** gemmt.hpp:179-184 GemmT<Dense, Diag>. *)
  Definition gemm_xd (r m c : nat) (dst lhs rhs : M) (al : car K) : outcome M :=
    if Nat.eqb (Nat.min c m) c && Nat.eqb m c then Ret (fun p q => if Nat.ltb p r && Nat.ltb q m then dst p q + al * (lhs p q * rhs q q) else dst p q) else UB.
  (** The products with a triangular view: [w] the entries of dst that are written, [f p q t] the
      term t of entry (p, q) (gemmt.hpp:101-102, 114-115, 123-124, 152-153, 165-166, 174-175, 189-190,
      197-198, 205). *)
  Definition gemm_sum (r m c : nat) (w : nat -> nat -> bool) (f : nat -> nat -> nat -> car K) (dst : M) (al : car K) : outcome M :=
    Ret (fun p q => if Nat.ltb p r && Nat.ltb q m && w p q then dst p q + al * ssum c (f p q) else dst p q).
  (** rhs.transpose().triangularView<Upper>() (gemmt.hpp:102, 153, 190): the lower part of rhs. *)
  Definition low_part (rhs : M) (q t : nat) : car K := if Nat.leb t q then rhs q t else 0.
  (** rhs.transpose().triangularView<Lower>() (gemmt.hpp:115, 166, 198): the upper part of rhs;
      lhs.triangularView (gemmt.hpp:124, 174) likewise. *)
  Definition up_part (rhs : M) (q t : nat) : car K := if Nat.leb q t then rhs q t else 0.
  (** gemmt.hpp:209-318 [gemmt] and the specialisations GemmT at 18-21 (nothing), 93-126, 144-177,
      186-207. *)
  Definition gemmt (r m c : nat) (dst lhs rhs : M) (kl kr : kind) (al : car K) : outcome M :=
    match kl, kr with
    | Zero, _ | _, Zero => Ret dst
    | Diag, Diag => gemm_dd r m c dst lhs rhs al
    | Diag, TriL => gemm_dl r m c dst lhs rhs al
    | Diag, TriU => gemm_du r m c dst lhs rhs al
    | Diag, Dense => gemm_dx r m c dst lhs rhs al
    | TriL, Diag => gemm_ld r m c dst lhs rhs al
    | TriL, TriL => gemm_sum r m c (fun _ _ => true) (fun p q t => lhs p t * low_part rhs q t) dst al
    | TriL, TriU => gemm_sum r m c (fun p q => Nat.leb q p) (fun p q t => lhs p t * up_part rhs q t) dst al
    | TriL, Dense => gemm_sum r m c (fun _ _ => true) (fun p q t => low_part lhs p t * rhs q t) dst al
    | TriU, Diag => gemm_ud r m c dst lhs rhs al
    | TriU, TriL => gemm_sum r m c (fun p q => Nat.leb p q) (fun p q t => lhs p t * low_part rhs q t) dst al
    | TriU, TriU => gemm_sum r m c (fun _ _ => true) (fun p q t => lhs p t * up_part rhs q t) dst al
    | TriU, Dense => gemm_sum r m c (fun _ _ => true) (fun p q t => up_part lhs p t * rhs q t) dst al
    | Dense, Diag => gemm_xd r m c dst lhs rhs al
    | Dense, TriL => gemm_sum r m c (fun _ _ => true) (fun p q t => lhs p t * low_part rhs q t) dst al
    | Dense, TriU => gemm_sum r m c (fun _ _ => true) (fun p q t => lhs p t * up_part rhs q t) dst al
    | Dense, Dense => gemm_sum r m c (fun _ _ => true) (fun p q t => lhs p t * rhs q t) dst al
    end.

  (** ** block-ldlt.hpp: the factorisation *)
  (** Kind of block (i, j) of the whole structure; the views of block-ldlt.hpp:174-177 are counted
      from their first block. *)
  Definition kind_at (s : symb) (i j : nat) : outcome kind := load (sy_data s) (at_ 0 (sy_stride s) i j).
  (** Entries (off+p, o+q), p < m, q < bs, with [w p q], divided by the diagonal: li0 = li0 * d0_inv
      (block-ldlt.hpp:77, 86, 122, 127). *)
  Definition col_scale (o bs off m : nat) (w : nat -> nat -> bool) (a : M) : M :=
    fun r c => if Nat.leb off r && Nat.ltb r (off + m) && Nat.leb o c && Nat.ltb c (o + bs) && w (r - off)%nat (c - o)%nat then a r c * (1 / a c c) else a r c.
  (** li0_copy = li0, stored transposed in the rows of the pivot (block-ldlt.hpp:45-46, 63-64, 76, 85,
      107-108, 115, 121, 126). *)
  Definition col_copy (o bs off m : nat) (w : nat -> nat -> bool) (a : M) : M :=
    fun r c => if Nat.leb o r && Nat.ltb r (o + bs) && Nat.leb off c && Nat.ltb c (off + m) && w (c - off)%nat (r - o)%nat then a c r else a r c.
  (** triangularView<Upper>: the entries p <= q (block-ldlt.hpp:70, 76, 120-121). *)
  Definition w_upper (p q : nat) : bool := Nat.leb p q.
  (** A whole block (block-ldlt.hpp:85-86, 126-127). *)
  Definition w_all (p q : nat) : bool := true.
  (** block-ldlt.hpp:66-91, one block below a dense pivot; false: return false. *)
  Definition col_dense (o bs off m : nat) (k : kind) (a : M) : outcome (M * bool) :=
    match k with
    | TriL => Ret (a, false)
    | TriU => Ret (col_scale o bs off m w_upper (col_copy o bs off m w_upper (solve_right o bs off m a)), true)
    | Diag | Dense => Ret (col_scale o bs off m w_all (col_copy o bs off m w_all (solve_right o bs off m a)), true)
    | Zero => Ret (a, true)
    end.
  (** block-ldlt.hpp:110-132, one block below a diagonal pivot; in the case Diag the diagonals of
      li0 and d0 must have the same size (line 116). *)
  Definition col_diag (o bs off m : nat) (k : kind) (a : M) : outcome (M * bool) :=
    match k with
    | TriL => Ret (a, false)
    | Diag =>
      let a1 := col_copy o bs off m Nat.eqb a in
      if Nat.eqb (Nat.min m bs) bs
      then Ret (fun r c => if Nat.leb o c && Nat.ltb c (o + bs) && Nat.eqb (r - off) (c - o) && Nat.leb off r then a1 r c / a1 c c else a1 r c, true)
      else UB
    | TriU => Ret (col_scale o bs off m w_upper (col_copy o bs off m w_upper a), true)
    | Dense => Ret (col_scale o bs off m w_all (col_copy o bs off m w_all a), true)
    | Zero => Ret (a, true)
    end.
  (** block-ldlt.hpp:58-93, 102-134, the loops over the blocks of the pivot column: [body] gets the
      offset and the size of block i; false ends the factorisation. *)
  Fixpoint col_loop (N : nat) (s : symb) (k : nat) (l : list nat) (off : nat) (body : nat -> nat -> kind -> M -> outcome (M * bool)) (a : M) : outcome (M * bool) :=
    match l with
    | [] => Ret (a, true)
    | i :: l' =>
      do m <- load (sy_lens s) i;
      do kd <- kind_at s i k;
      if Nat.leb (off + m) N then
        do r <- body off m kd (freeze N N a);
        let '(a', ok) := r in if ok then col_loop N s k l' (off + m) body a' else Ret (a', false)
      else UB
    end.
  (** block-ldlt.hpp:143-154, 161-166: one product added to the block at (offj, offi). *)
  Definition block_gemm (o bs offj mj offi mi : nat) (kj ki : kind) (a : M) : outcome M :=
    do d <- gemmt mj mi bs (fun p q => a (offj + p)%nat (offi + q)%nat) (fun p t => a (offj + p)%nat (o + t)%nat) (fun q t => a (o + t)%nat (offi + q)%nat) kj ki (- (1));
    Ret (fun r c => if Nat.leb offj r && Nat.ltb r (offj + mj) && Nat.leb offi c && Nat.ltb c (offi + mi) then d (r - offj)%nat (c - offi)%nat else a r c).
  (** block-ldlt.hpp:156-169, the inner loop. *)
  Fixpoint upd_inner (N : nat) (s : symb) (k o bs offi mi : nat) (ki : kind) (l : list nat) (offj : nat) (a : M) : outcome M :=
    match l with
    | [] => Ret a
    | j :: l' =>
      do mj <- load (sy_lens s) j;
      do kj <- kind_at s j k;
      if Nat.leb (offj + mj) N then
        do a' <- block_gemm o bs offj mj offi mi kj ki a;
        upd_inner N s k o bs offi mi ki l' (offj + mj) (freeze N N a')
      else UB
    end.
  (** block-ldlt.hpp:140-172, the outer loop, over the blocks [l]. *)
  Fixpoint upd_outer (N : nat) (s : symb) (k o bs : nat) (l : list nat) (offi : nat) (a : M) : outcome M :=
    match l with
    | [] => Ret a
    | i :: l' =>
      do mi <- load (sy_lens s) i;
      do ki <- kind_at s i k;
      if Nat.leb (offi + mi) N then
        do a1 <- block_gemm o bs offi mi offi mi ki ki a;
        do a2 <- upd_inner N s k o bs offi mi ki l' (offi + mi) (freeze N N a1);
        upd_outer N s k o bs l' (offi + mi) a2
      else UB
    end.
  (** block-ldlt.hpp:99-101, the signs of a diagonal pivot. *)
  Definition diag_signs (o bs : nat) (a : M) (sg : sign) : sign := fold_left (fun g q => update_sign g (a (o + q)%nat (o + q)%nat)) (seq 0 bs) sg.
  (** block-ldlt.hpp:27-179 [ldlt_in_place_impl] for the last [nb] of the blocks, which start at row o
      of the N x N matrix. *)
  Fixpoint block_in_place (nb N : nat) (s : symb) (o : nat) (a : M) (sg : sign) : outcome (M * sign * bool) :=
    if negb (sy_llt s) then UB else
    match nb with
    | O => Ret (a, sg, true)
    | S nb' =>
      if Nat.leb (N - o) 1 then Ret (a, sg, true) else
      let k := (sy_n s - nb)%nat in
      do bs <- load (sy_lens s) k;
      if Nat.ltb N (o + bs) then UB else
      do kd <- kind_at s k k;
      do r <- match kd with
              | Zero | TriU | Dense => Ret (a, sg, false)
              | TriL =>
                do r <- dense_in_place (bs + 1) bs (view o a) sg;
                do r' <- col_loop N s k (seq (k + 1) nb') (o + bs) (col_dense o bs) (paste o bs (fst r) a);
                Ret (fst r', snd r, snd r')
              | Diag =>
                do r' <- col_loop N s k (seq (k + 1) nb') (o + bs) (col_diag o bs) a;
                Ret (fst r', diag_signs o bs a sg, snd r')
              end;
      let '(a1, sg1, ok) := r in
      if ok then
        do a2 <- upd_outer N s k o bs (seq (k + 1) nb') (o + bs) a1;
        block_in_place nb' N s (o + bs) (freeze N N a2) sg1
      else Ret (a1, sg1, false)
    end.

  (** ** block-triangular.hpp *)
  (** block-triangular.hpp:116-141 [block_triangular_subsolve_impl::run] with a unit diagonal:
      the solved segment and the result. *)
  Definition subsolve (lower : bool) (o n0 : nat) (T : M) (k : kind) (b : V) : V * bool :=
    match k with
    | Zero | Dense => (b, false)
    | Diag => (b, true)
    | TriL => (if lower then fwd o n0 T b else b, true)
    | TriU => (if lower then b else bwd o n0 T b, true)
    end.
  (** block-triangular.hpp:83-97, the loop over the blocks p, which start at row [p0]. *)
  Fixpoint tri_update (s : symb) (T : M) (i o n0 : nat) (l : list nat) (p0 : nat) (b : V) : outcome V :=
    match l with
    | [] => Ret b
    | p :: l' =>
      do nc <- load (sy_lens s) p;
      do kd <- kind_at s p i;
      do d <- gemmt nc 1 n0 (fun r _ => b (p0 + r)%nat) (fun r t => T (p0 + r)%nat (o + t)%nat) (fun _ t => b (o + t)%nat) kd Dense (- (1));
      tri_update s T i o n0 l' (p0 + nc) (freezev (p0 + nc) (fun r => if Nat.leb p0 r && Nat.ltb r (p0 + nc) then d (r - p0)%nat 0%nat else b r))
    end.
  (** block-triangular.hpp:34-103 [solveInPlace], lower case, from the row [o] of the N rows on. *)
  Fixpoint tri_lower (N : nat) (s : symb) (T : M) (l : list nat) (o : nat) (b : V) : outcome (V * bool) :=
    match l with
    | [] => Ret (b, true)
    | i :: l' =>
      do n0 <- load (sy_lens s) i;
      if Nat.ltb N (o + n0) then UB else
      do kd <- kind_at s i i;
      let '(b1, ok) := subsolve true o n0 T kd (freezev N b) in
      if ok then
        do b2 <- tri_update s T i o n0 l' (o + n0) b1;
        tri_lower N s T l' (o + n0) b2
      else Ret (b1, false)
    end.
  (** block-triangular.hpp:34-103 [solveInPlace], upper case, with the first [m] blocks, which occupy
      the first [rem] rows, left to solve. *)
  Fixpoint tri_upper (m : nat) (s : symb) (T : M) (rem : nat) (b : V) : outcome (V * bool) :=
    match m with
    | O => Ret (b, true)
    | S i =>
      do n0 <- load (sy_lens s) i;
      if Nat.ltb rem n0 then UB else
      let o := (rem - n0)%nat in
      do kd <- kind_at s i i;
      let '(b1, ok) := subsolve false o n0 T kd (freezev rem b) in
      if ok then
        do b2 <- tri_update s T i o n0 (seq 0 i) 0 b1;
        tri_upper i s T o b2
      else Ret (b1, false)
    end.

  (** ** BlockLDLT *)
  (** block-ldlt.hpp:211-221, the object: structure part, size, m_matrix, m_info, m_sign. *)
  Record bldlt := mkBldlt { bl_sym : bsym; bl_n : nat; bl_mat : M; bl_ok : option bool; bl_sign : sign }.
  (** block-ldlt.hpp:228-235, the constructor; the matrix is uninitialised ([junk]). *)
  Definition bldlt_new (junk : M) (n : nat) (s : symb) : outcome bldlt :=
    do b <- bsym_new n s; Ret (mkBldlt b n junk None ZeroSign).
  (** The structure functions of Symb_model (setBlockPermutation, findSparsifyingPermutation,
      analyzePattern: block-ldlt.hxx:13-58) act on that part of the object only. *)
  Definition on_sym (f : bsym -> outcome bsym) (b : bldlt) : outcome bldlt :=
    do s <- f (bl_sym b); Ret (mkBldlt s (bl_n b) (bl_mat b) (bl_ok b) (bl_sign b)).
  (** block-ldlt.hpp:324-337, the permuted lower triangle of [a]; the part above the diagonal keeps
      its contents. *)
  Definition permuted_lower (n : nat) (idx : list nat) (a old : M) : M :=
    fun i j => if Nat.leb j i && Nat.ltb i n then
      let pi := nth i idx 0%nat in let pj := nth j idx 0%nat in if Nat.leb pj pi then a pi pj else a pj pi
      else old i j.
  (** block-ldlt.hpp:312-318, 322-344 [compute]; a permutation of another size than the matrix is read out of
      range. *)
  Definition bldlt_compute (b : bldlt) (n : nat) (a : M) : outcome bldlt :=
    if negb (Nat.eqb (length (bs_idx (bl_sym b))) n) then UB else
    do r <- block_in_place (sy_n (bs_struct (bl_sym b))) n (bs_struct (bl_sym b)) 0 (freeze n n (permuted_lower n (bs_idx (bl_sym b)) a (bl_mat b))) (bl_sign b);
    let '(m, sg, ok) := r in
    Ret (mkBldlt (bl_sym b) n m (Some ok) sg).
  (** ldlt-allocator.hpp:114-118, the block-sparse branch of [allocate_ldlt_from_sizes]. *)
  Definition allocate_bldlt (fuel : nat) (junk : M) (prims duals : list nat) : outcome bldlt :=
    do b <- bldlt_new junk (total_dim prims duals) (default_structure prims duals); on_sym (find_permutation fuel) b.
  (** ldlt-allocator.hpp:184-187 [ComputeSignatureVisitor] for DenseLDLT and BlockLDLT: the signs of
      vectorD() (dense.hpp:211, block-ldlt.hpp:295-297), the diagonal of the factored matrix. *)
  Definition d_signature (n : nat) (a : M) : list Z := map (fun i => if 0 <? a i i then 1%Z else if a i i <? 0 then (-1)%Z else 0%Z) (seq 0 n).
  (** P' b and P b for the permutation with the given indices (block-ldlt.hxx:76, 96): row i goes to
      row indices[i]. *)
  Definition perm_inv (n : nat) (idx : list nat) (b : V) : V := freezev n (fun i => if Nat.ltb i n then b (nth i idx 0%nat) else b i).
  (** P b for the same permutation (block-ldlt.hxx:96). *)
  Definition perm_fwd (n : nat) (idx : list nat) (b : V) : V :=
    fold_left (fun x i => fun r => if Nat.eqb r (nth i idx 0%nat) then b i else x r) (seq 0 n) b.
  (** block-ldlt.hxx:72-98 [solveInPlace]: both triangular solves are run, the results are or-ed. *)
  Definition bldlt_solve (b : bldlt) (x : V) : outcome (V * bool) :=
    let n := bl_n b in let y := bl_sym b in
    let x0 := perm_inv n (bs_idx y) x in
    do r <- tri_lower n (bs_struct y) (bl_mat b) (seq 0 (sy_n (bs_struct y))) 0 x0;
    let x1 := freezev n (dsolve n (bl_mat b) (fst r)) in
    do r' <- tri_upper (sy_n (bs_tr y)) (bs_tr y) (fun i j => bl_mat b j i) n x1;
    Ret (perm_fwd n (bs_idx y) (freezev n (fst r')), snd r || snd r').
  (** block-ldlt.hxx:60-70 [reconstructedMatrix]: P (L D L') P'. *)
  Definition bldlt_reconstruct (b : bldlt) : M :=
    let n := bl_n b in let idx := bs_idx (bl_sym b) in
    let sym : M := fun i j => if Nat.leb j i then bl_mat b i j else bl_mat b j i in
    let res := reconstruct n sym ident in
    fold_left (fun x i => fold_left (fun x j => fun r c => if Nat.eqb r (nth i idx 0%nat) && Nat.eqb c (nth j idx 0%nat) then res i j else x r c) (seq 0 n) x) (seq 0 n) res.
End Ldlt.
Arguments dldlt : clear implicits.
Arguments bldlt : clear implicits.
