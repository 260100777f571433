(** Model of include/proxsuite-nlp/manifold-base.hpp and of modelling/spaces/vector-space.hpp,
    cartesian-product.hpp/.hxx, tangent-bundle.hpp/.hxx.

    Output arguments: the model returns what the allocating overloads (manifold-base.hpp:74-99)
    return, i.e. the output has the declared size; Jacobian outputs are ndx x ndx.  A product of
    spaces is flattened to [segment]s of the coordinate vector with running offsets as in the code. *)
From Coq Require Import List Bool Arith.
From Verif Require Import Scalar Cset_model Problem_model.
Import ListNotations.

Section Manifold.
  Context {K : Sc}.
  Local Open Scope sc_scope.
  Notation vec := (list (car K)).
  Notation rows := (list (list (car K))).

  (** manifold-base.hpp:13-127: a space implemented outside this library (user class, or the wrappers
      modelling/spaces/pinocchio-groups.hpp:17-101 and multibody.hpp:17-104 around Pinocchio).  An
      oracle.  Jacobian functions get the previous content of the output, because the wrappers leave
      it untouched for an unknown [arg]. *)
  Record leaf := mkLeaf {
    l_nx : nat; l_ndx : nat; l_neutral : vec; l_normalized : vec -> bool;
    l_integrate : vec -> vec -> outcome vec; l_difference : vec -> vec -> outcome vec;
    l_Jintegrate : vec -> vec -> nat -> rows -> outcome rows;
    l_Jdifference : vec -> vec -> nat -> rows -> outcome rows;
    l_transport : vec -> vec -> nat -> rows -> outcome rows;
    l_interpolate : vec -> vec -> car K -> outcome vec
  }.
  (** vector-space.hpp:12-77, cartesian-product.hpp:13-123, tangent-bundle.hpp:11-92. *)
  Inductive space := SVec (n : nat) | SLeaf (l : leaf) | SProd (cs : list space) | SBundle (b : space).

  (** [x.segment(c, n)] (cartesian-product.hxx:50, 106), [x.head(n)] (tangent-bundle.hxx:11): out of range is undefined behaviour. *)
  Definition seg (c n : nat) (x : vec) : outcome vec := ub (segment c n x).
  (** [x.tail(n)] (tangent-bundle.hxx:29, 39). *)
  Definition tail_seg (n : nat) (x : vec) : outcome vec :=
    if Nat.leb n (length x) then Ret (skipn (length x - n) x) else UB.
  (** Assignment to an output segment of fixed size [n] (cartesian-product.hxx:78, 91). *)
  Definition fixed {A} (n : nat) (v : list A) : outcome (list A) := if Nat.eqb (length v) n then Ret v else UB.
  (** Assignment to an output block of fixed size (cartesian-product.hxx:151-153). *)
  Definition fixed2 (r c : nat) (M : rows) : outcome rows :=
    if Nat.eqb (length M) r && forallb (fun row => Nat.eqb (length row) c) M then Ret M else UB.
  (** Binary coefficientwise operation with Eigen's size assertion (vector-space.hpp:41, 56). *)
  Definition vop (f : car K -> car K -> car K) (a b : vec) : outcome vec :=
    if Nat.eqb (length a) (length b) then Ret (map2 f a b) else UB.
  (** [setZero()] on an r x c block (cartesian-product.hxx:143). *)
  Definition zeros (r c : nat) : rows := repeat (repeat 0 c) r.
  (** [setIdentity()] and its negative on an n x n block (vector-space.hpp:46, 63, 66). *)
  Definition eye_scaled (a : car K) (n : nat) : rows := map (fun i => repeat 0 i ++ a :: repeat 0 (n - S i)) (seq 0 n).

  (** vector-space.hpp:32-33, cartesian-product.hpp:61-75, tangent-bundle.hpp:30-31. *)
  Fixpoint ndx (s : space) : nat :=
    match s with
    | SVec n => n
    | SLeaf l => l_ndx l
    | SProd cs => list_sum (map ndx cs)
    | SBundle b => 2 * ndx b
    end.
  (** vector-space.hpp:32, cartesian-product.hpp:61-67, tangent-bundle.hpp:30. *)
  Fixpoint nx (s : space) : nat :=
    match s with
    | SVec n => n
    | SLeaf l => l_nx l
    | SProd cs => list_sum (map nx cs)
    | SBundle b => nx b + ndx b
    end.

  (** manifold-base.hpp:29 (default, used by vector-space.hpp), cartesian-product.hxx:8-18,
      tangent-bundle.hxx:8-13. *)
  Fixpoint neutral (s : space) : vec :=
    match s with
    | SVec n => repeat 0 n
    | SLeaf l => l_neutral l
    | SProd cs => concat (map neutral cs)
    | SBundle b => neutral b ++ repeat 0 (ndx b)
    end.

  (** cartesian-product.hxx:48-52 and 63-67, the loops of [split_impl] and [split_vector_impl]
      ([size] is [nx], resp. [ndx], of the component). *)
  Fixpoint split_loop (size : space -> nat) (cs : list space) (c : nat) (x : vec) : outcome (list vec) :=
    match cs with
    | [] => Ret []
    | s :: r => (do p <- seg c (size s) x; do ps <- split_loop size r (c + size s)%nat x; Ret (p :: ps))%out
    end.
  (** cartesian-product.hxx:42-54 [split_impl]. *)
  Definition split (cs : list space) (x : vec) : outcome (list vec) :=
    if Nat.eqb (length x) (nx (SProd cs)) then split_loop nx cs 0 x else Throw ErrDim.
  (** cartesian-product.hxx:56-69 [split_vector_impl]. *)
  Definition split_vector (cs : list space) (v : vec) : outcome (list vec) :=
    if Nat.eqb (length v) (ndx (SProd cs)) then split_loop ndx cs 0 v else Throw ErrDim.
  (** cartesian-product.hxx:76-80 and 89-93, the loops of [merge] and [merge_vector]: the segments are
      consecutive, so the filled output is the concatenation; [xs[i]] out of range or of another size
      is undefined behaviour, further entries of [xs] are ignored. *)
  Fixpoint merge_loop (size : space -> nat) (cs : list space) (xs : list vec) : outcome vec :=
    match cs, xs with
    | [], _ => Ret []
    | s :: r, x :: xr => (do p <- fixed (size s) x; do q <- merge_loop size r xr; Ret (p ++ q))%out
    | _ :: _, [] => UB
    end.
  (** cartesian-product.hxx:71-82, 84-95. *)
  Definition merge (cs : list space) (xs : list vec) : outcome vec := merge_loop nx cs xs.
  (** cartesian-product.hxx:84-95. *)
  Definition merge_vector (cs : list space) (vs : list vec) : outcome vec := merge_loop ndx cs vs.

  (** cartesian-product.hxx:36-38: [res |= component->isNormalized(xs[i])]. *)
  Definition norm_loop (f : space -> vec -> outcome bool) :=
    fix go (cs : list space) (xs : list vec) (res : bool) : outcome bool :=
    match cs, xs with
    | [], _ => Ret res
    | c :: r, x :: xr => (do b <- f c x; go r xr (res || b))%out
    | _ :: _, [] => UB
    end.
  (** manifold-base.hpp:34 (default), cartesian-product.hxx:32-40, tangent-bundle.hpp:35-38. *)
  Fixpoint is_normalized (s : space) (x : vec) : outcome bool :=
    match s with
    | SVec _ => Ret true
    | SLeaf l => Ret (l_normalized l x)
    | SProd cs => (do xs <- split cs x; norm_loop is_normalized cs xs true)%out
    | SBundle b => (do p <- seg 0 (nx b) x; is_normalized b p)%out
    end.

  (** cartesian-product.hxx:102-114. *)
  Definition int_loop (f : space -> vec -> vec -> outcome vec) :=
    fix go (cs : list space) (cq cv : nat) (x v : vec) : outcome vec :=
    match cs with
    | [] => Ret []
    | c :: r =>
        (do sx <- seg cq (nx c) x; do sv <- seg cv (ndx c) v;
         do o <- f c sx sv; do o <- fixed (nx c) o;
         do q <- go r (cq + nx c)%nat (cv + ndx c)%nat x v; Ret (o ++ q))%out
    end.
  (** vector-space.hpp:39-42, cartesian-product.hxx:97-115, tangent-bundle.hxx:23-30. *)
  Fixpoint integrate (s : space) (x v : vec) : outcome vec :=
    match s with
    | SVec n => (do o <- vop sadd x v; fixed n o)%out
    | SLeaf l => (do o <- l_integrate l x v; fixed (l_nx l) o)%out
    | SProd cs => int_loop integrate cs 0 0 x v
    | SBundle b =>
        (do p <- seg 0 (nx b) x; do t <- seg 0 (ndx b) v;
         do o <- integrate b p t;
         do xv <- tail_seg (ndx b) x; do dv <- tail_seg (ndx b) v;
         do w <- vop sadd xv dv; Ret (o ++ w))%out
    end.

  (** cartesian-product.hxx:122-134. *)
  Definition diff_loop (f : space -> vec -> vec -> outcome vec) :=
    fix go (cs : list space) (cq : nat) (x0 x1 : vec) : outcome vec :=
    match cs with
    | [] => Ret []
    | c :: r =>
        (do s0 <- seg cq (nx c) x0; do s1 <- seg cq (nx c) x1;
         do o <- f c s0 s1; do o <- fixed (ndx c) o;
         do q <- go r (cq + nx c)%nat x0 x1; Ret (o ++ q))%out
    end.
  (** vector-space.hpp:54-57, cartesian-product.hxx:117-135, tangent-bundle.hxx:32-40. *)
  Fixpoint difference (s : space) (x0 x1 : vec) : outcome vec :=
    match s with
    | SVec n => (do o <- vop ssub x1 x0; fixed n o)%out
    | SLeaf l => (do o <- l_difference l x0 x1; fixed (l_ndx l) o)%out
    | SProd cs => diff_loop difference cs 0 x0 x1
    | SBundle b =>
        (do p0 <- seg 0 (nx b) x0; do p1 <- seg 0 (nx b) x1;
         do o <- difference b p0 p1;
         do v1 <- tail_seg (ndx b) x1; do v0 <- tail_seg (ndx b) x0;
         do w <- vop ssub v1 v0; Ret (o ++ w))%out
    end.

  (** A matrix [M] of size n x n placed at column [c] of rows of width [w], zeros elsewhere (the blocks of cartesian-product.hxx:143-151). *)
  Definition shifted_rows (c w : nat) (M : rows) : rows :=
    map (fun row => repeat 0 c ++ row ++ repeat 0 (w - c - length row)) M.

  (** cartesian-product.hxx:143-156: after [Jout.setZero()] component i writes the block at (cv, cv);
      the rows of the blocks are consecutive, so the matrix is built block row by block row. *)
  Definition jint_loop (f : space -> vec -> vec -> nat -> rows -> outcome rows) (w : nat) :=
    fix go (cs : list space) (cq cv : nat) (x v : vec) (arg : nat) : outcome rows :=
    match cs with
    | [] => Ret []
    | c :: r =>
        (do sx <- seg cq (nx c) x; do sv <- seg cv (ndx c) v;
         do J <- f c sx sv arg (zeros (ndx c) (ndx c)); do J <- fixed2 (ndx c) (ndx c) J;
         do q <- go r (cq + nx c)%nat (cv + ndx c)%nat x v arg;
         Ret (shifted_rows cv w J ++ q))%out
    end.
  (** vector-space.hpp:44-47 ([arg] ignored), cartesian-product.hxx:137-157, tangent-bundle.hxx:42-52.
      [old]: previous content of the output. *)
  Fixpoint Jintegrate (s : space) (x v : vec) (arg : nat) (old : rows) : outcome rows :=
    match s with
    | SVec n => Ret (eye_scaled 1 n)
    | SLeaf l => l_Jintegrate l x v arg old
    | SProd cs => jint_loop Jintegrate (ndx s) cs 0 0 x v arg
    | SBundle b =>
        (do p <- seg 0 (nx b) x; do t <- seg 0 (ndx b) v;
         do J <- Jintegrate b p t arg (zeros (ndx b) (ndx b)); do J <- fixed2 (ndx b) (ndx b) J;
         Ret (shifted_rows 0 (2 * ndx b) J ++ shifted_rows (ndx b) (2 * ndx b) (eye_scaled 1 (ndx b))))%out
    end.

  (** cartesian-product.hxx:185-198. *)
  Definition jdiff_loop (f : space -> vec -> vec -> nat -> rows -> outcome rows) (w : nat) :=
    fix go (cs : list space) (cq cv : nat) (x0 x1 : vec) (arg : nat) : outcome rows :=
    match cs with
    | [] => Ret []
    | c :: r =>
        (do s0 <- seg cq (nx c) x0; do s1 <- seg cq (nx c) x1;
         do J <- f c s0 s1 arg (zeros (ndx c) (ndx c)); do J <- fixed2 (ndx c) (ndx c) J;
         do q <- go r (cq + nx c)%nat (cv + ndx c)%nat x0 x1 arg;
         Ret (shifted_rows cv w J ++ q))%out
    end.
  (** tangent-bundle.hxx:63-67: diagonal of the velocity block; any other [arg] leaves the zeros. *)
  Definition bundle_diag (arg n : nat) : rows :=
    match arg with
    | 0%nat => eye_scaled (- (1)) n
    | 1%nat => eye_scaled 1 n
    | _ => zeros n n
    end.
  (** vector-space.hpp:59-71, cartesian-product.hxx:179-199, tangent-bundle.hxx:54-68. *)
  Fixpoint Jdifference (s : space) (x0 x1 : vec) (arg : nat) (old : rows) : outcome rows :=
    match s with
    | SVec n => match arg with 0%nat => Ret (eye_scaled (- (1)) n) | 1%nat => Ret (eye_scaled 1 n) | _ => Throw ErrArg end
    | SLeaf l => l_Jdifference l x0 x1 arg old
    | SProd cs => jdiff_loop Jdifference (ndx s) cs 0 0 x0 x1 arg
    | SBundle b =>
        (do p0 <- seg 0 (nx b) x0; do p1 <- seg 0 (nx b) x1;
         do J <- Jdifference b p0 p1 arg (zeros (ndx b) (ndx b)); do J <- fixed2 (ndx b) (ndx b) J;
         Ret (shifted_rows 0 (2 * ndx b) J ++ shifted_rows (ndx b) (2 * ndx b) (bundle_diag arg (ndx b))))%out
    end.

  (** cartesian-product.hxx:164-176: rows [cv, cv+nv) of the matrix are transported in place. *)
  Definition transport_loop (f : space -> vec -> vec -> nat -> rows -> outcome rows) :=
    fix go (cs : list space) (cq cv : nat) (x v : vec) (arg : nat) (J : rows) : outcome rows :=
    match cs with
    | [] => Ret J
    | c :: r =>
        (do sx <- seg cq (nx c) x; do sv <- seg cv (ndx c) v;
         do B <- ub (segment cv (ndx c) J); do B <- f c sx sv arg B; do B <- fixed (ndx c) B;
         go r (cq + nx c)%nat (cv + ndx c)%nat x v arg (write_segment cv B J))%out
    end.
  (** vector-space.hpp:49-50 (does nothing), cartesian-product.hxx:159-177, tangent-bundle.hxx:70-78. *)
  Fixpoint transport (s : space) (x v : vec) (arg : nat) (J : rows) : outcome rows :=
    match s with
    | SVec _ => Ret J
    | SLeaf l => l_transport l x v arg J
    | SProd cs => transport_loop transport cs 0 0 x v arg J
    | SBundle b =>
        (do p <- seg 0 (nx b) x; do t <- seg 0 (ndx b) v;
         do B <- ub (segment 0 (ndx b) J); do B <- transport b p t arg B; do B <- fixed (ndx b) B;
         Ret (write_segment 0 B J))%out
    end.

  (** manifold-base.hpp:121-126, the default [interpolate_impl]. *)
  Definition interpolate_default (s : space) (x0 x1 : vec) (u : car K) : outcome vec :=
    (do d <- difference s x0 x1; integrate s x0 (vscale u d))%out.
  (** vector-space.hpp:73-76, cartesian-product.hpp (no override: the default),
      tangent-bundle.hxx:80-89: the velocity part reads [getBaseTangent], i.e. the first [ndx]
      coordinates (tangent-bundle.hpp:74-78). *)
  Fixpoint interpolate (s : space) (x0 x1 : vec) (u : car K) : outcome vec :=
    match s with
    | SVec n => (do o <- vop sadd (vscale u x1) (vscale (1 - u) x0); fixed n o)%out
    | SLeaf l => (do o <- l_interpolate l x0 x1 u; fixed (l_nx l) o)%out
    | SProd _ => interpolate_default s x0 x1 u
    | SBundle b =>
        (do p0 <- seg 0 (nx b) x0; do p1 <- seg 0 (nx b) x1;
         do o <- interpolate b p0 p1 u;
         do t0 <- seg 0 (ndx b) x0; do t1 <- seg 0 (ndx b) x1;
         Ret (o ++ map2 sadd (vscale (1 - u) t0) (vscale u t1)))%out
    end.

  (** cartesian-product.hpp:28-35 [addComponent] of one manifold. *)
  Definition add_component (cs : list space) (c : space) : list space := cs ++ [c].
  (** cartesian-product.hpp:37-41 [addComponent] of another product. *)
  Definition add_product (cs other : list space) : list space := fold_left add_component other cs.
  (** cartesian-product.hpp:37-41 with [other] the object itself: the range-for iterates over the
      vector that [emplace_back] grows, its iterators are invalid after the first insertion. *)
  Definition add_self (cs : list space) : outcome (list space) := match cs with [] => Ret [] | _ => UB end.
  (** cartesian-product.hpp:125-129, 131-137, 139-143: the [operator*] with a polymorphic operand. *)
  Definition mul_pp (l r : space) : list space := add_component (add_component [] l) r.
  (** cartesian-product.hpp:131-137. *)
  Definition mul_cp (l : list space) (r : space) : list space := add_component l r.
  (** cartesian-product.hpp:139-143. *)
  Definition mul_pc (l : space) (r : list space) : list space := mul_cp r l.
  (** cartesian-product.hpp:145-151.  [CartesianProductTpl<T> out{left}] is list initialisation: the
      constructor from [std::initializer_list<polymorphic<Base>>] (lines 52-53) is viable because
      [polymorphic(U&&)] is implicit (polymorphic_cxx14.hpp:287-306), so the C++ rules prefer it to the
      copy constructor and [out] has the single component [left].  (Compilers without the resolution
      CWG 2137 copy instead: [mul_cc_copy].) *)
  Definition mul_cc (l r : list space) : list space := add_product [SProd l] r.
  (** cartesian-product.hpp:145-151, read by compilers without the resolution CWG 2137. *)
  Definition mul_cc_copy (l r : list space) : list space := add_product l r.
End Manifold.
Arguments leaf : clear implicits. Arguments space : clear implicits.
