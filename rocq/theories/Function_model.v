(** Model of the function and cost objects: function-base.hpp, function-ops.hpp, cost-function.hpp,
    cost-sum.hpp/.hxx, modelling/residuals/linear.hpp, state-residual.hpp, rigid-transform-point.hpp,
    modelling/costs/quadratic-residual.hpp/.hxx, squared-distance.hpp,
    modelling/autodiff/finite-difference.hpp (all below include/proxsuite-nlp).

    Objects are held by [shared_ptr], so they live in a heap and refer to each other by index: two
    sums that contain the same cost see the same object and the same cached values.  A virtual call
    takes the heap and returns the new one.  Recursion depth is bounded by a fuel argument; running
    out of it is the outcome [Fuel] (for a cyclic heap the C++ call never returns).
    Size mismatches that Eigen only asserts are [UB].  When a call throws, the heap it leaves behind
    is not modelled. *)
From Coq Require Import List Bool Arith ZArith.
From Verif Require Import Scalar Cset_model Problem_model Manifold_model.
Import ListNotations.

Section Function.
  Context {K : Sc}.
  Local Open Scope sc_scope.
  Notation vec := (list (car K)).
  Notation rows := (list (list (car K))).

  (** ** Dense operations with Eigen's size assertions *)

  (** Eigen's [eigen_assert], e.g. the one behind function-ops.hpp:38: a false condition is undefined
      behaviour in release builds. *)
  Definition chk (b : bool) : outcome unit := if b then Ret tt else UB.
  (** An r x c matrix (list of rows), as declared in function-base.hpp:65 [MatrixXs Jout(nr, ndx)]. *)
  Definition is_mat (r c : nat) (M : rows) : bool :=
    Nat.eqb (length M) r && forallb (fun row => Nat.eqb (length row) c) M.
  (** Assignment to a [MatrixRef], which cannot be resized (function-base.hpp:57-58). *)
  Definition like (old M : rows) : outcome rows :=
    if list_eq_dec Nat.eq_dec (map (@length _) old) (map (@length _) M) then Ret M else UB.
  (** Eigen product A * x of an r x (length x) matrix, e.g. linear.hpp:33. *)
  Definition mv (A : rows) (x : vec) : outcome vec :=
    (do _ <- chk (forallb (fun row => Nat.eqb (length row) (length x)) A); Ret (map (fun row => vdot row x) A))%out.
  (** Transpose of a matrix with c columns, e.g. quadratic-residual.hxx:41. *)
  Definition transp (c : nat) (A : rows) : rows := map (fun j => map (fun row => nth j row 0) A) (seq 0 c).
  (** Eigen product A * B where B has c columns, e.g. function-ops.hpp:38. *)
  Definition mm (c : nat) (A B : rows) : outcome rows :=
    (do _ <- chk (forallb (fun row => Nat.eqb (length row) (length B)) A && forallb (fun row => Nat.eqb (length row) c) B);
     Ret (map (fun row => map (fun col => vdot row col) (transp c B)) A))%out.
  (** Eigen's [a.dot(b)], e.g. quadratic-residual.hxx:30. *)
  Definition dot (a b : vec) : outcome (car K) :=
    (do _ <- chk (Nat.eqb (length a) (length b)); Ret (vdot a b))%out.
  (** Coefficientwise matrix operation, e.g. cost-sum.hpp:55 and finite-difference.hpp:65. *)
  Definition mop (f : car K -> car K -> car K) (A B : rows) : outcome rows :=
    (do _ <- like A B; Ret (map2 (map2 f) A B))%out.
  (** Scalar times matrix, e.g. cost-sum.hpp:55 and cost-function.hpp:76. *)
  Definition mscale (a : car K) (A : rows) : rows := map (vscale a) A.
  (** [Jout.col(i) = v] (finite-difference.hpp:41). *)
  Definition set_col (i : nat) (v : vec) (J : rows) : outcome rows :=
    (do _ <- chk (Nat.eqb (length v) (length J) && forallb (fun row => Nat.ltb i (length row)) J);
     Ret (map2 (fun row a => firstn i row ++ a :: skipn (S i) row) J v))%out.

  (** Content of freshly allocated memory (function-base.hpp:65, cost-function.hpp:51, 57). *)
  Variable junk : nat -> nat -> car K.
  (** [MatrixXs(r, c)] without initialisation (function-base.hpp:65, cost-function.hpp:51, 57). *)
  Definition alloc (r c : nat) : rows := map (fun i => map (junk i) (seq 0 c)) (seq 0 r).

  (** ** Objects *)
  (** Index of an object: a [shared_ptr] (function-ops.hpp:46-47, cost-sum.hpp:20). *)
  Definition ref := nat.
  (** function-base.hpp:12-95: a function implemented by the user; [None] is an exception.  The
      functions are deterministic and have no visible state (simplification).  Jacobian and Hessian
      functions see the previous content of their output. *)
  Record ext := mkExt {
    e_nx : nat; e_ndx : nat; e_nr : nat; e_eval : vec -> option vec;
    e_jac : vec -> rows -> option rows; e_vhp : vec -> vec -> rows -> option rows }.
  (** quadratic-residual.hpp:66-70: the [mutable] members whose content can be read by a later call
      ([tmp_w_err] and [JtW] are always written before they are read). *)
  Record cache := mkCache { c_err : vec; c_J : rows; c_H : rows }.
  (** One constructor per class.  [OLinear]: linear.hpp:14-37; [ODiff]: state-residual.hpp:19-50;
      [ORigid]: rigid-transform-point.hpp:10-44; [OCompose]: function-ops.hpp:14-49; [OCost]:
      cost-function.hpp:94-120; [OSum]: cost-sum.hpp:13-118; [OQuad]: quadratic-residual.hpp:22-71;
      [OFd1], [OFd2]: finite-difference.hpp:78-143.  The sizes [nx_], [ndx_], [nr_] fixed by the
      base-class constructor (function-base.hpp:13-27) are stored where they are not implied. *)
  Inductive obj :=
  | OExt (u : ext)
  | OLinear (cols : nat) (A : rows) (b : vec)
  | ODiff (s : space K) (target : vec)
  | ORigid (p : vec)
  | OCompose (dx dv dr : nat) (l g : ref)
  | OCost (dx dv : nat) (f : ref)
  | OSum (dx dv : nat) (cs : list ref) (ws : list (car K))
  | OQuad (dx dv : nat) (res : ref) (W : rows) (slope : vec) (cst : car K) (gn : bool) (ca : cache)
  | OFd1 (s : space K) (dr : nat) (f : ref) (eps : car K)
  | OFd2 (s : space K) (dr : nat) (f : ref) (eps : car K).
  (** The objects alive; references are positions in it (the pointers of function-ops.hpp:47-48 and quadratic-residual.hpp:34). *)
  Definition heap := list obj.
  (** function-base.hpp:31-36 [nx], [ndx], [nr]. *)
  Definition dims (o : obj) : nat * nat * nat :=
    match o with
    | OExt u => (e_nx u, e_ndx u, e_nr u)
    | OLinear c A _ => (c, c, length A)
    | ODiff s _ => (nx s, ndx s, ndx s)
    | ORigid _ => (7, 6, 3)%nat
    | OCompose a b c _ _ => (a, b, c)
    | OCost a b _ | OSum a b _ _ | OQuad a b _ _ _ _ _ _ => (a, b, 1%nat)
    | OFd1 s c _ _ | OFd2 s c _ _ => (nx s, ndx s, c)
    end.
  (** The same through a pointer (function-ops.hpp:22). *)
  Definition dims_at (h : heap) (r : ref) : outcome (nat * nat * nat) := (do o <- ub (nth_error h r); Ret (dims o))%out.
  (** Assignment to members of the object behind a pointer (quadratic-residual.hxx:25, 39, 54, 60). *)
  Fixpoint update (h : heap) (r : ref) (f : obj -> obj) : heap :=
    match h, r with
    | [], _ => []
    | o :: t, O => f o :: t
    | o :: t, S r' => o :: update t r' f
    end.
  (** quadratic-residual.hxx:25 (err), 39 and 60 (Jres), 54 (H). *)
  Definition set_err (e : vec) (o : obj) : obj :=
    match o with
    | OQuad a b r W s c gn ca => OQuad a b r W s c gn (mkCache e (c_J ca) (c_H ca))
    | _ => o
    end.
  (** quadratic-residual.hxx:39, 60 (Jres). *)
  Definition set_J (J : rows) (o : obj) : obj :=
    match o with
    | OQuad a b r W s c gn ca => OQuad a b r W s c gn (mkCache (c_err ca) J (c_H ca))
    | _ => o
    end.
  (** quadratic-residual.hxx:54 (H). *)
  Definition set_H (H : rows) (o : obj) : obj :=
    match o with
    | OQuad a b r W s c gn ca => OQuad a b r W s c gn (mkCache (c_err ca) (c_J ca) H)
    | _ => o
    end.

  (** Eigen's Quaternion::toRotationMatrix, used by rigid-transform-point.hpp:26, 35, 36 (external;
      formula of Eigen 3.4); coefficient order x y z w. *)
  Definition quat_matrix (qx qy qz qw : car K) : rows :=
    let tx := stwo * qx in let ty := stwo * qy in let tz := stwo * qz in
    let twx := tx * qw in let twy := ty * qw in let twz := tz * qw in
    let txx := tx * qx in let txy := ty * qx in let txz := tz * qx in
    let tyy := ty * qy in let tyz := tz * qy in let tzz := tz * qz in
    [[1 - (tyy + tzz); txy - twz; txz + twy];
     [txy + twz; 1 - (txx + tzz); tyz - twx];
     [txz - twy; tyz + twx; 1 - (txx + tyy)]].
  (** rigid-transform-point.hpp:23 [pin::skew] (external). *)
  Definition skew (p : vec) : rows :=
    match p with
    | [a; b; c] => [[0; - c; b]; [c; 0; - a]; [- b; a; 0]]
    | _ => []
    end.
  (** rigid-transform-point.hpp:25-30 [operator()]: R p + t. *)
  Definition rigid_eval (p x : vec) : outcome vec :=
    match x with
    | [t1; t2; t3; qx; qy; qz; qw] =>
        (do a <- mv (quat_matrix qx qy qz qw) p; vop sadd [t1; t2; t3] a)%out
    | _ => UB
    end.
  (** rigid-transform-point.hpp:32-38 [computeJacobian]: [R, -R skew(p)]. *)
  Definition rigid_jac (p x : vec) (old : rows) : outcome rows :=
    match x with
    | [_; _; _; qx; qy; qz; qw] =>
        let Rm := quat_matrix qx qy qz qw in
        (do Q <- mm 3 (map vneg Rm) (skew p); like old (map2 (@app (car K)) Rm Q))%out
    | _ => UB
    end.

  (** ** The loops *)
  (** cost-sum.hpp:40-46: [result_ += weights_[i] * components_[i]->call(x)]. *)
  Definition sum_call (f : heap -> ref -> vec -> outcome (car K * heap)) (x : vec) :=
    fix go (cs : list ref) (ws : list (car K)) (acc : car K) (h : heap) : outcome (car K * heap) :=
    match cs, ws with
    | [], _ => Ret (acc, h)
    | c :: cr, w :: wr => (do (v, h1) <- f h c x; go cr wr (acc + w * v) h1)%out
    | _ :: _, [] => UB
    end.
  (** cost-sum.hpp:50-52. *)
  Definition sum_grad (f : heap -> ref -> vec -> outcome (vec * heap)) (x : vec) :=
    fix go (cs : list ref) (ws : list (car K)) (acc : vec) (h : heap) : outcome (vec * heap) :=
    match cs, ws with
    | [], _ => Ret (acc, h)
    | c :: cr, w :: wr => (do (g, h1) <- f h c x; do a <- vop sadd acc (vscale w g); go cr wr a h1)%out
    | _ :: _, [] => UB
    end.
  (** cost-sum.hpp:57-59. *)
  Definition sum_hess (f : heap -> ref -> vec -> outcome (rows * heap)) (x : vec) :=
    fix go (cs : list ref) (ws : list (car K)) (acc : rows) (h : heap) : outcome (rows * heap) :=
    match cs, ws with
    | [], _ => Ret (acc, h)
    | c :: cr, w :: wr => (do (g, h1) <- f h c x; do a <- mop sadd acc (mscale w g); go cr wr a h1)%out
    | _ :: _, [] => UB
    end.
  (** The vector [ei] with [ei(i) = fd_eps] and zeros elsewhere (finite-difference.hpp:33-38). *)
  Definition unit_step (n i : nat) (eps : car K) : vec := repeat 0 i ++ eps :: repeat 0 (n - S i).
  (** finite-difference.hpp:37-43, iterations i, i+1, ... (todo of them). *)
  Definition fd_jac_loop (f : heap -> vec -> outcome (vec * heap)) (s : space K) (n : nat) (eps : car K) (x : vec) :=
    fix go (todo i : nat) (J : rows) (h : heap) : outcome (rows * heap) :=
    match todo with
    | O => Ret (J, h)
    | S k =>
        (do xp <- integrate s x (unit_step n i eps);
         do xm <- integrate s x (vneg (unit_step n i eps));
         do (fp, h1) <- f h xp; do (fm, h2) <- f h1 xm;
         do d <- vop ssub fp fm;
         do J1 <- set_col i (map (fun a => a / (stwo * eps)) d) J;
         go k (S i) J1 h2)%out
    end.
  (** finite-difference.hpp:59-67; [Jp], [Jm]: the two buffers. *)
  Definition fd_vhp_loop (f : heap -> vec -> rows -> outcome (rows * heap)) (s : space K) (n : nat) (eps : car K) (x v : vec) :=
    fix go (todo i : nat) (Jp Jm : rows) (H : rows) (h : heap) : outcome (rows * heap) :=
    match todo with
    | O => Ret (H, h)
    | S k =>
        (do xp <- integrate s x (unit_step n i eps);
         do xm <- integrate s x (vneg (unit_step n i eps));
         do (Jp1, h1) <- f h xp Jp; do (Jm1, h2) <- f h1 xm Jm;
         do D <- mop ssub Jp1 Jm1;
         do c <- mv (transp n (map (map (fun a => a / (stwo * eps))) D)) v;
         do H1 <- set_col i c H;
         go k (S i) Jp1 Jm1 H1 h2)%out
    end.

  (** ** Virtual calls.  Each recursive call has less fuel. *)
  (** [operator()]: linear.hpp:33, state-residual.hpp:43-45, rigid-transform-point.hpp:25-30,
      function-ops.hpp:32-34, cost-function.hpp:63-67, finite-difference.hpp:95-97, 131-133. *)
  Fixpoint eval (n : nat) (h : heap) (r : ref) (x : vec) {struct n} : outcome (vec * heap) :=
    match n with
    | O => Fuel
    | S n =>
        (do o <- ub (nth_error h r);
         match o with
         | OExt u => do v <- user (e_eval u x); Ret (v, h)
         | OLinear _ A b => do v <- mv A x; do v <- vop sadd v b; Ret (v, h)
         | ODiff s t => do v <- difference s t x; Ret (v, h)
         | ORigid p => do v <- rigid_eval p x; Ret (v, h)
         | OCompose _ _ _ l g => do (y, h1) <- eval n h g x; eval n h1 l y
         | OFd1 _ _ f _ | OFd2 _ _ f _ => eval n h f x
         | OCost _ _ _ | OSum _ _ _ _ | OQuad _ _ _ _ _ _ _ _ => do (c, h1) <- call n h r x; Ret ([c], h1)
         end)%out
    end
  (** [call]: cost-function.hpp:105, cost-sum.hpp:40-46, quadratic-residual.hxx:23-35.  The other
      classes are not costs: the call does not compile. *)
  with call (n : nat) (h : heap) (r : ref) (x : vec) {struct n} : outcome (car K * heap) :=
    match n with
    | O => Fuel
    | S n =>
        (do o <- ub (nth_error h r);
         match o with
         | OCost _ _ f => do (y, h1) <- eval n h f x; do c <- ub (nth_error y 0); Ret (c, h1)
         | OSum _ _ cs ws => sum_call (call n) x cs ws 0 h
         | OQuad _ _ f W s c _ _ =>
             do (e, h1) <- eval n h f x;
             do w <- mv W e; do d <- dot e w; do l <- dot e s;
             Ret (shalf * d + l + c, update h1 r (set_err e))
         | _ => UB
         end)%out
    end.
  (** [computeJacobian] into a matrix that held [old]: linear.hpp:35-37, state-residual.hpp:47-49,
      rigid-transform-point.hpp:32-38, function-ops.hpp:36-39, cost-function.hpp:69-73,
      finite-difference.hpp:99-102, 135-137. *)
  Fixpoint jac (n : nat) (h : heap) (r : ref) (x : vec) (old : rows) {struct n} : outcome (rows * heap) :=
    match n with
    | O => Fuel
    | S n =>
        (do o <- ub (nth_error h r);
         match o with
         | OExt u => do J <- user (e_jac u x old); do J <- like old J; Ret (J, h)
         | OLinear _ A _ => do J <- like old A; Ret (J, h)
         | ODiff s t => do J <- Jdifference s t x 1 old; do J <- like old J; Ret (J, h)
         | ORigid p => do J <- rigid_jac p x old; Ret (J, h)
         | OCompose _ _ _ l g =>
             do (y, h1) <- eval n h g x;
             do (_, dvl, drl) <- dims_at h l; do (_, dvg, drg) <- dims_at h g;
             do (Jl, h2) <- jac n h1 l y (alloc drl dvl);
             do (Jg, h3) <- jac n h2 g x (alloc drg dvg);
             do J <- mm dvg Jl Jg; do J <- like old J; Ret (J, h3)
         | OFd1 s _ f eps =>
             do (_, dv, _) <- dims_at h f;
             fd_jac_loop (fun h y => eval n h f y) s dv eps x dv 0 old h
         | OFd2 _ _ f _ => jac n h f x old
         | OCost _ _ _ | OSum _ _ _ _ | OQuad _ _ _ _ _ _ _ _ =>
             do (g0, rest) <- ub (match old with a :: b => Some (a, b) | [] => None end);
             do (g, h1) <- grad n h r x g0; Ret (g :: rest, h1)
         end)%out
    end
  (** [computeGradient] into a vector that held [old]: cost-function.hpp:107-109,
      cost-sum.hpp:48-53, quadratic-residual.hxx:37-46. *)
  with grad (n : nat) (h : heap) (r : ref) (x : vec) (old : vec) {struct n} : outcome (vec * heap) :=
    match n with
    | O => Fuel
    | S n =>
        (do o <- ub (nth_error h r);
         match o with
         | OCost _ _ f => do (J, h1) <- jac n h f x [old]; do g <- ub (nth_error J 0); Ret (g, h1)
         | OSum _ _ cs ws =>
             sum_grad (fun h c x => do (_, dv, _) <- dims_at h c; grad n h c x (nth 0 (alloc 1 dv) []))
                      x cs ws (map (fun _ => 0) old) h
         | OQuad _ dv f W s _ _ ca =>
             do (J, h1) <- jac n h f x (c_J ca);
             do JtW <- mm (length W) (transp dv J) W;
             do a <- mv JtW (c_err ca); do a <- fixed (length old) a;
             do b <- mv (transp dv J) s; do g <- vop sadd a b;
             Ret (g, update h1 r (set_J J))
         | _ => UB
         end)%out
    end.
  (** [vectorHessianProduct]: function-base.hpp:90-94 (default), cost-function.hpp:75-79,
      finite-difference.hpp:139-143.  [OFd1] is not a C2 function: the call does not compile. *)
  Fixpoint vhp (n : nat) (h : heap) (r : ref) (x v : vec) (old : rows) {struct n} : outcome (rows * heap) :=
    match n with
    | O => Fuel
    | S n =>
        (do o <- ub (nth_error h r);
         match o with
         | OExt u => do H <- user (e_vhp u x v old); do H <- like old H; Ret (H, h)
         | OLinear _ _ _ | ODiff _ _ | ORigid _ | OCompose _ _ _ _ _ => Ret (map (map (fun _ => 0)) old, h)
         | OFd1 _ _ _ _ => UB
         | OFd2 s _ f eps =>
             do (_, dv, dr) <- dims_at h f;
             fd_vhp_loop (fun h y J => jac n h f y J) s dv eps x v dv 0 (zeros dr dv) (zeros dr dv) old h
         | OCost _ _ _ | OSum _ _ _ _ | OQuad _ _ _ _ _ _ _ _ =>
             do (H, h1) <- hess n h r x old;
             do v0 <- ub (nth_error v 0);
             Ret (map (map (fun a => a * v0)) H, h1)
         end)%out
    end
  (** [computeHessian] into a matrix that held [old]: cost-function.hpp:111-114,
      cost-sum.hpp:55-60, quadratic-residual.hxx:48-64. *)
  with hess (n : nat) (h : heap) (r : ref) (x : vec) (old : rows) {struct n} : outcome (rows * heap) :=
    match n with
    | O => Fuel
    | S n =>
        (do o <- ub (nth_error h r);
         match o with
         | OCost _ _ f => vhp n h f x [1] old
         | OSum _ _ cs ws =>
             sum_hess (fun h c x => do (_, dv, _) <- dims_at h c; hess n h c x (alloc dv dv))
                      x cs ws (map (map (fun _ => 0)) old) h
         | OQuad _ dv f W s _ gn ca =>
             do w <- mv W (c_err ca); do w <- vop sadd w s;
             do (out, h1) <- (if gn then Ret (map (map (fun _ => 0)) old, h)
                              else do (H, h1) <- vhp n h f x w (c_H ca);
                                   do out <- like old H; Ret (out, update h1 r (set_H H)));
             do (J, h2) <- jac n h1 f x (map (map (fun _ => 0)) (c_J ca));
             do JtW <- mm (length W) (transp dv J) W;
             do P <- mm dv JtW J; do out <- mop sadd out P;
             Ret (out, update h2 r (set_J J))
         | _ => UB
         end)%out
    end.

  (** ** Construction *)
  (** [std::make_shared]: a new object (cost-sum.hxx:18). *)
  Definition new (h : heap) (o : obj) : heap * ref := (h ++ [o], length h).
  (** linear.hpp:27-31; [cols] is [A.cols()].  The sizes of A and b are not compared. *)
  Definition new_linear (h : heap) (cols : nat) (A : rows) (b : vec) : heap * ref := new h (OLinear cols A b).
  (** state-residual.hpp:33-41. *)
  Definition new_diff (h : heap) (s : space K) (target : vec) : outcome (heap * ref) :=
    (do ok <- is_normalized s target; if ok then Ret (new h (ODiff s target)) else Throw ErrPoint)%out.
  (** function-ops.hpp:21-31. *)
  Definition new_compose (h : heap) (l g : ref) : outcome (heap * ref) :=
    (do (xl, _, rl) <- dims_at h l; do (xg, vg, rg) <- dims_at h g;
     if Nat.eqb xl rg then Ret (new h (OCompose xg vg rl l g)) else Throw ErrDim)%out.
  (** linear.hpp:52-60 LinearFunctionDifferenceToPoint.  The order in which the two arguments of the
      base-class constructor are built is unspecified; it changes no outcome.  The size of the target
      is compared last. *)
  Definition new_linear_diff (h : heap) (s : space K) (target : vec) (cols : nat) (A : rows) (b : vec) : outcome (heap * ref) :=
    let '(h1, l) := new_linear h cols A b in
    (do (h2, g) <- new_diff h1 s target; do (h3, r) <- new_compose h2 l g;
     if Nat.eqb (length target) (nx s) then Ret (h3, r) else Throw ErrDim)%out.
  (** cost-function.hpp:102-103. *)
  Definition new_cost (h : heap) (f : ref) : outcome (heap * ref) :=
    (do (a, b, _) <- dims_at h f; Ret (new h (OCost a b f)))%out.
  (** cost-function.hpp:13-22 [downcast_function_to_cost]. *)
  Definition downcast (h : heap) (f : ref) : outcome (heap * ref) :=
    (do (_, _, c) <- dims_at h f; if Nat.eqb c 1 then new_cost h f else Throw ErrCast)%out.
  (** quadratic-residual.hxx:8-21. *)
  Definition new_quad (h : heap) (f : ref) (W : rows) (slope : vec) (c : car K) : outcome (heap * ref) :=
    (do (a, b, r) <- dims_at h f;
     Ret (new h (OQuad a b f W slope c true (mkCache (repeat 0 r) (zeros r b) (zeros b b)))))%out.
  (** squared-distance.hpp:26-29 (weights given), 31-34 (identity), 36-37 (neutral element). *)
  Definition new_distance (h : heap) (s : space K) (target : vec) (W : rows) : outcome (heap * ref) :=
    (do (h1, f) <- new_diff h s target; new_quad h1 f W (repeat 0 (ndx s)) 0)%out.
  (** squared-distance.hpp:31-34 (identity weights). *)
  Definition new_distance_id (h : heap) (s : space K) (target : vec) : outcome (heap * ref) :=
    new_distance h s target (eye_scaled 1 (ndx s)).
  (** squared-distance.hpp:36-37 (neutral element). *)
  Definition new_distance_neutral (h : heap) (s : space K) : outcome (heap * ref) :=
    new_distance_id h s (neutral s).
  (** squared-distance.hpp:43-45 [updateTarget]; the residual is a difference (static cast). *)
  Definition update_target (h : heap) (r : ref) (x : vec) : outcome heap :=
    (do o <- ub (nth_error h r);
     match o with
     | OQuad _ _ f _ _ _ _ _ => Ret (update h f (fun o => match o with ODiff s _ => ODiff s x | _ => o end))
     | _ => UB
     end)%out.
  (** cost-sum.hpp:23. *)
  Definition new_sum (h : heap) (a b : nat) : heap * ref := new h (OSum a b [] []).
  (** cost-sum.hpp:64-67 [addComponent]; 69-72 [operator+=] with weight 1. *)
  Definition add_comp (h : heap) (s c : ref) (w : car K) : outcome heap :=
    (do o <- ub (nth_error h s);
     match o with
     | OSum _ _ _ _ => Ret (update h s (fun o => match o with OSum a b cs ws => OSum a b (cs ++ [c]) (ws ++ [w]) | _ => o end))
     | _ => UB
     end)%out.
  (** cost-sum.hpp:74-80 [operator+=] of a sum.  When [other] is the object itself, the range passed to
      [std::vector::insert] lies in the vector that grows: undefined unless it is empty. *)
  Definition add_sum (h : heap) (s t : ref) : outcome heap :=
    (do o <- ub (nth_error h s); do p <- ub (nth_error h t);
     match o, p with
     | OSum _ _ _ _, OSum _ _ cs' ws' =>
         if Nat.eqb s t && negb (Nat.eqb (length cs') 0 && Nat.eqb (length ws') 0) then UB
         else Ret (update h s (fun o => match o with OSum a b cs ws => OSum a b (cs ++ cs') (ws ++ ws') | _ => o end))
     | _, _ => UB
     end)%out.
  (** cost-sum.hpp:82-87 [operator*=]. *)
  Definition scale_sum (h : heap) (s : ref) (a : car K) : outcome heap :=
    (do o <- ub (nth_error h s);
     match o with
     | OSum _ _ _ _ => Ret (update h s (fun o => match o with OSum x b cs ws => OSum x b cs (map (fun w => a * w) ws) | _ => o end))
     | _ => UB
     end)%out.
  (** cost-sum.hpp:38 [clone], 105-110 and 112 [operator*] of a sum with a number: the components are
      shared, the weights are copied. *)
  Definition mul_sum (h : heap) (s : ref) (a : car K) : outcome (heap * ref) :=
    (do o <- ub (nth_error h s);
     let '(h1, r) := new h o in do h2 <- scale_sum h1 r a; Ret (h2, r))%out.
  (** cost-sum.hpp:114-116, unary minus. *)
  Definition neg_sum (h : heap) (s : ref) : outcome (heap * ref) := mul_sum h s (- (1)).
  (** cost-sum.hxx:12-21 [operator+] of two costs; the sizes are asserted equal. *)
  Definition add_costs (h : heap) (l r : ref) : outcome (heap * ref) :=
    (do (xl, vl, _) <- dims_at h l; do (xr, vr, _) <- dims_at h r;
     do _ <- chk (Nat.eqb xl xr && Nat.eqb vl vr);
     let '(h1, s) := new_sum h xl vl in
     do h2 <- add_comp h1 s l 1; do h3 <- add_comp h2 s r 1; Ret (h3, s))%out.
  (** cost-sum.hxx:25-30, sum as rvalue: modified in place and returned. *)
  Definition add_rvalue (h : heap) (s r : ref) : outcome (heap * ref) := (do h1 <- add_comp h s r 1; Ret (h1, s))%out.
  (** cost-sum.hxx:33-39 [operator*] of a number and a cost. *)
  Definition mul_cost (h : heap) (a : car K) (r : ref) : outcome (heap * ref) :=
    (do (x, v, _) <- dims_at h r;
     let '(h1, s) := new_sum h x v in do h2 <- add_comp h1 s r a; Ret (h2, s))%out.
End Function.
Arguments ext : clear implicits.
Arguments obj : clear implicits.
Arguments heap : clear implicits.
Arguments cache : clear implicits.
