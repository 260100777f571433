(** Specification for functions and costs: mathematical expressions, their values, what it means
    that an object of the heap represents an expression, and derivatives along paths. *)
From Coq Require Import Reals List Arith Bool.
From Verif Require Import Scalar Cset_spec Problem_model Manifold_model Manifold_spec Function_model.
Import ListNotations.
Local Open Scope R_scope.

(** r x c matrix. *)
Definition mat (r c : nat) (M : list rvec) : Prop := length M = r /\ Forall (fun row => length row = c) M.

(** Expressions: an elementary function; f o g; a scalar function used as a cost; a weighted sum;
    1/2 f'Wf + b'f + c.  [q] names the quadratic cost object, which is the only kind with a memory. *)
Inductive fx :=
| XBase (o : obj RSc)
| XComp (f g : fx)
| XCost (f : fx)
| XSum (dx dv : nat) (cs : list (R * fx))
| XQuad (q : nat) (W : list rvec) (b : rvec) (c : R) (f : fx).

(** Value of an elementary function. *)
Definition base_val (o : obj RSc) (x : rvec) : outcome rvec :=
  match o with
  | OExt u => user (e_eval u x)
  | OLinear _ A b =>
      if forallb (fun row => Nat.eqb (length row) (length x)) A && Nat.eqb (length A) (length b)
      then Ret (map2 Rplus (mat_vec A x) b) else UB
  | ODiff s t => difference s t x
  | ORigid p => rigid_eval p x
  | _ => UB
  end.
(** Value of an expression. *)
Fixpoint sem (e : fx) (x : rvec) : outcome rvec :=
  match e with
  | XBase o => base_val o x
  | XComp f g => (do y <- sem g x; sem f y)%out
  | XCost f => (do y <- sem f x; match y with a :: _ => Ret [a] | [] => UB end)%out
  | XSum _ _ cs =>
      (do v <- (fix go cs := match cs with
                | [] => Ret 0
                | (w, f) :: r => do y <- sem f x; match y with [a] => do s <- go r; Ret (w * a + s) | _ => UB end
                end) cs; Ret [v])%out
  | XQuad _ W b c f =>
      (do y <- sem f x;
       if forallb (fun row => Nat.eqb (length row) (length y)) W && Nat.eqb (length W) (length y) && Nat.eqb (length b) (length y)
       then Ret [1 / 2 * inner y (mat_vec W y) + inner b y + c] else UB)%out
  end.

(** Sizes nx, ndx, nr. *)
Fixpoint xdim (e : fx) : nat * nat * nat :=
  match e with
  | XBase o => dims o
  | XComp f g => (fst (fst (xdim g)), snd (fst (xdim g)), snd (xdim f))
  | XCost f | XQuad _ _ _ _ f => (fst (fst (xdim f)), snd (fst (xdim f)), 1%nat)
  | XSum dx dv _ => (dx, dv, 1%nat)
  end.
Definition xndx (e : fx) : nat := snd (fst (xdim e)).
Definition xnr (e : fx) : nat := snd (xdim e).
(** Objects of class CostFunctionBase. *)
Definition is_cost (e : fx) : Prop := match e with XCost _ | XSum _ _ _ | XQuad _ _ _ _ _ => True | _ => False end.

(** Elementary functions: no reference to other objects. *)
Definition elementary (o : obj RSc) : Prop := match o with OExt _ | OLinear _ _ _ | ODiff _ _ | ORigid _ => True | _ => False end.
(** Object r of the heap represents e.  Sub-objects may be shared. *)
Fixpoint repr (h : heap RSc) (r : nat) (e : fx) : Prop :=
  match e with
  | XBase o => nth_error h r = Some o /\ elementary o
  | XComp f g => exists l q,
      nth_error h r = Some (OCompose (fst (fst (xdim e))) (snd (fst (xdim e))) (snd (xdim e)) l q) /\ repr h l f /\ repr h q g
  | XCost f => exists q, nth_error h r = Some (OCost (fst (fst (xdim e))) (snd (fst (xdim e))) q) /\ repr h q f
  | XSum dx dv cs => exists rs ws, nth_error h r = Some (OSum dx dv rs ws) /\
      (fix go (rs : list nat) (ws : list R) (cs : list (R * fx)) {struct cs} : Prop := match rs, ws, cs with
       | [], [], [] => True
       | p :: rs', w :: ws', (a, f) :: cs' => w = a /\ is_cost f /\ repr h p f /\ go rs' ws' cs'
       | _, _, _ => False end) rs ws cs
  | XQuad q W b c f => r = q /\ exists p gn ca,
      nth_error h r = Some (OQuad (fst (fst (xdim e))) (snd (fst (xdim e))) p W b c gn ca) /\
      mat (xnr f) (xndx f) (c_J ca) /\ mat (xndx f) (xndx f) (c_H ca) /\ repr h p f
  end.

(** The quadratic costs met when e is evaluated at x, with the value of their residual. *)
Fixpoint visits (e : fx) (x : rvec) : list (nat * rvec) :=
  match e with
  | XBase _ => []
  | XComp f g => visits g x ++ match sem g x with Ret y => visits f y | _ => [] end
  | XCost f => visits f x
  | XSum _ _ cs => (fix go cs := match cs with [] => [] | (_, f) :: r => visits f x ++ go r end) cs
  | XQuad q _ _ _ f => visits f x ++ match sem f x with Ret y => [(q, y)] | _ => [] end
  end.
(** No quadratic cost object is reached with two different residual values.  This holds in particular
    when every object is reached once. *)
Definition consistent (l : list (nat * rvec)) : Prop := forall q a b, In (q, a) l -> In (q, b) l -> a = b.

(** Paths on which functions are differentiated: t |-> x (+) t w on a manifold where it is defined for
    small t, or any curve through x with velocity w in a vector space. *)
Inductive pk := Geo (s : rspace) | Euc (n : nat).
Definition pk_dim (k : pk) : nat := match k with Geo s => ndx s | Euc n => n end.
Definition path (k : pk) (x w : rvec) (g : R -> outcome rvec) : Prop :=
  g 0 = Ret x /\ match k with
                 | Geo s => (forall t, g t = integrate s x (line w t)) /\
                            exists eps, 0 < eps /\ forall t, Rabs t < eps -> exists y, g t = Ret y
                 | Euc _ => velocity g w
                 end.
(** The function ev has size dr at x, and jc returns its derivative along all paths, whatever the
    output held before. *)
Definition differentiable (k : pk) (x : rvec) (dr : nat) (ev : rvec -> outcome rvec) (jc : rvec -> list rvec -> outcome (list rvec)) : Prop :=
  (exists v, ev x = Ret v /\ length v = dr) /\
  forall old, mat dr (pk_dim k) old -> exists J, jc x old = Ret J /\ mat dr (pk_dim k) J /\
    forall w g, length w = pk_dim k -> path k x w g -> velocity (fun t => (do y <- g t; ev y)%out) (mat_vec J w).
Definition symmetric (W : list rvec) : Prop := forall i j, nth j (nth i W []) 0 = nth i (nth j W []) 0.

(** Elementary functions whose Jacobian is usable at x: user functions and the rigid transformation by
    assumption; A x + b on flat spaces; the difference to a target on its own manifold (C38) or on flat
    spaces. *)
Definition good_base (D : domain) (k : pk) (x : rvec) (o : obj RSc) (dr : nat) : Prop :=
  match o with
  | OExt u => e_ndx u = pk_dim k /\ e_nr u = dr /\
      differentiable k x dr (fun y => user (e_eval u y)) (fun y old => user (e_jac u y old))
  | ORigid p => pk_dim k = 6%nat /\ dr = 3%nat /\ differentiable k x dr (rigid_eval p) (rigid_jac p)
  | OLinear n A b => pk_dim k = n /\ length x = n /\ mat dr n A /\ length b = dr /\
      match k with Geo s => flat s | Euc _ => True end
  | ODiff s t => dr = ndx s /\
      match k with
      | Geo s' => s' = s /\ leaves (leaf_sized D) s /\ leaves (leaf_inverse D) s /\ leaves (leaf_jacobians D) s /\ near D s t x
      | Euc n => flat s /\ n = ndx s /\ length x = n /\ length t = n
      end
  | _ => False
  end.
Fixpoint good (D : domain) (k : pk) (x : rvec) (e : fx) (dr : nat) : Prop :=
  match e with
  | XBase o => good_base D k x o dr
  | XComp f g => good D k x g (xnr g) /\ exists y, sem g x = Ret y /\ good D (Euc (xnr g)) y f dr
  | XCost f => dr = 1%nat /\ good D k x f 1
  | XSum _ dv cs => dr = 1%nat /\ dv = pk_dim k /\
      (fix go cs := match cs with [] => True | (_, f) :: r => is_cost f /\ good D k x f 1 /\ go r end) cs
  | XQuad _ W b _ f => dr = 1%nat /\ mat (xnr f) (xnr f) W /\ symmetric W /\ length b = xnr f /\ good D k x f (xnr f)
  end.

(** ** Second derivatives *)
(** Flag useGaussNewton of the quadratic cost at index q. *)
Definition gn_flag (h : heap RSc) (q : nat) : option bool :=
  match nth_error h q with Some (OQuad _ _ _ _ _ _ gn _) => Some gn | _ => None end.
(** Residuals that keep the default (zero) vectorHessianProduct. *)
Definition default_vhp (f : fx) : Prop :=
  match f with XBase (OExt _) => False | XBase _ | XComp _ _ => True | _ => False end.
(** Weighted sums, possibly nested, of quadratic costs in Gauss-Newton mode or with such residuals. *)
Fixpoint gauss_newton (h : heap RSc) (e : fx) : Prop :=
  match e with
  | XQuad q _ _ _ f => gn_flag h q = Some true \/ (gn_flag h q = Some false /\ default_vhp f)
  | XSum _ _ cs => (fix go cs := match cs with [] => True | (_, f) :: r => gauss_newton h f /\ go r end) cs
  | _ => False
  end.
(** a is the Gauss-Newton form at x in the directions u and w: df(u)' W df(w), summed over the tree. *)
Fixpoint gn_form (k : pk) (x : rvec) (e : fx) (u w : rvec) (a : R) : Prop :=
  match e with
  | XQuad _ W _ _ f => forall gu gw du dw, path k x u gu -> path k x w gw ->
      velocity (fun t => (do y <- gu t; sem f y)%out) du -> velocity (fun t => (do y <- gw t; sem f y)%out) dw ->
      a = inner du (mat_vec W dw)
  | XSum _ _ cs => (fix go cs a := match cs with
                    | [] => a = 0
                    | (c, f) :: r => exists a1 a2, gn_form k x f u w a1 /\ go r a2 /\ a = c * a1 + a2 end) cs a
  | _ => False
  end.
(** Gradient requests, and Hessian requests if [both], at x, in any number and order, to object r of
    dimension d; [n] is the call depth allowed. *)
Inductive requests (junk : nat -> nat -> R) (n d : nat) (both : bool) (r : nat) (x : rvec) : heap RSc -> heap RSc -> Prop :=
| rq_none h : requests junk n d both r x h h
| rq_grad h old G h1 h2 : length old = d -> grad (K := RSc) junk n h r x old = Ret (G, h1) ->
    requests junk n d both r x h1 h2 -> requests junk n d both r x h h2
| rq_hess h old H h1 h2 : both = true -> mat d d old -> hess (K := RSc) junk n h r x old = Ret (H, h1) ->
    requests junk n d both r x h1 h2 -> requests junk n d both r x h h2.
(** Positive semidefinite weights, non-negative factors. *)
Fixpoint weights_nonneg (e : fx) : Prop :=
  match e with
  | XQuad _ W _ _ f => forall u, length u = xnr f -> 0 <= inner u (mat_vec W u)
  | XSum _ _ cs => (fix go cs := match cs with [] => True | (c, f) :: r => 0 <= c /\ weights_nonneg f /\ go r end) cs
  | _ => False
  end.
(** Affine residuals: A x + b, differences in flat spaces, and their compositions. *)
Fixpoint affine (f : fx) : Prop :=
  match f with
  | XBase (OLinear _ _ _) => True
  | XBase (ODiff s _) => flat s
  | XComp f g => affine f /\ affine g
  | _ => False
  end.
(** Weighted sums of quadratic costs with affine residuals. *)
Fixpoint least_squares (e : fx) : Prop :=
  match e with
  | XQuad _ _ _ _ f => affine f
  | XSum _ _ cs => (fix go cs := match cs with [] => True | (_, f) :: r => least_squares f /\ go r end) cs
  | _ => False
  end.

(** ** Cost expressions *)
(** An object that represents no expression, and the heap without object s. *)
Definition gone : obj RSc := OFd1 (SVec 0) 0 0%nat 0.
Definition removed (h : heap RSc) (s : nat) : heap RSc := update h s (fun _ => gone).
(** C++ expressions on costs: existing costs, a + b, sum + b where the sum is a temporary, c * a,
    c * sum and - sum. *)
Inductive cexp :=
| EVar (r : nat)
| EAdd (a b : cexp)
| EAddTmp (a b : cexp)
| EMul (c : R) (a : cexp)
| EScale (c : R) (a : cexp)
| ENeg (a : cexp).
(** The operators called. *)
Fixpoint build (h : heap RSc) (e : cexp) : outcome (heap RSc * nat) :=
  match e with
  | EVar r => Ret (h, r)
  | EAdd a b => (do (h1, r) <- build h a; do (h2, p) <- build h1 b; add_costs h2 r p)%out
  | EAddTmp a b => (do (h1, r) <- build h a; do (h2, p) <- build h1 b; add_rvalue h2 r p)%out
  | EMul c a => (do (h1, r) <- build h a; mul_cost h1 c r)%out
  | EScale c a => (do (h1, r) <- build h a; mul_sum h1 r c)%out
  | ENeg a => (do (h1, r) <- build h a; neg_sum h1 r)%out
  end.
(** What they mean, given the values of the existing costs. *)
Fixpoint meaning (v : nat -> R) (e : cexp) : R :=
  match e with
  | EVar r => v r
  | EAdd a b | EAddTmp a b => meaning v a + meaning v b
  | EMul c a | EScale c a => c * meaning v a
  | ENeg a => - meaning v a
  end.
(** Well typed: [env] gives the existing costs; sums where the operator wants sums. *)
Definition is_tmp (e : cexp) : Prop := match e with EVar _ => False | _ => True end.
Definition is_sum (env : nat -> option fx) (e : cexp) : Prop :=
  match e with EVar r => exists dx dv cs, env r = Some (XSum dx dv cs) | _ => True end.
Fixpoint typed (env : nat -> option fx) (a b : nat) (e : cexp) : Prop :=
  match e with
  | EVar r => exists f, env r = Some f /\ is_cost f /\ xdim f = (a, b, 1%nat)
  | EAdd p q => typed env a b p /\ typed env a b q
  | EAddTmp p q => is_tmp p /\ typed env a b p /\ typed env a b q
  | EMul _ p => typed env a b p
  | EScale _ p | ENeg p => is_sum env p /\ typed env a b p
  end.

(** ** Finite differences *)
(** The i-th unit vector of length n. *)
Definition axis (n i : nat) : rvec := map (fun j => if Nat.eqb j i then 1 else 0) (seq 0 n).
(** For |t| <= e the curve f is defined, has length m, and its coordinates are three times
    differentiable with third derivatives bounded by M. *)
Definition smooth_curve (m : nat) (M e : R) (f : R -> outcome rvec) : Prop :=
  exists y y1 y2 y3 : nat -> R -> R,
    (forall t, Rabs t <= e -> f t = Ret (map (fun k => y k t) (seq 0 m))) /\
    forall k t, (k < m)%nat -> Rabs t <= e ->
      derivable_pt_lim (y k) t (y1 k t) /\ derivable_pt_lim (y1 k) t (y2 k t) /\ derivable_pt_lim (y2 k) t (y3 k t) /\ Rabs (y3 k t) <= M.
(** c is the velocity of f at 0 up to the error M e^2 / 6 in every coordinate. *)
Definition close_velocity (M e : R) (f : R -> outcome rvec) (c : rvec) : Prop :=
  exists v, velocity f v /\ length c = length v /\ forall k, (k < length v)%nat -> Rabs (nth k c 0 - nth k v 0) <= M * (e * e) / 6.
(** Column i. *)
Definition column (i : nat) (J : list rvec) : rvec := map (fun row => nth i row 0) J.

(** t |-> J(x (+) t a)' v for the Jacobian J computed by the user function u. *)
Definition vec_jac (u : ext RSc) (s : rspace) (x v a : rvec) (t : R) : outcome rvec :=
  (do z <- integrate s x (line a t); do J <- user (e_jac u z (repeat (repeat 0 (e_ndx u)) (e_nr u)));
   Ret (mat_vec (map (fun j => column j J) (seq 0 (e_ndx u))) v))%out.

(** ** Rigid transformations *)
(** Derivative of a unit quaternion (x, y, z, w) that rotates with body angular velocity (a, b, c):
    half the product q (a, b, c, 0). *)
Definition quat_rate (q o : rvec) : rvec :=
  match q, o with
  | [x; y; z; w], [a; b; c] =>
      [(w * a + y * c - z * b) / 2; (w * b + z * a - x * c) / 2; (w * c + x * b - y * a) / 2; - (x * a + y * b + z * c) / 2]
  | _, _ => []
  end.
(** Rotation of the vector v by the unit quaternion q: v + 2 w (r x v) + 2 r x (r x v), r = (x, y, z). *)
Definition cross (u v : rvec) : rvec :=
  match u, v with
  | [a; b; c], [d; e; f] => [b * f - c * e; c * d - a * f; a * e - b * d]
  | _, _ => []
  end.
Definition rotate (q v : rvec) : rvec :=
  match q with
  | [x; y; z; w] =>
      let r := [x; y; z] in
      map2 Rplus v (map2 Rplus (map (fun a => 2 * w * a) (cross r v)) (map (fun a => 2 * a) (cross r (cross r v))))
  | _ => []
  end.
