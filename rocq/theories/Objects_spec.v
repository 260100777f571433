(** Specification for problems built from function objects (C91). *)
From Coq Require Import Reals List Arith Bool.
From Verif Require Import Scalar Cset_spec Cset_model Armijo_model Problem_model Solver_model Manifold_model Manifold_spec Function_model Function_spec Objects_model.
Import ListNotations.
Local Open Scope R_scope.

(** The same problem without memory, as the solver of Solver_model sees it: every question is answered by the objects as they were in
    the heap h at the beginning, evaluated once at the point asked about. *)
Definition got {A B} (m : outcome (A * B)) : option A := match m with Ret (a, _) => Some a | _ => None end.
Definition memoryless_fun (junk : nat -> nat -> R) (n d : nat) (h : heap RSc) (c : nat * nat) : @cfun RSc :=
  mkCfun (K := RSc) (snd c)
    (fun x => got (eval (K := RSc) n h (fst c) x))
    (fun x => got (do (_, h1) <- eval (K := RSc) n h (fst c) x; jac (K := RSc) junk n h1 (fst c) x (repeat (repeat 0 d) (snd c)))%out)
    (fun x v => got (do (_, h1) <- eval (K := RSc) n h (fst c) x; vhp (K := RSc) junk n h1 (fst c) x v (repeat (repeat 0 d) d))%out).
Definition memoryless (junk : nat -> nat -> R) (n : nat) (h : heap RSc) (p : @oproblem) : @problem RSc :=
  let d := op_ndx p in
  mkProblem (K := RSc) d
    (fun x => got (call (K := RSc) n h (op_cost p) x))
    (fun x => got (do (_, h1) <- call (K := RSc) n h (op_cost p) x; grad (K := RSc) junk n h1 (op_cost p) x (repeat 0 d))%out)
    (fun x => got (do (_, h1) <- call (K := RSc) n h (op_cost p) x; hess (K := RSc) junk n h1 (op_cost p) x (repeat (repeat 0 d) d))%out)
    (map (memoryless_fun junk n d h) (op_cons p)).
(** The answers of a problem without memory, written into the buffers. *)
Definition pure_step (p : @problem RSc) (b : @buffers RSc) (c : @pcall RSc) : outcome (@buffers RSc) :=
  match c with
  | PEval x => (do fv <- evaluate_problem p x; Ret (mkBuffers (fst fv) (snd fv) (bf_grad b) (bf_jac b) (bf_hess b) (bf_vhp b)))%out
  | PDerivs x => (do gJ <- derivs_problem p x; Ret (mkBuffers (bf_val b) (bf_con b) (fst gJ) (snd gJ) (bf_hess b) (bf_vhp b)))%out
  | PHess all x lams => (do HV <- hessians_problem p all x lams (bf_vhp b); Ret (mkBuffers (bf_val b) (bf_con b) (bf_grad b) (bf_jac b) (fst HV) (snd HV)))%out
  end.
Fixpoint pure_run (p : @problem RSc) (b : @buffers RSc) (cs : list (@pcall RSc)) : outcome (@buffers RSc) :=
  match cs with
  | [] => Ret b
  | c :: r => (do b1 <- pure_step p b c; pure_run p b1 r)%out
  end.

(** Derivatives are asked only at the point of the last evaluation. *)
Fixpoint ordered (cur : option rvec) (cs : list (@pcall RSc)) : Prop :=
  match cs with
  | [] => True
  | PEval x :: r => ordered (Some x) r
  | PDerivs x :: r => cur = Some x /\ ordered cur r
  | PHess _ x _ :: r => cur = Some x /\ ordered cur r
  end.
Definition call_point (c : @pcall RSc) : rvec := match c with PEval x => x | PDerivs x => x | PHess _ x _ => x end.
Definition call_lams (c : @pcall RSc) (nrs : list nat) : Prop := match c with PHess _ _ lams => map (@length R) lams = nrs | _ => True end.

(** User functions whose vectorHessianProduct is a function of its arguments that does not use the previous content of the output. *)
Definition steady (d : nat) (u : ext RSc) : Prop :=
  exists H, forall x v old, mat d d old -> e_vhp u x v old = Some (H x v) /\ mat d d (H x v).
(** Costs with a usable Hessian, and functions with a usable vectorHessianProduct. *)
Definition steady_cost (d : nat) (h : heap RSc) (e : fx) : Prop :=
  gauss_newton h e \/ exists u, e = XCost (XBase (OExt u)) /\ steady d u.
Definition steady_fun (d : nat) (h : heap RSc) (f : fx) : Prop :=
  default_vhp f \/ (exists u, f = XBase (OExt u) /\ steady d u) \/ (is_cost f /\ steady_cost d h f).
(** The objects of the problem represent the cost e and the constraint functions es. *)
Definition represents (s : rspace) (h : heap RSc) (p : @oproblem) (e : fx) (es : list fx) : Prop :=
  op_ndx p = ndx s /\ is_cost e /\ repr h (op_cost p) e /\ steady_cost (ndx s) h e /\
  Forall2 (fun c f => repr h (fst c) f /\ snd c = xnr f /\ steady_fun (ndx s) h f) (op_cons p) es.
(** At x all functions are differentiable, there is a path in every direction, and no quadratic cost is reached with two values of
    its residual, whether from the cost or from the constraints. *)
Definition regular (D : domain) (s : rspace) (e : fx) (es : list fx) (x : rvec) : Prop :=
  good D (Geo s) x e 1 /\ Forall (fun f => good D (Geo s) x f (xnr f)) es /\
  consistent (visits e x ++ flat_map (fun f => visits f x) es) /\
  forall w, length w = ndx s -> exists g, path (Geo s) x w g.
(** Buffers as allocated by the workspace. *)
Definition sized_buffers (d : nat) (nrs : list nat) (b : @buffers RSc) : Prop :=
  length (bf_grad b) = d /\ mat (fold_right Nat.add 0%nat nrs) d (bf_jac b) /\ mat d d (bf_hess b) /\
  length (bf_vhp b) = length nrs /\ Forall (mat d d) (bf_vhp b).

(** ** The proximal penalty (C92) *)
(** The penalty rho / 2 |x - t|^2 at x, where x - t is the difference on the manifold. *)
Definition penalty (s : rspace) (rho : R) (t x : rvec) : outcome rvec := (do v <- difference (K := RSc) s t x; Ret [rho / 2 * inner v v])%out.
(** The answers expected for a sequence of operations, given the parameter rho and the target t at the beginning: the value of the penalty, its
    derivative, and the form rho du' dw, where du and dw are the derivatives of the difference in the directions u and w. *)
Fixpoint prox_answers (s : rspace) (rho : R) (t : rvec) (ops : list (@prox_op RSc)) (l : list (@prox_answer RSc)) : Prop :=
  match ops, l with
  | [], [] => True
  | XRho rho' :: ops', _ => prox_answers s rho' t ops' l
  | XTarget t' :: ops', _ => prox_answers s rho t' ops' l
  | XPass x _ _ :: ops', APass v g H :: l' =>
      penalty s rho t x = Ret [v] /\ length g = ndx s /\ mat (ndx s) (ndx s) H /\
      (forall w c, length w = ndx s -> path (Geo s) x w c -> velocity (fun a => (do y <- c a; penalty s rho t y)%out) [inner g w]) /\
      (forall u w cu cw du dw, length u = ndx s -> length w = ndx s -> path (Geo s) x u cu -> path (Geo s) x w cw ->
         velocity (fun a => (do y <- cu a; difference (K := RSc) s t y)%out) du -> velocity (fun a => (do y <- cw a; difference (K := RSc) s t y)%out) dw ->
         inner u (mat_vec H w) = rho * inner du dw) /\
      prox_answers s rho t ops' l'
  | XTrial x :: ops', ATrial v :: l' => penalty s rho t x = Ret [v] /\ prox_answers s rho t ops' l'
  | _, _ => False
  end.
(** The points asked about are near the target of the moment, and the buffers have the right sizes. *)
Fixpoint prox_near (D : domain) (s : rspace) (t : rvec) (ops : list (@prox_op RSc)) : Prop :=
  match ops with
  | [] => True
  | XRho _ :: ops' => prox_near D s t ops'
  | XTarget t' :: ops' => prox_near D s t' ops'
  | XPass x g H :: ops' => near D s t x /\ length g = ndx s /\ mat (ndx s) (ndx s) H /\ prox_near D s t ops'
  | XTrial x :: ops' => near D s t x /\ prox_near D s t ops'
  end.
(** The penalty as seen by the model of the solver: the value, the gradient and the Hessian that the object in the heap h returns at x after the
    parameter has been set to rho and the target to t. *)
Definition object_val (junk : nat -> nat -> R) (n : nat) (h : heap RSc) (r : nat) (rho : R) (t x : rvec) : R :=
  match prox_run (K := RSc) junk n h r [XRho rho; XTarget t; XTrial x] with Ret ([ATrial v], _) => v | _ => 0 end.
Definition object_grad (junk : nat -> nat -> R) (n d : nat) (h : heap RSc) (r : nat) (rho : R) (t x : rvec) : rvec :=
  match prox_run (K := RSc) junk n h r [XRho rho; XTarget t; XPass x (repeat 0 d) (repeat (repeat 0 d) d)] with Ret ([APass _ g _], _) => g | _ => [] end.
Definition object_hess (junk : nat -> nat -> R) (n d : nat) (h : heap RSc) (r : nat) (rho : R) (t x : rvec) : list rvec :=
  match prox_run (K := RSc) junk n h r [XRho rho; XTarget t; XPass x (repeat 0 d) (repeat (repeat 0 d) d)] with Ret ([APass _ _ H], _) => H | _ => [] end.
