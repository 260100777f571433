(** The problem of problem-base.hpp on top of the function objects of Function_model: the cost and the
    constraint functions are objects of a heap, may share sub-objects, and keep values between calls. *)
From Coq Require Import List Bool Arith.
From Verif Require Import Scalar Cset_model Problem_model Manifold_model Function_model.
Import ListNotations.

Section Objects.
  Context {K : Sc}.
  Notation vec := (list (car K)).
  Notation rows := (list (list (car K))).
  (** Content of fresh memory, see Function_model (function-base.hpp:65). *)
  Variable junk : nat -> nat -> car K.

  (** problem-base.hpp:25-29 [manifold_] (its ndx), [cost_], [constraints_] (their functions), and 110 [ncs_].  The sets of the
      constraints are not part of it: [disableGaussNewton] returns true for all of them. *)
  Record oproblem := mkOproblem { op_ndx : nat; op_cost : ref; op_cons : list (ref * nat) }.
  (** problem-base.hpp:114-127 [reset_constraint_dim_vars]: the sizes are read from the functions. *)
  Fixpoint cons_sizes (h : heap K) (cs : list ref) : outcome (list (ref * nat)) :=
    match cs with
    | [] => Ret []
    | c :: r => (do (_, _, nr) <- dims_at h c; do l <- cons_sizes h r; Ret ((c, nr) :: l))%out
    end.
  (** problem-base.hpp:34-40, the constructor; [s] is the manifold. *)
  Definition new_problem (h : heap K) (s : space K) (cost : ref) (cs : list ref) : outcome oproblem :=
    (do l <- cons_sizes h cs; Ret (mkOproblem (ndx s) cost l))%out.
  (** problem-base.hpp:58-61 [addConstraint]. *)
  Definition add_object (h : heap K) (p : oproblem) (c : ref) : outcome oproblem :=
    (do l <- cons_sizes h (map fst (op_cons p) ++ [c]); Ret (mkOproblem (op_ndx p) (op_cost p) l))%out.

  (** The members of the workspace written by the problem: workspace.hpp:74-95 [objective_value],
      [data_cstr_values], [objective_gradient], [data_jacobians], [objective_hessian], [cstr_vector_hessian_prod]. *)
  Record buffers := mkBuffers { bf_val : car K; bf_con : vec; bf_grad : vec; bf_jac : rows; bf_hess : rows; bf_vhp : list rows }.

  (** problem-base.hpp:79-82, the values of the constraints one below the other; the segments cannot be resized. *)
  Fixpoint eval_objects (n : nat) (h : heap K) (cs : list (ref * nat)) (x : vec) : outcome (vec * heap K) :=
    match cs with
    | [] => Ret ([], h)
    | (c, nr) :: r => (do (v, h1) <- eval n h c x; do v <- fixed nr v; do (w, h2) <- eval_objects n h1 r x; Ret (v ++ w, h2))%out
    end.
  (** problem-base.hpp:76-83 [evaluate]. *)
  Definition obj_evaluate (n : nat) (p : oproblem) (h : heap K) (b : buffers) (x : vec) : outcome (buffers * heap K) :=
    (do (c, h1) <- call n h (op_cost p) x; do (v, h2) <- eval_objects n h1 (op_cons p) x;
     Ret (mkBuffers c v (bf_grad b) (bf_jac b) (bf_hess b) (bf_vhp b), h2))%out.
  (** problem-base.hpp:88-91: each function writes into its rows of [old]. *)
  Fixpoint jac_objects (n : nat) (h : heap K) (cs : list (ref * nat)) (x : vec) (old : rows) : outcome (rows * heap K) :=
    match cs with
    | [] => Ret ([], h)
    | (c, nr) :: r =>
        (do (J, h1) <- jac junk n h c x (firstn nr old); do (M, h2) <- jac_objects n h1 r x (skipn nr old); Ret (J ++ M, h2))%out
    end.
  (** problem-base.hpp:85-92 [computeDerivatives]. *)
  Definition obj_derivs (n : nat) (p : oproblem) (h : heap K) (b : buffers) (x : vec) : outcome (buffers * heap K) :=
    (do (g, h1) <- grad junk n h (op_cost p) x (bf_grad b); do (J, h2) <- jac_objects n h1 (op_cons p) x (bf_jac b);
     Ret (mkBuffers (bf_val b) (bf_con b) g J (bf_hess b) (bf_vhp b), h2))%out.
  (** problem-base.hpp:97-104: products that are not asked for keep their value. *)
  Fixpoint vhp_objects (n : nat) (h : heap K) (use : bool) (cs : list (ref * nat)) (x : vec) (lams : list vec) (old : list rows)
    : outcome (list rows * heap K) :=
    match cs, lams, old with
    | (c, _) :: r, l :: ls, o :: os =>
        (do (H, h1) <- (if use then vhp junk n h c x l o else Ret (o, h));
         do (Hs, h2) <- vhp_objects n h1 use r x ls os; Ret (H :: Hs, h2))%out
    | [], _, _ => Ret ([], h)
    | _, _, _ => UB
    end.
  (** problem-base.hpp:94-105 [computeHessians]; [all] is [evaluate_all_constraint_hessians], [lams] is [lams_pdal]. *)
  Definition obj_hessians (n : nat) (p : oproblem) (h : heap K) (b : buffers) (all : bool) (x : vec) (lams : list vec) : outcome (buffers * heap K) :=
    (do (H, h1) <- hess junk n h (op_cost p) x (bf_hess b); do (V, h2) <- vhp_objects n h1 all (op_cons p) x lams (bf_vhp b);
     Ret (mkBuffers (bf_val b) (bf_con b) (bf_grad b) (bf_jac b) H V, h2))%out.

  (** The three requests a solver can make (problem-base.hpp:76, 85, 94). *)
  Inductive pcall := PEval (x : vec) | PDerivs (x : vec) | PHess (all : bool) (x : vec) (lams : list vec).
  (** One request (problem-base.hpp:76-104). *)
  Definition obj_step (n : nat) (p : oproblem) (h : heap K) (b : buffers) (c : pcall) : outcome (buffers * heap K) :=
    match c with
    | PEval x => obj_evaluate n p h b x
    | PDerivs x => obj_derivs n p h b x
    | PHess all x lams => obj_hessians n p h b all x lams
    end.
  (** A sequence of requests to the problem (those of prox-solver.hxx:210, 244, 293, 302). *)
  Fixpoint obj_run (n : nat) (p : oproblem) (h : heap K) (b : buffers) (cs : list pcall) : outcome (buffers * heap K) :=
    match cs with
    | [] => Ret (b, h)
    | c :: r => (do (b1, h1) <- obj_step n p h b c; obj_run n p h1 b1 r)%out
    end.
  (** The requests of one pass of the inner loop, prox-solver.hxx:302 (evaluate), 210 (derivatives), 236-245 (Hessians, with
      [all] for EXACT, and [None] for BFGS and IDENTITY, which make no request), 291-298 (evaluations at the points tried by the line
      search).  [lams] stands for the primal-dual multipliers (line 304 after 303). *)
  Definition pass_calls (x : vec) (hs : option (bool * list vec)) (trials : list vec) : list pcall :=
    PEval x :: PDerivs x :: match hs with Some (all, lams) => [PHess all x lams] | None => [] end ++ map PEval trials.

  (** ** The proximal penalty of the solver, a QuadraticDistanceCost (prox-solver.hpp:67) *)
  (** prox-solver.hxx:23-25: target [neutral()], weights rho times the identity. *)
  Definition new_prox (h : heap K) (s : space K) (rho : car K) : outcome (heap K * ref) :=
    new_distance h s (neutral s) (mscale rho (eye_scaled 1%S (ndx s))).
  (** prox-solver.hxx:560-561: [weights_.setZero(); weights_.diagonal().setConstant(rho_)]. *)
  Definition set_prox_weights (h : heap K) (r : ref) (rho : car K) : outcome (heap K) :=
    (do o <- ub (nth_error h r);
     match o with
     | OQuad _ _ _ _ _ _ _ _ =>
         Ret (update h r (fun o => match o with
                                   | OQuad a b f W sl c gn ca =>
                                       OQuad a b f (map (fun i => map (fun j => if Nat.eqb i j then rho else 0%S) (seq 0 (length (nth i W [])))) (seq 0 (length W))) sl c gn ca
                                   | _ => o
                                   end))
     | _ => UB
     end)%out.
  (** What the solver does with it: prox-solver.hxx:557-562 ([setProxParameter]), 92 ([updateTarget]), 317-319 (value, gradient and
      Hessian at the iterate), 297 (value at a trial point). *)
  Inductive prox_op := XRho (rho : car K) | XTarget (t : vec) | XPass (x g : vec) (H : rows) | XTrial (x : vec).
  (** The answers (prox-solver.hxx:317-319, 297): of a pass (with the buffers g and H of the operation holding the old content), and of a trial. *)
  Inductive prox_answer := APass (v : car K) (g : vec) (H : rows) | ATrial (v : car K).
  (** These operations in sequence (prox-solver.hxx:297, 317-319, 92, 557-562). *)
  Fixpoint prox_run (n : nat) (h : heap K) (r : ref) (ops : list prox_op) : outcome (list prox_answer * heap K) :=
    match ops with
    | [] => Ret ([], h)
    | XRho rho :: l => (do h1 <- set_prox_weights h r rho; prox_run n h1 r l)%out
    | XTarget t :: l => (do h1 <- update_target h r t; prox_run n h1 r l)%out
    | XPass x g H :: l =>
        (do (v, h1) <- call n h r x; do (g', h2) <- grad junk n h1 r x g; do (H', h3) <- hess junk n h2 r x H;
         do (a, h4) <- prox_run n h3 r l; Ret (APass v g' H' :: a, h4))%out
    | XTrial x :: l => (do (v, h1) <- call n h r x; do (a, h2) <- prox_run n h1 r l; Ret (ATrial v :: a, h2))%out
    end.
End Objects.
