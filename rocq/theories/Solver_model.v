(** Model of include/proxsuite-nlp/prox-solver.hpp/.hxx, pdal.hxx, results.hpp, workspace.hpp,
    bcl-params.hpp.

    The constraints of the problem are the list of pairs (set, dimension) in the order of
    [ProblemTpl::constraints_]; the loops [for i < getNumConstraints()] over segments are the loops
    [prod_loop] of Cset_model.v (same start indices, see C15).  Workspace members which a pass
    through the inner loop overwrites before reading are local [let]s here; the others are fields
    of [state].  Matrices are lists of rows. *)
From Coq Require Import List Bool Arith ZArith.
From Verif Require Import Scalar Cset_model Armijo_model Problem_model.
Import ListNotations.

(** prox-solver.hpp:25 [MultiplierUpdateMode], 27-36 [HessianApprox], 38 [InertiaFlag],
    40 [KktSystem]; results.hpp:11 [ConvergenceFlag]. *)
Inductive mul_mode := MM_NEWTON | MM_PRIMAL | MM_PRIMAL_DUAL.
(** prox-solver.hpp:27-36 [HessianApprox]. *)
Inductive hess_mode := HM_EXACT | HM_GAUSS_NEWTON | HM_BFGS | HM_IDENTITY.
(** prox-solver.hpp:38 [InertiaFlag]. *)
Inductive inertia_flag := INERTIA_OK | INERTIA_BAD | INERTIA_HAS_ZEROS.
(** prox-solver.hpp:40 [KktSystem]. *)
Inductive kkt_system := KKT_CLASSIC | KKT_PRIMAL_DUAL.
(** results.hpp:11 [ConvergenceFlag]. *)
Inductive conv_flag := UNINIT | SUCCESS | MAX_ITERS_REACHED.

(** ldlt-allocator.hpp:196-221 [computeInertiaTuple]: counts of 1, -1 and 0 entries; [None]: the
    exception "Signature vector should only contain values O, 1, -1." *)
Fixpoint inertia_tuple_loop (sig : list Z) (np nn n0 : nat) : option (nat * nat * nat) :=
  match sig with
  | [] => Some (np, nn, n0)
  | s :: r =>
      if Z.eqb s 1 then inertia_tuple_loop r (S np) nn n0
      else if Z.eqb s (-1) then inertia_tuple_loop r np (S nn) n0
      else if Z.eqb s 0 then inertia_tuple_loop r np nn (S n0)
      else None
  end.
(** ldlt-allocator.hpp:196-221. *)
Definition inertia_tuple (sig : list Z) : option (nat * nat * nat) := inertia_tuple_loop sig 0 0 0.

(** prox-solver.hxx:129-148 [checkInertia]. *)
Definition check_inertia (ndx numc : nat) (sig : list Z) : option inertia_flag :=
  match inertia_tuple sig with
  | None => None
  | Some (np, nn, n0) =>
      let pos_ok := Nat.eqb np ndx in
      let neg_ok := Nat.eqb nn numc in
      let zer_ok := Nat.eqb n0 0 in
      Some (if negb (pos_ok && neg_ok && zer_ok)
            then (if negb zer_ok then INERTIA_HAS_ZEROS else INERTIA_BAD)
            else INERTIA_OK)
  end.

Section Solver.
  Context {K : Sc}.
  Local Open Scope sc_scope.
  Notation vec := (list (car K)).
  Notation rows := (list (list (car K))).

  (** ** Linear algebra on lists *)

  (** Vector of zeros, [setZero()] (prox-solver.hxx:324). *)
  Definition vzero (n : nat) : vec := repeat 0 n.
  (** [J.transpose() * v] for a matrix given by its rows, with [n] columns
      (prox-solver.hxx:329-330, 357-358, 372-385; pdal.hxx:35-36). *)
  Definition mtv (n : nat) (J : rows) (v : vec) : vec :=
    fold_left vadd (map2 (fun row a => vscale a row) J v) (vzero n).
  (** [M * v] (prox-solver.hxx:535). *)
  Definition mv (M : rows) (v : vec) : vec := map (fun row => vdot row v) M.
  (** Coefficient (i,j), 0 outside (reads of blocks, prox-solver.hxx:490-526). *)
  Definition mget (M : rows) (i j : nat) : car K := nth j (nth i M []) 0.
  (** Matrix with [r] rows, [c] columns and given coefficients (the blocks assigned by prox-solver.hxx:490-526). *)
  Definition mtab (r c : nat) (f : nat -> nat -> car K) : rows :=
    map (fun i => map (f i) (seq 0 c)) (seq 0 r).
  (** Sum of two matrices (the [+=] of prox-solver.hxx:490-526). *)
  Definition madd (A B : rows) : rows := map2 vadd A B.
  (** [math::check_value], math.hpp:84-93: some coefficient is NaN or infinite. *)
  Definition bad_scalar (a : car K) : bool := snan a || negb (sfin a).
  (** [math::check_value] of a vector, math.hpp:90-93. *)
  Definition bad_vec (v : vec) : bool := existsb bad_scalar v.
  (** [math::check_value] of a matrix, math.hpp:90-93. *)
  Definition bad_mat (M : rows) : bool := existsb bad_vec M.
  (** The segments of a stacked vector for the dimensions of the constraints (workspace.lams_pdal[i],
      problem-base.hpp:102; shift_cstr_values[i], prox-solver.hxx:259); [None]: out of range. *)
  Fixpoint blocks_of (dims : list nat) (v : vec) : option (list vec) :=
    match dims with
    | [] => Some []
    | n :: r =>
        if Nat.leb n (length v) then
          match blocks_of r (skipn n v) with Some l => Some (firstn n v :: l) | None => None end
        else None
    end.
  (** Size check of an Eigen assignment to a fixed block (problem-base.hpp:81). *)
  Definition sized {A} (n : nat) (v : list A) : outcome (list A) :=
    if Nat.eqb (length v) n then Ret v else UB.
  (** The same for a matrix (problem-base.hpp:90). *)
  Definition sized2 {A} (r c : nat) (M : list (list A)) : outcome (list (list A)) :=
    if Nat.eqb (length M) r && forallb (fun row => Nat.eqb (length row) c) M then Ret M else UB.

  (** ** The problem (problem-base.hpp) *)

  (** A constraint function (function-base.hpp:13-96): value, Jacobian, vector-Hessian product;
      [None] = the user code throws. User functions are deterministic functions of the point. *)
  Record cfun := mkCfun {
    f_nr : nat; f_val : vec -> option vec; f_jac : vec -> option rows; f_vhp : vec -> vec -> option rows
  }.
  (** problem-base.hpp:24-29 and the manifold dimension; the cost is cost-function.hpp:16-73. *)
  Record problem := mkProblem {
    p_ndx : nat;
    p_cost : vec -> option (car K); p_grad : vec -> option vec; p_hess : vec -> option rows;
    p_cons : list cfun
  }.
  (** The output dimensions of the constraints, problem-base.hpp:53. *)
  Definition dims (p : problem) : list nat := map f_nr (p_cons p).
  (** problem-base.hpp:50 [getTotalConstraintDim]; workspace.numdual. *)
  Definition numdual (p : problem) : nat := fold_right Nat.add 0%nat (dims p).

  (** problem-base.hpp:79-82, the loop over the constraints. *)
  Fixpoint eval_cons (fs : list cfun) (x : vec) : outcome vec :=
    match fs with
    | [] => Ret []
    | f :: r =>
        (do v <- user (f_val f x); do v <- sized (f_nr f) v;
         do w <- eval_cons r x; Ret (v ++ w))%out
    end.
  (** problem-base.hpp:76-83 [evaluate]: objective value and stacked constraint values. *)
  Definition evaluate_problem (p : problem) (x : vec) : outcome (car K * vec) :=
    (do f <- user (p_cost p x); do c <- eval_cons (p_cons p) x; Ret (f, c))%out.
  (** problem-base.hpp:88-91, loop of [computeDerivatives]. *)
  Fixpoint jac_cons (n : nat) (fs : list cfun) (x : vec) : outcome rows :=
    match fs with
    | [] => Ret []
    | f :: r =>
        (do v <- user (f_jac f x); do v <- sized2 (f_nr f) n v;
         do w <- jac_cons n r x; Ret (v ++ w))%out
    end.
  (** problem-base.hpp:85-92 [computeDerivatives]: gradient and stacked Jacobian. *)
  Definition derivs_problem (p : problem) (x : vec) : outcome (vec * rows) :=
    (do g <- user (p_grad p x); do g <- sized (p_ndx p) g;
     do J <- jac_cons (p_ndx p) (p_cons p) x; Ret (g, J))%out.
  (** problem-base.hpp:97-104, loop of [computeHessians]; [use] is
      [!disableGaussNewton() || evaluate_all_constraint_hessians], where [disableGaussNewton] is
      true for every set; products not recomputed keep the old value. *)
  Fixpoint vhp_cons (n : nat) (use : bool) (fs : list cfun) (x : vec) (lams : list vec) (old : list rows)
    : outcome (list rows) :=
    match fs, lams, old with
    | f :: r, l :: ls, o :: os =>
        (do h <- (if use then do h <- user (f_vhp f x l); sized2 n n h else Ret o);
         do hs <- vhp_cons n use r x ls os; Ret (h :: hs))%out
    | [], _, _ => Ret []
    | _, _, _ => UB
    end.
  (** problem-base.hpp:94-105 [computeHessians]. *)
  Definition hessians_problem (p : problem) (use_all : bool) (x : vec) (lams_pdal : list vec) (old : list rows)
    : outcome (rows * list rows) :=
    (do h <- user (p_hess p x); do h <- sized2 (p_ndx p) (p_ndx p) h;
     do vs <- vhp_cons (p_ndx p) use_all (p_cons p) x lams_pdal old; Ret (h, vs))%out.

  (** ** Solver parameters: prox-solver.hpp:66-126, bcl-params.hpp:11-23 (defaults below). *)
  Record params := mkParams {
    rho_init : car K; mu_init : car K; mu_lower : car K; mu_upper : car K; pdal_beta : car K;
    target_tol : car K; inner_tol0 : car K; prim_tol0 : car K; inner_tol_min : car K;
    prim_alpha : car K; prim_beta : car K; dual_alpha : car K; dual_beta : car K;
    mu_factor : car K; rho_factor : car K;
    del_inc_k : car K; del_inc_big : car K; del_dec_k : car K; delta_min : car K; delta_max : car K;
    delta_nz_init : car K; delta_init : car K;
    max_iters : nat; max_al_iters : nat; max_refine : nat; kkt_tolerance : car K;
    mul_update : mul_mode; kkt_sys : kkt_system; hess_approx : hess_mode;
    lsopt : ls_options K; callbacks : list nat
  }.
  (** prox-solver.hpp:66-126 and 134-142, bcl-params.hpp:11-23: the default values. *)
  Definition default_params : params :=
    mkParams 0 (slit 1 100) (slit 1 1000000000) 1 shalf
      (slit 1 1000000) 1 1 (slit 1 1000000000)
      (slit 1 10) (slit 9 10) 1 1 (slit 1 100) 1
      (sofZ 8) (sofZ 100) (slit 1 3) (slit 1 100000000000000) (sofZ 1000000) (slit 1 10000) 0
      100 1000 5 (slit 1 10000000000000)
      MM_NEWTON KKT_CLASSIC HM_GAUSS_NEWTON ls_default [].

  (** ** Oracles: external code used by the solver, arguments of the model. *)

  (** [std::pow]. *)
  Variable spow : car K -> car K -> car K.
  (** [ManifoldAbstractTpl::integrate]. *)
  Variable integrate : vec -> vec -> vec.
  (** The proximal penalty [QuadraticDistanceCostTpl] (value, gradient, Hessian) as a function of
      the weight rho, the target and the point; modelled in Costs_model.v. *)
  Variable px_val : car K -> vec -> vec -> car K.
  Variable px_grad : car K -> vec -> vec -> vec.
  Variable px_hess : car K -> vec -> vec -> rows.
  (** The LDLT factorisation object [workspace.ldlt_] with its internal state. *)
  Variable fac : Type.
  Variable fac_compute : fac -> rows -> fac.
  Variable fac_signature : fac -> list Z.
  Variable fac_solve : fac -> vec -> vec.
  (** The BFGS strategy object: new state and new objective Hessian from x, gradient and the old
      Hessian (bfgs-strategy.hpp:45-81, modelled in Bfgs_model.v). *)
  Variable bfgs : Type.
  Variable bfgs_update : bfgs -> vec -> vec -> rows -> bfgs * rows.
  (** QR solve inside the line search. *)
  Variable qr : car K -> car K -> car K -> car K -> car K -> car K -> car K * car K.

  (** ** State of a solver object between statements.
      Solver members prox-solver.hpp:84-99, results results.hpp:22-47, workspace
      workspace.hpp:29-121 (only members that carry information from one pass to the next). *)
  Record results := mkResults {
    r_conv : conv_flag; r_merit : car K; r_value : car K; r_x : vec; r_lams : vec;
    r_active : list bool; r_dual_infeas : car K; r_prim_infeas : car K; r_viol : vec;
    r_num_iters : nat; r_al_iters : nat; r_mu : car K; r_rho : car K
  }.
  (** workspace.hpp:29-121, the members that carry information from one pass to the next; the factorisation and prox-solver.hpp:77 [bfgs_strategy_]. *)
  Record wspace := mkWs {
    w_lams_prev : vec; w_x_prev : vec; w_plus : vec; w_pdal : vec;
    w_kkt : rows; w_hess : rows; w_vhp : list rows; w_fac : fac; w_bfgs : bfgs; w_alpha : car K
  }.
  (** One call of one callback (prox-solver.hpp:282-286): which callback and the results it saw. *)
  Record event := mkEvent { ev_cb : nat; ev_results : results }.
  (** Solver members prox-solver.hpp:84-99 with results and workspace. *)
  Record state := mkState {
    s_mu : car K; s_mu_inv : car K; s_rho : car K; s_inner_tol : car K; s_prim_tol : car K;
    s_sets : list (cset K); s_target : vec;
    s_res : results; s_ws : wspace; s_events : list event
  }.

  (** Constraint stack: sets paired with dimensions (the loops over getNumConstraints(), prox-solver.hxx:176-181). *)
  Definition stack (p : problem) (sets : list (cset K)) : cset K := CProd 0 (combine sets (dims p)).

  (** ** Penalty and tolerance updates *)

  (** prox-solver.hxx:546-554 [setPenalty]. *)
  Definition set_penalty (mu : car K) (s : state) : state :=
    mkState mu (1 / mu) (s_rho s) (s_inner_tol s) (s_prim_tol s) (map (set_prox mu) (s_sets s))
            (s_target s) (s_res s) (s_ws s) (s_events s).
  (** prox-solver.hxx:556-562 [setProxParameter]. *)
  Definition set_rho (rho : car K) (s : state) : state :=
    mkState (s_mu s) (s_mu_inv s) rho (s_inner_tol s) (s_prim_tol s) (s_sets s)
            (s_target s) (s_res s) (s_ws s) (s_events s).
  (** prox-solver.hxx:578-582 [tolerancePostUpdate], applied to new values. *)
  Definition set_tols (P : params) (inner_tol prim_tol : car K) (s : state) : state :=
    mkState (s_mu s) (s_mu_inv s) (s_rho s) (smax inner_tol (inner_tol_min P)) (smax prim_tol (target_tol P))
            (s_sets s) (s_target s) (s_res s) (s_ws s) (s_events s).
  (** prox-solver.hxx:564-569 [updateToleranceFailure]. *)
  Definition tol_failure (P : params) (s : state) : state :=
    set_tols P (inner_tol0 P * spow (s_mu s) (dual_alpha P)) (prim_tol0 P * spow (s_mu s) (prim_alpha P)) s.
  (** prox-solver.hxx:571-576 [updateToleranceSuccess]. *)
  Definition tol_success (P : params) (s : state) : state :=
    set_tols P (s_inner_tol s * spow (s_mu s / mu_upper P) (dual_beta P))
               (s_prim_tol s * spow (s_mu s / mu_upper P) (prim_beta P)) s.
  (** prox-solver.hxx:270-276 [updatePenalty]. *)
  Definition update_penalty (P : params) (s : state) : state :=
    if s_mu s =? mu_lower P then set_penalty (mu_init P) s
    else set_penalty (smax (s_mu s * mu_factor P) (mu_lower P)) s.

  (** ** Multipliers and merit function *)

  (** Quantities computed by [computeMultipliers], prox-solver.hxx:169-205. *)
  Record mults := mkMults {
    m_shift : vec; m_plus : vec; m_shift_pd : vec; m_pdal : vec; m_plus_r : vec; m_pdal_r : vec
  }.
  (** [applyProjectionJacobian] on a vector, viewed as a one-column matrix (prox-solver.hxx:199-202). *)
  Definition proj_jac_vec (c : cset K) (z v : vec) : option vec :=
    match proj_jac c z (map (fun a => [a]) v) with
    | Some M => Some (map (fun row => nth 0 row 0) M)
    | None => None
    end.
  (** [applyNormalConeProjectionJacobian] on a vector, viewed as a one-column matrix (constraint-set.hxx:25-38). *)
  Definition cone_jac_vec (c : cset K) (z v : vec) : option vec :=
    match cone_jac c z (map (fun a => [a]) v) with
    | Some M => Some (map (fun row => nth 0 row 0) M)
    | None => None
    end.
  (** prox-solver.hxx:169-205 [computeMultipliers]. *)
  Definition compute_multipliers (P : params) (p : problem) (s : state) (c inner_lams : vec) : outcome mults :=
    let st := stack p (s_sets s) in
    let shift := vadd c (vscale (s_mu s) (w_lams_prev (s_ws s))) in
    (do plus0 <- ub (normal_cone st shift (w_plus (s_ws s)));
     let plus := vscale (s_mu_inv s) plus0 in
     let shift_pd := vsub shift (vscale (shalf * s_mu s) inner_lams) in
     do pdal0 <- ub (normal_cone st shift_pd (w_pdal (s_ws s)));
     let pdal := map (fun a => a * (s_mu_inv s / pdal_beta P)) pdal0 in
     do plus_r <- ub (proj_jac_vec st shift plus);
     do pdal_r <- ub (proj_jac_vec st shift_pd pdal);
     Ret (mkMults shift plus shift_pd pdal plus_r pdal_r))%out.

  (** pdal.hxx:20-27: the loop of [ALMeritFunctionTpl::evaluate]. *)
  Fixpoint merit_loop (cs : list (cset K)) (pd lams : list vec) (res : car K) : option (car K) :=
    match cs, pd, lams with
    | [], _, _ => Some res
    | c :: cs', z :: pd', l :: lams' =>
        match moreau_env c z z with
        | Some (e, _) => merit_loop cs' pd' lams' ((res + sofZ 2 * e) + mu_of c * vsqnorm l / sofZ 4)
        | None => None
        end
    | _, _, _ => None
    end.
  (** pdal.hxx:14-29 [ALMeritFunctionTpl::evaluate]. *)
  Definition merit_value (p : problem) (sets : list (cset K)) (obj : car K) (shift_pd lams : vec) : option (car K) :=
    match blocks_of (dims p) shift_pd, blocks_of (dims p) lams with
    | Some pd, Some ls => merit_loop sets pd ls obj
    | _, _ => None
    end.
  (** pdal.hxx:38-43: dual part of the gradient. *)
  Fixpoint merit_dual_loop (beta : car K) (cs : list (cset K)) (lams pdal : list vec) : option vec :=
    match cs, lams, pdal with
    | [], _, _ => Some []
    | c :: cs', l :: ls, q :: qs =>
        match merit_dual_loop beta cs' ls qs with
        | Some r => Some (map (fun a => 0 + beta * mu_of c * a) (vsub l q) ++ r)
        | None => None
        end
    | _, _, _ => None
    end.
  (** pdal.hxx:31-44 [computeGradient]: gradient in x and in the multipliers. *)
  Definition merit_gradient (P : params) (p : problem) (sets : list (cset K)) (g : vec) (J : rows) (lams pdal : vec)
    : option (vec * vec) :=
    match blocks_of (dims p) lams, blocks_of (dims p) pdal with
    | Some ls, Some qs =>
        match merit_dual_loop (pdal_beta P) sets ls qs with
        | Some d => Some (vadd g (mtv (p_ndx p) J pdal), d)
        | None => None
        end
    | _, _ => None
    end.

  (** prox-solver.hxx:584-594 [tryStep]. *)
  Definition try_step (x lams dx dl : vec) (alpha : car K) : vec * vec :=
    (integrate x (vscale alpha dx), vadd lams (vscale alpha dl)).

  (** prox-solver.hxx:290-298 [phi_eval]: merit value at a trial step; [Throw] if the user code
      throws. *)
  Definition phi_eval (P : params) (p : problem) (s : state) (dx dl : vec) (alpha : car K)
    : outcome (car K * mults) :=
    let '(x, lams) := try_step (r_x (s_res s)) (r_lams (s_res s)) dx dl alpha in
    (do fc <- evaluate_problem p x;
     let '(f, c) := fc in
     do m <- compute_multipliers P p s c lams;
     do v <- ub (merit_value p (s_sets s) f (m_shift_pd m) lams);
     Ret (v + px_val (s_rho s) (s_target s) x, m))%out.

  (** ** KKT system *)

  (** prox-solver.hxx:491-499, 503-504 and 513-523: lower right diagonal. *)
  Definition kkt_dual_diag (P : params) (p : problem) (mu : car K) (sets : list (cset K)) (shift_pd : vec) : outcome vec :=
    let d := repeat (- mu) (numdual p) in
    match kkt_sys P with
    | KKT_CLASSIC => Ret d
    | KKT_PRIMAL_DUAL =>
        (do d2 <- ub (cone_jac_vec (stack p sets) shift_pd d);
         Ret (vscale shalf (vadd d d2)))%out
    end.
  (** prox-solver.hxx:490-526 [assembleKktMatrix]: [H] objective Hessian, [PH] proximal Hessian
      (added when rho > 0), [V] vector-Hessian products (added when [hess_approx] is EXACT, since
      [disableGaussNewton] is true for every set), [Jp] projected Jacobian. *)
  Definition kkt_hess (P : params) (rho : car K) (H PH : rows) (V : list rows) : rows :=
    let A := if 0 <? rho then madd H PH else H in
    match hess_approx P with HM_EXACT => fold_left madd V A | _ => A end.
  (** prox-solver.hxx:490-526, the blocks of the matrix. *)
  Definition assemble_kkt (ndx nd : nat) (A Jp : rows) (d : vec) : rows :=
    mtab (ndx + nd) (ndx + nd) (fun i j =>
      if Nat.ltb i ndx then
        if Nat.ltb j ndx then mget A i j else mget Jp (j - ndx) i
      else
        if Nat.ltb j ndx then mget Jp (i - ndx) j
        else if Nat.eqb i j then nth (i - ndx) d 0 else 0).
  (** Add [delta] to the first [ndx] diagonal entries (prox-solver.hxx:400-401); the subtraction
      on line 408 is [upd_diag ssub]. *)
  Definition upd_diag (op : car K -> car K -> car K) (ndx : nat) (delta : car K) (M : rows) : rows :=
    map2 (fun i row => map2 (fun j a => if Nat.eqb i j && Nat.ltb i ndx then op a delta else a) (seq 0 (length row)) row)
         (seq 0 (length M)) M.

  (** prox-solver.hxx:396-429: inertia correction; returns the KKT matrix after the loop, the
      factorisation object, the final [delta] and [delta_last].  [None]: out of fuel. *)
  Fixpoint inertia_loop (fuel : nat) (P : params) (ndx nc : nat) (M : rows) (F : fac) (delta delta_last : car K)
    : outcome (rows * fac * car K * car K) :=
    match fuel with
    | O => Fuel
    | S f =>
        if delta <=? delta_max P then
          let M1 := if 0 <? delta then upd_diag sadd ndx delta M else M in
          let F1 := fac_compute F M1 in
          let M2 := upd_diag ssub ndx delta M1 in
          match check_inertia ndx nc (fac_signature F1) with
          | None => Throw ErrSignature
          | Some INERTIA_OK => Ret (M2, F1, delta, delta)
          | Some _ =>
              let delta' :=
                if delta =? 0 then
                  (if delta_last =? 0 then delta_nz_init P
                   else smax (delta_min P) (del_dec_k P * delta_last))
                else (if delta_last =? 0 then delta * del_inc_big P else delta * del_inc_k P) in
              inertia_loop f P ndx nc M2 F1 delta' delta_last
          end
        else Ret (M, F, delta, delta_last)
    end.

  (** prox-solver.hxx:531-543: refinement loop. *)
  Fixpoint refine_loop (n : nat) (P : params) (F : fac) (M : rows) (rhs step : vec) : vec :=
    match n with
    | O => step
    | S n' =>
        let err := vsub (vneg rhs) (mv M step) in
        if inf_norm err <? kkt_tolerance P then step
        else refine_loop n' P F M rhs (vadd step (fac_solve F err))
    end.
  (** prox-solver.hxx:528-544 [iterativeRefinement]: the primal-dual step. *)
  Definition iterative_refinement (P : params) (F : fac) (M : rows) (rhs : vec) : vec :=
    refine_loop (max_refine P) P F M rhs (fac_solve F (vneg rhs)).

  (** ** Residuals *)

  (** prox-solver.hxx:250-268 [computePrimalResiduals]: constraint violations of the pair
      (constraint values, multipliers) and their maximum. *)
  Definition primal_residuals (p : problem) (mu : car K) (sets : list (cset K)) (c lams : vec)
    : outcome (vec * car K) :=
    (do s <- ub (projection_inplace (stack p sets) (vadd c (vscale mu lams)));
     do e <- ub (blocks_of (dims p) (vsub c s));
     let viol := map inf_norm e in
     Ret (viol, inf_norm viol))%out.
  (** prox-solver.hxx:355-358: gradient of the Lagrangian. *)
  Definition dual_residual (p : problem) (g : vec) (J : rows) (lams : vec) : vec :=
    vadd g (mtv (p_ndx p) J lams).

  (** prox-solver.hpp:282-286 [invokeCallbacks]. *)
  Definition invoke_callbacks (P : params) (r : results) (evs : list event) : list event :=
    evs ++ map (fun cb => mkEvent cb r) (callbacks P).

  (** ** One pass of the inner loop, prox-solver.hxx:300-485.
      [Stop]: the loop ends (return on line 366, or break on line 483); [Next]: next pass with the
      given [delta_last]. *)
  Inductive pass_result := Stop (s : state) | Next (s : state) (delta_last : car K).

  (** Update of the objective Hessian and of the vector-Hessian products,
      prox-solver.hxx:228-248. *)
  Definition hess_step (P : params) (p : problem) (w : wspace) (x g pdal : vec) : outcome (bfgs * rows * list rows) :=
    match hess_approx P with
    | HM_BFGS => let '(b, h) := bfgs_update (w_bfgs w) x g (w_hess w) in Ret (b, h, w_vhp w)
    | HM_IDENTITY =>
        Ret (w_bfgs w, mtab (p_ndx p) (p_ndx p) (fun i j => if Nat.eqb i j then 1 else 0), w_vhp w)
    | HM_EXACT | HM_GAUSS_NEWTON =>
        let all := match hess_approx P with HM_EXACT => true | _ => false end in
        (do ls <- ub (blocks_of (dims p) pdal);
         do hv <- hessians_problem p all x ls (w_vhp w);
         Ret (w_bfgs w, fst hv, snd hv))%out
    end.

  (** Everything computed on lines prox-solver.hxx:302-361, before the stopping test. *)
  Record diag := mkDiag {
    d_state : state;         (* results and workspace updated *)
    d_g : vec; d_J : rows; d_Jp : rows; d_m : mults; d_rhs : vec; d_pgrad : vec; d_phess : rows;
    d_mg : vec; d_md : vec; d_inner_crit : car K; d_outer_crit : car K
  }.
  (** prox-solver.hxx:302-361; the numbers on the right are its lines. *)
  Definition diagnose (P : params) (p : problem) (s : state) : outcome diag :=
    let r := s_res s in
    let w := s_ws s in
    let x := r_x r in
    let lams := r_lams r in
    let st := stack p (s_sets s) in
    let ndx := p_ndx p in
    (do fc <- evaluate_problem p x;                                   (* 302 *)
     let '(f, c) := fc in
     do m <- compute_multipliers P p s c lams;                        (* 303 *)
     do gJ <- derivs_problem p x;                                     (* 304, 207-226 *)
     let '(g, J) := gJ in
     do Jp <- ub (cone_jac st (match kkt_sys P with KKT_CLASSIC => m_shift m | KKT_PRIMAL_DUAL => m_shift_pd m end) J);
     do bhv <- hess_step P p w x g (m_pdal m);
     let '(b, h, v) := bhv in
     do act <- ub (active_set st (m_shift m) (r_active r));           (* 306-310 *)
     do mer <- ub (merit_value p (s_sets s) f (m_shift_pd m) lams);   (* 312-320 *)
     let on := 0 <? s_rho s in
     let mer' := if on then mer + px_val (s_rho s) (s_target s) x else mer in
     let pg := if on then px_grad (s_rho s) (s_target s) x else vzero ndx in
     let ph := if on then px_hess (s_rho s) (s_target s) x else [] in
     let head := dual_residual p g J lams in                          (* 328-330 *)
     let tail := match kkt_sys P with
                 | KKT_CLASSIC => vscale (s_mu s) (vsub (m_plus m) lams)
                 | KKT_PRIMAL_DUAL => vscale (shalf * s_mu s) (vsub (m_pdal m) lams)
                 end in
     do mg <- ub (merit_gradient P p (s_sets s) g J lams (m_pdal m)); (* 343-348 *)
     let head' := if on then vadd head pg else head in
     let mg' := if on then vadd (fst mg) pg else fst mg in
     let rhs := head' ++ tail in
     if bad_vec rhs then Throw (ErrNaN N_kkt_rhs) else
     if bad_mat (w_kkt w) then Throw (ErrNaN N_kkt_matrix) else
     do vp <- primal_residuals p (s_mu s) (s_sets s) c lams;
     let '(viol, prim) := vp in
     let dual := inf_norm (dual_residual p g J lams) in
     let r' := mkResults (r_conv r) mer' f x lams act dual prim viol (r_num_iters r) (r_al_iters r) (r_mu r) (r_rho r) in
     let w' := mkWs (w_lams_prev w) (w_x_prev w) (m_plus m) (m_pdal m) (w_kkt w) h v (w_fac w) b (w_alpha w) in
     let s' := mkState (s_mu s) (s_mu_inv s) (s_rho s) (s_inner_tol s) (s_prim_tol s) (s_sets s) (s_target s)
                       r' w' (s_events s) in
     Ret (mkDiag s' g J Jp m rhs pg ph mg' (snd mg) (inf_norm rhs) (smax prim dual)))%out.

  (** Value of the merit function for the line search; the only exceptions caught there are those
      of user code (linesearch-armijo.hpp:72-79, 134-143). *)
  Definition phi_opt (P : params) (p : problem) (s : state) (dx dl : vec) (alpha : car K) : option (car K) :=
    match phi_eval P p s dx dl alpha with Ret (v, _) => Some v | _ => None end.
  (** Multiplier estimates left in the workspace by the last successful merit evaluation (prox-solver.hxx:291-298). *)
  Fixpoint last_mults (P : params) (p : problem) (s : state) (dx dl : vec) (trace : list (car K)) : option mults :=
    match trace with
    | [] => None
    | a :: r => match phi_eval P p s dx dl a with Ret (_, m) => Some m | _ => last_mults P p s dx dl r end
    end.
  (** Undefined behaviour inside a merit evaluation (prox-solver.hxx:291-298) is undefined behaviour of the search. *)
  Definition is_ub {A} (o : outcome A) : bool := match o with UB => true | _ => false end.

  (** prox-solver.hxx:371-389: right-hand side of the system with its correction. *)
  Definition step_rhs (P : params) (p : problem) (d : diag) : vec :=
    let lams := r_lams (s_res (d_state d)) in
    let ndx := p_ndx p in
    let m := d_m d in
    let corr := vadd (vadd (vsub (vzero ndx) (mtv ndx (d_J d) lams)) (mtv ndx (d_Jp d) lams))
                     (mtv ndx (d_J d) (match kkt_sys P with KKT_CLASSIC => m_plus_r m | KKT_PRIMAL_DUAL => m_pdal_r m end)) in
    vadd (firstn ndx (d_rhs d)) corr ++ skipn ndx (d_rhs d).
  (** prox-solver.hxx:392: the KKT matrix of the step, with the lower right diagonal [dd]. *)
  Definition step_matrix (P : params) (p : problem) (d : diag) (dd : vec) : rows :=
    let s := d_state d in
    assemble_kkt (p_ndx p) (numdual p) (kkt_hess P (s_rho s) (w_hess (s_ws s)) (d_phess d) (w_vhp (s_ws s))) (d_Jp d) dd.

  (** prox-solver.hxx:371-484: the step. *)
  Definition step (fls fin : nat) (P : params) (p : problem) (d : diag) (delta_last : car K) : outcome pass_result :=
    let s := d_state d in
    let r := s_res s in
    let w := s_ws s in
    let x := r_x r in
    let lams := r_lams r in
    let ndx := p_ndx p in
    let m := d_m d in
    let rhs := step_rhs P p d in
    (do dd <- kkt_dual_diag P p (s_mu s) (s_sets s) (m_shift_pd m);
     let M0 := step_matrix P p d dd in
     do il <- inertia_loop fin P ndx (numdual p) M0 (w_fac w) (delta_init P) delta_last;
     let '(M, F, delta, delta_last') := il in
     let pd := iterative_refinement P F M rhs in
     if bad_vec pd then Throw (ErrNaN N_pd_step) else
     let dx := firstn ndx pd in
     let dl := skipn ndx pd in
     let dphi0 := vdot (d_mg d) dx + vdot (d_md d) dl in
     let ph := fun (_ : list (car K)) a => phi_opt P p s dx dl a in
     match run qr ph fls (lsopt P) (r_merit r) dphi0 with
     | None => Fuel
     | Some lr =>
         if existsb (fun a => is_ub (phi_eval P p s dx dl a)) (r_trace lr) then UB else
         let alpha := r_alpha lr in
         let '(xt, lt) := try_step x lams dx dl alpha in
         if bad_scalar alpha then Throw (ErrNaN N_alpha) else
         if bad_vec xt then Throw (ErrNaN N_x_trial) else
         if bad_vec lt then Throw (ErrNaN N_lams_trial) else
         if bad_scalar (r_phi lr) then Throw (ErrNaN N_merit) else
         let lm := last_mults P p s dx dl (r_trace lr) in
         let w1 := mkWs (w_lams_prev w) (w_x_prev w)
                        (match lm with Some m' => m_plus m' | None => w_plus w end)
                        (match lm with Some m' => m_pdal m' | None => w_pdal w end)
                        M (w_hess w) (w_vhp w) F (w_bfgs w) alpha in
         let r1 := mkResults (r_conv r) (r_phi lr) (r_value r) xt lt (r_active r) (r_dual_infeas r)
                             (r_prim_infeas r) (r_viol r) (r_num_iters r) (r_al_iters r) (r_mu r) (r_rho r) in
         let evs := invoke_callbacks P r1 (s_events s) in
         let n := S (r_num_iters r) in
         let full := Nat.leb (max_iters P) n in
         let r2 := mkResults (if full then MAX_ITERS_REACHED else r_conv r) (r_merit r1) (r_value r1) xt lt
                             (r_active r1) (r_dual_infeas r1) (r_prim_infeas r1) (r_viol r1) n (r_al_iters r1)
                             (r_mu r1) (r_rho r1) in
         let s' := mkState (s_mu s) (s_mu_inv s) (s_rho s) (s_inner_tol s) (s_prim_tol s) (s_sets s) (s_target s)
                           r2 w1 evs in
         Ret (if full then Stop s' else Next s' delta_last')
     end)%out.

  (** prox-solver.hxx:363-367: stopping test, then the step. *)
  Definition pass (fls fin : nat) (P : params) (p : problem) (s : state) (delta_last : car K) : outcome pass_result :=
    (do d <- diagnose P p s;
     if (d_inner_crit d <=? s_inner_tol s) || (d_outer_crit d <=? target_tol P)
     then Ret (Stop (d_state d))
     else step fls fin P p d delta_last)%out.

  (** prox-solver.hxx:278-488 [innerLoop]. *)
  Fixpoint inner_loop (fuel fls fin : nat) (P : params) (p : problem) (s : state) (delta_last : car K) : outcome state :=
    match fuel with
    | O => Fuel
    | S f =>
        (do r <- pass fls fin P p s delta_last;
         match r with Stop s' => Ret s' | Next s' dl => inner_loop f fls fin P p s' dl end)%out
    end.

  (** ** Outer loop *)

  (** prox-solver.hxx:150-167 [acceptMultipliers]. *)
  Definition accept_multipliers (P : params) (s : state) : state :=
    let r := s_res s in
    let w := s_ws s in
    let l := match mul_update P with
             | MM_NEWTON => r_lams r | MM_PRIMAL => w_plus w | MM_PRIMAL_DUAL => w_pdal w end in
    mkState (s_mu s) (s_mu_inv s) (s_rho s) (s_inner_tol s) (s_prim_tol s) (s_sets s) (s_target s)
      (mkResults (r_conv r) (r_merit r) (r_value r) (r_x r) l (r_active r) (r_dual_infeas r) (r_prim_infeas r)
                 (r_viol r) (r_num_iters r) (r_al_iters r) (r_mu r) (r_rho r))
      (mkWs l (w_x_prev w) (w_plus w) (w_pdal w) (w_kkt w) (w_hess w) (w_vhp w) (w_fac w) (w_bfgs w) (w_alpha w))
      (s_events s).
  (** prox-solver.hxx:83-84: record mu and rho. *)
  Definition record_params (s : state) : state :=
    let r := s_res s in
    mkState (s_mu s) (s_mu_inv s) (s_rho s) (s_inner_tol s) (s_prim_tol s) (s_sets s) (s_target s)
      (mkResults (r_conv r) (r_merit r) (r_value r) (r_x r) (r_lams r) (r_active r) (r_dual_infeas r) (r_prim_infeas r)
                 (r_viol r) (r_num_iters r) (r_al_iters r) (s_mu s) (s_rho s))
      (s_ws s) (s_events s).
  (** prox-solver.hxx:88-89: new proximal centre. *)
  Definition accept_primal (s : state) : state :=
    let w := s_ws s in
    mkState (s_mu s) (s_mu_inv s) (s_rho s) (s_inner_tol s) (s_prim_tol s) (s_sets s) (r_x (s_res s)) (s_res s)
      (mkWs (w_lams_prev w) (r_x (s_res s)) (w_plus w) (w_pdal w) (w_kkt w) (w_hess w) (w_vhp w) (w_fac w) (w_bfgs w) (w_alpha w))
      (s_events s).
  (** Setting [results.converged] and [results.al_iters] (prox-solver.hxx:102, 107). *)
  Definition set_conv (f : conv_flag) (s : state) : state :=
    let r := s_res s in
    mkState (s_mu s) (s_mu_inv s) (s_rho s) (s_inner_tol s) (s_prim_tol s) (s_sets s) (s_target s)
      (mkResults f (r_merit r) (r_value r) (r_x r) (r_lams r) (r_active r) (r_dual_infeas r) (r_prim_infeas r)
                 (r_viol r) (r_num_iters r) (r_al_iters r) (r_mu r) (r_rho r))
      (s_ws s) (s_events s).
  (** prox-solver.hxx:107. *)
  Definition incr_al (s : state) : state :=
    let r := s_res s in
    mkState (s_mu s) (s_mu_inv s) (s_rho s) (s_inner_tol s) (s_prim_tol s) (s_sets s) (s_target s)
      (mkResults (r_conv r) (r_merit r) (r_value r) (r_x r) (r_lams r) (r_active r) (r_dual_infeas r) (r_prim_infeas r)
                 (r_viol r) (r_num_iters r) (S (r_al_iters r)) (r_mu r) (r_rho r))
      (s_ws s) (s_events s).

  (** prox-solver.hxx:94-100: accept or reject the multipliers. *)
  Definition bcl_update (P : params) (s : state) : state :=
    if r_prim_infeas (s_res s) <? s_prim_tol s
    then tol_success P (accept_multipliers P s)
    else tol_failure P (update_penalty P s).

  (** prox-solver.hxx:85-108, the outer loop; [fi] bounds the inner passes. *)
  Fixpoint outer_loop (fuel fi fls fin : nat) (P : params) (p : problem) (s : state) : outcome state :=
    match fuel with
    | O => Fuel
    | S f =>
        if Nat.ltb (r_num_iters (s_res s)) (max_iters P) && Nat.ltb (r_al_iters (s_res s)) (max_al_iters P) then
          (do s1 <- inner_loop fi fls fin P p (record_params s) 0;
           let s2 := bcl_update P (accept_primal s1) in
           if smax (r_prim_infeas (s_res s2)) (r_dual_infeas (s_res s2)) <? target_tol P
           then Ret (set_conv SUCCESS s2)
           else outer_loop f fi fls fin P p (incr_al (set_rho (s_rho s2 * rho_factor P) s2)))%out
        else Ret s
    end.

  (** prox-solver.hxx:68-74: the starting point of a solve. *)
  Definition init_point (p : problem) (x0 lams0 : vec) (s : state) : state :=
    let r := s_res s in
    let w := s_ws s in
    let ok := Nat.eqb (length lams0) (numdual p) in
    mkState (s_mu s) (s_mu_inv s) (s_rho s) (s_inner_tol s) (s_prim_tol s) (s_sets s) (s_target s)
      (mkResults (r_conv r) (r_merit r) (r_value r) x0 (if ok then lams0 else r_lams r) (r_active r) (r_dual_infeas r)
                 (r_prim_infeas r) (r_viol r) (r_num_iters r) (r_al_iters r) (r_mu r) (r_rho r))
      (mkWs (if ok then lams0 else w_lams_prev w) x0 (w_plus w) (w_pdal w) (w_kkt w) (w_hess w) (w_vhp w) (w_fac w)
            (w_bfgs w) (w_alpha w))
      (s_events s).
  (** prox-solver.hxx:78-83. *)
  Definition reset_counters (s : state) : state :=
    let r := s_res s in
    mkState (s_mu s) (s_mu_inv s) (s_rho s) (s_inner_tol s) (s_prim_tol s) (s_sets s) (s_target s)
      (mkResults UNINIT (r_merit r) (r_value r) (r_x r) (r_lams r) (r_active r) (r_dual_infeas r) (r_prim_infeas r)
                 (r_viol r) 0 0 (r_mu r) (r_rho r))
      (s_ws s) (s_events s).
  (** prox-solver.hxx:65-83. *)
  Definition init_solve (P : params) (p : problem) (x0 lams0 : vec) (s : state) : state :=
    reset_counters (tol_failure P (init_point p x0 lams0 (set_rho (rho_init P) (set_penalty (mu_init P) s)))).

  (** prox-solver.hxx:51-127 [solve]; [None] for the state: [setup] was not called.  The output is in Log_model.v;
      it does not change the run (C102). *)
  Definition solve (fo fi fls fin : nat) (P : params) (p : problem) (so : option state) (x0 lams0 : vec)
    : outcome (state * conv_flag) :=
    match so with
    | None => Throw ErrSetup
    | Some s =>
        (do s1 <- outer_loop fo fi fls fin P p (init_solve P p x0 lams0 s);
         let s2 := mkState (s_mu s1) (s_mu_inv s1) (s_rho s1) (s_inner_tol s1) (s_prim_tol s1) (s_sets s1) (s_target s1)
                           (s_res s1) (s_ws s1) (invoke_callbacks P (s_res s1) (s_events s1)) in
         Ret (s2, r_conv (s_res s2)))%out
    end.
  (** prox-solver.hxx:31-49: the overload taking one multiplier vector per constraint. *)
  Definition solve_vec (fo fi fls fin : nat) (P : params) (p : problem) (so : option state) (x0 : vec) (lams0 : list vec)
    : outcome (state * conv_flag) :=
    (do l <- pack_lams 0 (mk_layout (dims p)) lams0; solve fo fi fls fin P p so x0 l)%out.

  (** prox-solver.hpp:147-163 [setup] on a solver with the given sets; results.hpp:49-61,
      workspace.hpp:123-196: everything zero, x at the neutral element [x_neutral], flag SUCCESS
      (results.hpp:26).  In BFGS mode the Hessian starts at the identity.  The proximal target is
      the neutral element from the constructor (prox-solver.hxx:23), [f0], [b0] are fresh
      factorisation and BFGS objects. *)
  Definition setup (P : params) (p : problem) (sets : list (cset K)) (x_neutral : vec) (f0 : fac) (b0 : bfgs) : state :=
    let nd := numdual p in
    let n := p_ndx p in
    mkState (mu_init P) (1 / mu_init P) (rho_init P) (inner_tol0 P) (prim_tol0 P) sets x_neutral
      (mkResults SUCCESS 0 0 x_neutral (vzero nd) (repeat false nd) 0 0 (vzero (length (p_cons p))) 0 0 0 0)
      (mkWs (vzero nd) (vzero (length x_neutral)) (vzero nd) (vzero nd) (mtab (n + nd) (n + nd) (fun _ _ => 0))
            (mtab n n (fun i j => match hess_approx P with HM_BFGS => if Nat.eqb i j then 1 else 0 | _ => 0 end))
            (map (fun _ => mtab n n (fun _ _ => 0)) (p_cons p)) f0 b0 0)
      [].
End Solver.

(** The external code of one solver instance (members prox-solver.hpp:65-99 and the libraries behind them), bundled; see the oracles above. *)
Record oracles (K : Sc) := mkOracles {
  o_pow : car K -> car K -> car K;
  o_integrate : list (car K) -> list (car K) -> list (car K);
  o_px_val : car K -> list (car K) -> list (car K) -> car K;
  o_px_grad : car K -> list (car K) -> list (car K) -> list (car K);
  o_px_hess : car K -> list (car K) -> list (car K) -> list (list (car K));
  o_fac : Type;
  o_compute : o_fac -> list (list (car K)) -> o_fac;
  o_signature : o_fac -> list Z;
  o_solve : o_fac -> list (car K) -> list (car K);
  o_bfgs : Type;
  o_bfgs_update : o_bfgs -> list (car K) -> list (car K) -> list (list (car K)) -> o_bfgs * list (list (car K));
  o_qr : car K -> car K -> car K -> car K -> car K -> car K -> car K * car K
}.
Arguments o_pow {K}. Arguments o_integrate {K}. Arguments o_px_val {K}. Arguments o_px_grad {K}. Arguments o_px_hess {K}.
Arguments o_fac {K}. Arguments o_compute {K}. Arguments o_signature {K}. Arguments o_solve {K}. Arguments o_bfgs {K}.
Arguments o_bfgs_update {K}. Arguments o_qr {K}. Arguments mkOracles {K}.
(** State of a solver with these oracles (prox-solver.hpp:84-99). *)
Definition solver_state {K : Sc} (O : oracles K) : Type := @state K (o_fac O) (o_bfgs O).
(** [*results_], prox-solver.hxx:62. *)
Definition res {K : Sc} {O : oracles K} (s : solver_state O) : @results K := s_res _ _ s.
(** [*workspace_], prox-solver.hxx:63. *)
Definition wsp {K : Sc} {O : oracles K} (s : solver_state O) : @wspace K (o_fac O) (o_bfgs O) := s_ws _ _ s.
(** The sets of the constraints, prox-solver.hxx:177. *)
Definition sets {K : Sc} {O : oracles K} (s : solver_state O) : list (cset K) := s_sets _ _ s.
(** [mu_], prox-solver.hpp:95. *)
Definition mu {K : Sc} {O : oracles K} (s : solver_state O) : car K := s_mu _ _ s.
(** prox-solver.hxx:51-127 [solve] with these oracles; fuels for the outer loop, the inner loop, the
    line search and the inertia correction. *)
Definition run_solve {K : Sc} (O : oracles K) (fo fi fls fin : nat) (P : @params K) (p : @problem K)
    (so : option (solver_state O)) (x0 lams0 : list (car K)) : outcome (solver_state O * conv_flag) :=
  solve (o_pow O) (o_integrate O) (o_px_val O) (o_px_grad O) (o_px_hess O) (o_fac O) (o_compute O) (o_signature O) (o_solve O)
        (o_bfgs O) (o_bfgs_update O) (o_qr O) fo fi fls fin P p so x0 lams0.
(** prox-solver.hxx:302-361, everything before the stopping test, with these oracles. *)
Definition run_diagnose {K : Sc} (O : oracles K) (P : @params K) (p : @problem K) (s : solver_state O) :=
  diagnose (o_px_val O) (o_px_grad O) (o_px_hess O) (o_fac O) (o_bfgs O) (o_bfgs_update O) P p s.
(** prox-solver.hxx:290-298 with these oracles. *)
Definition run_phi {K : Sc} (O : oracles K) (P : @params K) (p : @problem K) (s : solver_state O) dx dl alpha :=
  phi_eval (o_integrate O) (o_px_val O) (o_fac O) (o_bfgs O) P p s dx dl alpha.
(** prox-solver.hxx:396-429 with these oracles. *)
Definition run_inertia {K : Sc} (O : oracles K) (fuel : nat) (P : @params K) (ndx nc : nat) M (F : o_fac O) delta delta_last :=
  inertia_loop (o_fac O) (o_compute O) (o_signature O) fuel P ndx nc M F delta delta_last.
(** prox-solver.hxx:91-98 with these oracles. *)
Definition run_bcl {K : Sc} (O : oracles K) (P : @params K) (s : solver_state O) : solver_state O :=
  bcl_update (o_pow O) (o_fac O) (o_bfgs O) P s.
(** prox-solver.hxx:371-484, everything after the stopping test, with these oracles. *)
Definition run_step {K : Sc} (O : oracles K) (fls fin : nat) (P : @params K) (p : @problem K) (d : diag (o_fac O) (o_bfgs O)) (delta_last : car K) :=
  step (o_integrate O) (o_px_val O) (o_fac O) (o_compute O) (o_signature O) (o_solve O) (o_bfgs O) (o_qr O) fls fin P p d delta_last.
