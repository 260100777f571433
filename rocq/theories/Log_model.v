(** Model of the text that solve prints: include/proxsuite-nlp/logger.hpp (cited as logger) and its calls in prox-solver.hxx.
    A line is kept as the data printed on it; the layout of numbers in columns (logger:18-20, 49-52, 66-75) is left out. *)
From Coq Require Import List Bool Arith.
From Verif Require Import Scalar Armijo_model Problem_model Solver_model.
Import ListNotations.

Section Log.
  Context {K : Sc}.
  Variable O : oracles K.
  Local Notation state := (solver_state O).

  (** logger:22-33 [LogRecord], in the order of the columns (logger:15-17, 66-75). *)
  Record row := mkRow {
    lg_iter : nat; lg_step : car K; lg_inner : car K; lg_prim : car K; lg_dual : car K;
    lg_xreg : car K; lg_dphi0 : car K; lg_merit : car K; lg_dm : car K; lg_al : nat
  }.
  (** A line of the output: the titles of the columns (logger:45-55), a record (logger:57-78), the two messages of prox-solver.hxx:110-120 and the
      end of the line (prox-solver.hxx:121). *)
  Inductive line := Titles | Row (r : row) | Converged | OutOfIters | Newline.
  (** fwd.hpp:126 [VerboseLevel]. *)
  Inductive verbosity := QUIET | VERBOSE | VERYVERBOSE.

  (** logger:57-65 [log] ; logger:40: titles every 25 iterations. *)
  Definition log (active : bool) (r : row) : list line :=
    if active then (if Nat.eqb (Nat.modulo (lg_iter r) 25) 0 then [Titles] else []) ++ [Row r] else [].
  (** logger:45-47 [start]. *)
  Definition start (active : bool) : list line := if active then [Titles] else [].

  (** prox-solver.hxx:467-476: the record of a step from the diagnosis [d] to the state [s'], for the regularisation [delta] (line 472) and the slope
      [dphi0] (line 473).  The residuals are those stored in the results before the step. *)
  Definition record_of (d : diag (o_fac O) (o_bfgs O)) (s' : state) (delta dphi0 : car K) : row :=
    let r := s_res _ _ (d_state _ _ d) in
    mkRow (S (r_num_iters r)) (w_alpha _ _ (wsp s')) (d_inner_crit _ _ d) (r_prim_infeas (res s')) (r_dual_infeas (res s'))
          delta dphi0 (r_merit (res s')) (ssub (r_merit (res s')) (r_merit r)) (S (r_al_iters (res s'))).
  (** prox-solver.hxx:392-443 and 467-476: the regularisation and the slope of the step that [run_step] makes, and its record. *)
  Definition step_record (fin : nat) (P : @params K) (p : @problem K) (d : diag (o_fac O) (o_bfgs O)) (dl : car K) (s' : state) : option row :=
    let s := d_state _ _ d in
    match kkt_dual_diag P p (s_mu _ _ s) (s_sets _ _ s) (m_shift_pd (d_m _ _ d)) with
    | Ret dd =>
        match run_inertia O fin P (p_ndx p) (numdual p) (step_matrix (o_fac O) (o_bfgs O) P p d dd) (w_fac _ _ (s_ws _ _ s)) (delta_init P) dl with
        | Ret (M, F, delta, _) =>
            let pd := iterative_refinement (o_fac O) (o_solve O) P F M (step_rhs (o_fac O) (o_bfgs O) P p d) in
            Some (record_of d s' delta (sadd (vdot (d_mg _ _ d) (firstn (p_ndx p) pd)) (vdot (d_md _ _ d) (skipn (p_ndx p) pd))))
        | _ => None
        end
    | _ => None
    end.
  (** The state that a pass ends in (prox-solver.hxx:366, 483). *)
  Definition after (r : pass_result (K := K) (o_fac O) (o_bfgs O)) : state := match r with Stop _ _ s => s | Next _ _ s _ => s end.

  (** prox-solver.hxx:300-485, one pass with its output; nothing is printed before line 478, so not when an exception leaves it. *)
  Definition pass_text (active : bool) (fls fin : nat) (P : @params K) (p : @problem K) (s : state) (dl : car K)
    : list line * outcome (pass_result (K := K) (o_fac O) (o_bfgs O)) :=
    match run_diagnose O P p s with
    | Ret d =>
        if sleb (d_inner_crit _ _ d) (s_inner_tol _ _ s) || sleb (d_outer_crit _ _ d) (target_tol P)
        then ([], Ret (Stop _ _ (d_state _ _ d)))
        else match run_step O fls fin P p d dl with
             | Ret r => (match step_record fin P p d dl (after r) with Some w => log active w | None => [] end, Ret r)
             | Throw e => ([], Throw e) | UB => ([], UB) | Fuel => ([], Fuel)
             end
    | Throw e => ([], Throw e) | UB => ([], UB) | Fuel => ([], Fuel)
    end.
  (** prox-solver.hxx:278-488 [innerLoop] with its output. *)
  Fixpoint inner_text (active : bool) (fuel fls fin : nat) (P : @params K) (p : @problem K) (s : state) (dl : car K) : list line * outcome state :=
    match fuel with
    | 0 => ([], Fuel)
    | S f =>
        match pass_text active fls fin P p s dl with
        | (t, Ret (Stop _ _ s')) => (t, Ret s')
        | (t, Ret (Next _ _ s' dl')) => let (t', o) := inner_text active f fls fin P p s' dl' in (t ++ t', o)
        | (t, Throw e) => (t, Throw e) | (t, UB) => (t, UB) | (t, Fuel) => (t, Fuel)
        end
    end.
  (** prox-solver.hxx:85-108, the outer loop with its output. *)
  Fixpoint outer_text (active : bool) (fuel fi fls fin : nat) (P : @params K) (p : @problem K) (s : state) : list line * outcome state :=
    match fuel with
    | 0 => ([], Fuel)
    | S f =>
        if Nat.ltb (r_num_iters (res s)) (max_iters P) && Nat.ltb (r_al_iters (res s)) (max_al_iters P) then
          match inner_text active fi fls fin P p (record_params _ _ s) s0 with
          | (t, Ret s1) =>
              let s2 := run_bcl O P (accept_primal _ _ s1) in
              if sltb (smax (r_prim_infeas (res s2)) (r_dual_infeas (res s2))) (target_tol P) then (t, Ret (set_conv _ _ SUCCESS s2))
              else let (t', o) := outer_text active f fi fls fin P p (incr_al _ _ (set_rho _ _ (smul (s_rho _ _ s2) (rho_factor P)) s2)) in (t ++ t', o)
          | (t, Throw e) => (t, Throw e) | (t, UB) => (t, UB) | (t, Fuel) => (t, Fuel)
          end
        else ([], Ret s)
    end.
  (** prox-solver.hxx:110-121: the message at the end, whatever the verbosity. *)
  Definition farewell (f : conv_flag) : list line :=
    match f with SUCCESS => [Converged] | MAX_ITERS_REACHED => [OutOfIters] | UNINIT => [] end ++ [Newline].
  (** prox-solver.hxx:54-55: the flag of the logger after the first lines of solve; nothing sets it again. *)
  Definition still_active (v : verbosity) (active : bool) : bool := match v with QUIET => false | _ => active end.
  (** prox-solver.hxx:51-127 [solve] with its output; [active] is the flag of the logger at the call (true for a new solver, logger:38). *)
  Definition solve_text (v : verbosity) (active : bool) (fo fi fls fin : nat) (P : @params K) (p : @problem K) (so : option state) (x0 lams0 : list (car K))
    : list line * bool * outcome (state * conv_flag) :=
    let a := still_active v active in
    match so with
    | None => ([], a, Throw ErrSetup)
    | Some s =>
        match outer_text a fo fi fls fin P p (init_solve (o_pow O) (o_fac O) (o_bfgs O) P p x0 lams0 s) with
        | (t, Ret s1) =>
            let s2 := mkState _ _ (s_mu _ _ s1) (s_mu_inv _ _ s1) (s_rho _ _ s1) (s_inner_tol _ _ s1) (s_prim_tol _ _ s1) (s_sets _ _ s1) (s_target _ _ s1)
                              (s_res _ _ s1) (s_ws _ _ s1) (invoke_callbacks P (s_res _ _ s1) (s_events _ _ s1)) in
            (start a ++ t ++ farewell (r_conv (s_res _ _ s1)), a, Ret (s2, r_conv (s_res _ _ s2)))
        | (t, Throw e) => (start a ++ t, a, Throw e) | (t, UB) => (start a ++ t, a, UB) | (t, Fuel) => (start a ++ t, a, Fuel)
        end
    end.
End Log.
