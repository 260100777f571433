(** Theorems about the text that solve prints (C102). *)
From Coq Require Import Reals QArith List Bool Arith Lia.
From Verif Require Import Scalar Cset_model Armijo_model Problem_model Solver_model Solver_examples SolverX_proofs Log_model Log_spec Log_proofs LogX_proofs.
Import ListNotations.

(** C102. Printing does not change a solve, whether it returns, throws or is undefined. *)
Theorem C102_run_unchanged : forall (K : Sc) (O : oracles K) P p fls fin v active fo fi so x0 lams0,
  snd (solve_text O v active fo fi fls fin P p so x0 lams0) = run_solve O fo fi fls fin P p so x0 lams0.
Proof. exact @solve_erase. Qed.
Print Assumptions C102_run_unchanged.
(** In every arithmetic a solve prints a table with one record per iteration, numbered from one, with titles above every 25th; the residuals and the
    criterion of a record are those of the point before the step, where both stopping tests failed; step length and merit value are of the step.  Its
    other columns are what the callbacks receive at that step.  A solve that throws prints the records of the steps made before.  When the logger is off only the
    last message is printed. *)
Theorem C102_text : forall (K : Sc) (O : oracles K) v active fo fi fls fin P p (s : solver_state O) x0 lams0 t active' o,
  solve_text O v active fo fi fls fin P p (Some s) x0 lams0 = (t, active', o) ->
  exists rows, map lg_iter rows = seq 1 (length rows) /\ Forall (of_step O P p fls fin) rows /\
    (v <> QUIET -> active = true -> active' = true /\ exists t1, table rows t1 /\ t = t1 ++ ending o /\ rows_in t = rows) /\
    (v = QUIET \/ active = false -> active' = false /\ t = ending o) /\
    match o with
    | Ret (s', _) => length rows = r_num_iters (res s') /\ Forall (fun w => (1 <= lg_al w <= S (r_al_iters (res s')))%nat) rows /\
        exists l, s_events _ _ s' = s_events _ _ s ++ flat_map (fun r => map (fun cb => mkEvent cb r) (callbacks P)) (l ++ [res s']) /\ Forall2 agrees rows l
    | _ => True
    end.
Proof. exact text_ok. Qed.
Print Assumptions C102_text.
(** No record of a solve that ends with SUCCESS shows the residuals of its result: all show a residual that is not within the tolerance. *)
Theorem C102_stale : forall (K : Sc) (O : oracles K) v active fo fi fls fin P p (s : solver_state O) x0 lams0 t active' s',
  solve_text O v active fo fi fls fin P p (Some s) x0 lams0 = (t, active', Ret (s', SUCCESS)) -> (0 < max_iters P)%nat -> (0 < max_al_iters P)%nat ->
  forall w, In w (rows_in t) -> sleb (smax (lg_prim w) (lg_dual w)) (target_tol P) = false /\ sltb (smax (r_prim_infeas (res s')) (r_dual_infeas (res s'))) (target_tol P) = true.
Proof. exact stale. Qed.
Print Assumptions C102_stale.

(** A solver that was quiet once never prints a table again, whatever its level is set to afterwards: the flag of the logger is cleared and never set. *)
Theorem C102_silenced : forall (K : Sc) (O : oracles K) fo fi fls fin P p so x0 lams0,
  (forall active, snd (fst (solve_text O QUIET active fo fi fls fin P p so x0 lams0)) = false) /\
  (forall v, let '(t, active', _) := solve_text O v false fo fi fls fin P p so x0 lams0 in rows_in t = [] /\ active' = false).
Proof. exact silenced. Qed.
Print Assumptions C102_silenced.
(** A solve at level VERYVERBOSE that makes iterations and prints no table, after a solve at level QUIET. *)
Theorem C102_level_refuted : exists t active o s', ex_text QUIET true = (t, active, o) /\ ex_text VERYVERBOSE active = ([Converged; Newline], false, Ret (s', SUCCESS)) /\ (0 < r_num_iters (res s'))%nat.
Proof. exact silent_later. Qed.
Print Assumptions C102_level_refuted.
(** The level QUIET does not make solve quiet. *)
Theorem C102_quiet_refuted : exists s', ex_text QUIET true = ([Converged; Newline], false, Ret (s', SUCCESS)).
Proof. exact quiet_prints. Qed.
Print Assumptions C102_quiet_refuted.

(** x^2 / 2 subject to x = 1 from x = 1 (rationals): titles, three records in three outer iterations, the message and the end of the line. *)
Example C102_example : map kind (fst (fst (ex_text VERBOSE true))) = [[0]; [1; 1]; [1; 2]; [1; 3]; [2]; [4]]%nat /\ snd (fst (ex_text VERBOSE true)) = true /\
  map (fun w => (lg_al w, lg_step w)) (rows_in (fst (fst (ex_text VERBOSE true)))) = [(1%nat, 1); (2%nat, 1); (3%nat, 1)].
Proof. vm_compute. repeat split. Qed.
Example C102_table_example : let rows := map (fun i => mkRow (K := QSc) i 1 1 1 1 0 0 0 0 1) (seq 1 27) in
  table rows (Titles :: map Row (firstn 24 rows) ++ Titles :: map Row (skipn 24 rows)).
Proof. exact (table_ok (map (fun i => mkRow (K := QSc) i 1 1 1 1 0 0 0 0 1) (seq 1 27)) eq_refl). Qed.
