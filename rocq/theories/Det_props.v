(** Property C22, continued: when the result of solve does not depend on earlier calls. *)
From Coq Require Import List Bool Arith QArith.
From Verif Require Import Scalar Cset_model Armijo_model Problem_model Solver_model SolverX_proofs Solver_examples Det_spec DetS_proofs.
Import ListNotations.
Local Open Scope nat_scope.

(** Let s and t be the same solver after two different histories of calls.  A call with the same parameters,
    point and multipliers of the full size gives the same results on both: the same flag, iterates, residuals
    and calls of callbacks, or the same exception.  Needed: the KKT matrices left behind are finite (C62
    shows why), the proximal term is off or has the same target, the factorisation forgets the previous one,
    the Hessian is not a quasi-Newton one, the budgets are not zero (C19). *)
Theorem C22_same_result : forall (K : Sc) (O : oracles K) (p : @problem K) P0 cs xn f0 b0 (s t : solver_state O) fo fi fls fin (P : @params K) x0 lams0,
  Forall2 (fun c f => whole c (f_nr f)) cs (p_cons p) ->
  after O p (setup (o_fac O) (o_bfgs O) P0 p cs xn f0 b0) s -> after O p (setup (o_fac O) (o_bfgs O) P0 p cs xn f0 b0) t ->
  bad_mat (w_kkt _ _ (wsp s)) = false -> bad_mat (w_kkt _ _ (wsp t)) = false ->
  (s_target _ _ s = s_target _ _ t \/ (sltb s0 (rho_init P) = false /\ forall x y y', o_px_val O (rho_init P) y x = o_px_val O (rho_init P) y' x)) ->
  (forall F F' M, o_compute O F M = o_compute O F' M) -> sleb (delta_init P) (delta_max P) = true -> hess_approx P <> HM_BFGS ->
  0 < max_iters P -> 0 < max_al_iters P -> length lams0 = numdual p ->
  same_call s t (run_solve O fo fi fls fin P p (Some s) x0 lams0) (run_solve O fo fi fls fin P p (Some t) x0 lams0).
Proof. exact same_result. Qed.
Print Assumptions C22_same_result.

(** The solver of C22_history_refuted, fresh and after a call that changed its multipliers. *)
Definition ex22 : oracles QSc := mkOracles (ex_pow QSc) vadd (fun _ _ _ => 0%Q) (ex_pxg QSc) (ex_pxh QSc) (ex_fac QSc) (ex_compute QSc) (ex_signature QSc) (ex_solve QSc) unit (ex_bfgs QSc) (ex_qr QSc).
Example C22_example :
  let P := ex_params QSc 30 30 (1 # 1000000)%Q MM_NEWTON in
  let p := ex_problem QSc [ex_minus QSc (1 # 1)%Q] in
  let s := setup (o_fac ex22) (o_bfgs ex22) P p [CEq (K := QSc) (1 # 100)%Q] [0%Q] [] tt in
  exists t, after ex22 p s t /\ bad_mat (w_kkt _ _ (wsp s)) = false /\ bad_mat (w_kkt _ _ (wsp t)) = false /\
    s_target _ _ s <> s_target _ _ t /\ r_lams (res t) <> r_lams (res s) /\
    sltb s0 (rho_init P) = false /\ (forall x y y', o_px_val ex22 (rho_init P) y x = o_px_val ex22 (rho_init P) y' x) /\
    (forall F F' M, o_compute ex22 F M = o_compute ex22 F' M) /\ sleb (delta_init P) (delta_max P) = true /\ hess_approx P <> HM_BFGS /\
    0 < max_iters P /\ 0 < max_al_iters P /\ length [0%Q] = numdual p /\ Forall2 (fun c f => whole c (f_nr f)) [CEq (K := QSc) (1 # 100)%Q] (p_cons p).
Proof.
  intros P p s.
  destruct (seen_run _ (fun s f => (f, bad_mat (w_kkt _ _ (wsp s)), map (fun q => Qeq_bool q 0%Q) (s_target _ _ s), map (fun q => Qeq_bool q 0%Q) (r_lams (res s))))
    (run_solve ex22 31 30 50 50 P p (Some s) [(1 # 1)%Q] []) (SUCCESS, false, [false], [false]) ltac:(vm_compute; reflexivity)) as (t & f & E & V).
  injection V as -> V1 V2 V3. exists t. split; [eapply after_solve; [apply after_none|exact E]|]. split; [reflexivity|]. split; [exact V1|].
  split. { intros X. change (map (fun q => Qeq_bool q 0%Q) (s_target (o_fac ex22) (o_bfgs ex22) t) = [false]) in V2. rewrite <- X in V2. discriminate V2. } split. { intros X. change (map (fun q => Qeq_bool q 0%Q) (r_lams (res t)) = [false]) in V3. rewrite X in V3. discriminate V3. }
  split; [reflexivity|]. split; [reflexivity|]. split; [reflexivity|]. split; [reflexivity|]. split; [discriminate|].
  cbn. repeat split; try (repeat constructor). 
Qed.
