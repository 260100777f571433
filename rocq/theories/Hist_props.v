(** Property C60: the history callback stores the data of each iteration. *)
From Coq Require Import List Bool Arith QArith.
From Verif Require Import Scalar Cset_model Armijo_model Problem_model Solver_model SolverX_proofs Solver_examples Hist_model Hist_proofs.
Import ListNotations.
Local Open Scope nat_scope.

(** Each call appends the data it is given, as enabled by the options; no undefined behaviour if every
    workspace has at least one step length and as many values. *)
Theorem C60_records : forall (K : Sc) strict o dims (l : list (@ls_data K * @results K)) h,
  Forall (fun wr => length (ws_alphas (fst wr)) <= length (ws_values (fst wr)) /\ (strict = true -> ws_alphas (fst wr) <> [])) l ->
  exists h', hist_calls strict o dims h l = Ret h' /\
    h_xs h' = h_xs h ++ (if store_pd o then map (fun wr => r_x (snd wr)) l else []) /\
    h_lams h' = h_lams h ++ (if store_pd o then map (fun wr => r_lams (snd wr)) l else []) /\
    h_views h' = h_views h ++ (if store_pd o then map (fun _ => views 0 dims) l else []) /\
    h_values h' = h_values h ++ (if store_val o then map (fun wr => r_value (snd wr)) l else []) /\
    h_prim h' = h_prim h ++ (if store_resid o then map (fun wr => r_prim_infeas (snd wr)) l else []) /\
    h_dual h' = h_dual h ++ (if store_resid o then map (fun wr => r_dual_infeas (snd wr)) l else []) /\
    h_ls_alphas h' = h_ls_alphas h ++ map (fun wr => ws_alphas (fst wr)) l /\
    h_ls_values h' = h_ls_values h ++ map (fun wr => firstn (length (ws_alphas (fst wr))) (ws_values (fst wr))) l /\
    h_alphas h' = h_alphas h ++ map (fun wr => ws_alpha_opt (fst wr)) l /\
    h_dmerit h' = h_dmerit h ++ map (fun wr => ws_dmerit (fst wr)) l.
Proof. intros K strict o dims l h. exact (calls_ok strict o dims l h). Qed.
Print Assumptions C60_records.

(** The number of step lengths is used for the values as well: a call reads outside the values exactly when
    there are fewer of them. *)
Theorem C60_reads_in_bounds : forall (K : Sc) o dims (h : @hist K) w r, hist_call false o dims h w r = UB <-> length (ws_values w) < length (ws_alphas w).
Proof. intros K. exact call_bounds. Qed.
Print Assumptions C60_reads_in_bounds.

(** After a solve, where the address of element 0 of an empty vector is harmless: there is one entry per
    iteration and one more, entry k is the data of the results at iteration k, the last entry the data of the
    final results.  [cb] is the callback, registered once; [steps] are the step lengths and directional
    derivatives in the workspace at the calls. *)
Theorem C60_history_of_solve : forall (K : Sc) (O : oracles K) fo fi fls fin P p (s : solver_state O) x0 lams0 s' f cb steps o dims,
  run_solve O fo fi fls fin P p (Some s) x0 lams0 = Ret (s', f) ->
  s_events _ _ s = [] -> count_occ Nat.eq_dec (callbacks P) cb = 1 ->
  length steps = S (r_num_iters (res s')) ->
  store_pd o = true -> store_val o = true -> store_resid o = true ->
  exists h rs,
    hist_calls false o dims hist_new (combine (map (fun a => solver_ls (fst a) (snd a)) steps) (seen_by cb (s_events _ _ s'))) = Ret h /\
    length rs = S (r_num_iters (res s')) /\
    (forall k r, k < r_num_iters (res s') -> nth_error rs k = Some r -> r_num_iters r = k) /\
    nth_error rs (r_num_iters (res s')) = Some (res s') /\
    h_xs h = map r_x rs /\ h_lams h = map r_lams rs /\ h_values h = map r_value rs /\
    h_prim h = map r_prim_infeas rs /\ h_dual h = map r_dual_infeas rs /\
    h_alphas h = map fst steps /\ h_dmerit h = map snd steps.
Proof. exact history_of_run. Qed.
Print Assumptions C60_history_of_solve.

Example C60_example :
  let P := ex_params QSc 30 30 (1 # 1000000)%Q MM_NEWTON in
  let p := ex_problem QSc [ex_minus QSc (1 # 1)%Q] in
  exists s' h, ex_run QSc P p (Some (ex_setup QSc P p [CEq (K := QSc) (1 # 100)%Q])) [(1 # 1)%Q] [] = Ret (s', SUCCESS) /\
    count_occ Nat.eq_dec (callbacks P) 0 = 1 /\
    hist_calls false (mkOpts true true true) [1] hist_new (combine (repeat (solver_ls (K := QSc) 1%Q 0%Q) 4) (seen_by 0 (s_events _ _ s'))) = Ret h /\
    length (h_xs h) = 4 /\ length (h_dual h) = 4 /\ length (h_alphas h) = 4.
Proof.
  intros P p. destruct (seen_run _ (fun s f => (f, match hist_calls false (mkOpts true true true) [1] hist_new (combine (repeat (solver_ls (K := QSc) 1%Q 0%Q) 4) (seen_by 0 (s_events _ _ s))) with
      Ret h => Some (length (h_xs h), length (h_dual h), length (h_alphas h)) | _ => None end))
    (ex_run QSc P p (Some (ex_setup QSc P p [CEq (K := QSc) (1 # 100)%Q])) [(1 # 1)%Q] [])
    (SUCCESS, Some (4, 4, 4)) ltac:(vm_compute; reflexivity)) as (s & f & E & V).
  injection V as -> V. destruct (hist_calls _ _ _ _ _) as [h| | |] eqn:Eh in V; try discriminate V. injection V as V1 V2 V3.
  exists s, h. split; [exact E|]. split; [reflexivity|]. split; [exact Eh|]. repeat split; assumption.
Qed.

(** By the standard, recording is undefined behaviour at every call in a solve: the solver leaves
    ls_alphas empty and the callback takes the address of its element 0. *)
Theorem C60_undefined_refuted : forall (K : Sc) o dims (h : @hist K) alpha dmerit r,
  hist_call true o dims h (solver_ls alpha dmerit) r = UB.
Proof. intros K. exact strict_ub. Qed.
Print Assumptions C60_undefined_refuted.

(** All entries of lams_view always show the same, the multipliers that the results object holds now ... *)
Theorem C60_views_alias : forall (K : Sc) strict o dims (l : list (@ls_data K * results)) h (buf : list (car K)),
  hist_calls strict o dims hist_new l = Ret h -> length buf = list_sum dims ->
  Forall (fun wr => length (ws_alphas (fst wr)) <= length (ws_values (fst wr)) /\ (strict = true -> ws_alphas (fst wr) <> [])) l ->
  Forall (fun v => concat (seen buf v) = buf) (h_views h).
Proof. exact views_alias. Qed.
Print Assumptions C60_views_alias.

(** ... so that entry k is not the data of iteration k: after this solve, entry 0 of lams_view shows other
    multipliers than entry 0 of lams. *)
Theorem C60_views_refuted : let P := ex_params QSc 30 30 (1 # 1000000)%Q MM_NEWTON in
  let p := ex_problem QSc [ex_minus QSc (1 # 1)%Q] in
  exists s' h v lam, ex_run QSc P p (Some (ex_setup QSc P p [CEq (K := QSc) (1 # 100)%Q])) [(1 # 1)%Q] [] = Ret (s', SUCCESS) /\
    hist_calls false (mkOpts true true true) [1] hist_new (combine (repeat (solver_ls (K := QSc) 1%Q 0%Q) 4) (seen_by 0 (s_events _ _ s'))) = Ret h /\
    nth_error (h_views h) 0 = Some v /\ nth_error (h_lams h) 0 = Some lam /\ ~ Forall2 Qeq (concat (seen (r_lams (res s')) v)) lam.
Proof.
  intros P p. destruct (seen_run _ (fun s f => (f, match hist_calls false (mkOpts true true true) [1] hist_new (combine (repeat (solver_ls (K := QSc) 1%Q 0%Q) 4) (seen_by 0 (s_events _ _ s))) with
      Ret h => match nth_error (h_views h) 0, nth_error (h_lams h) 0 with
               | Some v, Some lam => match concat (seen (r_lams (res s)) v), lam with [a], [b] => Some (Qeq_bool a b) | _, _ => None end
               | _, _ => None end | _ => None end))
    (ex_run QSc P p (Some (ex_setup QSc P p [CEq (K := QSc) (1 # 100)%Q])) [(1 # 1)%Q] [])
    (SUCCESS, Some false) ltac:(vm_compute; reflexivity)) as (s & f & E & V).
  injection V as -> V. destruct (hist_calls _ _ _ _ _) as [h| | |] eqn:Eh in V; try discriminate V.
  destruct (h_views h) as [|v vs] eqn:Ev; [discriminate V|]. destruct (h_lams h) as [|lam ls] eqn:El; [discriminate V|].
  exists s, h, v, lam. split; [exact E|]. split; [exact Eh|]. rewrite Ev, El. split; [reflexivity|]. split; [reflexivity|]. intros F.
  match type of V with match ?c with _ => _ end = _ => change (Forall2 Qeq c lam) in F; destruct c as [|a [|? ?]]; try discriminate V end.
  inversion F as [|? b ? ? Q F']; subst. inversion F'; subst. injection V as V. apply Qeq_bool_iff in Q. congruence.
Qed.
Print Assumptions C60_views_refuted.
