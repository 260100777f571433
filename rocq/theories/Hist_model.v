(** Model of the history callback, include/proxsuite-nlp/helpers/history-callback.hpp (cited as hist), and of
    what it stores during a solve. *)
From Coq Require Import List Bool Arith.
From Verif Require Import Scalar Problem_model Solver_model.
Import ListNotations.

Section Hist.
  Context {K : Sc}.
  Local Open Scope out_scope.
  Local Notation vec := (list (car K)).

  (** hist:60-62, 16-19: which data are stored. *)
  Record hist_opts := mkOpts { store_pd : bool; store_val : bool; store_resid : bool }.
  (** The members of the workspace that the callback reads, workspace.hpp:113-119. *)
  Record ls_data := mkLs { ws_alphas : vec; ws_values : vec; ws_alpha_opt : car K; ws_dmerit : car K }.
  (** hist:23-35 [storage].  An entry of lams_view is a list of Eigen::Ref, pointers into the buffer
      data_lams_opt of the Results object: (start, length) of each. *)
  Record hist := mkHist {
    h_xs : list vec; h_lams : list vec; h_views : list (list (nat * nat)); h_values : vec; h_prim : vec; h_dual : vec;
    h_ls_alphas : list vec; h_ls_values : list vec; h_alphas : vec; h_dmerit : vec
  }.
  (** hist:23-35: empty vectors. *)
  Definition hist_new : hist := mkHist [] [] [] [] [] [] [] [] [] [].
  (** results.hpp:54, helpers-base.hpp / problem-base: the views lams_opt cut the buffer into one segment per
      constraint. *)
  Fixpoint views (start : nat) (dims : list nat) : list (nat * nat) :=
    match dims with [] => [] | d :: r => (start, d) :: views (start + d) r end.
  (** hist:50-53: Map<const VectorXs>(&v[0], n), copied: the first n entries of v.  In the standard, v[0] is
      undefined behaviour for an empty vector; [strict] says whether to count that (false: the address of
      element 0 of an empty vector may be formed).  Reading more entries than there are is undefined. *)
  Definition mapped (strict : bool) (v : vec) (n : nat) : outcome vec :=
    if strict && Nat.eqb (length v) 0 then UB else if Nat.ltb (length v) n then UB else Ret (firstn n v).
  (** hist:37-57 [call]. *)
  Definition hist_call (strict : bool) (o : hist_opts) (dims : list nat) (h : hist) (w : ls_data) (r : @results K) : outcome hist :=
    let asize := length (ws_alphas w) in
    do a <- mapped strict (ws_alphas w) asize;
    do v <- mapped strict (ws_values w) asize;
    Ret (mkHist
      (if store_pd o then h_xs h ++ [r_x r] else h_xs h)
      (if store_pd o then h_lams h ++ [r_lams r] else h_lams h)
      (if store_pd o then h_views h ++ [views 0 dims] else h_views h)
      (if store_val o then h_values h ++ [r_value r] else h_values h)
      (if store_resid o then h_prim h ++ [r_prim_infeas r] else h_prim h)
      (if store_resid o then h_dual h ++ [r_dual_infeas r] else h_dual h)
      (h_ls_alphas h ++ [a]) (h_ls_values h ++ [v]) (h_alphas h ++ [ws_alpha_opt w]) (h_dmerit h ++ [ws_dmerit w])).
  (** The calls in turn, one for each time prox-solver.hpp:282-286 invokes the callback. *)
  Fixpoint hist_calls (strict : bool) (o : hist_opts) (dims : list nat) (h : hist) (l : list (ls_data * @results K)) : outcome hist :=
    match l with
    | [] => Ret h
    | (w, r) :: q => do h1 <- hist_call strict o dims h w r; hist_calls strict o dims h1 q
    end.
  (** What an entry of lams_view (helpers/history-callback.hpp:26, 42) shows when the buffer of the Results object holds [buf]. *)
  Definition seen (buf : vec) (v : list (nat * nat)) : list vec := map (fun a => firstn (snd a) (skipn (fst a) buf)) v.
  (** The workspace at a call of the solver: it never fills ls_alphas and ls_values (their only
      occurrences are their declarations, workspace.hpp:114-115). *)
  Definition solver_ls (alpha dmerit : car K) : ls_data := mkLs [] [] alpha dmerit.
  (** The results seen by callback number cb: prox-solver.hpp:282-286. *)
  Definition seen_by (cb : nat) (evs : list (@event K)) : list (@results K) := map ev_results (filter (fun e => Nat.eqb (ev_cb e) cb) evs).
End Hist.
