(** Specification of the text that solve prints (C102). *)
From Coq Require Import List Bool Arith.
From Verif Require Import Scalar Armijo_model Problem_model Solver_model Log_model.
Import ListNotations.

(** The records of a text, in order. *)
Definition rows_in {K : Sc} (t : list (line (K := K))) : list (row (K := K)) := flat_map (fun l => match l with Row r => [r] | _ => [] end) t.
(** The k-th record (from one) stands below k / 25 extra lines of titles and the first one, and all other lines of the table are titles. *)
Definition table {K : Sc} (rows : list (row (K := K))) (t : list line) : Prop :=
  length t = (1 + length rows + length rows / 25)%nat /\
  (forall k r, nth_error rows k = Some r -> nth_error t (S k + S k / 25) = Some (Row r)) /\
  (forall j, (j <= length rows / 25)%nat -> nth_error t (26 * j - 1) = Some Titles).
(** The record [w] is of the step that leads from the state [s] to the state [s']: residuals and criterion are those of [s], the rest is of the step. *)
Definition of_step {K : Sc} (O : oracles K) (P : @params K) (p : @problem K) fls fin (w : row (K := K)) : Prop :=
  exists (s s' : solver_state O) d dl, run_diagnose O P p s = Ret d /\ let b := s_res _ _ (d_state _ _ d) in
    (run_step O fls fin P p d dl = Ret (Stop _ _ s') \/ exists dl', run_step O fls fin P p d dl = Ret (Next _ _ s' dl')) /\
    r_x b = r_x (res s) /\ r_lams b = r_lams (res s) /\
    lg_iter w = S (r_num_iters (res s)) /\ lg_iter w = r_num_iters (res s') /\ lg_al w = S (r_al_iters (res s)) /\
    lg_step w = w_alpha _ _ (wsp s') /\ lg_merit w = r_merit (res s') /\ lg_dm w = ssub (r_merit (res s')) (r_merit b) /\
    lg_inner w = d_inner_crit _ _ d /\ lg_prim w = r_prim_infeas b /\ lg_dual w = r_dual_infeas b /\
    sleb (lg_inner w) (s_inner_tol _ _ s) = false /\ sleb (smax (lg_prim w) (lg_dual w)) (target_tol P) = false.
(** The record and the results that the callbacks receive at the same step agree. *)
Definition agrees {K : Sc} (w : row (K := K)) (r : @results K) : Prop :=
  lg_iter w = S (r_num_iters r) /\ lg_al w = S (r_al_iters r) /\ lg_merit w = r_merit r /\ lg_prim w = r_prim_infeas r /\ lg_dual w = r_dual_infeas r.
(** What is printed below the table. *)
Definition ending {K : Sc} {A : Type} (o : outcome (A * conv_flag)) : list (line (K := K)) :=
  match o with Ret (_, SUCCESS) => [Converged; Newline] | Ret (_, MAX_ITERS_REACHED) => [OutOfIters; Newline] | Ret (_, UNINIT) => [Newline] | _ => [] end.
