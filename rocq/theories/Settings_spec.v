(** Specification for C100: settings made before a solve. *)
From Coq Require Import List QArith.
From Verif Require Import Scalar Cset_model Armijo_model Problem_model Solver_model Solver_examples.
Import ListNotations.

(** What a client may call before solve: setPenalty and setProxParameter (prox-solver.hpp:208, 211), with any values, any number of times. *)
Inductive setting {K : Sc} := Penalty (mu : car K) | Prox (rho : car K).
Fixpoint settings {K : Sc} {O : oracles K} (l : list (@setting K)) (s : solver_state O) : solver_state O :=
  match l with
  | [] => s
  | Penalty m :: l => settings l (set_penalty (o_fac O) (o_bfgs O) m s)
  | Prox r :: l => settings l (set_rho (o_fac O) (o_bfgs O) r s)
  end.
(** Minimise x^2/2 - 3 x over one variable, rational arithmetic: the objective, and the problem. *)
Definition obj3 (x : Q) : Q := x * x / 2 - 3 * x.
Definition problem3 : @problem QSc :=
  mkProblem (K := QSc) 1 (fun x => match x with [a] => Some (obj3 a) | _ => None end) (fun x => match x with [a] => Some [(a - 3)%Q] | _ => None end) (fun _ => Some [[1%Q]]) [].
(** The parameters of the examples with rho_init = 1 and one outer iteration. *)
Definition params3 : @params QSc :=
  let d := ex_params QSc 30 1 (1 # 1000000) MM_NEWTON in
  mkParams (K := QSc) 1 (mu_init d) (mu_lower d) (mu_upper d) (pdal_beta d) (target_tol d) (inner_tol0 d) (prim_tol0 d) (inner_tol_min d)
    (prim_alpha d) (prim_beta d) (dual_alpha d) (dual_beta d) (mu_factor d) (rho_factor d) (del_inc_k d) (del_inc_big d)
    (del_dec_k d) (delta_min d) (delta_max d) (delta_nz_init d) (delta_init d) (max_iters d) (max_al_iters d) (max_refine d) (kkt_tolerance d)
    (mul_update d) (kkt_sys d) (hess_approx d) (lsopt d) [].
