(** A small concrete solver used by the examples and refutations: scalars are arbitrary, the
    manifold is a vector space, the factorisation is exact for matrices of size 1 and 2. *)
From Coq Require Import List Bool Arith ZArith QArith.
From Verif Require Import Scalar Cset_model Armijo_model Problem_model Solver_model.
Import ListNotations.

Section World.
  Variable K : Sc.
  Local Open Scope sc_scope.
  Definition ex_fac := list (list (car K)).
  Definition ex_compute (_ : ex_fac) (M : list (list (car K))) : ex_fac := M.
  Definition ex_sgn (a : car K) : Z := if 0 <? a then 1%Z else if a <? 0 then (-1)%Z else 0%Z.
  Definition ex_signature (F : ex_fac) : list Z :=
    match F with
    | [[a]] => [ex_sgn a]
    | [[a; b]; [c; d]] =>
        let det := a * d - b * c in
        if det <? 0 then [1%Z; (-1)%Z] else if 0 <? det then [ex_sgn a; ex_sgn a] else [ex_sgn (a + d); 0%Z]
    | _ => []
    end.
  Definition ex_solve (F : ex_fac) (r : list (car K)) : list (car K) :=
    match F, r with
    | [[a]], [x] => [x / a]
    | [[a; b]; [c; d]], [x; y] =>
        let det := a * d - b * c in [(d * x - b * y) / det; (a * y - c * x) / det]
    | _, _ => r
    end.
  (** [std::pow] replaced by its first argument: enough for a rational run. *)
  Definition ex_pow (b e : car K) : car K := b.
  Definition ex_pxv (rho : car K) (t x : list (car K)) : car K := rho / stwo * vsqnorm (vsub x t).
  Definition ex_pxg (rho : car K) (t x : list (car K)) : list (car K) := vscale rho (vsub x t).
  Definition ex_pxh (rho : car K) (t x : list (car K)) : list (list (car K)) := [[rho]].
  Definition ex_bfgs (b : unit) (x g : list (car K)) (H : list (list (car K))) : unit * list (list (car K)) := (b, H).
  Definition ex_qr (a b c d e f : car K) : car K * car K := (0, 0).

  (** minimise x^2/2, one variable; [cons] lists the constraint functions *)
  Definition ex_problem (cons : list (@cfun K)) : @problem K :=
    mkProblem 1 (fun x => match x with [a] => Some (a * a / stwo) | _ => None end)
      (fun x => Some x) (fun _ => Some [[1]]) cons.
  (** the constraint function x - a *)
  Definition ex_minus (a : car K) : @cfun K :=
    mkCfun 1 (fun x => match x with [y] => Some [y - a] | _ => None end) (fun _ => Some [[1]]) (fun _ _ => Some [[0]]).

  Definition ex_oracles : oracles K :=
    mkOracles ex_pow vadd ex_pxv ex_pxg ex_pxh ex_fac ex_compute ex_signature ex_solve unit ex_bfgs ex_qr.
  Definition ex_run (P : @params K) (p : @problem K) (so : option (solver_state ex_oracles)) (x0 l0 : list (car K)) :=
    run_solve ex_oracles (S (max_al_iters P)) (max_iters P) 50 50 P p so x0 l0.
  Definition ex_setup (P : @params K) (p : @problem K) (sets : list (cset K)) : solver_state ex_oracles :=
    setup (K := K) ex_fac unit P p sets [0] [] tt.
End World.

(** Default parameters with other budgets, tolerance and multiplier mode. *)
Definition ex_params (K : Sc) (mi mal : nat) (tol : car K) (mm : mul_mode) : @params K :=
  let d := default_params (K := K) in
  mkParams (rho_init d) (mu_init d) (mu_lower d) (mu_upper d) (pdal_beta d) tol (inner_tol0 d) (prim_tol0 d) (inner_tol_min d)
    (prim_alpha d) (prim_beta d) (dual_alpha d) (dual_beta d) (mu_factor d) (rho_factor d) (del_inc_k d) (del_inc_big d)
    (del_dec_k d) (delta_min d) (delta_max d) (delta_nz_init d) (delta_init d) mi mal (max_refine d) (kkt_tolerance d)
    mm (kkt_sys d) (hess_approx d) (lsopt d) [0%nat; 1%nat].
