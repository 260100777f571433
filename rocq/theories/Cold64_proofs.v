(** * The default run on a strongly convex problem, in binary64

    The problem of [Cold_proofs.v] — minimise x^2/2 + 150 y^2 subject to
    x + 47 <= 0 and -2 x + y - 236 <= 0 — with the default parameters and
    binary64 arithmetic ([FSc], round to nearest even). *)
From Coq Require Import List ZArith Bool Floats.SpecFloat.
From Verif Require Import Scalar Cset_model Armijo_model Problem_model Solver_model Solver_spec Ldlt_model Fac_model Solver_examples.
Import ListNotations.

(** std::pow as called by include/proxsuite-nlp/prox-solver.hxx:566-574 with the
    default exponents 0.1 and 1 and base mu_init = 0.01 (instance of the [pow]
    oracle: 0.01^1 = 0.01 and 0.01^0.1 = 0.6309573444801933). *)
Definition fl_pow (b e : car FSc) : car FSc :=
  if seqb (s := FSc) e (s1 (s := FSc)) then b
  else slit (K := FSc) 6309573444801933 10000000000000000.

(** The oracles of a run on R^2 (VectorSpaceTpl::integrate is addition,
    include/proxsuite-nlp/modelling/spaces/vector-space.hpp:39-42), with the
    dense LDLT of include/proxsuite-nlp/linalg/dense.hpp, and Cramer's rule in
    place of Eigen's QR for the 2x2 system of
    include/proxsuite-nlp/linesearch-armijo.hpp:180-194. *)
Definition fl_oracles (N : nat) : oracles FSc :=
  mkOracles (K := FSc) fl_pow (vadd (K := FSc)) (ex_pxv FSc) (ex_pxg FSc)
    (fun rho _ x => mtab (K := FSc) (length x) (length x)
       (fun i j => if Nat.eqb i j then rho else s0 (s := FSc)))
    (dldlt FSc) (dense_fac (K := FSc) N) (dense_sig (K := FSc))
    (dense_solve_list (K := FSc)) unit (fun b _ _ H => (b, H)) (cramer (K := FSc)).

(** An integer as a binary64 number (a literal of a client program; no lines of /repo). *)
Definition fz (n : Z) : car FSc := sofZ (s := FSc) n.

Declare Scope fl_scope.
Local Open Scope fl_scope.
Local Notation "a [+] b" := (sadd (s := FSc) a b) (at level 50, left associativity) : fl_scope.
Local Notation "a [*] b" := (smul (s := FSc) a b) (at level 40, left associativity) : fl_scope.

(** A client problem (ProblemTpl, include/proxsuite-nlp/problem-base.hpp:20-75):
    one quadratic cost, two affine inequality constraints. *)
Definition fl_cold : @problem FSc :=
  let zero := [[fz 0; fz 0]; [fz 0; fz 0]] in
  mkProblem (K := FSc) 2
    (fun z => match z with
              | [x; y] => Some (shalf (K := FSc) [*] (x [*] x) [+] fz 150 [*] (y [*] y))
              | _ => None end)
    (fun z => match z with [x; y] => Some [x; fz 300 [*] y] | _ => None end)
    (fun _ => Some [[fz 1; fz 0]; [fz 0; fz 300]])
    [mkCfun (K := FSc) 1
       (fun z => match z with [x; y] => Some [x [+] fz 47] | _ => None end)
       (fun _ => Some [[fz 1; fz 0]]) (fun _ _ => Some zero);
     mkCfun (K := FSc) 1
       (fun z => match z with
                 | [x; y] => Some [fz (-2) [*] x [+] y [+] fz (-236)]
                 | _ => None end)
       (fun _ => Some [[fz (-2); fz 1]]) (fun _ _ => Some zero)].

(** ProxNLPSolverTpl::setup (include/proxsuite-nlp/prox-solver.hpp:147-165) on that problem. *)
Definition fl_state : solver_state (fl_oracles 4) :=
  setup (K := FSc) (dldlt FSc) unit (default_params (K := FSc)) fl_cold
    [CNeg (K := FSc) (fz 1); CNeg (K := FSc) (fz 1)] [fz 0; fz 0] (dldlt_new (K := FSc) 4) tt.

(** What a run reports: flag, iteration count and final point
    (ResultsTpl, include/proxsuite-nlp/results.hpp:26-43). *)
Definition fl_report (o : outcome (solver_state (fl_oracles 4) * conv_flag))
  : option (conv_flag * nat * list (car FSc)) :=
  match o with
  | Ret (s, f) => Some (f, r_num_iters (res s), r_x (res s))
  | _ => None
  end.

(** ProxNLPSolverTpl::solve (include/proxsuite-nlp/prox-solver.hxx:51-127) from
    (0, 300) and zero multipliers. *)
Definition fl_run (p : @params FSc) : outcome (solver_state (fl_oracles 4) * conv_flag) :=
  run_solve (fl_oracles 4) 20 200 100 50 p fl_cold (Some fl_state) [fz 0; fz 300] [fz 0; fz 0].

Lemma fl_run_eq : fl_report (fl_run (default_params (K := FSc))) = Some (MAX_ITERS_REACHED, 100,
    [S754_finite true 7036184837518652 (-47); S754_finite false 5066053083013427 (-50)]).
Proof. vm_cast_no_check (eq_refl (Some (MAX_ITERS_REACHED, 100,
    [S754_finite true 7036184837518652 (-47); S754_finite false 5066053083013427 (-50)]))). Qed.

Lemma report_inv : forall o f n x y, fl_report o = Some (f, n, [x; y]) ->
  exists s, o = Ret (s, f) /\ r_num_iters (res s) = n /\ r_x (res s) = [x; y].
Proof.
  intros o f n x y H. destruct o as [[s g]| | |]; try discriminate H.
  injection H as Hf Hn Hx. exists s. subst g. auto.
Qed.

Lemma fl_cold_refuted :
  exists s x y,
    fl_run (default_params (K := FSc)) = Ret (s, MAX_ITERS_REACHED)
    /\ r_num_iters (res s) = 100 /\ r_x (res s) = [x; y]
    /\ SFltb x (fz (-49)) = true /\ SFltb (fz 4) y = true.
Proof.
  destruct (report_inv (fl_run (default_params (K := FSc))) _ _ _ _ fl_run_eq) as (s & H1 & H2 & H3).
  exists s, (S754_finite true 7036184837518652 (-47)), (S754_finite false 5066053083013427 (-50)).
  split; [exact H1|]. split; [exact H2|]. split; [exact H3|]. split; vm_compute; reflexivity.
Qed.
