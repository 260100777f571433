(** The problems built by examples/equality-qp.cpp (and the same with several constraints and a linear term in the cost) and by
    examples/circle.cpp. *)
From Coq Require Import List Bool Arith ZArith.
From Verif Require Import Scalar Cset_model Problem_model Manifold_model Function_model Objects_model.
Import ListNotations.

Section Client.
  Context {K : Sc}.
  Notation vec := (list (car K)).
  Notation rows := (list (list (car K))).

  (** examples/equality-qp.cpp:47-58: the function of the constraint (47), the cost (49-50), the list of constraints (52-55) and
      the problem (57).  The random data (Q_, A, b) are arguments; [has] is the test [M > 0]. *)
  Definition equality_qp (h : heap K) (n : nat) (has : bool) (Q A : rows) (b : vec) : outcome (heap K * oproblem) :=
    let '(h1, res1) := new_linear h n A b in
    (do (h2, cost) <- new_distance h1 (SVec n) (neutral (SVec n)) Q;
     do p <- new_problem h2 (SVec n) cost (if has then [res1] else []);
     Ret (h2, p))%out.
  (** Line 47 of the same file, once for each constraint (linear.hpp:27-31). *)
  Fixpoint new_linears (h : heap K) (n : nat) (bl : list (rows * vec)) : heap K * list ref :=
    match bl with
    | [] => (h, [])
    | (A, b) :: r => let '(h1, c) := new_linear h n A b in let '(h2, cs) := new_linears h1 n r in (h2, c :: cs)
    end.
  (** A variation of examples/equality-qp.cpp:47-58 with a slope (the constructor of quadratic-residual.hxx:8-21 on the residual
      of state-residual.hpp:33-41, as in examples/so2.cpp:40-44) and any number of constraints. *)
  Definition sloped_qp (h : heap K) (n : nat) (Q : rows) (q : vec) (bl : list (rows * vec)) : outcome (heap K * oproblem) :=
    (do (h1, f) <- new_diff h (SVec n) (neutral (SVec n));
     do (h2, cost) <- new_quad h1 f Q q s0;
     let '(h3, cs) := new_linears h2 n bl in
     do p <- new_problem h3 (SVec n) cost cs;
     Ret (h3, p))%out.
  (** examples/circle.cpp:44-48 (weights and cost), 54-55 (the residual of the constraint), 63-70 (radius, weights and constraint
      function) and 74-76 (the problem).  The dimension [n], the target [p0] and the radius [r] are arguments instead of the constants of
      lines 20, 24 and 63; the set of the constraint (72-74) is not part of [oproblem]. *)
  Definition disk_program (h : heap K) (n : nat) (p0 : vec) (r : car K) : outcome (heap K * oproblem) :=
    (do (h1, cost) <- new_distance h (SVec n) p0 (eye_scaled s1 n);
     do (h2, f) <- new_diff h1 (SVec n) (neutral (SVec n));
     do (h3, g) <- new_quad h2 f (mscale (sofZ 2) (eye_scaled s1 n)) (repeat s0 n) (sopp (smul r r));
     do p <- new_problem h3 (SVec n) cost [g];
     Ret (h3, p))%out.
End Client.
