(** Specification for the client programs of Client_model. *)
From Coq Require Import Reals List Arith.
From Verif Require Import Scalar Cset_model Problem_model Solver_model Manifold_model Manifold_spec Function_model Function_spec Bk_spec Qp_spec.
Import ListNotations.
Local Open Scope R_scope.

(** A block of constraints A x + b = 0 in n variables. *)
Definition block_ok (n : nat) (ab : list rvec * rvec) : Prop := mat (length (fst ab)) n (fst ab) /\ length (snd ab) = length (fst ab).
(** Minimise 1/2 x'Qx + q'x subject to A x + b = 0 for all blocks. *)
Definition blocks_qp (n : nat) (Q : list rvec) (q : rvec) (bl : list (list rvec * rvec)) : @problem RSc :=
  qp n (entries Q) (fun i => nth i q 0) (map (fun ab => length (fst ab)) bl) (entries (concat (map fst bl))) (fun i => - nth i (concat (map snd bl)) 0).
