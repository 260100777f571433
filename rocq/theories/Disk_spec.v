(** Specification for the program of examples/circle.cpp: the projection of a point on a disk. *)
From Coq Require Import Reals List Arith.
From Verif Require Import Scalar Cset_model Problem_model Solver_model Lin_spec Qp_spec.
Import ListNotations.
Local Open Scope R_scope.

(** The n by n matrix with a on the diagonal. *)
Definition diag (n : nat) (a : R) : list (list R) := tab n (fun i => tab n (fun j => if Nat.eqb i j then a else 0)).
(** Minimise 1/2 |x - p|^2 subject to |x|^2 - r^2 <= 0, with its derivatives. *)
Definition disk_problem (n : nat) (p : list R) (r : R) : @problem RSc :=
  mkProblem (K := RSc) n
    (fun x => Some (1 / 2 * rsum n (fun i => (nth i x 0 - nth i p 0) ^ 2)))
    (fun x => Some (tab n (fun i => nth i x 0 - nth i p 0)))
    (fun _ => Some (diag n 1))
    [mkCfun (K := RSc) 1
       (fun x => Some [rsum n (fun i => nth i x 0 ^ 2) - r ^ 2])
       (fun x => Some [tab n (fun i => 2 * nth i x 0)])
       (fun _ l => match l with v :: _ => Some (diag n (2 * v)) | [] => None end)].
(** x with the multiplier l meets the first-order conditions of the problem. *)
Definition disk_kkt (n : nat) (p : nat -> R) (r : R) (x : nat -> R) (l : R) : Prop :=
  (forall i, (i < n)%nat -> x i - p i + l * (2 * x i) = 0) /\ rsum n (fun i => x i ^ 2) - r ^ 2 <= 0 /\ 0 <= l /\
  l * (rsum n (fun i => x i ^ 2) - r ^ 2) = 0.
