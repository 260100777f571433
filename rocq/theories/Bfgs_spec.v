(** Specification of the quasi-Newton updates. *)
From Coq Require Import Reals List Arith.
From Verif Require Import Scalar Cset_spec Problem_model Manifold_spec Function_spec Bfgs_model.
Import ListNotations.
Local Open Scope R_scope.

Definition minus (a b : rvec) : rvec := map2 Rminus a b.
(** w - c p *)
Definition less (w : rvec) (c : R) (p : rvec) : rvec := map2 (fun a b => a - c * b) w p.
Definition pos_def (n : nat) (M : list rvec) : Prop := forall u, length u = n -> u <> repeat 0 n -> 0 < inner u (mat_vec M u).
(** Symmetric positive definite of size n. *)
Definition spd (n : nat) (M : list rvec) : Prop := mat n n M /\ symmetric M /\ pos_def n M.
(** Nocedal and Wright, eqn 6.13 (with p = y, q = s) and 6.17 (with p = s, q = y), as the action on a
    vector: (I - p q'/k) M (I - q p'/k) u + p p'u / k, where k = p'q. *)
Definition rank_two (M : list rvec) (p q u : rvec) : rvec :=
  let k := inner p q in
  let z := mat_vec M (less u (inner p u / k) q) in
  map2 (fun a b => a + inner p u / k * b) (less z (inner q z / k) p) p.
(** Any number of updates. *)
Inductive updates (inv : bool) : bfgs RSc -> list rvec -> list (rvec * rvec) -> bfgs RSc -> list rvec -> Prop :=
| up_none b H : updates inv b H [] b H
| up_more b H x g l b1 H1 b2 H2 : bfgs_update (K := RSc) inv b x g H = Ret (b1, H1) -> updates inv b1 H1 l b2 H2 ->
    updates inv b H ((x, g) :: l) b2 H2.
(** N - N p p'N / p'Np + q q'/k applied to u, with k = p'q: the formula of the inverse (Nocedal and
    Wright, eqn 6.19 with p = s, q = y, and 6.15 with p = y, q = s). *)
Definition inverse_two (N : list rvec) (p q u : rvec) : rvec :=
  less (less (mat_vec N u) (inner p (mat_vec N u) / inner p (mat_vec N p)) (mat_vec N p)) (- (inner q u / inner p q)) q.
