(** C108: a solve with the default system need not make progress: at a point where the two shifted constraint values select different
    rows, the step raises the merit function and the line search returns its shortest length. *)
From Coq Require Import Reals List Arith.
From Verif Require Import Scalar Cset_model Cset_spec Armijo_model Problem_model Solver_model Solver_spec Qp_spec FacX_proofs Stall_spec Stall_proofs Cold_proofs.
Import ListNotations.
Local Open Scope R_scope.

(** On a convex parabola that rises from the start the line search returns the shortest length it allows, where the function is above its start. *)
Theorem C108_floor qr it v g c ph fls : let f := (fun a : R => v + g * a + c * (a * a)) in it <> CUBIC -> 1 / 10000000000000 <= g -> 0 < c -> (forall tr a, 0 <= a -> ph tr a = Some (f a)) -> (0 < fls)%nat ->
  exists r, run (K := RSc) qr ph fls (halving it) v g = Some r /\ r_alpha r = 1 / 1000000 /\ v < f (r_alpha r).
Proof. exact (floor_final qr it v g c ph fls). Qed.
Print Assumptions C108_floor.

(** Minimise 1/2 x^2 subject to x + 11 <= 0 from x = -8 with the multiplier -400: whatever the limit N on the iterations, up to 100000, all of them are
    steps of the shortest length; the constraint is still violated by more than 3, and the merit function of the run has grown. *)
Theorem C108_progress_refuted it N : it <> CUBIC -> (0 < N)%nat -> INR N <= 100000 -> exists p (s : solver_state (dense_oracles 2)), let P := halving_params it N in
  p_cons p = qp_cons 1 (fun _ _ => 1) (fun _ => -11) 0 [1%nat] /\ (forall y, p_cost p [y] = Some (1 / 2 * (y * y))) /\ sets s = [CNeg (K := RSc) 1] /\
  (forall fo fi fls fin, (2 <= fo)%nat -> (N <= fi)%nat -> (0 < fls)%nat -> (0 < fin)%nat -> exists s' x l,
    run_solve (dense_oracles 2) fo fi fls fin P p (Some s) [-8] [-400] = Ret (s', MAX_ITERS_REACHED) /\ r_x (res s') = [x] /\ r_lams (res s') = [l] /\ r_num_iters (res s') = N /\
    3 < x + 11 /\ rising (-8) (-400) < rising x l).
Proof. exact (slope_refuted it N). Qed.
Print Assumptions C108_progress_refuted.

(** The same from zero multipliers: minimise 1/2 x^2 + 150 y^2 subject to x + 47 <= 0 and -2 x + y - 236 <= 0 from (0, 300).  The solver takes one full step and one half step,
    and then N - 2 steps of the shortest length; it returns a point with more than three times the optimal objective. *)
Theorem C108_cold_refuted it N : it <> CUBIC -> (3 <= N)%nat -> INR N <= 50000 -> exists p (s : solver_state (dense_oracles 4)), let P := halving_params it N in let obj := (fun x y : R => 1 / 2 * (x * x) + 150 * (y * y)) in
  p_cons p = qp_cons 2 cold_rows cold_bounds 0 [1%nat; 1%nat] /\ (forall x y, p_cost p [x; y] = Some (obj x y)) /\ sets s = [CNeg (K := RSc) 1; CNeg (K := RSc) 1] /\
  (forall fo fi fls fin, (2 <= fo)%nat -> (N <= fi)%nat -> (0 < fls)%nat -> (0 < fin)%nat -> exists s' x y,
    run_solve (dense_oracles 4) fo fi fls fin P p (Some s) [0; 300] [0; 0] = Ret (s', MAX_ITERS_REACHED) /\ r_x (res s') = [x; y] /\ r_num_iters (res s') = N /\ 3 * obj (-47) 0 < obj x y) /\
  (forall x y, x + 47 <= 0 -> obj (-47) 0 <= obj x y) /\ -47 + 47 <= 0 /\ -2 * -47 + 0 - 236 <= 0.
Proof. exact (cold_refuted it N). Qed.
Print Assumptions C108_cold_refuted.

(** The parameters of the theorem differ from the default ones only in the interpolation. *)
Example C108_default : halving_params CUBIC 100 = default_params (K := RSc).
Proof. reflexivity. Qed.
Example C108_floor_case : exists r, run (K := RSc) (fun _ _ _ _ _ _ => (0, 0)) (fun _ a => Some (3 + 2 * a + 5 * (a * a))) 1 (halving QUADRATIC) 3 2 = Some r /\ r_alpha r = 1 / 1000000 /\ 3 < 3 + 2 * r_alpha r + 5 * (r_alpha r * r_alpha r).
Proof. apply (C108_floor (fun _ _ _ _ _ _ => (0, 0)) QUADRATIC 3 2 5 (fun _ a => Some (3 + 2 * a + 5 * (a * a))) 1); [discriminate|Lra.lra|Lra.lra|reflexivity|auto]. Qed.
