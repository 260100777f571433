(** C84: on a smooth merit function the line search accepts a step, and not a short one. *)
From Coq Require Import Reals List Arith.
From Verif Require Import Scalar Armijo_model ArmijoS_proofs.
Local Open Scope R_scope.

(** C84. Let f be the merit along the direction, d < 0 the slope handed to the search, and suppose f is below
    the parabola f(0) + d a + L/2 a^2 on [0,1].  All steps up to ab = 2 (1 - c1) |d| / L satisfy the Armijo
    condition.  With a number of evaluations that suffices for q^k <= ab (two per factor q, the largest
    contraction) and alpha_min below the safeguarded step, the search returns a step that satisfies the
    Armijo condition and is at least min(1, min(contraction_min, 1/2) ab), for all three interpolation modes
    and whatever the 2x2 solver returns (NaN included). *)
Theorem C84_smooth_merit : forall qr phi (o : ls_options XSc) (f : R -> R) am c1 cm cM q d L k fuel,
  alpha_min o = XFin am -> armijo_c1 o = XFin c1 -> contraction_min o = XFin cm -> contraction_max o = XFin cM ->
  (forall tr a, phi tr (XFin a) = Some (XFin (f a))) ->
  0 < cm <= cM -> cM <= q -> 1 / 2 <= q < 1 -> c1 < 1 -> d < 0 -> 0 < L ->
  (forall a, 0 <= a <= 1 -> f a <= f 0 + d * a + L / 2 * (a * a)) ->
  let ab := 2 * (1 - c1) * - d / L in
  am < Rmin cm (1 / 2) * ab -> am <= 1 -> q ^ k <= ab -> (2 * k <= max_num_steps o)%nat -> (0 < fuel)%nat ->
  xltb (XFin (Rabs d)) (dphi_thresh o) = false ->
  exists r a, run (K := XSc) qr phi fuel o (XFin (f 0)) (XFin d) = Some r /\ r_alpha r = XFin a /\ r_phi r = XFin (f a) /\
    Rmin 1 (Rmin cm (1 / 2) * ab) <= a <= 1 /\ f a <= f 0 + c1 * a * d.
Proof. exact smooth_run. Qed.
Print Assumptions C84_smooth_merit.

(** f a = a^2 - a with the default options: slope -1, L = 2. *)
Example C84_example : let o := ls_default (K := XSc) in let f := fun a => a * a - a in
  exists am c1 cm cM, alpha_min o = XFin am /\ armijo_c1 o = XFin c1 /\ contraction_min o = XFin cm /\ contraction_max o = XFin cM /\
  0 < cm <= cM /\ cM <= 4 / 5 /\ c1 < 1 /\ (forall a, 0 <= a <= 1 -> f a <= f 0 + -1 * a + 2 / 2 * (a * a)) /\
  (let ab := 2 * (1 - c1) * - -1 / 2 in am < Rmin cm (1 / 2) * ab /\ (4 / 5) ^ 1 <= ab) /\ am <= 1 /\ (2 * 1 <= max_num_steps o)%nat /\
  xltb (XFin (Rabs (-1))) (dphi_thresh o) = false.
Proof. exact smooth_example. Qed.
