(** Properties C01-C08: line search and polynomials. *)
From Coq Require Import Reals List Bool Arith ZArith Lia Lra Floats.SpecFloat.
From Verif Require Import Scalar Armijo_model Armijo_spec Armijo_proofs.
Import ListNotations.
Local Open Scope R_scope.

(** A concrete search used in the examples, over the extended reals: merit |x - 1/4| along the step,
    bisection, at most 5 steps. *)
Definition ex_opts (it : interp_type) : ls_options XSc :=
  mkLs (K := XSc) (XFin (1/10)) (XFin (1/1000)) (XFin (1/64)) 5 it (XFin (1/2)) (XFin (4/5)).

(** C01. Termination and range of the step: for every merit function, throwing or not, with any
    values, and for every linear solver inside the cubic interpolation. *)
Theorem C01_step_in_range : forall qr phi (o : ls_options XSc) phi0 dphi0 am,
  alpha_min o = XFin am -> 0 < am <= 1 ->
  between (contraction_min o) 0 1 -> between (contraction_max o) 0 1 ->
  exists N, forall fuel, (N <= fuel)%nat ->
    exists r, run (K := XSc) qr phi fuel o phi0 dphi0 = Some r /\ between (r_alpha r) am 1.
Proof.
  intros qr phi o phi0 dphi0 am Eam Ham H1 H2. destruct (half_pow_small am ltac:(lra)) as [k Hk].
  exists (S k). intros fuel Hf.
  destruct (run_X qr phi o (Build_opts_ok o (ex_intro _ am (conj Eam Ham)) H1 H2) phi0 dphi0 k fuel
              (ex_intro _ am (conj Eam Hk)) Hf) as (r & E & (x & Ex & Hx) & L & _).
  exists r. split; [exact E|]. exists x. split; [exact Ex|]. rewrite Eam, Ex in L. cbn in L.
  apply Rleb_true in L. lra.
Qed.
Print Assumptions C01_step_in_range.

Example C01_example : between (contraction_min (ex_opts CUBIC)) 0 1 /\ between (contraction_max (ex_opts CUBIC)) 0 1 /\
  alpha_min (ex_opts CUBIC) = XFin (1/64).
Proof. split; [exists (1/2)|split; [exists (4/5)|]]; cbn; try split; try reflexivity; lra. Qed.

(** Binary64: the search ends after at most 1100 exceptions, for every alpha_min >= 0. *)
Theorem C01_terminates_binary64 : forall qr phi (o : ls_options FSc) phi0 dphi0,
  SFleb (S754_zero false) (alpha_min o) = true ->
  exists r, run (K := FSc) qr phi 1100 o phi0 dphi0 = Some r /\
    (length (r_trace r) <= 1100 + max_num_steps o)%nat.
Proof. exact run_f64. Qed.
Print Assumptions C01_terminates_binary64.

Example C01_binary64_example : SFleb (S754_zero false) (alpha_min (ls_default (K := FSc))) = true.
Proof. vm_compute. reflexivity. Qed.

(** With a negative alpha_min and a merit function that always throws, [run] never returns. *)
Theorem C01_negative_alpha_min_refuted :
  exists (o : ls_options FSc) phi, forall qr phi0 dphi0 fuel,
    run (K := FSc) qr phi fuel o phi0 dphi0 = None.
Proof.
  exists (mkLs (K := FSc) (@s0 FSc) (@s0 FSc) minus_one 20 BISECTION (@s0 FSc) (@s0 FSc)), (fun _ _ => None).
  intros qr phi0 dphi0 fuel. unfold run. rewrite chain_diverges; [reflexivity|reflexivity|left; reflexivity].
Qed.
Print Assumptions C01_negative_alpha_min_refuted.

(** C02. Number of merit evaluations; [k + 1] halvings bring 1 to alpha_min or below. *)
Theorem C02_evaluation_count : forall qr phi (o : ls_options XSc) phi0 dphi0 am k,
  alpha_min o = XFin am -> 0 < am <= 1 ->
  between (contraction_min o) 0 1 -> between (contraction_max o) 0 1 ->
  (1 / 2) ^ (S k) <= am ->
  exists r, run (K := XSc) qr phi (S k) o phi0 dphi0 = Some r /\
    (1 <= length (r_trace r) <= S k + max_num_steps o)%nat.
Proof.
  intros qr phi o phi0 dphi0 am k Eam Ham H1 H2 Hk.
  destruct (run_X qr phi o (Build_opts_ok o (ex_intro _ am (conj Eam Ham)) H1 H2) phi0 dphi0 k (S k)
              (ex_intro _ am (conj Eam Hk)) (le_n _)) as (r & E & _ & _ & L). eauto.
Qed.
Print Assumptions C02_evaluation_count.

Example C02_example : (1 / 2) ^ 6 <= 1 / 64.
Proof. simpl. lra. Qed.

(** C03. Sufficient decrease on exit when no evaluation throws. *)
Theorem C03_sufficient_decrease : forall qr phi (o : ls_options XSc) phi0 dphi0 fuel am,
  (forall tr a, phi tr a <> None) -> alpha_min o = XFin am -> 0 < am <= 1 ->
  between (contraction_min o) 0 1 -> between (contraction_max o) 0 1 -> (0 < fuel)%nat ->
  xltb (xabs dphi0) (dphi_thresh o) = false ->
  exists r, run (K := XSc) qr phi fuel o phi0 dphi0 = Some r /\
    (xleb (xsub (r_phi r) phi0) (xmul (xmul (armijo_c1 o) (r_alpha r)) dphi0) = true
     \/ r_alpha r = alpha_min o
     \/ length (r_trace r) = S (max_num_steps o)).
Proof. exact run_decrease. Qed.
Print Assumptions C03_sufficient_decrease.

Example C03_example : xltb (xabs (XFin (-1/2))) (dphi_thresh (ex_opts BISECTION)) = false.
Proof. cbn. rewrite (Rabs_left (-1/2)) by lra. apply Rltb_false. lra. Qed.

(** A backtracking run with the defaults, in binary64: merit a^2 - a/2 is rejected at 1 and accepted
    at the interpolated step. *)
Example C03_example_run :
  exists r, run (K := FSc) (cramer (K := FSc))
      (fun _ a => Some (@ssub FSc (@smul FSc a a) (@smul FSc a (shalf (K := FSc))))) 1100 (ls_default (K := FSc)) (@s0 FSc) (@sopp FSc (shalf (K := FSc))) = Some r
    /\ length (r_trace r) = 3%nat /\ SFltb (r_phi r) (@s0 FSc) = true.
Proof. apply (some_check (fun r => length (r_trace r) = 3%nat /\ SFltb (r_phi r) (@s0 FSc) = true)
  (fun r => Nat.eqb (length (r_trace r)) 3 && SFltb (r_phi r) (@s0 FSc))).
  - intros r H. apply andb_true_iff in H as [H1 H2]. split; [apply Nat.eqb_eq; exact H1|exact H2].
  - vm_compute. reflexivity.
Qed.

(** C04. Without exceptions the value handed back is the merit at the last step tried, and the step
    handed back is that step, raised to alpha_min if it is below.  For every scalar type. *)
Theorem C04_value_at_last_trial : forall (K : Sc) qr phi (o : ls_options K) fuel phi0 dphi0,
  (forall tr a, phi tr a <> None) -> (0 < fuel)%nat ->
  exists a rest v, run qr phi fuel o phi0 dphi0 =
      Some (mkRes v (if sltb (sabs dphi0) (dphi_thresh o) then a else smax a (alpha_min o)) (a :: rest))
    /\ phi rest a = Some v.
Proof.
  intros K qr phi o fuel phi0 dphi0 Hn Hf.
  destruct (run_nothrow qr phi o Hn fuel phi0 dphi0 Hf) as (a & rest & v & E & Hv & _).
  exists a, rest, v. split; assumption.
Qed.
Print Assumptions C04_value_at_last_trial.

(** With bisection or quadratic interpolation and finite merit values it is the merit at the
    returned step. *)
Theorem C04_value_at_returned_step : forall qr phi (o : ls_options XSc) am p0 d0 c1 cm cM fuel,
  alpha_min o = XFin am -> 0 < am <= 1 -> armijo_c1 o = XFin c1 ->
  contraction_min o = XFin cm -> contraction_max o = XFin cM -> interp o <> CUBIC ->
  (forall tr a, exists v, phi tr a = Some (XFin v)) -> (0 < fuel)%nat ->
  exists r rest, run (K := XSc) qr phi fuel o (XFin p0) (XFin d0) = Some r /\
    r_trace r = r_alpha r :: rest /\ phi rest (r_alpha r) = Some (r_phi r).
Proof. exact run_quad. Qed.
Print Assumptions C04_value_at_returned_step.

Example C04_example : interp (ex_opts QUADRATIC) <> CUBIC /\ armijo_c1 (ex_opts QUADRATIC) = XFin (1/10).
Proof. split; [discriminate|reflexivity]. Qed.

(** Fails with the default options when the merit is NaN at the full step, although it decreases
    everywhere else: phi(0) is returned together with alpha_min. *)
Theorem C04_nan_merit_refuted :
  exists f : spec_float -> spec_float,
  exists r,
    run (K := FSc) (cramer (K := FSc)) (fun _ a => Some (f a)) 1100 (ls_default (K := FSc)) (@s0 FSc) minus_one = Some r
    /\ SFeqb (r_alpha r) (alpha_min (ls_default (K := FSc))) = true /\ SFeqb (r_phi r) (f (r_alpha r)) = false
    /\ SFltb (f (shalf (K := FSc))) (@s0 FSc) = true.
Proof.
  pose (f := fun a : spec_float => if SFeqb a (@s1 FSc) then S754_nan else SFopp a). exists f.
  apply (some_check (fun r => SFeqb (r_alpha r) (alpha_min (ls_default (K := FSc))) = true /\
      SFeqb (r_phi r) (f (r_alpha r)) = false /\ SFltb (f (shalf (K := FSc))) (@s0 FSc) = true)
    (fun r => SFeqb (r_alpha r) (alpha_min (ls_default (K := FSc))) &&
      negb (SFeqb (r_phi r) (f (r_alpha r))) && SFltb (f (shalf (K := FSc))) (@s0 FSc))).
  - intros r H. apply andb_true_iff in H as [H H3]. apply andb_true_iff in H as [H1 H2].
    apply negb_true_iff in H2. auto.
  - vm_compute. reflexivity.
Qed.
Print Assumptions C04_nan_merit_refuted.

(** Fails when every evaluation throws: 0 is returned for the step alpha_min. *)
Theorem C04_all_throw_refuted :
  exists r, run (K := FSc) (cramer (K := FSc)) (fun _ _ => None) 1100 (ls_default (K := FSc)) (@s1 FSc) minus_one = Some r
    /\ SFeqb (r_phi r) (@s0 FSc) = true /\ SFeqb (r_alpha r) (alpha_min (ls_default (K := FSc))) = true.
Proof.
  apply (some_check (fun r => SFeqb (r_phi r) (@s0 FSc) = true /\ SFeqb (r_alpha r) (alpha_min (ls_default (K := FSc))) = true)
    (fun r => SFeqb (r_phi r) (@s0 FSc) && SFeqb (r_alpha r) (alpha_min (ls_default (K := FSc))))).
  - intros r H. apply andb_true_iff in H. exact H.
  - vm_compute. reflexivity.
Qed.
Print Assumptions C04_all_throw_refuted.

(** Fails when an evaluation inside the backtracking loop throws: the step is one where the merit
    throws and the value belongs to another step. *)
Theorem C04_stale_value_refuted :
  exists (f : spec_float -> option spec_float) (o : ls_options FSc) (v : spec_float),
    f (@s1 FSc) = Some v /\
    exists r, run (K := FSc) (cramer (K := FSc)) (fun _ a => f a) 1100 o (@s0 FSc) minus_one = Some r
    /\ f (r_alpha r) = None /\ SFeqb (r_phi r) v = true.
Proof.
  pose (f := fun a : spec_float => if SFeqb a (@s1 FSc) then Some (@s1 FSc) else None).
  exists f, (mkLs (K := FSc) (slit 1 10000) (slit 1 1000) (slit 1 1000000) 1 BISECTION (slit 1 2) (slit 4 5)), (@s1 FSc).
  split; [reflexivity|].
  apply (some_check (fun r => f (r_alpha r) = None /\ SFeqb (r_phi r) (@s1 FSc) = true)
    (fun r => match f (r_alpha r) with None => true | _ => false end && SFeqb (r_phi r) (@s1 FSc))).
  - intros r H. apply andb_true_iff in H as [H1 H2]. split; [|exact H2].
    destruct (f (r_alpha r)); [discriminate|reflexivity].
  - vm_compute. reflexivity.
Qed.
Print Assumptions C04_stale_value_refuted.

(** C05. The proposed step is one of the bracket ends or is not outside the bracket: any scalar type,
    binary64 included. *)
Theorem C05_bracket_any_scalar : forall (K : Sc) qr lb l p (mn mx : car K),
  let r := minimize_interpolant qr lb l p mn mx in
  r = mn \/ r = mx \/ (sltb mx r = false /\ sltb r mn = false).
Proof. exact minimize_any. Qed.
Print Assumptions C05_bracket_any_scalar.

Theorem C05_bracket : forall qr (lb l : sample XSc) p a b, a <= b ->
  let r := minimize_interpolant (K := XSc) qr lb l p (XFin a) (XFin b) in
  r = XNaN \/ between r a b.
Proof. exact minimize_X. Qed.
Print Assumptions C05_bracket.

(** Quadratic interpolation of finite data is always defined (unless the slope is zero and the
    sample equals phi0, which satisfies the Armijo condition and is never interpolated). *)
Theorem C05_quadratic_defined : forall qr p0 d0 al v a b, a <= b -> 0 < al -> ~ (d0 = 0 /\ v = p0) ->
  between (minimize_interpolant (K := XSc) qr (sample3 (K := XSc) (XFin 0) (XFin p0) (XFin d0))
              (sample2 (K := XSc) (XFin al) (XFin v)) None (XFin a) (XFin b)) a b.
Proof. exact minimize_quad_total. Qed.
Print Assumptions C05_quadratic_defined.

(** Cubic interpolation gives NaN exactly when the cubic k3 t^3 + k2 t^2 + d0 t has no stationary
    point or degenerates to a parabola that is not concave. *)
Theorem C05_cubic_nan_iff : forall qr p0 d0 (l p : sample XSc) a b k3 k2,
  (forall m00 m01 m10 m11 b0 b1, qr m00 m01 m10 m11 b0 b1 = (XFin k3, XFin k2)) ->
  (minimize_interpolant (K := XSc) qr (sample3 (K := XSc) (XFin 0) (XFin p0) (XFin d0)) l (Some p) (XFin a) (XFin b) = XNaN
   <-> k2 * k2 - 3 * k3 * d0 < 0 \/ (k3 = 0 /\ 0 <= k2)).
Proof. exact minimize_cubic_nan. Qed.
Print Assumptions C05_cubic_nan_iff.

Example C05_example : ~ (-1 = 0 /\ 3 = 0) /\ 1/2 <= 4/5.
Proof. split; [intros [? _]|]; lra. Qed.

(** C06. Quadratic interpolation. *)
Theorem C06_quadratic_fits : forall p0 d0 al v, al <> 0 ->
  let '(poly, an) := quad_interp (K := RSc) (sample3 (K := RSc) 0 p0 d0) (sample2 (K := RSc) al v) in
  poly_eval (K := RSc) poly 0 = p0 /\ poly_eval (K := RSc) poly al = v /\
  (exists d, poly_deriv (K := RSc) poly = Some d /\ poly_eval (K := RSc) d 0 = d0 /\
     (v - p0 <> al * d0 -> poly_eval (K := RSc) d an = 0)) /\
  (al * d0 < v - p0 -> forall t, poly_eval (K := RSc) poly an <= poly_eval (K := RSc) poly t).
Proof. exact quad_fits. Qed.
Print Assumptions C06_quadratic_fits.

Example C06_example : quad_interp (K := RSc) (sample3 (K := RSc) 0 0 (-1)) (sample2 (K := RSc) 1 3) = ([4; -1; 0], 1/8).
Proof. unfold quad_interp, stwo. cbn. f_equal; [repeat (f_equal; try lra)|lra]. Qed.

(** C07. The cubic does not pass through its samples. *)
Theorem C07_cubic_refuted : exists p0 d0 a0 v0 a1 v1,
  0 < a0 < a1 /\
  let poly := fst (cubic_interp (K := RSc) (cramer (K := RSc)) (sample3 (K := RSc) 0 p0 d0)
                          (sample2 (K := RSc) a0 v0) (sample2 (K := RSc) a1 v1)) in
  poly_eval (K := RSc) poly a0 <> v0 /\ poly_eval (K := RSc) poly a1 <> v1.
Proof.
  exists 0, (-1), (1/2), 1, 1, 3. split; [lra|].
  pose proof (cubic_fits_iff 0 (-1) (1/2) 1 1 3 ltac:(lra) ltac:(lra) ltac:(lra)) as (A & B & _).
  cbv zeta in *. split; lra.
Qed.
Print Assumptions C07_cubic_refuted.

(** Exactly when it fits: the two right-hand side entries must coincide. *)
Theorem C07_cubic_fits_iff : forall p0 d0 a0 v0 a1 v1, a0 <> 0 -> a1 <> 0 -> a0 <> a1 ->
  let poly := fst (cubic_interp (K := RSc) (cramer (K := RSc)) (sample3 (K := RSc) 0 p0 d0)
                          (sample2 (K := RSc) a0 v0) (sample2 (K := RSc) a1 v1)) in
  (poly_eval (K := RSc) poly a0 = v0 /\ poly_eval (K := RSc) poly a1 = v1
   <-> v0 - d0 * a0 = v1 - d0 * a1).
Proof. intros p0 d0 a0 v0 a1 v1 H0 H1 H. exact (proj2 (proj2 (cubic_fits_iff p0 d0 a0 v0 a1 v1 H0 H1 H))). Qed.
Print Assumptions C07_cubic_fits_iff.

(** What the code would compute with the entries in the order of the matrix rows. *)
Theorem C07_cubic_corrected_order : forall p0 d0 a0 v0 a1 v1, a0 <> 0 -> a1 <> 0 -> a0 <> a1 ->
  let '(k3, k2) := cramer (K := RSc) (a0 * a0 * a0) (a0 * a0) (a1 * a1 * a1) (a1 * a1)
                     (v0 - p0 - d0 * a0) (v1 - p0 - d0 * a1) in
  poly_eval (K := RSc) [k3; k2; d0; p0] a0 = v0 /\ poly_eval (K := RSc) [k3; k2; d0; p0] a1 = v1 /\
  poly_eval (K := RSc) [k3; k2; d0; p0] 0 = p0.
Proof. exact cubic_corrected. Qed.
Print Assumptions C07_cubic_corrected_order.

(** C08. *)
Theorem C08_evaluate : forall cs a, poly_eval (K := RSc) cs a = psum cs a.
Proof. exact poly_eval_psum. Qed.
Print Assumptions C08_evaluate.

Theorem C08_derivative : forall cs, cs <> [] ->
  exists d, poly_deriv (K := RSc) cs = Some d /\
  forall x, derivable_pt_lim (psum cs) x (psum d x).
Proof.
  intros cs H. destruct (poly_deriv (K := RSc) cs) as [d|] eqn:E.
  - exists d. split; [reflexivity|]. intros x. rewrite <- poly_eval_psum.
    apply (derivable_pt_lim_ext (fun a => poly_eval (K := RSc) cs a)); [apply poly_eval_psum|].
    apply poly_deriv_correct. exact E.
  - destruct cs as [|c [|c' cs]]; [congruence|discriminate|discriminate].
Qed.
Print Assumptions C08_derivative.

Example C08_example : poly_deriv (K := RSc) [2; 0; 5; 7] = Some [2 * (3 - 0); 0 * (3 - 1); 5 * (3 - 2)]
  /\ psum [2; 0; 5; 7] 10 = 2057.
Proof. split; [reflexivity|]. simpl. lra. Qed.

(** C65. The step proposed after a rejected trial minimises the interpolant. [c2] is any leading
    coefficient for which the parabola through (0, p0) with slope d0 passes through the rejected
    trial (al, v). *)
Theorem C65_quadratic_minimiser : forall qr (o : ls_options RSc) prev p0 d0 al v c2,
  interp o = QUADRATIC \/ (interp o = CUBIC /\ svalid prev = false) ->
  0 < al -> al * d0 < v - p0 -> c2 * al * al + d0 * al + p0 = v ->
  contraction_min o <= contraction_max o ->
  let r := next_alpha (K := RSc) qr o (sample3 (K := RSc) 0 p0 d0) (sample2 (K := RSc) al v) prev al in
  contraction_min o * al <= r <= contraction_max o * al /\
  forall t, contraction_min o * al <= t <= contraction_max o * al ->
    c2 * r * r + d0 * r + p0 <= c2 * t * t + d0 * t + p0.
Proof. exact quad_step_min. Qed.
Print Assumptions C65_quadratic_minimiser.

(** With two usable samples the cubic is used, and the local minimiser of the cubic (slope zero,
    curvature nonnegative) is returned whenever it lies in the bracket. *)
Theorem C65_cubic_local_minimiser : forall qr (o : ls_options RSc) lat prev p0 d0 al k3 k2 t,
  interp o = CUBIC -> svalid prev = true ->
  qr (sa lat * sa lat * sa lat) (sa lat * sa lat) (sa prev * sa prev * sa prev) (sa prev * sa prev)
     (sphi prev - p0 - d0 * sa prev) (sphi lat - p0 - d0 * sa lat) = (k3, k2) -> k3 <> 0 ->
  contraction_min o * al <= t <= contraction_max o * al ->
  3 * k3 * t * t + 2 * k2 * t + d0 = 0 -> 0 <= 6 * k3 * t + 2 * k2 ->
  next_alpha (K := RSc) qr o (sample3 (K := RSc) 0 p0 d0) lat prev al = t.
Proof. exact cubic_step_min. Qed.
Print Assumptions C65_cubic_local_minimiser.

(** Rejected trial at 1 with value 3: the parabola 4 t^2 - t has its minimiser 1/8 in the
    bracket [1/10, 1/2]... *)
Example C65_example_quadratic : forall qr prev,
  next_alpha (K := RSc) qr (mkLs (K := RSc) (1/10) 0 (1/1000) 20 QUADRATIC (1/10) (1/2))
    (sample3 (K := RSc) 0 0 (-1)) (sample2 (K := RSc) 1 3) prev 1 = 1/8.
Proof.
  intros qr prev. unfold next_alpha, minimize_interpolant, quad_interp, stwo, clip. cbn -[poly_eval].
  replace (- -1 / (2 * ((3 - 0 - 1 * -1) / (1 * 1)))) with (1/8) by lra.
  destruct (Rltb _ (1/8)) eqn:A; [apply Rltb_true in A; lra|].
  destruct (Rltb (1/8) _) eqn:B; [apply Rltb_true in B; lra|]. reflexivity.
Qed.
(** ... and a cubic t^3 - t / 12 with the minimiser 1/6 in the bracket. *)
Example C65_example_cubic : exists k3 k2 t, k3 <> 0 /\ 1/10 * 1 <= t <= 1/2 * 1 /\
  3 * k3 * t * t + 2 * k2 * t + (-1/12) = 0 /\ 0 <= 6 * k3 * t + 2 * k2.
Proof. exists 1, 0, (1/6). repeat split; lra. Qed.
