(** Properties C30, C31: the merit function of the line search. *)
From Coq Require Import Reals List Bool Arith ZArith Lia Lra.
From Verif Require Import Scalar Cset_model Cset_spec Problem_model Solver_model Solver_spec Merit_spec MeritX_proofs Solver_examples.
Import ListNotations.
Local Open Scope R_scope.

(** C30. For equality constraints the merit value is the primal-dual augmented Lagrangian
    f + |c + mu le|^2 / (2 mu) + |c + mu (le - l)|^2 / (2 mu). *)
Theorem C30_merit_value : forall (O : oracles RSc) (P : @params RSc) (p : @problem RSc) (s : solver_state O) f c l,
  let le := w_lams_prev _ _ (wsp s) in let nd := rows_of (p_cons p) in
  0 < mu s -> sets s = map (fun _ => CEq (K := RSc) (mu s)) (p_cons p) ->
  length c = nd -> length l = nd -> length le = nd -> length (w_plus _ _ (wsp s)) = nd -> length (w_pdal _ _ (wsp s)) = nd ->
  exists m, compute_multipliers (o_fac O) (o_bfgs O) P p s c l = Ret m /\
    merit_value p (sets s) f (m_shift_pd m) l =
      Some (f + inner (shifted c (mu s) le) (shifted c (mu s) le) / (2 * mu s)
              + inner (shifted c (mu s) (minus le l)) (shifted c (mu s) (minus le l)) / (2 * mu s)).
Proof. exact equality_value. Qed.
Print Assumptions C30_merit_value.

Example C30_example : 0 < mu ex_s /\ sets ex_s = map (fun _ => CEq (K := RSc) (mu ex_s)) (p_cons ex_p) /\
  length (w_lams_prev _ _ (wsp ex_s)) = rows_of (p_cons ex_p) /\ length (w_plus _ _ (wsp ex_s)) = rows_of (p_cons ex_p) /\
  length (w_pdal _ _ (wsp ex_s)) = rows_of (p_cons ex_p) /\ rows_of (p_cons ex_p) = 1%nat.
Proof. split; [cbn; lra|]. repeat split. Qed.

(** C31. With the default dual weight the gradient handed to the line search is the derivative of the
    function the line search evaluates, for every kind of constraint set. *)
Theorem C31_merit_derivative : forall (O : oracles RSc) (P : @params RSc) (p : @problem RSc) (s : solver_state O) dx dl d,
  pdal_beta P = 1 / 2 -> merit_setting p s dx dl -> run_diagnose O P p s = Ret d ->
  exists phi : R -> R,
    (forall t, exists m, run_phi O P p (d_state _ _ d) dx dl t = Ret (phi t, m)) /\
    phi 0 = r_merit (s_res _ _ (d_state _ _ d)) /\
    derivable_pt_lim phi 0 (inner (d_mg _ _ d) dx + inner (d_md _ _ d) dl) /\
    length (d_mg _ _ d) = length dx /\ length (d_md _ _ d) = length dl.
Proof. exact derivative. Qed.
Print Assumptions C31_merit_derivative.

Example C31_example : merit_setting ex_p ex_s [1] [1] /\ exists d, run_diagnose (ex_oracles RSc) (with_beta (1 / 2)) ex_p ex_s = Ret d.
Proof. exact (conj (ex_setting 1) (ex_diagnose (1 / 2))). Qed.

(** With another dual weight (setDualPenalty(1)) it is not: minimise x^2/2 subject to x = 0 at x = 1
    with zero multipliers and mu = 1; the derivative along dx = 1 is 3, the gradient says 2. *)
Theorem C31_dual_weight_refuted :
  exists (P : @params RSc) d phi,
    merit_setting ex_p ex_s [1] [0] /\ pdal_beta P = 1 /\
    run_diagnose (ex_oracles RSc) P ex_p ex_s = Ret d /\
    (forall t, exists m, run_phi (ex_oracles RSc) P ex_p (d_state _ _ d) [1] [0] t = Ret (phi t, m)) /\
    derivable_pt_lim phi 0 3 /\ inner (d_mg _ _ d) [1] + inner (d_md _ _ d) [0] = 2.
Proof. exact beta_wrong. Qed.
Print Assumptions C31_dual_weight_refuted.
