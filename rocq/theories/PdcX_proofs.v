(** Quadratic problems with inequality constraints and the primal-dual system: the example of C106. *)
From Coq Require Import Reals List Bool Arith ZArith Lia Lra Psatz.
From Verif Require Import Scalar Cset_model Cset_spec Armijo_model Problem_model Solver_model Solver_spec Lin_spec Ldlt_model Bk_spec Descent_spec Qp_spec QpT_proofs Fac_model Fac_spec FacX_proofs QpR_spec Act_spec ActX_proofs Glob_spec GlobX_proofs Pdc_spec Pdc_proofs PdcO_proofs.
Import ListNotations.
Local Open Scope R_scope.

(** Minimise 1/2 x^2 - 20 x subject to x <= 10. *)
Definition wall : @problem RSc := qp 1 (fun _ _ => 1) ramp_q [1%nat] (fun _ _ => 1) (fun _ => 10).
(** The defaults (prox-solver.hpp:66-126), but the primal-dual system, a target tolerance of 1/5, a least penalty parameter and inner tolerance of 1/10000, up to 50 steps of the line search and another limit on the iterations. *)
Definition wall_params (iters : nat) : @params RSc :=
  let d := default_params (K := RSc) in let o := ls_default (K := RSc) in
  mkParams (K := RSc) 0 (mu_init d) (1 / 10000) (mu_upper d) (pdal_beta d) (1 / 5) (inner_tol0 d) (prim_tol0 d) (1 / 10000) (prim_alpha d) (prim_beta d) (dual_alpha d) (dual_beta d)
    (mu_factor d) (rho_factor d) (del_inc_k d) (del_inc_big d) (del_dec_k d) (delta_min d) (delta_max d) (delta_nz_init d) (delta_init d) iters (max_al_iters d) (max_refine d) (kkt_tolerance d)
    (mul_update d) KKT_PRIMAL_DUAL (hess_approx d) (mkLs (armijo_c1 o) (dphi_thresh o) (alpha_min o) 50 (interp o) (contraction_min o) (contraction_max o)) (callbacks d).
Definition wall_state (k : nat) : solver_state (dense_oracles 2) := setup (K := RSc) (dldlt RSc) unit (wall_params k) wall [CNeg (K := RSc) 1] [0] (dldlt_new (K := RSc) 2) tt.

Lemma wall_plain k : plain (dense_oracles 2) (wall_params k) 1.
Proof. constructor; cbn; try solve [reflexivity|lra|split; lra|right; reflexivity]. intros x v Hx _. rewrite Hx. reflexivity. Qed.
Lemma wall_kkt : kkt_pair 1 1 (fun _ _ => 1) ramp_q (fun _ _ => 1) (fun _ => 10) (product_of [CNeg (K := RSc) 1] [1%nat]) (fun _ => 10) (fun _ => 10).
Proof.
  split; [|split].
  - intros i Hi. unfold qp_lag, qp_grad, ramp_q. cbn. lra.
  - unfold qp_con. cbn. split; [|reflexivity]. constructor; [|constructor]. cbn. lra.
  - intros [|a [|]] L; try discriminate L. unfold qp_con. cbn. intros [H _]. inversion H as [|? ? H0]. cbn in H0. lra.
Qed.
Lemma wall_widest k mu : 1 / 10000 <= mu -> widest (wall_params k) mu = mu.
Proof.
  intros H. unfold widest. cbn. unfold slit. cbn. rewrite Rpower_1 by lra. rewrite Rmax_left; lra.
Qed.
Lemma wall_abar mu : 1 / 10000 <= mu <= 1 / 100 -> 1 / 20100 <= (1 - 1 / 10000) / (3 / 2 + 2 * 1 / mu).
Proof.
  intros [H1 H2]. assert (I : 2 * 1 / mu <= 20000). { apply (Rmult_le_reg_r mu); [lra|]. replace (2 * 1 / mu * mu) with 2 by (field; lra). lra. }
  assert (I0 : 0 < 2 * 1 / mu) by (apply Rdiv_lt_0_compat; lra). apply (Rmult_le_reg_r (3 / 2 + 2 * 1 / mu)); [lra|]. replace ((1 - 1 / 10000) / (3 / 2 + 2 * 1 / mu) * (3 / 2 + 2 * 1 / mu)) with (1 - 1 / 10000) by (field; split; lra). lra.
Qed.
Lemma wall_drift mu : 1 / 10000 <= mu <= 1 / 100 -> drift 1 1 1 1 mu mu <= 203.
Proof.
  intros [H1 H2]. unfold drift. cbv zeta. cbn [INR]. rewrite sqrt_1. match goal with |- ?u + sqrt ?t <= _ => replace t with (mu + 4 / mu + 5) by (field; lra); replace u with 2 by (field; lra) end.
  assert (S : sqrt (mu + 4 / mu + 5) <= 201).
  { apply Rle_trans with (sqrt (201 * 201)); [|right; apply sqrt_square; lra]. apply sqrt_le_1_alt.
    assert (4 / mu <= 40000). { apply (Rmult_le_reg_r mu); [lra|]. replace (4 / mu * mu) with 4 by (field; lra). lra. } lra. }
  lra.
Qed.
Lemma wall_outer : exists N, forall k, pd_outer (dense_oracles 2) (wall_params k) 1 1 (fun _ _ => 1) ramp_q (fun _ _ => 1) 1 1 40002 (-200) 2702737 10 203 822 (fun _ => 10) (fun _ => 10) 1 1 N.
Proof.
  set (d := 1 / 10000 * (1 / 2 * (1 / 20100)) * (1 / 100000000 / 40002)). assert (Dp : 0 < d) by (unfold d; lra).
  assert (AU : exists N, 100000000000 / d < INR N).
  { destruct (archimed (100000000000 / d)) as [U _]. exists (Z.to_nat (up (100000000000 / d))).
    assert (Z0 : 0 < 100000000000 / d) by (apply Rdiv_lt_0_compat; lra).
    rewrite INR_IZR_INZ, Z2Nat.id; [exact U|]. apply le_IZR. apply Rlt_le. exact (Rlt_trans _ _ _ Z0 U). }
  destruct AU as [N HN]. exists N. intros k.
  assert (Lw : Rmin (1 / 2) (1 / 2) = 1 / 2) by (unfold Rmin; destruct (Rle_dec (1 / 2) (1 / 2)); reflexivity).
  assert (Mx : Rmax (4 / 5) (1 / 2) = 4 / 5) by (unfold Rmax; destruct (Rle_dec (4 / 5) (1 / 2)); lra).
  assert (Rg : forall mu, mu_lower (wall_params k) <= mu <= mu_init (wall_params k) -> 1 / 10000 <= mu <= 1 / 100) by (intros mu H; exact H).
  assert (P1 : 0 < Rpower (1 / 100 / 1) (9 / 10)) by apply exp_pos.
  constructor.
  - reflexivity.
  - reflexivity.
  - reflexivity.
  - cbn. unfold slit. cbn. repeat split; lra.
  - cbn. unfold slit. cbn. repeat split; lra.
  - cbn. unfold slit. cbn. repeat split; lra.
  - change (mu_lower (wall_params k)) with (1 / 10000). rewrite wall_widest by lra. cbn [INR]. rewrite sqrt_1. cbn. lra.
  - cbn. unfold slit. cbn. lra.
  - cbn. unfold slit. cbn. rewrite !Rpower_1 by lra. lra.
  - cbn. unfold slit. cbn. replace (1 / 100 / 1) with (1 / 100) by lra. rewrite Rmult_1_l, Rmult_1_r, <- Rpower_plus. replace (1 / 10 + 9 / 10) with 1 by lra. rewrite Rpower_1 by lra. lra.
  - intros mu H. apply Rg in H. rewrite wall_widest by lra. apply wall_drift, H.
  - split; cbn; lra.
  - intros mu H. apply Rg in H. rewrite wall_widest by lra. cbn. assert (mu * mu <= 1 / 100 * 1) by (apply Rmult_le_compat; lra). lra.
  - cbn. unfold slit. cbn. repeat split; try lra. intros i Hi. lra.
  - intros mu H. apply Rg in H. pose proof (wall_abar mu H) as Ab. change (armijo_c1 (lsopt (wall_params k))) with (1 / 10000). set (ab := (1 - 1 / 10000) / (3 / 2 + 2 * 1 / mu)) in *.
    constructor; cbn [wall_params lsopt ls_default armijo_c1 contraction_min contraction_max max_num_steps alpha_min]; unfold slit; cbn [sdiv sofZ RSc]; rewrite ?Lw, ?Mx; try lra.
  - intros mu H. apply Rg in H. pose proof (wall_abar mu H) as Ab. change (armijo_c1 (lsopt (wall_params k))) with (1 / 10000). change (contraction_min (lsopt (wall_params k))) with (1 / 2). change (inner_tol_min (wall_params k)) with (1 / 10000). rewrite Lw.
    set (ab := (1 - 1 / 10000) / (3 / 2 + 2 * 1 / mu)) in *. apply Rle_trans with 100000000000.
    + unfold merit_top, qp_obj, ramp_q. cbn. assert (I : 2 * 1 * 2702737 / mu <= 54054740000). { apply (Rmult_le_reg_r mu); [lra|]. replace (2 * 1 * 2702737 / mu * mu) with (2 * 1 * 2702737) by (field; lra). lra. } lra.
    + apply Rle_trans with (INR N * d).
      * apply Rlt_le, (Rmult_lt_reg_r (/ d)); [apply Rinv_0_lt_compat, Dp|]. rewrite Rmult_assoc, Rinv_r, Rmult_1_r by lra. exact HN.
      * apply Rmult_le_compat_l; [apply pos_INR|]. unfold d. lra.
Qed.
