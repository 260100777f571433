(** The statements of Merit_props.v, assembled from the lemmas. *)
From Coq Require Import Reals List Bool Arith ZArith Lia Lra.
From Verif Require Import Scalar Cset_model Cset_spec Cset_proofs Armijo_model Problem_model Solver_model Solver_spec Merit_spec
  Solver_proofs SolverR_proofs Merit_proofs SolverS_proofs SolverC_proofs Solver_examples.
Import ListNotations.
Local Open Scope R_scope.

(** Parameters with another dual weight (setDualPenalty). *)
Definition with_beta (b : R) : @params RSc :=
  let d := default_params (K := RSc) in
  mkParams (K := RSc) (rho_init d) (mu_init d) (mu_lower d) (mu_upper d) b (target_tol d) (inner_tol0 d) (prim_tol0 d) (inner_tol_min d)
    (prim_alpha d) (prim_beta d) (dual_alpha d) (dual_beta d) (mu_factor d) (rho_factor d) (del_inc_k d) (del_inc_big d)
    (del_dec_k d) (delta_min d) (delta_max d) (delta_nz_init d) (delta_init d) (max_iters d) (max_al_iters d) (max_refine d) (kkt_tolerance d)
    (mul_update d) (kkt_sys d) (hess_approx d) (lsopt d) (callbacks d).
(** minimise x^2/2 subject to x = 0; the state is at x = 1, all multipliers 0, mu = 1. *)
Definition ex_p : @problem RSc := ex_problem RSc [ex_minus RSc 0].
Definition ex_s : solver_state (ex_oracles RSc) :=
  let s := ex_setup RSc (default_params (K := RSc)) ex_p [CEq (K := RSc) 1] in
  let r := res s in
  mkState (K := RSc) _ _ 1 (1 / 1) 0 (s_inner_tol _ _ s) (s_prim_tol _ _ s) [CEq (K := RSc) 1] [0]
    (mkResults (K := RSc) (r_conv r) (r_merit r) (r_value r) [1] [0] (r_active r) (r_dual_infeas r) (r_prim_infeas r) (r_viol r) 0 0 1 0)
    (wsp s) [].

Lemma deriv_ext (f g : R -> R) x l : (forall t, f t = g t) -> derivable_pt_lim f x l -> derivable_pt_lim g x l.
Proof. intros E H eps He. destruct (H eps He) as (d & Hd). exists d. intros h Hh Hl. rewrite <- !E. auto. Qed.

Lemma ex_smooth : smooth_along ex_p [1] [1] (fun t => vadd (K := RSc) [1] (scaled t [1])).
Proof.
  split; [cbn; f_equal; lra|].
  exists (fun t => (1 + t) * (1 + t) / 2), (fun t => [1 + t]). split; [|split; [|split]].
  - intros t. cbn. f_equal. replace (1 + t * 1) with (1 + t) by lra. unfold stwo, slit; cbn. lra.
  - intros t. change [1 + t] with ([1 + t] ++ [] : list R). constructor; [|reflexivity|constructor]. cbn. f_equal. f_equal. lra.
  - intros g Hg. cbn in Hg. injection Hg as <-. cbn.
    intros eps He. exists (mkposreal eps He). intros h Hh Hl. cbn in Hl.
    replace (((1 + (0 + h)) * (1 + (0 + h)) / 2 - (1 + 0) * (1 + 0) / 2) / h - (1 * 1 + 0)) with (h / 2) by (field; exact Hh).
    unfold Rdiv. rewrite Rabs_mult. rewrite (Rabs_right (/ 2)) by lra. assert (0 <= Rabs h) by apply Rabs_pos. lra.
  - intros J HJ k Hk. cbn in Hk. destruct k; [|lia]. inversion HJ; subst. cbn in *. match goal with H : Some _ = Some _ |- _ => injection H as <- end.
    cbn. intros eps He. exists (mkposreal 1 Rlt_0_1). intros h Hh _.
    replace ((1 + (0 + h) - (1 + 0)) / h - (1 * 1 + 0)) with 0 by (field; exact Hh). rewrite Rabs_R0. exact He.
Qed.
Lemma ex_setting b : merit_setting ex_p ex_s [1] [b].
Proof.
  unfold merit_setting. cbv zeta.
  do 11 (split; [try (cbn; lra); try (repeat constructor; fail)|]). split; [exact ex_smooth|]. split.
  - intros _ t. cbn. unfold stwo, slit, ex_pxv. cbn. lra.
  - cbn. intros; lra.
Qed.
Lemma ex_diagnose b : exists d, run_diagnose (ex_oracles RSc) (with_beta b) ex_p ex_s = Ret d.
Proof.
  unfold run_diagnose. destruct (ex_setting 0) as (H1 & H2 & H3 & H4 & H5 & H6 & H7 & H8 & H9 & H10 & H11 & _).
  eapply (diagnose_total) with (g := [1]) (J := [[1]]) (c := [1 - 0]); try assumption; try reflexivity.
  - repeat split; try assumption.
  - split; [eexists; reflexivity|]. eexists. split; [reflexivity|]. split; [reflexivity|repeat constructor].
  - change [[1]] with ([[1]] ++ [] : list (list R)). constructor; [reflexivity|reflexivity|repeat constructor|constructor].
  - change [1 - 0] with ([1 - 0] ++ [] : list R). constructor; [reflexivity|reflexivity|constructor].
Qed.

Lemma derivative : forall (O : oracles RSc) (P : @params RSc) (p : @problem RSc) (s : solver_state O) dx dl d,
  pdal_beta P = 1 / 2 -> merit_setting p s dx dl -> run_diagnose O P p s = Ret d ->
  exists phi : R -> R,
    (forall t, exists m, run_phi O P p (d_state _ _ d) dx dl t = Ret (phi t, m)) /\
    phi 0 = r_merit (s_res _ _ (d_state _ _ d)) /\
    derivable_pt_lim phi 0 (inner (d_mg _ _ d) dx + inner (d_md _ _ d) dl) /\
    length (d_mg _ _ d) = length dx /\ length (d_md _ _ d) = length dl.
Proof.
  intros O P p s dx dl d Hb (H1 & H2 & H3 & H4 & H5 & H6 & H7 & H8 & H9 & H10 & H11 & H12 & H13) Hd.
  unfold run_phi, run_diagnose in *. eapply merit_derivative; eauto.
Qed.

Lemma beta_wrong :
  exists (P : @params RSc) d phi,
    merit_setting ex_p ex_s [1] [0] /\ pdal_beta P = 1 /\
    run_diagnose (ex_oracles RSc) P ex_p ex_s = Ret d /\
    (forall t, exists m, run_phi (ex_oracles RSc) P ex_p (d_state _ _ d) [1] [0] t = Ret (phi t, m)) /\
    derivable_pt_lim phi 0 3 /\ inner (d_mg _ _ d) [1] + inner (d_md _ _ d) [0] = 2.
Proof.
  destruct (ex_diagnose 1) as (d & Hd).
  exists (with_beta 1), d.
  destruct (diagnose_merit _ _ _ _ _ _ _ _ _ _ Hd) as (f & c & m & g & J & mer & mg & E1 & E2 & E3 & E4 & E5 & E6 & E7 & E8 & X1 & X2 & X3 & X4 & X5 & X6 & X7 & X8 & X9 & X10).
  destruct (ex_setting 0) as (H1 & H2 & H3 & H4 & H5 & H6 & H7 & H8 & H9 & H10 & H11 & _).
  cbn in E1. injection E1 as <- <-. cbn in E2. injection E2 as <- <-.
  cbn in E3. injection E3 as <-. cbn in E5. injection E5 as <-.
  cbn in E7. replace (Rltb 0 0) with false in E7 by (symmetry; apply Rltb_false; lra).
  (* the closed form *)
  assert (Lp : length (w_plus _ _ (s_ws _ _ (d_state _ _ d))) = 1%nat) by (rewrite X9; reflexivity).
  assert (Lq : length (w_pdal _ _ (s_ws _ _ (d_state _ _ d))) = 1%nat) by (rewrite X10; reflexivity).
  pose proof (phi_is_closed (o_integrate (ex_oracles RSc)) (o_px_val (ex_oracles RSc)) (o_fac (ex_oracles RSc)) (o_bfgs (ex_oracles RSc)) (with_beta 1) ex_p (d_state _ _ d) [1] [0]
    (fun t => (1 + t) * (1 + t) / 2) (fun t => [1 + t]) 1) as PC. cbv zeta in PC.
  rewrite X1, X2, X3, X5, X6, X7, X8 in PC.
  match type of PC with ?a -> ?b -> ?c -> ?d -> ?e -> ?f -> ?g -> ?h -> ?i -> ?j -> ?k -> _ =>
    assert (a /\ b /\ c /\ d /\ e /\ f /\ g /\ h /\ i /\ j /\ k) as (A1 & A2 & A3 & A4 & A5 & A6 & A7 & A8 & A9 & A10 & A11) end.
  { do 10 (split; [try assumption; try reflexivity; try lra; try (repeat constructor; fail)|]); [..|].
    - intros t. cbn. f_equal. replace (1 + t * 1) with (1 + t) by lra. unfold stwo, slit; cbn. lra.
    - intros t. change [1 + t] with ([1 + t] ++ [] : list R). constructor; [|reflexivity|constructor]. cbn. f_equal. f_equal. lra. }
  specialize (PC A1 A2 A3 A4 A5 A6 A7 A8 A9 A10 A11).
  eexists. split; [exact (ex_setting 0)|].
  split; [reflexivity|]. split; [exact Hd|]. split; [exact PC|]. split.
  - eapply deriv_ext with (f := fun t => 3 / 2 * ((1 + t) * (1 + t))).
    + intros t. unfold phi_closed, env1. cbn. unfold ex_pxv, stwo, slit. cbn. field.
    + intros eps He. exists (mkposreal (eps / 2) ltac:(lra)). intros h Hh Hl. cbn in Hl.
      replace ((3 / 2 * ((1 + (0 + h)) * (1 + (0 + h))) - 3 / 2 * ((1 + 0) * (1 + 0))) / h - 3) with (3 / 2 * h) by (field; exact Hh).
      rewrite Rabs_mult, (Rabs_right (3 / 2)) by lra. assert (0 <= Rabs h) by apply Rabs_pos. lra.
  - rewrite E8. change (inner (d_mg (ex_fac RSc) unit d) [1] + inner (snd ([1 + (0 + (1 - 0 + 1 * 0 - 1 / 2 * 1 * 0) * (1 / 1 / 1) * 1)], [0 + 1 * 1 * (0 - (1 - 0 + 1 * 0 - 1 / 2 * 1 * 0) * (1 / 1 / 1))])) [0] = 2). rewrite E7. cbn. field.
Qed.

Lemma equality_value : forall (O : oracles RSc) (P : @params RSc) (p : @problem RSc) (s : solver_state O) f c l,
  let le := w_lams_prev _ _ (wsp s) in let nd := rows_of (p_cons p) in
  0 < mu s -> sets s = map (fun _ => CEq (K := RSc) (mu s)) (p_cons p) ->
  length c = nd -> length l = nd -> length le = nd -> length (w_plus _ _ (wsp s)) = nd -> length (w_pdal _ _ (wsp s)) = nd ->
  exists m, compute_multipliers (o_fac O) (o_bfgs O) P p s c l = Ret m /\
    merit_value p (sets s) f (m_shift_pd m) l =
      Some (f + inner (shifted c (mu s) le) (shifted c (mu s) le) / (2 * mu s)
              + inner (shifted c (mu s) (minus le l)) (shifted c (mu s) (minus le l)) / (2 * mu s)).
Proof. intros O P p s f c l. exact (merit_equality P p (o_fac O) (o_bfgs O) s f c l). Qed.
