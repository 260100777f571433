(** Quadratic problems with equality constraints and a proximal term: the step of the inner loop. *)
From Coq Require Import Reals List Bool Arith ZArith Lia Lra Psatz.
From Verif Require Import Scalar Cset_model Cset_spec Cset_proofs Armijo_model Problem_model Solver_model Solver_spec SolverR_proofs SolverS_proofs Merit_spec Merit_proofs
  Lin_spec Lin_proofs Ldlt_spec Ldlt_proofs Bk_spec Descent_spec Descent_proofs DescentX_proofs Qp_spec Qp_proofs QpD_proofs QpT_proofs QpR_spec.
Import ListNotations.
Local Open Scope R_scope.

Definition qt (q t : nat -> R) (rho : R) (i : nat) : R := q i - rho * t i.
Lemma lag_prox n m Q q A rho t x l i : (i < n)%nat -> qp_lag n m (prox_hessian Q rho) (qt q t rho) A x l i = qp_lag n m Q q A x l i + rho * (x i - t i).
Proof.
  intros Hi. unfold qp_lag, qp_grad, qt. assert (E : rsum n (fun j => prox_hessian Q rho i j * x j) = rsum n (fun j => Q i j * x j) + rho * x i).
  { transitivity (rsum n (fun j => Q i j * x j) + rsum n (fun j => (if (i =? j)%nat then rho else 0) * x j)).
    - rewrite <- rsum_plus. apply rsum_ext. intros j _. unfold prox_hessian. ring.
    - f_equal. rewrite (rsum_one n _ i Hi); [rewrite Nat.eqb_refl; reflexivity|]. intros j _ Hj. destruct (Nat.eqb_spec i j); [congruence|ring]. }
  rewrite E. ring.
Qed.
Lemma grad_prox n Q q rho t x i : (i < n)%nat -> qp_grad n (prox_hessian Q rho) (qt q t rho) x i = qp_grad n Q q x i + rho * (x i - t i).
Proof. intros Hi. pose proof (lag_prox n 0 Q q (fun _ _ => 0) rho t x (fun _ => 0) i Hi) as H. unfold qp_lag in H. cbn [rsum] in H. lra. Qed.
Lemma form_prox n Q rho x : form n (prox_hessian Q rho) x = form n Q x + rho * rsum n (fun i => x i * x i).
Proof.
  unfold form. rewrite <- rsum_scale, <- rsum_plus. apply rsum_ext. intros i Hi.
  transitivity (rsum n (fun j => x i * Q i j * x j) + rsum n (fun j => x i * (if (i =? j)%nat then rho else 0) * x j)).
  - rewrite <- rsum_plus. apply rsum_ext. intros j _. unfold prox_hessian. ring.
  - f_equal. rewrite (rsum_one n _ i Hi); [rewrite Nat.eqb_refl; ring|]. intros j _ Hj. destruct (Nat.eqb_spec i j); [congruence|ring].
Qed.
Lemma merit_prox n m Q q A b mu le rho t x l : qp_merit n m Q q A b mu le x l + rho / 2 * dist2 n x t = qp_merit n m (prox_hessian Q rho) (qt q t rho) A b mu le x l + rho / 2 * rsum n (fun i => t i * t i).
Proof.
  unfold qp_merit. assert (E : qp_obj n Q q x + rho / 2 * dist2 n x t = qp_obj n (prox_hessian Q rho) (qt q t rho) x + rho / 2 * rsum n (fun i => t i * t i)); [|lra].
  unfold qp_obj. change (rsum n (fun i => rsum n (fun j => x i * prox_hessian Q rho i j * x j))) with (form n (prox_hessian Q rho) x). rewrite form_prox.
  change (rsum n (fun i => rsum n (fun j => x i * Q i j * x j))) with (form n Q x).
  assert (E2 : dist2 n x t = rsum n (fun i => x i * x i) + rsum n (fun i => - (2 * (x i * t i))) + rsum n (fun i => t i * t i)) by (unfold dist2; rewrite <- !rsum_plus; apply rsum_ext; intros; ring).
  assert (E3 : rsum n (fun i => qt q t rho i * x i) = rsum n (fun i => q i * x i) + rho / 2 * rsum n (fun i => - (2 * (x i * t i)))) by (rewrite <- rsum_scale, <- rsum_plus; apply rsum_ext; intros; unfold qt; field).
  rewrite E2, E3. lra.
Qed.

Section StepR.
  Variables (O : oracles RSc) (P : @params RSc) (n : nat) (Q : nat -> nat -> R) (q : nat -> R) (ms : list nat) (A : nat -> nat -> R) (b : nat -> R).
  Notation m := (total ms).
  Variable p : @problem RSc.
  Hypothesis like : answers_like n p (qp n Q q ms A b).
  Hypothesis beta : pdal_beta P = 1 / 2.
  Hypothesis hess : hess_approx P = HM_EXACT \/ hess_approx P = HM_GAUSS_NEWTON.
  Hypothesis Sy : forall i j, (i < n)%nat -> (j < n)%nat -> Q i j = Q j i.
  Hypothesis Ps : forall x, 0 <= form n Q x.
  Hypothesis Flat : forall x v, length x = n -> length v = n -> o_integrate O x v = tab n (fun i => nth i x 0 + nth i v 0).
  Hypothesis Px : prox_penalty O n.
  Hypothesis D0 : delta_init P = 0.
  Hypothesis DM : 0 <= delta_max P.
  Hypothesis C1 : armijo_c1 (lsopt P) <= 1 / 2.
  Hypothesis Am : alpha_min (lsopt P) <= 1.

  (** The state holds the point x, l with previous multipliers le, target t and parameters mu, rho. *)
  Record holdr (s : solver_state O) (mu rho : R) (t x l le : nat -> R) : Prop := {
    g_pos : 0 < mu; g_mu : s_mu _ _ s = mu; g_inv : s_mu_inv _ _ s = 1 / mu; g_rpos : 0 < rho; g_rho : s_rho _ _ s = rho; g_tgt : s_target _ _ s = tab n t; g_sets : s_sets _ _ s = eqs mu ms;
    g_x : r_x (res s) = tab n x; g_l : r_lams (res s) = tab m l; g_le : w_lams_prev _ _ (wsp s) = tab m le;
    g_plus : length (w_plus _ _ (wsp s)) = m; g_pdal : length (w_pdal _ _ (wsp s)) = m; g_act : length (r_active (res s)) = m;
    g_vhp : length (w_vhp _ _ (wsp s)) = length ms }.
  Definition norho (s : solver_state O) : solver_state O :=
    mkState _ _ (s_mu _ _ s) (s_mu_inv _ _ s) 0 (s_inner_tol _ _ s) (s_prim_tol _ _ s) (s_sets _ _ s) (s_target _ _ s) (s_res _ _ s) (s_ws _ _ s) (s_events _ _ s).
  Lemma norho_holds s mu rho t x l le : holdr s mu rho t x l le -> holds O n ms (norho s) mu x l le.
  Proof. intros H. constructor; cbn; try (apply H; fail). reflexivity. Qed.
  Lemma multr_p s mu rho t x l le y k : holdr s mu rho t x l le ->
    compute_multipliers (o_fac O) (o_bfgs O) P p s (tab m (qp_con n A b y)) (tab m k) = Ret (qmults n ms A b mu le y k).
  Proof. intros H. exact (mults_p O P n Q q ms A b p like beta _ _ _ _ _ y k (norho_holds _ _ _ _ _ _ _ H)). Qed.
  Lemma meritr_p s mu rho t x l le y k : holdr s mu rho t x l le ->
    merit_value p (s_sets _ _ s) (qp_obj n Q q y) (m_shift_pd (qmults n ms A b mu le y k)) (tab m k) = Some (qp_merit n m Q q A b mu le y k).
  Proof. intros H. exact (merit_p O P n Q q ms A b p like beta _ _ _ _ _ y k (norho_holds _ _ _ _ _ _ _ H)). Qed.
  Lemma px_tab rho t x : 0 < rho -> o_px_val O rho (tab n t) (tab n x) = rho / 2 * dist2 n x t /\ o_px_grad O rho (tab n t) (tab n x) = tab n (fun i => rho * (x i - t i)) /\
    o_px_hess O rho (tab n t) (tab n x) = tab n (fun i => tab n (fun j => if (i =? j)%nat then rho else 0)).
  Proof.
    intros Hr. destruct (Px rho (tab n t) (tab n x) Hr (tab_length _ _) (tab_length _ _)) as (E1 & E2 & E3). rewrite E1, E2, E3. split; [|split; [|reflexivity]].
    - f_equal. unfold dist2. apply rsum_ext. intros i Hi. rewrite !tnth by exact Hi. reflexivity.
    - apply tab_ext. intros i Hi. rewrite !tnth by exact Hi. reflexivity.
  Qed.
  Lemma madd_tab (B C : nat -> nat -> R) : madd (K := RSc) (tab n (fun i => tab n (B i))) (tab n (fun i => tab n (C i))) = tab n (fun i => tab n (fun j => B i j + C i j)).
  Proof. unfold madd. etransitivity; [apply (map2_tab (A := list R) (B := list R) (C := list R))|]. apply tab_ext. intros i _. apply vadd_tab. Qed.

  Lemma diagr_p s mu rho t x l le : holdr s mu rho t x l le -> exists d, let s' := d_state _ _ d in
    run_diagnose O P p s = Ret d /\ holdr s' mu rho t x l le /\ keeps O s s' /\
    d_J _ _ d = tab m (fun k => tab n (A k)) /\ d_Jp _ _ d = tab m (fun k => tab n (A k)) /\ d_m _ _ d = qmults n ms A b mu le x l /\
    d_rhs _ _ d = tab n (qp_lag n m (prox_hessian Q rho) (qt q t rho) A x l) ++ tab m (qp_rp n A b mu le x l) /\
    d_mg _ _ d = tab n (fun i => qp_grad n (prox_hessian Q rho) (qt q t rho) x i + rsum m (fun k => qp_pdal n A b mu le x l k * A k i)) /\
    d_md _ _ d = tab m (fun k => 1 / 2 * mu * (l k - qp_pdal n A b mu le x l k)) /\
    d_inner_crit _ _ d = inf_norm (K := RSc) (tab n (qp_lag n m (prox_hessian Q rho) (qt q t rho) A x l) ++ tab m (qp_rp n A b mu le x l)) /\
    d_outer_crit _ _ d = smax (K := RSc) (r_prim_infeas (res s')) (r_dual_infeas (res s')) /\
    is_max_abs (qp_con n A b x) m (r_prim_infeas (res s')) /\ is_max_abs (qp_lag n m Q q A x l) n (r_dual_infeas (res s')) /\
    r_merit (res s') = qp_merit n m (prox_hessian Q rho) (qt q t rho) A b mu le x l + rho / 2 * rsum n (fun i => t i * t i) /\
    kkt_hess P rho (w_hess _ _ (wsp s')) (d_phess _ _ d) (w_vhp _ _ (wsp s')) = tab n (fun i => tab n (prox_hessian Q rho i)).
  Proof.
    intros H. assert (R : rows_of (p_cons p) = m) by exact (rows_p n Q q ms A b p like). assert (Hp := g_pos _ _ _ _ _ _ _ H).
    assert (Hr := g_rpos _ _ _ _ _ _ _ H). destruct (px_tab rho t x Hr) as (PX1 & PX2 & PX3).
    set (pd := tab m (qp_pdal n A b mu le x l)).
    assert (HS : exists v, hess_step (o_fac O) (o_bfgs O) (o_bfgs_update O) P p (wsp s) (tab n x) (tab n (qp_grad n Q q x)) pd = Ret (w_bfgs _ _ (wsp s), tab n (fun i => tab n (Q i)), v) /\ length v = length ms /\
      kkt_hess P rho (tab n (fun i => tab n (Q i))) (o_px_hess O rho (tab n t) (tab n x)) v = tab n (fun i => tab n (prox_hessian Q rho i))).
    { unfold hess_step, kkt_hess. rewrite (dims_p n Q q ms A b p like). destruct (blocks_tab ms pd) as (ls & Eb & Lb & _); [apply tab_length|]. cbn [car RSc] in *. cbn [sltb RSc s0]. rewrite rltb_t by exact Hr. rewrite PX3, madd_tab.
      destruct hess as [-> | ->]; rewrite Eb; cbn [ub bind]; rewrite (alike_hess _ _ _ like) by apply tab_length; unfold hessians_problem; cbn [p_hess p_ndx p_cons qp user bind]; rewrite sized2_tab; cbn [bind].
      - rewrite vhp_all by (auto; apply (g_vhp _ _ _ _ _ _ _ H)). cbn [bind fst snd]. exists (map (fun _ => zmat n) ms). split; [reflexivity|]. split; [apply map_length|apply fold_zmat].
      - rewrite vhp_skip by (auto; apply (g_vhp _ _ _ _ _ _ _ H)). cbn [bind fst snd]. exists (w_vhp _ _ (wsp s)). split; [reflexivity|]. split; [apply (g_vhp _ _ _ _ _ _ _ H)|reflexivity]. }
    destruct HS as (v & HS & Lv & HK).
    destruct (dual_loop_closed (1 / 2) (eqs mu ms) (p_cons p) mu (sets_fit_dims _ _ _ (eq_trans (qp_dims n A b ms 0) (eq_sym (dims_p n Q q ms A b p like))) (eqs_fit mu n A b ms 0)) (eqs_mu mu ms) (tab m l) pd) as (ls & qs & dd & D1 & D2 & D3 & D4 & D5); [rewrite R; apply tab_length|rewrite R; apply tab_length|].
    assert (Ed : dd = tab m (fun k => 1 / 2 * mu * (l k - qp_pdal n A b mu le x l k))).
    { apply list_tab; [transitivity (rows_of (p_cons p)); [exact D4|exact R]|]. intros k Hk. etransitivity; [apply D5|]. unfold pd. rewrite !tab_nth by exact Hk. reflexivity. }
    destruct (blocks_tab ms (tab m (qp_con n A b x))) as (e & E1 & E2 & E3); [apply tab_length|].
    unfold run_diagnose, diagnose. change (s_res (o_fac O) (o_bfgs O) s) with (res s). change (s_ws (o_fac O) (o_bfgs O) s) with (wsp s).
    rewrite (g_x _ _ _ _ _ _ _ H), (g_l _ _ _ _ _ _ _ H), (eval_p n Q q ms A b p like). cbn [bind].
    match goal with |- context [compute_multipliers ?a1 ?a2 ?a3 ?a4 ?a5 ?a6 ?a7] => assert (T : compute_multipliers a1 a2 a3 a4 a5 a6 a7 = Ret (qmults n ms A b mu le x l)) by exact (multr_p _ _ _ _ _ _ _ x l H); rewrite T; clear T end.
    cbn [bind]. rewrite (derivs_p n Q q ms A b p like). cbn [bind].
    rewrite (stack_p n Q q ms A b p like), (g_sets _ _ _ _ _ _ _ H). rewrite st_cj by (try (destruct (kkt_sys P); cbn [m_shift m_shift_pd qmults]); rewrite tab_length; reflexivity). cbn [ub bind].
    cbn [m_pdal qmults]. fold pd. match goal with |- context [hess_step ?a1 ?a2 ?a3 ?a4 ?a5 ?a6 ?a7 ?a8 ?a9] => assert (T : hess_step a1 a2 a3 a4 a5 a6 a7 a8 a9 = Ret (w_bfgs _ _ (wsp s), tab n (fun i => tab n (Q i)), v)) by exact HS; rewrite T; clear T end. cbn [bind]. cbn [m_shift qmults].
    rewrite st_act by (try apply tab_length; apply (g_act _ _ _ _ _ _ _ H)). cbn [ub bind].
    rewrite <- (g_sets _ _ _ _ _ _ _ H). change (mkMults (K := RSc) _ _ _ _ _ _) with (qmults n ms A b mu le x l). match goal with |- context [merit_value ?a1 ?a2 ?a3 ?a4 ?a5] => assert (T : merit_value a1 a2 a3 a4 a5 = Some (qp_merit n m Q q A b mu le x l)) by exact (meritr_p _ _ _ _ _ _ _ x l H); rewrite T; clear T end.
    cbn [ub bind].
    rewrite (g_rho _ _ _ _ _ _ _ H), (g_sets _ _ _ _ _ _ _ H). cbn [sltb RSc s0]. rewrite rltb_t by exact Hr. rewrite (g_tgt _ _ _ _ _ _ _ H).
    unfold merit_gradient. rewrite (dims_p n Q q ms A b p like). change (map f_nr (p_cons p)) with (dims p) in D1, D2. rewrite (dims_p n Q q ms A b p like) in D1, D2. cbn [car RSc] in *.
    rewrite D1, D2, beta, D3. cbn [ub bind fst snd].
    unfold dual_residual. rewrite (ndx_p n Q q ms A b p like). rewrite !mtv_tab. unfold pd. rewrite !vadd_tab. rewrite bad_R, bad_mR.
    unfold primal_residuals. rewrite (stack_p n Q q ms A b p like), (dims_p n Q q ms A b p like), (g_mu _ _ _ _ _ _ _ H), vscale_tab, vadd_tab, st_proj by apply tab_length. cbn [ub bind]. rewrite vsub_tab.
    rewrite (tab_ext (total ms) (fun i => qp_con n A b x i - 0) (qp_con n A b x)) by (intros; lra). fold m. cbn [car RSc] in *. rewrite E1. cbn [ub bind].
    eexists. split; [reflexivity|]. cbn [d_state].
    assert (Et : (match kkt_sys P with KKT_CLASSIC => vscale (K := RSc) mu (vsub (K := RSc) (m_plus (qmults n ms A b mu le x l)) (tab m l)) | KKT_PRIMAL_DUAL => vscale (K := RSc) (smul (s := RSc) shalf mu) (vsub (K := RSc) (tab m (qp_pdal n A b mu le x l)) (tab m l)) end) = tab m (qp_rp n A b mu le x l)).
    { destruct (kkt_sys P); cbn [m_plus qmults]; rewrite vsub_tab, vscale_tab; apply tab_ext; intros i _; unfold qp_rp, qp_pdal, shalf, slit; cbn; field; lra. }
    split; [|split; [|cbn [d_J d_Jp d_m d_rhs d_mg d_md d_inner_crit d_outer_crit d_phess]]].
    - constructor; cbn; try (apply H; fail); try reflexivity; try apply tab_length; try exact Lv; try exact Hp. rewrite map_length. apply (g_act _ _ _ _ _ _ _ H).
    - constructor; reflexivity.
    - assert (Eh : vadd (K := RSc) (tab n (fun i : nat => qp_grad n Q q x i + rsum m (fun k : nat => l k * A k i))) (o_px_grad O rho (tab n t) (tab n x)) = tab n (qp_lag n m (prox_hessian Q rho) (qt q t rho) A x l)).
      { rewrite PX2, vadd_tab. apply tab_ext. intros i Hi. rewrite lag_prox by exact Hi. reflexivity. }
      cbn [car RSc] in *. split; [reflexivity|]. split; [reflexivity|]. split; [reflexivity|]. split; [f_equal; [exact Eh|exact Et]|].
      split; [etransitivity; [apply (f_equal (fun z => vadd (K := RSc) z _)); etransitivity; [apply f_equal, mtv_tab|apply vadd_tab]|]; rewrite PX2, vadd_tab; apply tab_ext; intros i Hi; rewrite grad_prox by exact Hi; cbn [sadd RSc]; lra|]. split; [exact Ed|].
      split; [f_equal; f_equal; [exact Eh|exact Et]|]. split; [reflexivity|]. split; [|split; [|split; [etransitivity; [apply (f_equal (fun z => qp_merit n m Q q A b mu le x l + z)); exact PX1|]; apply merit_prox|exact HK]]].
      + cbn. pose proof (maxl_nth _ _ (maxl_concat e)) as Mx. cbn [car RSc] in *. rewrite E3, tab_length in Mx. destruct Mx as [M1 M2]. split.
        * intros i Hi. specialize (M1 i Hi). rewrite tab_nth in M1 by exact Hi. exact M1.
        * destruct M2 as [M2|(i & Hi & M2)]; [left; exact M2|right]. exists i. split; [exact Hi|]. rewrite tab_nth in M2 by exact Hi. exact M2.
      + cbn. pose proof (maxl_nth _ _ (inf_norm_maxl (tab n (qp_lag n m Q q A x l)))) as Mx. rewrite tab_length in Mx. destruct Mx as [M1 M2]. split.
        * intros i Hi. specialize (M1 i Hi). rewrite tab_nth in M1 by exact Hi. exact M1.
        * destruct M2 as [M2|(i & Hi & M2)]; [left; exact M2|right]. exists i. split; [exact Hi|]. rewrite tab_nth in M2 by exact Hi. exact M2.
  Qed.
  Lemma rhsr_p (d : diag (K := RSc) (o_fac O) (o_bfgs O)) mu rho t x l le : holdr (d_state _ _ d) mu rho t x l le ->
    d_J _ _ d = tab m (fun k => tab n (A k)) -> d_Jp _ _ d = tab m (fun k => tab n (A k)) -> d_m _ _ d = qmults n ms A b mu le x l ->
    d_rhs _ _ d = tab n (qp_lag n m (prox_hessian Q rho) (qt q t rho) A x l) ++ tab m (qp_rp n A b mu le x l) ->
    step_rhs (o_fac O) (o_bfgs O) P p d = tab (n + m) (rf n (prox_hessian Q rho) (qt q t rho) ms A b mu x l le).
  Proof.
    intros H E1 E2 E3 E4. unfold step_rhs. change (s_res (o_fac O) (o_bfgs O) (d_state (o_fac O) (o_bfgs O) d)) with (res (d_state _ _ d)).
    rewrite (g_l _ _ _ _ _ _ _ H), E1, E2, E3, E4. rewrite (ndx_p n Q q ms A b p like). fold m.
    assert (Er : (match kkt_sys P with KKT_CLASSIC => m_plus_r (qmults n ms A b mu le x l) | KKT_PRIMAL_DUAL => m_pdal_r (qmults n ms A b mu le x l) end) = tab m (fun _ => 0)) by (destruct (kkt_sys P); reflexivity).
    rewrite Er, !mtv_tab, vzero_tab, vsub_tab, !vadd_tab, tab_app, firstn_tab, skipn_tab, vadd_tab. rewrite tab_app. apply tab_ext. intros i Hi. unfold rf.
    destruct (Nat.ltb_spec i n) as [L|L].
    - assert (Z : rsum m (fun k => 0 * A k i) = 0) by (apply rsum_zero; intros; ring).
      etransitivity; [apply (f_equal (fun z => qp_lag n m (prox_hessian Q rho) (qt q t rho) A x l i + z)); apply (f_equal (fun z => 0 - rsum m (fun k => l k * A k i) + rsum m (fun k => l k * A k i) + z)); exact Z|lra].
    - destruct (Nat.ltb_spec (n + (i - n)) n); [lia|]. f_equal. lia.
  Qed.
  Lemma phir_p s mu rho t x l le d e : holdr s mu rho t x l le ->
    run_phi O P p s (tab n d) (tab m e) 1 = Ret (qp_merit n m (prox_hessian Q rho) (qt q t rho) A b mu le (fun i => x i + d i) (fun k => l k + e k) + rho / 2 * rsum n (fun i => t i * t i), qmults n ms A b mu le (fun i => x i + d i) (fun k => l k + e k)).
  Proof.
    intros H. unfold run_phi, phi_eval. change (s_res (o_fac O) (o_bfgs O) s) with (res s). rewrite (g_x _ _ _ _ _ _ _ H), (g_l _ _ _ _ _ _ _ H).
    match goal with |- context [try_step ?a1 ?a2 ?a3 ?a4 ?a5 ?a6] => assert (T : try_step a1 a2 a3 a4 a5 a6 = (tab n (fun i => x i + d i), tab m (fun k => l k + e k))) by exact (try_p O n ms Flat x l d e); rewrite T; clear T end.
    rewrite (eval_p n Q q ms A b p like). cbn [bind].
    match goal with |- context [compute_multipliers ?a1 ?a2 ?a3 ?a4 ?a5 ?a6 ?a7] => assert (T : compute_multipliers a1 a2 a3 a4 a5 a6 a7 = Ret (qmults n ms A b mu le (fun i => x i + d i) (fun k => l k + e k))) by exact (multr_p s mu rho t x l le (fun i => x i + d i) (fun k => l k + e k) H); rewrite T; clear T end.
    cbn [bind].
    match goal with |- context [merit_value ?a1 ?a2 ?a3 ?a4 ?a5] => assert (T : merit_value a1 a2 a3 a4 a5 = Some (qp_merit n m Q q A b mu le (fun i => x i + d i) (fun k => l k + e k))) by exact (meritr_p s mu rho t x l le (fun i => x i + d i) (fun k => l k + e k) H); rewrite T; clear T end.
    cbn [ub bind]. rewrite (g_rho _ _ _ _ _ _ _ H). rewrite (g_tgt _ _ _ _ _ _ _ H). destruct (px_tab rho t (fun i => x i + d i) (g_rpos _ _ _ _ _ _ _ H)) as (PX1 & _ & _). f_equal. f_equal. etransitivity; [apply (f_equal (fun z => qp_merit n m Q q A b mu le (fun i => x i + d i) (fun k => l k + e k) + z)); exact PX1|]. apply merit_prox.
  Qed.
  Lemma stepr_p fls fin (d : diag (K := RSc) (o_fac O) (o_bfgs O)) dl mu rho t x l le : (0 < fls)%nat -> (0 < fin)%nat -> let s := d_state _ _ d in holdr s mu rho t x l le -> handles O n m (prox_hessian Q rho) A mu ->
    d_J _ _ d = tab m (fun k => tab n (A k)) -> d_Jp _ _ d = tab m (fun k => tab n (A k)) -> d_m _ _ d = qmults n ms A b mu le x l ->
    d_rhs _ _ d = tab n (qp_lag n m (prox_hessian Q rho) (qt q t rho) A x l) ++ tab m (qp_rp n A b mu le x l) ->
    d_mg _ _ d = tab n (fun i => qp_grad n (prox_hessian Q rho) (qt q t rho) x i + rsum m (fun k => qp_pdal n A b mu le x l k * A k i)) ->
    d_md _ _ d = tab m (fun k => 1 / 2 * mu * (l k - qp_pdal n A b mu le x l k)) ->
    r_merit (res s) = qp_merit n m (prox_hessian Q rho) (qt q t rho) A b mu le x l + rho / 2 * rsum n (fun i => t i * t i) ->
    kkt_hess P rho (w_hess _ _ (wsp s)) (d_phess _ _ d) (w_vhp _ _ (wsp s)) = tab n (fun i => tab n (prox_hessian Q rho i)) ->
    exists s' x' l', run_step O fls fin P p d dl = Ret (if (max_iters P <=? S (r_num_iters (res s)))%nat then Stop _ _ s' else Next _ _ s' 0) /\
      holdr s' mu rho t x' l' le /\ (forall i, (i < n)%nat -> qp_lag n m (prox_hessian Q rho) (qt q t rho) A x' l' i = 0) /\ (forall k, (k < m)%nat -> qp_rp n A b mu le x' l' k = 0) /\
      r_num_iters (res s') = S (r_num_iters (res s)) /\ r_al_iters (res s') = r_al_iters (res s) /\
      s_inner_tol _ _ s' = s_inner_tol _ _ s /\ s_prim_tol _ _ s' = s_prim_tol _ _ s /\ w_alpha _ _ (wsp s') = 1 /\
      ((r_num_iters (res s) < Nat.pred (max_iters P))%nat -> r_conv (res s') = r_conv (res s)).
  Proof.
    intros Hfl Hfi s H Cap E1 E2 E3 E4 E5 E6 E7 E8. assert (Hr := g_rpos _ _ _ _ _ _ _ H). assert (Hp := g_pos _ _ _ _ _ _ _ H).
    assert (Syr : forall i j, (i < n)%nat -> (j < n)%nat -> prox_hessian Q rho i j = prox_hessian Q rho j i) by (intros i j Hi Hj; unfold prox_hessian; rewrite (Sy i j Hi Hj), (Nat.eqb_sym i j); reflexivity).
    assert (Psr : forall y, 0 <= form n (prox_hessian Q rho) y) by (intros y; rewrite form_prox; pose proof (Ps y); pose proof (rsum_nonneg n (fun i => y i * y i) (fun i _ => ltac:(cbn beta; nra))); nra).
    unfold run_step, step. fold s. rewrite (rhsr_p d mu rho t x l le H E1 E2 E3 E4), E3.
    rewrite (g_mu _ _ _ _ _ _ _ H), (g_sets _ _ _ _ _ _ _ H).
    match goal with |- context [kkt_dual_diag ?a1 ?a2 ?a3 ?a4 ?a5] => assert (T : kkt_dual_diag a1 a2 a3 a4 a5 = Ret (tab m (fun _ => - mu))) by exact (dd_p P n Q q ms A b p like mu x l le); rewrite T; clear T end. cbn [bind].
    assert (EM : step_matrix (o_fac O) (o_bfgs O) P p d (tab m (fun _ => - mu)) = kmat n m (prox_hessian Q rho) A mu).
    { unfold step_matrix. fold s. rewrite (g_rho _ _ _ _ _ _ _ H), E2. change (s_ws (o_fac O) (o_bfgs O) s) with (wsp s). rewrite E8. rewrite (numdual_p n Q q ms A b p like), (ndx_p n Q q ms A b p like). apply (matrix_p n (prox_hessian Q rho) ms A). }
    cbn [car RSc] in *. rewrite EM. change (s_ws (o_fac O) (o_bfgs O) s) with (wsp s). change (s_res (o_fac O) (o_bfgs O) s) with (res s).
    set (F := w_fac _ _ (wsp s)).
    destruct (Cap F) as [In Ex]. change (qp_kkt n m (prox_hessian Q rho) A mu) with (kmat n m (prox_hessian Q rho) A mu) in In, Ex.
    assert (EI : inertia_loop (K := RSc) (o_fac O) (o_compute O) (o_signature O) fin P n m (kmat n m (prox_hessian Q rho) A mu) F 0 dl = Ret (kmat n m (prox_hessian Q rho) A mu, o_compute O F (kmat n m (prox_hessian Q rho) A mu), 0, 0)).
    { destruct fin as [|f]; [lia|]. cbn [inertia_loop]. cbn [sleb sltb RSc s0]. rewrite rleb_t by exact DM. rewrite rltb_f by lra. rewrite In.
      f_equal. f_equal. f_equal. f_equal. apply upd_diag_zero. }
    rewrite D0. assert (En : numdual p = m) by exact (numdual_p n Q q ms A b p like). rewrite En. rewrite (ndx_p n Q q ms A b p like). cbn [car RSc] in *. rewrite EI. cbn [bind].
    set (F1 := o_compute O F (kmat n m (prox_hessian Q rho) A mu)) in *. set (rhs := tab (n + m) (rf n (prox_hessian Q rho) (qt q t rho) ms A b mu x l le)).
    set (pd := iterative_refinement (K := RSc) (o_fac O) (o_solve O) P F1 (kmat n m (prox_hessian Q rho) A mu) rhs).
    assert (Ksy : forall i j, (i < n + m)%nat -> (j < n + m)%nat -> kf n (prox_hessian Q rho) A mu i j = kf n (prox_hessian Q rho) A mu j i) by (intros; apply kf_sym, Syr).
    assert (Pd : length pd = (n + m)%nat /\ forall i, (i < n + m)%nat -> rsum (n + m) (fun j => kf n (prox_hessian Q rho) A mu i j * nth j pd 0) = - rf n (prox_hessian Q rho) (qt q t rho) ms A b mu x l le i).
    { unfold pd, iterative_refinement. apply (refine_exact O P F1 (n + m) (kf n (prox_hessian Q rho) A mu) (rf n (prox_hessian Q rho) (qt q t rho) ms A b mu x l le) Ksy Ex).
      - apply Ex. unfold rhs, vneg. cbn [car RSc]. rewrite map_length. apply tab_length.
      - intros i Hi. destruct (Ex (vneg (K := RSc) rhs)) as [_ S]; [unfold rhs, vneg; cbn [car RSc]; rewrite map_length; apply tab_length|].
        specialize (S i Hi). unfold mvec in S. etransitivity; [|etransitivity; [exact S|]].
        + apply rsum_ext. intros j Hj. f_equal. symmetry. apply (kmat_mirror n m (prox_hessian Q rho) A mu Syr); assumption.
        + unfold rhs. rewrite vneg_tab, tnth by exact Hi. reflexivity. }
    destruct Pd as [Lp Pd]. rewrite bad_R.
    set (dx := fun i => nth i pd 0). set (e := fun k => nth (n + k) pd 0).
    assert (Ep : pd = tab (n + m) dx) by (apply tab_self, Lp).
    assert (Edx : firstn n pd = tab n dx) by (rewrite Ep; apply firstn_tab).
    assert (Ede : skipn n pd = tab m e) by (rewrite Ep; apply skipn_tab).
    assert (K1 : forall i, (i < n)%nat -> rsum n (fun j => prox_hessian Q rho i j * dx j) + rsum m (fun k => A k i * e k) = - qp_lag n m (prox_hessian Q rho) (qt q t rho) A x l i).
    { intros i Hi. specialize (Pd i ltac:(lia)). change (rsum (n + m) (fun j => kf n (prox_hessian Q rho) A mu i j * dx j) = - rf n (prox_hessian Q rho) (qt q t rho) ms A b mu x l le i) in Pd. rewrite kmat_mv in Pd by lia. unfold rf in Pd. rewrite (proj2 (Nat.ltb_lt i n) Hi) in Pd. exact Pd. }
    assert (K2 : forall k, (k < m)%nat -> rsum n (fun j => A k j * dx j) - mu * e k = - qp_rp n A b mu le x l k).
    { intros k Hk. specialize (Pd (n + k)%nat ltac:(lia)). change (rsum (n + m) (fun j => kf n (prox_hessian Q rho) A mu (n + k) j * dx j) = - rf n (prox_hessian Q rho) (qt q t rho) ms A b mu x l le (n + k)) in Pd. rewrite kmat_mv in Pd by lia. unfold rf in Pd. rewrite (proj2 (Nat.ltb_ge (n + k) n)) in Pd by lia. replace (n + k - n)%nat with k in Pd by lia. exact Pd. }
    destruct (slope_facts n m (prox_hessian Q rho) (qt q t rho) A b mu le x l dx e Hp Syr Psr K1 K2) as [S1 S2].
    cbn [car RSc] in *. rewrite Edx, Ede, E5, E6.
    assert (Esl : (vdot (K := RSc) (tab n (fun i => qp_grad n (prox_hessian Q rho) (qt q t rho) x i + rsum m (fun k => qp_pdal n A b mu le x l k * A k i))) (tab n dx) + vdot (K := RSc) (tab m (fun k => 1 / 2 * mu * (l k - qp_pdal n A b mu le x l k))) (tab m e)) = qp_slope n m (prox_hessian Q rho) (qt q t rho) A b mu le x l dx e) by (rewrite !vdot_tab; reflexivity).
    change (sadd (s := RSc)) with Rplus. cbn [car RSc] in *. rewrite Esl.
    set (v0 := qp_merit n m (prox_hessian Q rho) (qt q t rho) A b mu le (fun i => x i + dx i) (fun k => l k + e k)) in *. set (v := v0 + rho / 2 * rsum n (fun i => t i * t i)). set (mm := qmults n ms A b mu le (fun i => x i + dx i) (fun k => l k + e k)).
    pose proof (phir_p s mu rho t x l le dx e H) as Eph. fold v0 in Eph; fold v mm in Eph. unfold run_phi in Eph.
    match goal with |- context [run ?a1 ?a2 ?a3 ?a4 ?a5 ?a6] => assert (T : run a1 a2 a3 a4 a5 a6 = Some (mkRes (K := RSc) v 1 [1])) end.
    { apply (search_p O P ms C1 Am); [exact Hfl| |exact S1|rewrite E7; unfold v; cbn [car RSc] in *; lra]. unfold phi_opt. match goal with |- context [phi_eval ?a1 ?a2 ?a3 ?a4 ?a5 ?a6 ?a7 ?a8 ?a9 ?a10] => assert (T : phi_eval a1 a2 a3 a4 a5 a6 a7 a8 a9 a10 = Ret (v, mm)) by exact Eph; rewrite T; clear T end. reflexivity. }
    rewrite T; clear T. cbn [r_trace existsb r_alpha r_phi]. 
    match goal with |- context [@is_ub ?ty ?o] => assert (T : @is_ub ty o = false) by exact (f_equal is_ub Eph); rewrite T; clear T end. cbn [orb].
    rewrite (g_x _ _ _ _ _ _ _ H), (g_l _ _ _ _ _ _ _ H). unfold try_step. rewrite !bad_R. unfold bad_scalar. cbn [snan sfin RSc negb orb].
    cbn [last_mults]. match goal with |- context [phi_eval ?a1 ?a2 ?a3 ?a4 ?a5 ?a6 ?a7 ?a8 ?a9 ?a10] => assert (T : phi_eval a1 a2 a3 a4 a5 a6 a7 a8 a9 a10 = Ret (v, mm)) by exact Eph; rewrite T; clear T end.
    eexists. exists (fun i => x i + dx i), (fun k => l k + e k). split; [|split].
    - match goal with |- context [if ?c then Stop _ _ ?a else Next _ _ ?a' ?z] => reflexivity end.
    - constructor; cbn; try solve [exact Hp|reflexivity|apply tab_length|apply H].
      + exact (f_equal fst (try_p O n ms Flat x l dx e)).
      + exact (f_equal snd (try_p O n ms Flat x l dx e)).
    - split; [|split; [|repeat split]].
      + intros i Hi. rewrite lag_expand. specialize (K1 i Hi). lra.
      + intros k Hk. unfold qp_rp in *. rewrite con_expand. specialize (K2 k Hk). lra.
      + cbn. intros Hn. destruct (Nat.leb_spec (max_iters P) (S (r_num_iters (res s)))); [lia|reflexivity].
  Qed.
End StepR.
