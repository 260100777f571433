(** Quadratic problems with the primal-dual system: what one pass of the inner loop computes. *)
From Coq Require Import Reals List Bool Arith ZArith Lia Lra Psatz.
From Verif Require Import Scalar Cset_model Cset_spec Cset_proofs Armijo_model Problem_model Solver_model Solver_spec SolverR_proofs SolverS_proofs Merit_spec Merit_proofs
  Lin_spec Lin_proofs Ldlt_spec Ldlt_proofs Bk_spec Descent_spec Descent_proofs DescentX_proofs Refine_proofs Qp_spec Qp_proofs QpD_proofs QpT_proofs QpN_proofs Act_spec Act_proofs ActD_proofs Glob_spec Glob_proofs.
Import ListNotations.
Local Open Scope R_scope.

Section Pass.
  Variables (O : oracles RSc) (P : @params RSc) (n : nat) (Q : nat -> nat -> R) (q : nat -> R) (ms : list nat) (A : nat -> nat -> R) (b : nat -> R).
  Let m := total ms.
  Variable p : @problem RSc.
  Hypothesis like : answers_like n p (qp n Q q ms A b).
  Hypothesis beta : pdal_beta P = 1 / 2.
  Hypothesis hess : hess_approx P = HM_EXACT \/ hess_approx P = HM_GAUSS_NEWTON.
  Hypothesis Kp : kkt_sys P = KKT_PRIMAL_DUAL.
  Variable cs : list rset.
  Hypothesis Fit : sets_fit cs (p_cons p).
  Notation K := (Kr p cs).
  Notation sh := (shift_at n A b).
  Notation spd := (shift_pd_at n A b).
  Notation holda := (holda O n ms cs).
  Notation amults := (amults n ms A b p cs).
  Notation aviol := (aviol n A b p cs).
  Definition prp (mu : R) (le x l : nat -> R) (k : nat) : R := 1 / 2 * mu * (act_pdal n A b K mu le x l k - l k).
  Definition psel (mu : R) (le x l : nat -> R) (k : nat) : bool := cact (K k) (spd mu le x l k).
  Lemma pdiag_p s mu x l le : holda s mu x l le -> exists d, let s' := d_state _ _ d in
    run_diagnose O P p s = Ret d /\ holda s' mu x l le /\ keeps O s s' /\
    d_J _ _ d = tab m (fun k => tab n (A k)) /\ d_Jp _ _ d = tab m (fun k => tab n (chosen A (psel mu le x l) k)) /\ d_m _ _ d = amults mu le x l /\
    d_rhs _ _ d = tab n (qp_lag n m Q q A x l) ++ tab m (prp mu le x l) /\
    d_mg _ _ d = tab n (fun i => qp_grad n Q q x i + rsum m (fun k => act_pdal n A b K mu le x l k * A k i)) /\
    d_md _ _ d = tab m (fun k => 1 / 2 * mu * (l k - act_pdal n A b K mu le x l k)) /\
    d_inner_crit _ _ d = inf_norm (K := RSc) (tab n (qp_lag n m Q q A x l) ++ tab m (prp mu le x l)) /\
    d_outer_crit _ _ d = smax (K := RSc) (r_prim_infeas (res s')) (r_dual_infeas (res s')) /\
    is_max_abs (aviol mu x l) m (r_prim_infeas (res s')) /\ is_max_abs (qp_lag n m Q q A x l) n (r_dual_infeas (res s')) /\
    r_merit (res s') = act_merit n m Q q A b K mu le x l /\
    kkt_hess P 0 (w_hess _ _ (wsp s')) (d_phess _ _ d) (w_vhp _ _ (wsp s')) = tab n (fun i => tab n (Q i)).
  Proof.
    intros H. assert (Sha := shape_a n Q q ms A b p like cs Fit). assert (Cda := coords_a n Q q ms A b p like cs). assert (Sln := stack_len n Q q ms A b p like cs Fit). fold m in Sha, Cda, Sln. assert (R : rows_of (p_cons p) = m) by (apply (rows_p n Q q ms A b p like)). assert (Hp := a_pos _ _ _ _ _ _ _ _ _ H).
    set (pd := tab m (act_pdal n A b K mu le x l)).
    assert (HS : exists v, hess_step (o_fac O) (o_bfgs O) (o_bfgs_update O) P p (wsp s) (tab n x) (tab n (qp_grad n Q q x)) pd = Ret (w_bfgs _ _ (wsp s), tab n (fun i => tab n (Q i)), v) /\ length v = length ms /\
      kkt_hess P 0 (tab n (fun i => tab n (Q i))) [] v = tab n (fun i => tab n (Q i))).
    { unfold hess_step, kkt_hess. rewrite (dims_p n Q q ms A b p like). destruct (blocks_tab ms pd) as (ls & Eb & Lb & _); [apply tab_length|]. cbn [car RSc] in *. cbn [sltb RSc s0]. rewrite rltb_f by lra.
      destruct hess as [-> | ->]; rewrite Eb; cbn [ub bind]; rewrite (alike_hess _ _ _ like) by apply tab_length; unfold hessians_problem; cbn [p_hess p_ndx p_cons qp user bind]; rewrite sized2_tab; cbn [bind].
      - rewrite vhp_all by (auto; apply (a_vhp _ _ _ _ _ _ _ _ _ H)). cbn [bind fst snd]. exists (map (fun _ => zmat n) ms). split; [reflexivity|]. split; [apply map_length|apply fold_zmat].
      - rewrite vhp_skip by (auto; apply (a_vhp _ _ _ _ _ _ _ _ _ H)). cbn [bind fst snd]. exists (w_vhp _ _ (wsp s)). split; [reflexivity|]. split; [apply (a_vhp _ _ _ _ _ _ _ _ _ H)|reflexivity]. }
    destruct HS as (v & HS & Lv & HK).
    destruct (dual_loop_closed (1 / 2) cs (p_cons p) mu Fit (a_mus _ _ _ _ _ _ _ _ _ H) (tab m l) pd) as (ls & qs & dd & D1 & D2 & D3 & D4 & D5); [rewrite R; apply tab_length|rewrite R; apply tab_length|].
    assert (Ed : dd = tab m (fun k => 1 / 2 * mu * (l k - act_pdal n A b K mu le x l k))).
    { apply list_tab; [transitivity (rows_of (p_cons p)); [exact D4|exact R]|]. intros k Hk. etransitivity; [apply D5|]. unfold pd. rewrite !tab_nth by exact Hk. reflexivity. }
    assert (Ej : cone_jac (product_of cs ms) (tab m (spd mu le x l)) (tab m (fun k => tab n (A k))) = Some (tab m (fun k => tab n (chosen A (psel mu le x l) k)))).
    { rewrite (cone_jac_coords _ m _ _ Sha) by apply tab_length. rewrite Cda. f_equal.
      assert (Lm : length (map3 hcj (stack_coords cs (p_cons p)) (tab m (spd mu le x l)) (tab m (fun k => tab n (A k)))) = m) by (rewrite map3_length, Sln, !tab_length; lia).
      apply (list_tab_gen _ m _ [] Lm). intros k Hk.
      assert (Rw : Forall (fun row => length row = n) (map3 hcj (stack_coords cs (p_cons p)) (tab m (spd mu le x l)) (tab m (fun k => tab n (A k))))).
      { apply map3_hcj_rows. unfold tab at 1. apply Forall_forall. intros r Hr. apply in_map_iff in Hr as (j & <- & _). apply tab_length. }
      apply list_tab; [apply (Forall_nth' _ _ k [] Rw); rewrite Lm; exact Hk|]. intros i Hi.
      rewrite map3_hcj_get by (rewrite ?Sln, ?tab_length; auto). rewrite !tab_nth by assumption. unfold chosen, psel, ActD_proofs.Kr. destruct (cact _ _); reflexivity. }
    assert (Ea : exists o, active_set (product_of cs ms) (tab m (sh mu le x)) (r_active (res s)) = Some o /\ length o = m).
    { rewrite (active_coords _ m _ _ Sha) by (try apply tab_length; apply (a_act _ _ _ _ _ _ _ _ _ H)). eexists. split; [reflexivity|]. rewrite Cda, map3_length, Sln, tab_length, (a_act _ _ _ _ _ _ _ _ _ H). lia. }
    destruct Ea as (oa & Ea & La).
    assert (Epr : projection_inplace (product_of cs ms) (tab m (fun k => qp_con n A b x k + mu * l k)) = Some (tab m (fun k => cproj (K k) (qp_con n A b x k + mu * l k)))).
    { rewrite (projection_inplace_coords _ m _ Sha) by apply tab_length. rewrite Cda. f_equal. apply list_tab; [rewrite map3_length, Sln, !tab_length; lia|].
      intros k Hk. rewrite map3_hproj_nth by (rewrite ?Sln, ?tab_length; auto). rewrite tab_nth by exact Hk. reflexivity. }
    destruct (blocks_tab ms (tab m (aviol mu x l))) as (e & E1 & E2 & E3); [apply tab_length|].
    unfold run_diagnose, diagnose. change (s_res (o_fac O) (o_bfgs O) s) with (res s). change (s_ws (o_fac O) (o_bfgs O) s) with (wsp s).
    rewrite (a_x _ _ _ _ _ _ _ _ _ H), (a_l _ _ _ _ _ _ _ _ _ H), (eval_p n Q q ms A b p like). cbn [bind].
    match goal with |- context [compute_multipliers ?a1 ?a2 ?a3 ?a4 ?a5 ?a6 ?a7] => assert (T : compute_multipliers a1 a2 a3 a4 a5 a6 a7 = Ret (amults mu le x l)) by exact (amults_p O P n Q q ms A b p like beta cs Fit s mu x l le x l H); rewrite T; clear T end.
    cbn [bind]. rewrite (derivs_p n Q q ms A b p like). cbn [bind].
    rewrite (stack_p n Q q ms A b p like), (a_sets _ _ _ _ _ _ _ _ _ H), Kp. cbn [m_shift_pd ActD_proofs.amults]. fold m. cbn [car RSc] in *. fold m. rewrite Ej. cbn [ub bind].
    cbn [m_pdal ActD_proofs.amults]. fold m. fold pd. rewrite HS. cbn [bind]. cbn [m_shift ActD_proofs.amults]. fold m.
    rewrite Ea. cbn [ub bind]. cbn [m_shift_pd ActD_proofs.amults]. fold m.
    rewrite <- (a_sets _ _ _ _ _ _ _ _ _ H). match goal with |- context [merit_value ?a1 ?a2 ?a3 ?a4 ?a5] => assert (T : merit_value a1 a2 a3 a4 a5 = Some (act_merit n m Q q A b K mu le x l)) by exact (amerit_p O n Q q ms A b p like cs Fit s mu x l le x l H); rewrite T; clear T end.
    cbn [ub bind].
    rewrite (a_rho _ _ _ _ _ _ _ _ _ H), (a_sets _ _ _ _ _ _ _ _ _ H). cbn [sltb RSc s0]. rewrite rltb_f by lra. cbn [negb].
    unfold merit_gradient. rewrite (dims_p n Q q ms A b p like). change (map f_nr (p_cons p)) with (dims p) in D1, D2. rewrite (dims_p n Q q ms A b p like) in D1, D2. cbn [car RSc] in *.
    rewrite D1, D2, beta, D3. cbn [ub bind fst snd].
    unfold dual_residual. rewrite (ndx_p n Q q ms A b p like). rewrite !mtv_tab. unfold pd. rewrite !vadd_tab. rewrite bad_R, bad_mR.
    unfold primal_residuals. rewrite (stack_p n Q q ms A b p like), (dims_p n Q q ms A b p like), (a_mu _ _ _ _ _ _ _ _ _ H), vscale_tab, vadd_tab. fold m. cbn [smul sadd RSc] in *. rewrite Epr. cbn [ub bind]. rewrite vsub_tab.
    change (tab m (fun i => (qp_con n A b x i - cproj (K i) (qp_con n A b x i + mu * l i)))) with (tab m (aviol mu x l)). cbn [car RSc] in *. rewrite E1. cbn [ub bind].
    eexists. split; [reflexivity|]. cbn [d_state].
    assert (Et : vscale (K := RSc) (shalf * mu)%S (vsub (K := RSc) (tab m (act_pdal n A b K mu le x l)) (tab m l)) = tab m (prp mu le x l)).
    { rewrite vsub_tab, vscale_tab. apply tab_ext. intros i _. unfold prp, shalf, slit. cbn. field. }
    split; [|split; [|cbn [d_J d_Jp d_m d_rhs d_mg d_md d_inner_crit d_outer_crit d_phess]]].
    - constructor; cbn; try (apply H; fail); try reflexivity; try apply tab_length; try exact Lv; try exact Hp; exact La.
    - constructor; reflexivity.
    - split; [reflexivity|]. split; [reflexivity|]. split; [reflexivity|]. split; [f_equal; exact Et|]. split; [etransitivity; [apply f_equal, mtv_tab|apply vadd_tab]|]. split; [exact Ed|].
      split; [f_equal; f_equal; exact Et|]. split; [reflexivity|]. split; [|split; [|split; [reflexivity|exact HK]]].
      + cbn. pose proof (maxl_nth _ _ (maxl_concat e)) as Mx. cbn [car RSc] in *. rewrite E3, tab_length in Mx. destruct Mx as [M1 M2]. split.
        * intros i Hi. specialize (M1 i Hi). rewrite tab_nth in M1 by exact Hi. exact M1.
        * destruct M2 as [M2|(i & Hi & M2)]; [left; exact M2|right]. exists i. split; [exact Hi|]. rewrite tab_nth in M2 by exact Hi. exact M2.
      + cbn. pose proof (maxl_nth _ _ (inf_norm_maxl (tab n (qp_lag n m Q q A x l)))) as Mx. rewrite tab_length in Mx. destruct Mx as [M1 M2]. split.
        * intros i Hi. specialize (M1 i Hi). rewrite tab_nth in M1 by exact Hi. exact M1.
        * destruct M2 as [M2|(i & Hi & M2)]; [left; exact M2|right]. exists i. split; [exact Hi|]. rewrite tab_nth in M2 by exact Hi. exact M2.
  Qed.
End Pass.
