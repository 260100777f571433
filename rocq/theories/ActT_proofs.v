(** Quadratic problems with inequality constraints: the step, and the inner loop. *)
From Coq Require Import Reals List Bool Arith ZArith Lia Lra Psatz.
From Verif Require Import Scalar Cset_model Cset_spec Cset_proofs Armijo_model Problem_model Solver_model Solver_spec SolverR_proofs SolverS_proofs Merit_spec Merit_proofs
  Lin_spec Lin_proofs Ldlt_spec Ldlt_proofs Bk_spec Descent_spec Descent_proofs DescentX_proofs Refine_proofs Qp_spec Qp_proofs QpD_proofs QpT_proofs QpC_proofs QpN_proofs Act_spec Act_proofs ActD_proofs.
Import ListNotations.
Local Open Scope R_scope.

Section Step.
  Variables (O : oracles RSc) (P : @params RSc) (n : nat) (Q : nat -> nat -> R) (q : nat -> R) (ms : list nat) (A : nat -> nat -> R) (b : nat -> R).
  Let m := total ms.
  Variable p : @problem RSc.
  Hypothesis like : answers_like n p (qp n Q q ms A b).
  Hypothesis beta : pdal_beta P = 1 / 2.
  Hypothesis hess : hess_approx P = HM_EXACT \/ hess_approx P = HM_GAUSS_NEWTON.
  Hypothesis Kc : kkt_sys P = KKT_CLASSIC.
  Hypothesis Def : definite n Q.
  Hypothesis Flat : forall x v, length x = n -> length v = n -> o_integrate O x v = tab n (fun i => nth i x 0 + nth i v 0).
  Hypothesis Px : forall t x, o_px_val O 0 t x = 0.
  Hypothesis D0 : delta_init P = 0.
  Hypothesis DM : 0 <= delta_max P.
  Hypothesis C1 : armijo_c1 (lsopt P) <= 1 / 2.
  Hypothesis Am : alpha_min (lsopt P) <= 1.
  Variable cs : list rset.
  Hypothesis Fit : sets_fit cs (p_cons p).
  Notation K := (Kr p cs).
  Notation sh := (shift_at n A b).
  Notation spd := (shift_pd_at n A b).
  Notation holda := (holda O n ms cs).
  Notation amults := (amults n ms A b p cs).
  Notation arp := (arp n A b p cs).
  Notation asel := (asel n A b p cs).
  Notation amer := (act_merit n m Q q A b K).
  Notation lag := (qp_lag n m Q q A).

  (** The solution of the subproblem, and a point in the same pieces. *)
  Definition at_solution (mu : R) (le xs ls : nat -> R) : Prop :=
    (forall i, (i < n)%nat -> lag xs ls i = 0) /\
    forall k, (k < m)%nat -> ccone (K k) (sh mu le xs k) = mu * ls k /\ ccone (K k) (spd mu le xs ls k) = 1 / 2 * mu * ls k.
  Definition near (mu : R) (le x l xs ls : nat -> R) : Prop :=
    forall k, (k < m)%nat -> csame (K k) (sh mu le x k) (sh mu le xs k) /\ csame (K k) (spd mu le x l k) (spd mu le xs ls k).

  Definition af (mu : R) (le x l : nat -> R) (i : nat) : R :=
    if (i <? n)%nat then qp_grad n Q q x i + rsum m (fun k => l k * chosen A (asel mu le x) k i) else arp mu le x l (i - n).
  Lemma arhs_p (d : diag (K := RSc) (o_fac O) (o_bfgs O)) mu x l le xs ls : holda (d_state _ _ d) mu x l le -> at_solution mu le xs ls -> near mu le x l xs ls ->
    d_J _ _ d = tab m (fun k => tab n (A k)) -> d_Jp _ _ d = tab m (fun k => tab n (chosen A (asel mu le x) k)) -> d_m _ _ d = amults mu le x l ->
    d_rhs _ _ d = tab n (lag x l) ++ tab m (arp mu le x l) ->
    step_rhs (o_fac O) (o_bfgs O) P p d = tab (n + m) (af mu le x l).
  Proof.
    intros H [Sl Sc] Nr E1 E2 E3 E4. unfold step_rhs. change (s_res (o_fac O) (o_bfgs O) (d_state (o_fac O) (o_bfgs O) d)) with (res (d_state _ _ d)).
    assert (Ok : forall k, (k < m)%nat -> cok (K k)) by (intros k _; apply (ok_a p cs Fit mu k), H).
    rewrite (a_l _ _ _ _ _ _ _ _ _ H), E1, E2, E3, E4, Kc. rewrite (ndx_p _ _ _ _ _ _ _ like). fold m. cbn [m_plus_r ActD_proofs.amults].
    assert (Er : tab m (fun k => if cact (K k) (sh mu le x k) then 0 else 1 / mu * ccone (K k) (sh mu le x k)) = tab m (fun _ => 0)).
    { apply tab_ext. intros k Hk. destruct (cact (K k) (sh mu le x k)) eqn:Ec; [reflexivity|].
      destruct (inactive_row n m A b K mu le x l xs ls (a_pos _ _ _ _ _ _ _ _ _ H) Sc Ok Nr k Hk Ec) as [_ ->]. ring. }
    fold m. rewrite Er. rewrite !mtv_tab, vzero_tab, vsub_tab, !vadd_tab, tab_app, firstn_tab, skipn_tab, vadd_tab. rewrite tab_app. apply tab_ext. intros i Hi. unfold af.
    destruct (Nat.ltb_spec i n) as [L|L].
    - assert (Z : rsum m (fun k => 0 * A k i) = 0) by (apply rsum_zero; intros; ring).
      etransitivity; [apply (f_equal (fun z => lag x l i + z)); apply (f_equal (fun z => 0 - rsum m (fun k => l k * A k i) + rsum m (fun k => l k * chosen A (asel mu le x) k i) + z)); exact Z|]. unfold qp_lag. cbn [car RSc] in *. lra.
    - destruct (Nat.ltb_spec (n + (i - n)) n); [lia|]. f_equal. lia.
  Qed.
  Lemma add_p mu v : kkt_dual_diag P p mu cs v = Ret (tab m (fun _ => - mu)).
  Proof. unfold kkt_dual_diag. rewrite (numdual_p _ _ _ _ _ _ _ like), repeat_tab, Kc. reflexivity. Qed.
  Lemma aphi_p s mu x l le d e : holda s mu x l le ->
    run_phi O P p s (tab n d) (tab m e) 1 = Ret (amer mu le (fun i => x i + d i) (fun k => l k + e k), amults mu le (fun i => x i + d i) (fun k => l k + e k)).
  Proof.
    intros H. unfold run_phi, phi_eval. change (s_res (o_fac O) (o_bfgs O) s) with (res s). rewrite (a_x _ _ _ _ _ _ _ _ _ H), (a_l _ _ _ _ _ _ _ _ _ H).
    match goal with |- context [try_step ?a1 ?a2 ?a3 ?a4 ?a5 ?a6] => assert (T : try_step a1 a2 a3 a4 a5 a6 = (tab n (fun i => x i + d i), tab m (fun k => l k + e k))) by exact (try_p O n ms Flat x l d e); rewrite T; clear T end.
    rewrite (eval_p _ _ _ _ _ _ _ like). cbn [bind].
    match goal with |- context [compute_multipliers ?a1 ?a2 ?a3 ?a4 ?a5 ?a6 ?a7] => assert (T : compute_multipliers a1 a2 a3 a4 a5 a6 a7 = Ret (amults mu le (fun i => x i + d i) (fun k => l k + e k))) by exact (amults_p O P n Q q ms A b p like beta cs Fit s mu x l le (fun i => x i + d i) (fun k => l k + e k) H); rewrite T; clear T end.
    cbn [bind]. cbn [m_shift_pd ActD_proofs.amults].
    match goal with |- context [merit_value ?a1 ?a2 ?a3 ?a4 ?a5] => assert (T : merit_value a1 a2 a3 a4 a5 = Some (amer mu le (fun i => x i + d i) (fun k => l k + e k))) by exact (amerit_p O n Q q ms A b p like cs Fit s mu x l le (fun i => x i + d i) (fun k => l k + e k) H); rewrite T; clear T end.
    cbn [ub bind]. rewrite (a_rho _ _ _ _ _ _ _ _ _ H). f_equal. f_equal. rewrite Px. cbn. lra.
  Qed.
  Lemma amer_ext mu le x l y k : (forall i, (i < n)%nat -> x i = y i) -> (forall j, (j < m)%nat -> l j = k j) -> amer mu le x l = amer mu le y k.
  Proof.
    intros H1 H2. unfold act_merit. f_equal; [f_equal; [apply obj_ext, H1|f_equal]|f_equal; f_equal]; apply rsum_ext; intros j Hj.
    - unfold shift_pd_at, shift_at. rewrite (con_ext n A b x y j H1), H2 by exact Hj. reflexivity.
    - rewrite H2 by exact Hj. reflexivity.
  Qed.
  Lemma aslope_ext mu le x l d e d' e' : (forall i, (i < n)%nat -> d i = d' i) -> (forall j, (j < m)%nat -> e j = e' j) ->
    act_slope n m Q q A b K mu le x l d e = act_slope n m Q q A b K mu le x l d' e'.
  Proof. intros H1 H2. unfold act_slope. f_equal; apply rsum_ext; intros i Hi; [rewrite H1|rewrite H2]; auto. Qed.

  Lemma astep_p fls fin (d : diag (K := RSc) (o_fac O) (o_bfgs O)) dl mu x l le xs ls : (0 < fls)%nat -> (0 < fin)%nat -> let s := d_state _ _ d in holda s mu x l le -> handles_rows O n m Q A mu ->
    at_solution mu le xs ls -> near mu le x l xs ls ->
    d_J _ _ d = tab m (fun k => tab n (A k)) -> d_Jp _ _ d = tab m (fun k => tab n (chosen A (asel mu le x) k)) -> d_m _ _ d = amults mu le x l ->
    d_rhs _ _ d = tab n (lag x l) ++ tab m (arp mu le x l) ->
    d_mg _ _ d = tab n (fun i => qp_grad n Q q x i + rsum m (fun k => act_pdal n A b K mu le x l k * A k i)) ->
    d_md _ _ d = tab m (fun k => 1 / 2 * mu * (l k - act_pdal n A b K mu le x l k)) ->
    r_merit (res s) = amer mu le x l ->
    kkt_hess P 0 (w_hess _ _ (wsp s)) (d_phess _ _ d) (w_vhp _ _ (wsp s)) = tab n (fun i => tab n (Q i)) ->
    exists s', run_step O fls fin P p d dl = Ret (if (max_iters P <=? S (r_num_iters (res s)))%nat then Stop _ _ s' else Next _ _ s' 0) /\
      holda s' mu xs ls le /\
      r_num_iters (res s') = S (r_num_iters (res s)) /\ r_al_iters (res s') = r_al_iters (res s) /\
      s_inner_tol _ _ s' = s_inner_tol _ _ s /\ s_prim_tol _ _ s' = s_prim_tol _ _ s /\ w_alpha _ _ (wsp s') = 1 /\
      ((r_num_iters (res s) < Nat.pred (max_iters P))%nat -> r_conv (res s') = r_conv (res s)).
  Proof.
    intros Hfl Hfi s H Cap0 Sol Nr E1 E2 E3 E4 E5 E6 E7 E8. assert (Hp := a_pos _ _ _ _ _ _ _ _ _ H). set (sel := asel mu le x). set (B := chosen A sel).
    assert (Cap : handles O n m Q B mu) by apply Cap0. assert (Sy := proj1 Def).
    unfold run_step, step. fold s. rewrite (arhs_p d mu x l le xs ls H Sol Nr E1 E2 E3 E4), E3.
    rewrite (a_mu _ _ _ _ _ _ _ _ _ H), (a_sets _ _ _ _ _ _ _ _ _ H).
    match goal with |- context [kkt_dual_diag ?a1 ?a2 ?a3 ?a4 ?a5] => assert (T : kkt_dual_diag a1 a2 a3 a4 a5 = Ret (tab m (fun _ => - mu))) by exact (add_p mu a5); rewrite T; clear T end. cbn [bind].
    assert (EM : step_matrix (o_fac O) (o_bfgs O) P p d (tab m (fun _ => - mu)) = kmat n m Q B mu).
    { unfold step_matrix. fold s. rewrite (a_rho _ _ _ _ _ _ _ _ _ H), E2. change (s_ws (o_fac O) (o_bfgs O) s) with (wsp s). rewrite E8. rewrite (numdual_p _ _ _ _ _ _ _ like), (ndx_p _ _ _ _ _ _ _ like). apply (matrix_p n Q ms B mu). }
    cbn [car RSc] in *. rewrite EM. change (s_ws (o_fac O) (o_bfgs O) s) with (wsp s). change (s_res (o_fac O) (o_bfgs O) s) with (res s).
    set (F := w_fac _ _ (wsp s)).
    destruct (Cap F) as [In Ex]. change (qp_kkt n m Q B mu) with (kmat n m Q B mu) in In, Ex.
    assert (EI : inertia_loop (K := RSc) (o_fac O) (o_compute O) (o_signature O) fin P n m (kmat n m Q B mu) F 0 dl = Ret (kmat n m Q B mu, o_compute O F (kmat n m Q B mu), 0, 0)).
    { destruct fin as [|f]; [lia|]. cbn [inertia_loop]. cbn [sleb sltb RSc s0]. rewrite rleb_t by exact DM. rewrite rltb_f by lra. rewrite In.
      f_equal. f_equal. f_equal. f_equal. apply upd_diag_zero. }
    rewrite D0. assert (En : numdual p = m) by exact (numdual_p _ _ _ _ _ _ _ like). rewrite En. rewrite (ndx_p _ _ _ _ _ _ _ like). cbn [car RSc] in *. rewrite EI. cbn [bind].
    set (F1 := o_compute O F (kmat n m Q B mu)) in *. set (rhs := tab (n + m) (af mu le x l)).
    set (pd := iterative_refinement (K := RSc) (o_fac O) (o_solve O) P F1 (kmat n m Q B mu) rhs).
    assert (Ksy : forall i j, (i < n + m)%nat -> (j < n + m)%nat -> kf n Q B mu i j = kf n Q B mu j i) by (intros; apply kf_sym, Sy).
    assert (Pd : length pd = (n + m)%nat /\ forall i, (i < n + m)%nat -> rsum (n + m) (fun j => kf n Q B mu i j * nth j pd 0) = - af mu le x l i).
    { unfold pd, iterative_refinement. apply (refine_exact O P F1 (n + m) (kf n Q B mu) (af mu le x l) Ksy Ex).
      - apply Ex. unfold rhs, vneg. cbn [car RSc]. rewrite map_length. apply tab_length.
      - intros i Hi. destruct (Ex (vneg (K := RSc) rhs)) as [_ S]; [unfold rhs, vneg; cbn [car RSc]; rewrite map_length; apply tab_length|].
        specialize (S i Hi). unfold mvec in S. etransitivity; [|etransitivity; [exact S|]].
        + apply rsum_ext. intros j Hj. f_equal. symmetry. apply (kmat_mirror n m Q B mu Sy); assumption.
        + unfold rhs. rewrite vneg_tab, tnth by exact Hi. reflexivity. }
    destruct Pd as [Lp Pd]. rewrite bad_R.
    set (dx := fun i => nth i pd 0). set (e := fun k => nth (n + k) pd 0).
    assert (Ep : pd = tab (n + m) dx) by (apply tab_self, Lp).
    assert (Edx : firstn n pd = tab n dx) by (rewrite Ep; apply firstn_tab).
    assert (Ede : skipn n pd = tab m e) by (rewrite Ep; apply skipn_tab).
    assert (K1 : forall i, (i < n)%nat -> rsum n (fun j => Q i j * dx j) + rsum m (fun k => B k i * e k) = - (qp_grad n Q q x i + rsum m (fun k => l k * B k i))).
    { intros i Hi. specialize (Pd i ltac:(lia)). change (rsum (n + m) (fun j => kf n Q B mu i j * dx j) = - af mu le x l i) in Pd. rewrite kmat_mv in Pd by lia. unfold af in Pd. rewrite (proj2 (Nat.ltb_lt i n) Hi) in Pd. exact Pd. }
    assert (K2 : forall k, (k < m)%nat -> rsum n (fun j => B k j * dx j) - mu * e k = - (ccone (K k) (sh mu le x k) - mu * l k)).
    { intros k Hk. specialize (Pd (n + k)%nat ltac:(lia)). change (rsum (n + m) (fun j => kf n Q B mu (n + k) j * dx j) = - af mu le x l (n + k)) in Pd. rewrite kmat_mv in Pd by lia. unfold af in Pd. rewrite (proj2 (Nat.ltb_ge (n + k) n)) in Pd by lia. replace (n + k - n)%nat with k in Pd by lia. exact Pd. }
    assert (Ok : forall k, (k < m)%nat -> cok (K k)) by (intros k _; apply (ok_a p cs Fit mu k), H).
    destruct Sol as [Sl Sc].
    destruct (newton_unique n m Q q A b Def K mu le x l xs ls Hp Sl Sc Ok Nr dx e K1 K2) as [Ux Ul].
    destruct (act_change n m Q q A b Def K mu le x l xs ls Hp Sl Sc Ok Nr) as [S1 S2].
    cbn [car RSc] in *. rewrite Edx, Ede, E5, E6.
    assert (Esl : (vdot (K := RSc) (tab n (fun i => qp_grad n Q q x i + rsum m (fun k => act_pdal n A b K mu le x l k * A k i))) (tab n dx) + vdot (K := RSc) (tab m (fun k => 1 / 2 * mu * (l k - act_pdal n A b K mu le x l k))) (tab m e)) = act_slope n m Q q A b K mu le x l (fun i => xs i - x i) (fun k => ls k - l k)).
    { rewrite !vdot_tab. etransitivity; [|apply (aslope_ext mu le x l dx e _ _ Ux Ul)]. reflexivity. }
    change (sadd (s := RSc)) with Rplus. cbn [car RSc] in *. rewrite Esl.
    set (v := amer mu le (fun i => x i + dx i) (fun k => l k + e k)) in *. set (mm := amults mu le (fun i => x i + dx i) (fun k => l k + e k)).
    assert (Nx : forall i, (i < n)%nat -> x i + dx i = xs i) by (intros i Hi; rewrite Ux by exact Hi; ring).
    assert (Nl : forall k, (k < m)%nat -> l k + e k = ls k) by (intros k Hk; rewrite Ul by exact Hk; ring).
    assert (Ev : v = amer mu le xs ls) by (apply amer_ext; assumption).
    pose proof (aphi_p s mu x l le dx e H) as Eph. fold v mm in Eph. unfold run_phi in Eph.
    match goal with |- context [run ?a1 ?a2 ?a3 ?a4 ?a5 ?a6] => assert (T : run a1 a2 a3 a4 a5 a6 = Some (mkRes (K := RSc) v 1 [1])) end.
    { apply (search_p O P ms C1 Am); [exact Hfl| |exact S1|rewrite E7, Ev; exact S2]. unfold phi_opt. match goal with |- context [phi_eval ?a1 ?a2 ?a3 ?a4 ?a5 ?a6 ?a7 ?a8 ?a9 ?a10] => assert (T : phi_eval a1 a2 a3 a4 a5 a6 a7 a8 a9 a10 = Ret (v, mm)) by exact Eph; rewrite T; clear T end. reflexivity. }
    rewrite T; clear T. cbn [r_trace existsb r_alpha r_phi]. 
    match goal with |- context [@is_ub ?ty ?o] => assert (T : @is_ub ty o = false) by exact (f_equal is_ub Eph); rewrite T; clear T end. cbn [orb].
    rewrite (a_x _ _ _ _ _ _ _ _ _ H), (a_l _ _ _ _ _ _ _ _ _ H). unfold try_step. rewrite !bad_R. unfold bad_scalar. cbn [snan sfin RSc negb orb].
    cbn [last_mults]. match goal with |- context [phi_eval ?a1 ?a2 ?a3 ?a4 ?a5 ?a6 ?a7 ?a8 ?a9 ?a10] => assert (T : phi_eval a1 a2 a3 a4 a5 a6 a7 a8 a9 a10 = Ret (v, mm)) by exact Eph; rewrite T; clear T end.
    eexists. split; [|split].
    - match goal with |- context [if ?c then Stop _ _ ?a else Next _ _ ?a' ?z] => reflexivity end.
    - constructor; cbn; try solve [exact Hp|reflexivity|apply tab_length|apply H].
      + etransitivity; [exact (f_equal fst (try_p O n ms Flat x l dx e))|]. apply tab_ext, Nx.
      + etransitivity; [exact (f_equal snd (try_p O n ms Flat x l dx e))|]. apply tab_ext, Nl.
    - repeat split. cbn. intros Hn. destruct (Nat.leb_spec (max_iters P) (S (r_num_iters (res s)))); [lia|reflexivity].
  Qed.

  Definition ainner fi fls fin s dl :=
    inner_loop (o_integrate O) (o_px_val O) (o_px_grad O) (o_px_hess O) (o_fac O) (o_compute O) (o_signature O) (o_solve O) (o_bfgs O) (o_bfgs_update O) (o_qr O) fi fls fin P p s dl.
  Definition asmall (c : R) (mu : R) (le x l : nat -> R) : Prop := (forall i, (i < n)%nat -> Rabs (lag x l i) <= c) /\ (forall k, (k < m)%nat -> Rabs (arp mu le x l k) <= c).
  Definition aresid (s : solver_state O) (mu : R) (x l : nat -> R) : Prop := is_max_abs (aviol n A b p cs mu x l) m (r_prim_infeas (res s)) /\ is_max_abs (lag x l) n (r_dual_infeas (res s)).
  Lemma arhs_norm mu le x l c : 0 <= c -> inf_norm (K := RSc) (tab n (lag x l) ++ tab m (arp mu le x l)) <= c <-> asmall c mu le x l.
  Proof.
    intros Hc. set (v := tab n (lag x l) ++ tab m (arp mu le x l)). pose proof (maxl_nth v _ (inf_norm_maxl v)) as M.
    assert (L : length v = (n + m)%nat) by (unfold v; rewrite app_length, !tab_length; reflexivity).
    assert (N : forall i, (i < n + m)%nat -> nth i v 0 = if (i <? n)%nat then lag x l i else arp mu le x l (i - n)) by (intros i Hi; unfold v; rewrite tab_app, tnth by exact Hi; reflexivity).
    rewrite L in M. split.
    - intros H. split.
      + intros i Hi. destruct M as [M _]. specialize (M i ltac:(lia)). rewrite N in M by lia. rewrite (proj2 (Nat.ltb_lt i n) Hi) in M. lra.
      + intros k Hk. destruct M as [M _]. specialize (M (n + k)%nat ltac:(lia)). rewrite N in M by lia. rewrite (proj2 (Nat.ltb_ge (n + k) n)) in M by lia. replace (n + k - n)%nat with k in M by lia. lra.
    - intros [H1 H2]. apply (max_abs_le (fun i => nth i v 0) (n + m) _ c); [exact M|exact Hc|]. intros i Hi. rewrite N by exact Hi. destruct (Nat.ltb_spec i n); [apply H1; assumption|apply H2; lia].
  Qed.
  Lemma apass_stop f fls fin s dl mu x l le : holda s mu x l le -> 0 <= s_inner_tol _ _ s -> asmall (s_inner_tol _ _ s) mu le x l ->
    exists s', ainner (S f) fls fin s dl = Ret s' /\ holda s' mu x l le /\ keeps O s s' /\ aresid s' mu x l.
  Proof.
    intros H Ht Hs. destruct (adiag_p O P n Q q ms A b p like beta hess Kc cs Fit s mu x l le H) as (d & E & Hd & Kp & G1 & G2 & G3 & G4 & G5 & G6 & Ic & Oc & Mp & Md & Mr & Kh).
    exists (d_state _ _ d). split; [|split; [exact Hd|split; [exact Kp|split; assumption]]].
    unfold ainner. cbn [inner_loop]. unfold pass. unfold run_diagnose in E. rewrite E. cbn [bind].
    assert (Bt : (sleb (s := RSc) (d_inner_crit _ _ d) (s_inner_tol _ _ s)) = true) by (cbn [sleb RSc]; apply rleb_t; rewrite Ic; apply arhs_norm; assumption).
    rewrite Bt. reflexivity.
  Qed.
  Lemma ainner_p f fls fin s mu x l le xs ls : (0 < fls)%nat -> (0 < fin)%nat -> holda s mu x l le -> handles_rows O n m Q A mu -> 0 <= s_inner_tol _ _ s -> (S (r_num_iters (res s)) < max_iters P)%nat ->
    at_solution mu le xs ls -> near mu le x l xs ls ->
    exists s', ainner (S (S f)) fls fin s 0 = Ret s' /\
      s_inner_tol _ _ s' = s_inner_tol _ _ s /\ s_prim_tol _ _ s' = s_prim_tol _ _ s /\ r_al_iters (res s') = r_al_iters (res s) /\ r_conv (res s') = r_conv (res s) /\
      ((holda s' mu x l le /\ aresid s' mu x l /\ r_num_iters (res s') = r_num_iters (res s) /\
        (asmall (s_inner_tol _ _ s) mu le x l \/ (r_prim_infeas (res s') <= target_tol P /\ r_dual_infeas (res s') <= target_tol P))) \/
       (holda s' mu xs ls le /\ aresid s' mu xs ls /\ r_num_iters (res s') = S (r_num_iters (res s)))).
  Proof.
    intros Hfl Hfi H Cap Ht Hn Sol Nr. destruct (adiag_p O P n Q q ms A b p like beta hess Kc cs Fit s mu x l le H) as (d & E & Hd & Kp & G1 & G2 & G3 & G4 & G5 & G6 & Ic & Oc & Mp & Md & Mr & Kh).
    destruct (sleb (s := RSc) (d_inner_crit _ _ d) (s_inner_tol _ _ s) || sleb (s := RSc) (d_outer_crit _ _ d) (target_tol P))%bool eqn:Bt.
    - exists (d_state _ _ d). split; [unfold ainner; cbn [inner_loop]; unfold pass; unfold run_diagnose in E; rewrite E; cbn [bind]; rewrite Bt; reflexivity|].
      destruct Kp as [k1 k2 k3 k4 k5]. do 4 (split; [assumption|]). left. split; [exact Hd|]. split; [split; assumption|]. split; [exact k1|].
      apply orb_true_iff in Bt. cbn [sleb RSc] in Bt. destruct Bt as [Bt|Bt]; apply Rleb_true in Bt.
      + left. rewrite Ic in Bt. apply arhs_norm in Bt; assumption.
      + right. rewrite Oc in Bt. apply smax_le in Bt. exact Bt.
    - destruct Kp as [k1 k2 k3 k4 k5].
      destruct (astep_p fls fin d 0 mu x l le xs ls Hfl Hfi Hd Cap Sol Nr G1 G2 G3 G4 G5 G6 Mr Kh) as (s1 & E1 & H1 & N1 & A1 & I1 & P1 & _ & V1).
      rewrite k1 in *. rewrite (proj2 (Nat.leb_gt _ _) Hn) in E1. cbn beta iota in E1.
      assert (I1' : s_inner_tol _ _ s1 = s_inner_tol _ _ s) by (rewrite I1; exact k4).
      destruct (apass_stop f fls fin s1 0 mu xs ls le H1) as (s2 & E2 & H2 & K2 & R2).
      { rewrite I1'. exact Ht. }
      { destruct Sol as [Sl Sc]. split; intros k Hk; [rewrite Sl by exact Hk|unfold ActD_proofs.arp; rewrite (proj1 (Sc k Hk)), Rminus_diag_eq by reflexivity]; rewrite Rabs_R0, I1'; exact Ht. }
      exists s2. destruct K2 as [q1 q2 q3 q4 q5]. split.
      { unfold ainner. cbn [inner_loop]. unfold pass at 1. unfold run_diagnose in E. rewrite E. cbn [bind]. rewrite Bt. unfold run_step in E1. rewrite E1. cbn [bind]. exact E2. }
      rewrite q4, q5, q2, q3, q1, I1', P1, k5, A1, k2, V1, k3, N1 by lia. do 4 (split; [reflexivity|]). right. split; [exact H2|]. split; [exact R2|reflexivity].
  Qed.
End Step.
