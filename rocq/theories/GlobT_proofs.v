(** Quadratic problems with the primal-dual system: the step, and the inner loop. *)
From Coq Require Import Reals List Bool Arith ZArith Lia Lra Psatz.
From Verif Require Import Scalar Cset_model Cset_spec Cset_proofs Armijo_model Problem_model Solver_model Solver_spec SolverR_proofs SolverS_proofs Merit_spec Merit_proofs
  Lin_spec Lin_proofs Ldlt_spec Ldlt_proofs Bk_spec Descent_spec Descent_proofs DescentX_proofs Refine_proofs Qp_spec Qp_proofs QpD_proofs QpT_proofs QpC_proofs QpN_proofs Act_spec Act_proofs ActD_proofs ActT_proofs
  Glob_spec Glob_proofs GlobD_proofs.
Import ListNotations.
Local Open Scope R_scope.

(** ** The matrix *)
Section Matrix.
  Variables (n m : nat) (Q A : nat -> nat -> R) (w : nat -> R).
  Definition wf (i j : nat) : R :=
    if (i <? n)%nat then if (j <? n)%nat then Q i j else A (j - n)%nat i
    else if (j <? n)%nat then A (i - n)%nat j else if (i =? j)%nat then - w (i - n)%nat else 0.
  Definition wmat : list (list R) := tab (n + m) (fun i => tab (n + m) (wf i)).
  Lemma wf_qq i j : (i < n)%nat -> (j < n)%nat -> wf i j = Q i j.
  Proof. intros Hi Hj. unfold wf. rewrite (proj2 (Nat.ltb_lt _ _) Hi), (proj2 (Nat.ltb_lt _ _) Hj). reflexivity. Qed.
  Lemma wf_ax k j : (j < n)%nat -> wf (n + k) j = A k j.
  Proof. intros Hj. unfold wf. rewrite (proj2 (Nat.ltb_ge (n + k) n)) by lia. rewrite (proj2 (Nat.ltb_lt _ _) Hj). f_equal. lia. Qed.
  Lemma wf_xa k j : (j < n)%nat -> wf j (n + k) = A k j.
  Proof. intros Hj. unfold wf. rewrite (proj2 (Nat.ltb_lt _ _) Hj), (proj2 (Nat.ltb_ge (n + k) n)) by lia. f_equal. lia. Qed.
  Lemma wf_dd k j : wf (n + k) (n + j) = if (k =? j)%nat then - w k else 0.
  Proof. unfold wf. rewrite !(proj2 (Nat.ltb_ge (n + _) n)) by lia. replace (n + k - n)%nat with k by lia. destruct (Nat.eqb_spec (n + k) (n + j)), (Nat.eqb_spec k j); auto; lia. Qed.
  Lemma wmat_get i j : (i < n + m)%nat -> (j < n + m)%nat -> entries wmat i j = wf i j.
  Proof. intros Hi Hj. unfold entries, wmat. rewrite !tnth by assumption. reflexivity. Qed.
  Hypothesis Sy : forall i j, (i < n)%nat -> (j < n)%nat -> Q i j = Q j i.
  Lemma wf_sym i j : wf i j = wf j i.
  Proof.
    unfold wf. destruct (Nat.ltb_spec i n), (Nat.ltb_spec j n); auto.
    destruct (Nat.eqb_spec i j), (Nat.eqb_spec j i); auto; try lia. subst. reflexivity.
  Qed.
  Lemma wmat_mirror i j : (i < n + m)%nat -> (j < n + m)%nat -> mirror (entries wmat) i j = wf i j.
  Proof. intros Hi Hj. unfold mirror. destruct (Nat.leb j i); rewrite wmat_get by assumption; [reflexivity|apply wf_sym]. Qed.
  Lemma wmat_mv (d : nat -> R) i : (i < n + m)%nat -> rsum (n + m) (fun j => wf i j * d j) =
    if (i <? n)%nat then rsum n (fun j => Q i j * d j) + rsum m (fun k => A k i * d (n + k)%nat) else rsum n (fun j => A (i - n)%nat j * d j) - w (i - n)%nat * d i.
  Proof.
    intros Hi. rewrite rsum_split. destruct (Nat.ltb_spec i n) as [H|H].
    - f_equal; apply rsum_ext; intros j Hj; [rewrite wf_qq by assumption|rewrite wf_xa by assumption]; reflexivity.
    - assert (exists k, i = (n + k)%nat) as [k ->] by (exists (i - n)%nat; lia). replace (n + k - n)%nat with k by lia.
      assert (E1 : rsum n (fun j => wf (n + k) j * d j) = rsum n (fun j => A k j * d j)) by (apply rsum_ext; intros j Hj; rewrite wf_ax by exact Hj; reflexivity).
      rewrite E1. unfold Rminus. f_equal. rewrite (rsum_one m _ k); [|lia|].
      + rewrite wf_dd, Nat.eqb_refl. ring.
      + intros j Hj Hne. rewrite wf_dd. destruct (Nat.eqb_spec k j); [lia|ring].
  Qed.
  Lemma wmatrix_p : assemble_kkt (K := RSc) n m (tab n (fun i => tab n (Q i))) (tab m (fun k => tab n (A k))) (tab m (fun k => - w k)) = wmat.
  Proof.
    unfold assemble_kkt, mtab, wmat.
    apply (tab_ext (n + m)). intros i Hi. apply (tab_ext (n + m)). intros j Hj. unfold wf, mget.
    destruct (Nat.ltb_spec i n), (Nat.ltb_spec j n); cbn [car RSc] in *.
    - rewrite !tnth by assumption. reflexivity.
    - rewrite (tnth m) by lia. rewrite tnth by assumption. reflexivity.
    - rewrite (tnth m) by lia. rewrite tnth by assumption. reflexivity.
    - destruct (Nat.eqb_spec i j); [|reflexivity]. rewrite tnth by lia. reflexivity.
  Qed.
End Matrix.

Section Step.
  Variables (O : oracles RSc) (P : @params RSc) (n : nat) (Q : nat -> nat -> R) (q : nat -> R) (ms : list nat) (A : nat -> nat -> R) (b : nat -> R).
  Let m := total ms.
  Variable p : @problem RSc.
  Hypothesis like : answers_like n p (qp n Q q ms A b).
  Hypothesis beta : pdal_beta P = 1 / 2.
  Hypothesis hess : hess_approx P = HM_EXACT \/ hess_approx P = HM_GAUSS_NEWTON.
  Hypothesis Kp : kkt_sys P = KKT_PRIMAL_DUAL.
  Hypothesis Sy : forall i j, (i < n)%nat -> (j < n)%nat -> Q i j = Q j i.
  Hypothesis Ps : forall x, 0 <= form n Q x.
  Hypothesis Flat : forall x v, length x = n -> length v = n -> o_integrate O x v = tab n (fun i => nth i x 0 + nth i v 0).
  Hypothesis Px : forall t x, o_px_val O 0 t x = 0.
  Hypothesis D0 : delta_init P = 0.
  Hypothesis DM : 0 <= delta_max P.
  Variable cs : list rset.
  Hypothesis Fit : sets_fit cs (p_cons p).
  Variables (mu theta gam tol lo : R).
  Hypothesis Th0 : 0 <= theta.
  Hypothesis Th : forall y, rsum m (fun k => rsum n (fun j => A k j * y j) * rsum n (fun j => A k j * y j)) <= theta * form n Q y.
  Hypothesis Gm : mu <= gam.
  Hypothesis Gr : forall i, (i < n)%nat -> 2 * Q i i + 4 / mu * rsum m (fun k => A k i * A k i) <= gam.
  Hypothesis Tp : 0 < tol.
  Hypothesis Gt : gam * dphi_thresh (lsopt P) <= tol * tol.
  Hypothesis Lo : forall y, lo <= qp_obj n Q q y.
  Let abar : R := (1 - armijo_c1 (lsopt P)) / (3 / 2 + 2 * theta / mu).
  Hypothesis Se : searches (lsopt P) abar.
  Let low : R := Rmin (contraction_min (lsopt P)) (1 / 2).
  Let dec : R := armijo_c1 (lsopt P) * (low * abar) * (tol * tol / gam).
  Notation K := (Kr p cs).
  Notation sh := (shift_at n A b).
  Notation spd := (shift_pd_at n A b).
  Notation holda := (holda O n ms cs).
  Notation amults := (amults n ms A b p cs).
  Notation prp := (prp n A b p cs).
  Notation psel := (psel n A b p cs).
  Notation amer := (act_merit n m Q q A b K).
  Notation lag := (qp_lag n m Q q A).
  Notation pdal := (act_pdal n A b K).

  Definition pf (le x l : nat -> R) (i : nat) : R :=
    if (i <? n)%nat then qp_grad n Q q x i + rsum m (fun k => l k * chosen A (psel mu le x l) k i) + rsum m (fun k => (if psel mu le x l k then 0 else pdal mu le x l k) * A k i) else prp mu le x l (i - n).
  Lemma prhs_p (d : diag (K := RSc) (o_fac O) (o_bfgs O)) x l le : holda (d_state _ _ d) mu x l le ->
    d_J _ _ d = tab m (fun k => tab n (A k)) -> d_Jp _ _ d = tab m (fun k => tab n (chosen A (psel mu le x l) k)) -> d_m _ _ d = amults mu le x l ->
    d_rhs _ _ d = tab n (lag x l) ++ tab m (prp mu le x l) ->
    step_rhs (o_fac O) (o_bfgs O) P p d = tab (n + m) (pf le x l).
  Proof.
    intros H E1 E2 E3 E4. unfold step_rhs. change (s_res (o_fac O) (o_bfgs O) (d_state (o_fac O) (o_bfgs O) d)) with (res (d_state _ _ d)).
    rewrite (a_l _ _ _ _ _ _ _ _ _ H), E1, E2, E3, E4, Kp. rewrite (ndx_p _ _ _ _ _ _ _ like). fold m. cbn [m_pdal_r ActD_proofs.amults]. fold m.
    rewrite !mtv_tab, vzero_tab, vsub_tab, !vadd_tab, tab_app, firstn_tab, skipn_tab, vadd_tab. rewrite tab_app. apply tab_ext. intros i Hi. unfold pf.
    destruct (Nat.ltb_spec i n) as [L|L].
    - unfold qp_lag, GlobD_proofs.psel. cbn [car RSc sadd ssub] in *. lra.
    - destruct (Nat.ltb_spec (n + (i - n)) n); [lia|]. f_equal. lia.
  Qed.
  Lemma pdd_p x l le : Forall (fun c => mu_of c = mu) cs -> kkt_dual_diag P p mu cs (tab m (spd mu le x l)) = Ret (tab m (fun k => - gw mu (psel mu le x l) k)).
  Proof.
    intros Ms. assert (R : rows_of (p_cons p) = m) by (apply (rows_p n Q q ms A b p like)).
    destruct (dual_diag P p mu cs (tab m (spd mu le x l)) (tab m (fun _ => false)) Fit) as (d & act & E & Ea & Ld & La & V); [rewrite R; apply tab_length|rewrite R; apply tab_length|].
    cbn [car RSc] in *. rewrite E. f_equal. rewrite R in *. apply list_tab; [exact Ld|]. intros k Hk. specialize (V k Hk). rewrite Kp in V. etransitivity; [exact V|].
    assert (Ek : nth k act false = psel mu le x l k).
    { assert (Sha := shape_a n Q q ms A b p like cs Fit). assert (Cda := coords_a n Q q ms A b p like cs). assert (Sln := stack_len n Q q ms A b p like cs Fit). fold m in Sha, Cda, Sln.
      change (map f_nr (p_cons p)) with (dims p) in Ea. rewrite (dims_p n Q q ms A b p like) in Ea. rewrite (active_coords _ m _ _ Sha) in Ea by apply tab_length. rewrite Cda in Ea. apply (f_equal (fun o => match o with Some v => v | None => [] end)) in Ea. cbv beta iota in Ea. rewrite <- Ea.
      rewrite map3_hact_nth by (rewrite ?Sln, ?tab_length; auto). rewrite tab_nth by exact Hk. reflexivity. }
    rewrite Ek. unfold gw. destruct (psel mu le x l k); lra.
  Qed.
  Lemma ptry x l d e a : try_step (K := RSc) (o_integrate O) (tab n x) (tab m l) (tab n d) (tab m e) a = (tab n (fun i => x i + a * d i), tab m (fun k => l k + a * e k)).
  Proof.
    unfold try_step. rewrite !vscale_tab, vadd_tab, Flat by apply tab_length. f_equal; apply tab_ext; intros i Hi.
    rewrite !tnth by exact Hi. cbn. ring.
  Qed.
  Lemma pphi s x l le d e a : holda s mu x l le ->
    run_phi O P p s (tab n d) (tab m e) a = Ret (amer mu le (fun i => x i + a * d i) (fun k => l k + a * e k), amults mu le (fun i => x i + a * d i) (fun k => l k + a * e k)).
  Proof.
    intros H. unfold run_phi, phi_eval. change (s_res (o_fac O) (o_bfgs O) s) with (res s). rewrite (a_x _ _ _ _ _ _ _ _ _ H), (a_l _ _ _ _ _ _ _ _ _ H).
    match goal with |- context [try_step ?a1 ?a2 ?a3 ?a4 ?a5 ?a6] => assert (T : try_step a1 a2 a3 a4 a5 a6 = (tab n (fun i => x i + a * d i), tab m (fun k => l k + a * e k))) by exact (ptry x l d e a); rewrite T; clear T end.
    rewrite (eval_p _ _ _ _ _ _ _ like). cbn [bind].
    match goal with |- context [compute_multipliers ?a1 ?a2 ?a3 ?a4 ?a5 ?a6 ?a7] => assert (T : compute_multipliers a1 a2 a3 a4 a5 a6 a7 = Ret (amults mu le (fun i => x i + a * d i) (fun k => l k + a * e k))) by exact (amults_p O P n Q q ms A b p like beta cs Fit s mu x l le (fun i => x i + a * d i) (fun k => l k + a * e k) H); rewrite T; clear T end.
    cbn [bind]. cbn [m_shift_pd ActD_proofs.amults]. fold m.
    match goal with |- context [merit_value ?a1 ?a2 ?a3 ?a4 ?a5] => assert (T : merit_value a1 a2 a3 a4 a5 = Some (amer mu le (fun i => x i + a * d i) (fun k => l k + a * e k))) by exact (amerit_p O n Q q ms A b p like cs Fit s mu x l le (fun i => x i + a * d i) (fun k => l k + a * e k) H); rewrite T; clear T end.
    cbn [ub bind]. rewrite (a_rho _ _ _ _ _ _ _ _ _ H). f_equal. f_equal. rewrite Px. cbn. lra.
  Qed.
  Lemma merit_low le x l : 0 < mu -> Forall (fun c => mu_of c = mu) cs -> lo <= amer mu le x l.
  Proof.
    intros Hm Ms. unfold act_merit. pose proof (Lo x). assert (E : 0 <= rsum m (fun k => env1 mu (K k) (spd mu le x l k))).
    { apply rsum_nonneg. intros k _. destruct (stack_coords_ok _ _ mu Fit Ms k) as [O1 O2]. fold (Kr p cs k) in O1, O2. pose proof (Rinv_0_lt_compat (2 * mu) ltac:(lra)). unfold env1.
      assert (0 <= cpen (K k) (cproj (K k) (spd mu le x l k))) by (destruct (K k); cbn; try lra; apply Rabs_pos).
      assert (0 <= (spd mu le x l k - cproj (K k) (spd mu le x l k)) * (spd mu le x l k - cproj (K k) (spd mu le x l k)) / (2 * mu)) by (apply Rmult_le_pos; [apply Rle_0_sqr|lra]). lra. }
    assert (F : 0 <= rsum m (fun k => l k * l k)) by (apply rsum_nonneg; intros; apply Rle_0_sqr). assert (0 <= mu * rsum m (fun k => l k * l k)) by (apply Rmult_le_pos; lra). lra.
  Qed.
  Lemma gam_pos : 0 < mu -> 0 < gam. Proof. intros. lra. Qed.
  Lemma dec_pos : 0 < mu -> 0 < dec.
  Proof.
    intros Hm. destruct Se as [C1 Ab [[Cm _] _] _ _]. unfold dec. assert (0 < low) by (unfold low; apply Rmin_pos; lra). pose proof (gam_pos Hm).
    apply Rmult_lt_0_compat; [apply Rmult_lt_0_compat; [lra|apply Rmult_lt_0_compat; lra]|]. apply Rmult_lt_0_compat; [apply Rmult_lt_0_compat; lra|apply Rinv_0_lt_compat; lra].
  Qed.
  Definition large (c : R) (le x l : nat -> R) : Prop := (exists i, (i < n)%nat /\ c < Rabs (lag x l i)) \/ (exists k, (k < m)%nat /\ c < Rabs (prp mu le x l k)).
  Lemma sqr_above c a : 0 < c -> c < Rabs a -> c * c < a * a.
  Proof. intros H1 H2. replace (a * a) with (Rabs a * Rabs a) by (rewrite <- Rabs_mult; apply Rabs_pos_eq, Rle_0_sqr). apply Rmult_le_0_lt_compat; lra. Qed.

  Lemma pstep_p fls fin (d : diag (K := RSc) (o_fac O) (o_bfgs O)) dl x l le : (0 < fls)%nat -> (0 < fin)%nat -> let s := d_state _ _ d in holda s mu x l le -> handles_pd O n m Q A mu ->
    d_J _ _ d = tab m (fun k => tab n (A k)) -> d_Jp _ _ d = tab m (fun k => tab n (chosen A (psel mu le x l) k)) -> d_m _ _ d = amults mu le x l ->
    d_rhs _ _ d = tab n (lag x l) ++ tab m (prp mu le x l) ->
    d_mg _ _ d = tab n (fun i => qp_grad n Q q x i + rsum m (fun k => pdal mu le x l k * A k i)) ->
    d_md _ _ d = tab m (fun k => 1 / 2 * mu * (l k - pdal mu le x l k)) ->
    r_merit (res s) = amer mu le x l ->
    kkt_hess P 0 (w_hess _ _ (wsp s)) (d_phess _ _ d) (w_vhp _ _ (wsp s)) = tab n (fun i => tab n (Q i)) ->
    large tol le x l ->
    exists s' x' l', run_step O fls fin P p d dl = Ret (if (max_iters P <=? S (r_num_iters (res s)))%nat then Stop _ _ s' else Next _ _ s' 0) /\
      holda s' mu x' l' le /\ amer mu le x' l' <= amer mu le x l - dec /\
      r_num_iters (res s') = S (r_num_iters (res s)) /\ r_al_iters (res s') = r_al_iters (res s) /\
      s_inner_tol _ _ s' = s_inner_tol _ _ s /\ s_prim_tol _ _ s' = s_prim_tol _ _ s /\
      ((r_num_iters (res s) < Nat.pred (max_iters P))%nat -> r_conv (res s') = r_conv (res s)).
  Proof.
    intros Hfl Hfi s H Cap0 E1 E2 E3 E4 E5 E6 E7 E8 Lg. assert (Hp := a_pos _ _ _ _ _ _ _ _ _ H). assert (Ms := a_mus _ _ _ _ _ _ _ _ _ H). set (sel := psel mu le x l). set (B := chosen A sel). set (w := gw mu sel).
    pose proof (Cap0 sel) as Cap.
    unfold run_step, step. fold s. rewrite (prhs_p d x l le H E1 E2 E3 E4), E3.
    rewrite (a_mu _ _ _ _ _ _ _ _ _ H), (a_sets _ _ _ _ _ _ _ _ _ H).
    match goal with |- context [kkt_dual_diag ?a1 ?a2 ?a3 ?a4 ?a5] => assert (T : kkt_dual_diag a1 a2 a3 a4 a5 = Ret (tab m (fun k => - w k))) by exact (pdd_p x l le Ms); rewrite T; clear T end. cbn [bind].
    assert (EM : step_matrix (o_fac O) (o_bfgs O) P p d (tab m (fun k => - w k)) = wmat n m Q B w).
    { unfold step_matrix. fold s. rewrite (a_rho _ _ _ _ _ _ _ _ _ H), E2. change (s_ws (o_fac O) (o_bfgs O) s) with (wsp s). rewrite E8. rewrite (numdual_p _ _ _ _ _ _ _ like), (ndx_p _ _ _ _ _ _ _ like). apply (wmatrix_p n m Q B w). }
    cbn [car RSc] in *. rewrite EM. change (s_ws (o_fac O) (o_bfgs O) s) with (wsp s). change (s_res (o_fac O) (o_bfgs O) s) with (res s).
    set (F := w_fac _ _ (wsp s)).
    destruct (Cap F) as [In Ex]. change (pd_kkt n m Q A mu sel) with (wmat n m Q B w) in In, Ex.
    assert (EI : inertia_loop (K := RSc) (o_fac O) (o_compute O) (o_signature O) fin P n m (wmat n m Q B w) F 0 dl = Ret (wmat n m Q B w, o_compute O F (wmat n m Q B w), 0, 0)).
    { destruct fin as [|f]; [lia|]. cbn [inertia_loop]. cbn [sleb sltb RSc s0]. rewrite rleb_t by exact DM. rewrite rltb_f by lra. rewrite In.
      f_equal. f_equal. f_equal. f_equal. apply upd_diag_zero. }
    rewrite D0. assert (En : numdual p = m) by exact (numdual_p _ _ _ _ _ _ _ like). rewrite En. rewrite (ndx_p _ _ _ _ _ _ _ like). cbn [car RSc] in *. rewrite EI. cbn [bind].
    set (F1 := o_compute O F (wmat n m Q B w)) in *. set (rhs := tab (n + m) (pf le x l)).
    set (pd := iterative_refinement (K := RSc) (o_fac O) (o_solve O) P F1 (wmat n m Q B w) rhs).
    assert (Ksy : forall i j, (i < n + m)%nat -> (j < n + m)%nat -> wf n Q B w i j = wf n Q B w j i) by (intros; apply wf_sym, Sy).
    assert (Pd : length pd = (n + m)%nat /\ forall i, (i < n + m)%nat -> rsum (n + m) (fun j => wf n Q B w i j * nth j pd 0) = - pf le x l i).
    { unfold pd, iterative_refinement. apply (refine_exact O P F1 (n + m) (wf n Q B w) (pf le x l) Ksy Ex).
      - apply Ex. unfold rhs, vneg. cbn [car RSc]. rewrite map_length. apply tab_length.
      - intros i Hi. destruct (Ex (vneg (K := RSc) rhs)) as [_ S]; [unfold rhs, vneg; cbn [car RSc]; rewrite map_length; apply tab_length|].
        specialize (S i Hi). unfold mvec in S. etransitivity; [|etransitivity; [exact S|]].
        + apply rsum_ext. intros j Hj. f_equal. symmetry. apply (wmat_mirror n m Q B w Sy); assumption.
        + unfold rhs. rewrite vneg_tab, tnth by exact Hi. reflexivity. }
    destruct Pd as [Lp Pd]. rewrite bad_R.
    set (dx := fun i => nth i pd 0). set (e := fun k => nth (n + k) pd 0).
    assert (Ep : pd = tab (n + m) dx) by (apply tab_self, Lp).
    assert (Edx : firstn n pd = tab n dx) by (rewrite Ep; apply firstn_tab).
    assert (Ede : skipn n pd = tab m e) by (rewrite Ep; apply skipn_tab).
    assert (K1 : forall i, (i < n)%nat -> rsum n (fun j => Q i j * dx j) + rsum m (fun k => B k i * e k) = - (qp_grad n Q q x i + rsum m (fun k => l k * B k i) + rsum m (fun k => (if sel k then 0 else pdal mu le x l k) * A k i))).
    { intros i Hi. specialize (Pd i ltac:(lia)). change (rsum (n + m) (fun j => wf n Q B w i j * dx j) = - pf le x l i) in Pd. rewrite wmat_mv in Pd by lia. unfold pf in Pd. rewrite (proj2 (Nat.ltb_lt i n) Hi) in Pd. exact Pd. }
    assert (K2 : forall k, (k < m)%nat -> rsum n (fun j => B k j * dx j) - w k * e k = gmd n A b K mu le x l k).
    { intros k Hk. specialize (Pd (n + k)%nat ltac:(lia)). change (rsum (n + m) (fun j => wf n Q B w (n + k) j * dx j) = - pf le x l (n + k)) in Pd. rewrite wmat_mv in Pd by lia. unfold pf in Pd. rewrite (proj2 (Nat.ltb_ge (n + k) n)) in Pd by lia. replace (n + k - n)%nat with k in Pd by lia.
      etransitivity; [exact Pd|]. unfold GlobD_proofs.prp, gmd. ring. }
    assert (Ok : forall k, (k < m)%nat -> cok (K k) /\ cmu mu (K k)) by (intros k _; apply (stack_coords_ok _ _ mu Fit Ms k)).
    set (slp := act_slope n m Q q A b K mu le x l dx e).
    assert (Sn : slp <= 0) by exact (slope_neg n m Q q A b Ps K mu le x l Hp sel dx e K1 K2).
    assert (Gp := gam_pos Hp).
    assert (Sb : tol * tol < gam * - slp).
    { destruct Lg as [(i & Hi & G)|(k & Hk & G)]; apply (sqr_above _ _ Tp) in G; (eapply Rlt_le_trans; [exact G|]).
      - eapply Rle_trans; [exact (lag_small n m Q q A b Sy Ps K mu le x l Hp sel dx e K1 K2 i Hi)|]. apply Rmult_le_compat_r; [fold slp; lra|apply Gr, Hi].
      - pose proof (tail_small n m Q q A b Ps K mu le x l Hp sel dx e K1 K2 k Hk) as T. fold slp in T. replace (prp mu le x l k * prp mu le x l k) with (gmd n A b K mu le x l k * gmd n A b K mu le x l k) by (unfold GlobD_proofs.prp, gmd; ring).
        eapply Rle_trans; [exact T|]. apply Rmult_le_compat_r; lra. }
    assert (Sd : tol * tol / gam <= - slp) by (apply (Rmult_le_reg_l gam); [exact Gp|]; replace (gam * (tol * tol / gam)) with (tol * tol) by (field; lra); lra).
    assert (St : dphi_thresh (lsopt P) <= Rabs slp) by (rewrite Rabs_left1 by exact Sn; apply (Rmult_le_reg_l gam); [exact Gp|]; lra).
    cbn [car RSc] in *. rewrite Edx, Ede, E5, E6.
    assert (Esl : (vdot (K := RSc) (tab n (fun i => qp_grad n Q q x i + rsum m (fun k => pdal mu le x l k * A k i))) (tab n dx) + vdot (K := RSc) (tab m (fun k => 1 / 2 * mu * (l k - pdal mu le x l k))) (tab m e)) = slp) by (rewrite !vdot_tab; reflexivity).
    change (sadd (s := RSc)) with Rplus. cbn [car RSc] in *. rewrite Esl.
    set (ff := fun a => amer mu le (fun i => x i + a * dx i) (fun k => l k + a * e k)). set (mm := fun a => amults mu le (fun i => x i + a * dx i) (fun k => l k + a * e k)).
    assert (Eph : forall a, run_phi O P p s (tab n dx) (tab m e) a = Ret (ff a, mm a)) by (intros a; exact (pphi s x l le dx e a H)). unfold run_phi in Eph.
    assert (Ab1 : abar <= 1).
    { destruct Se as [[C1 C2] _ _ _ _]. unfold abar. pose proof (Rinv_0_lt_compat mu Hp). assert (0 <= 2 * theta / mu) by (apply Rmult_le_pos; lra). apply (Rmult_le_reg_r (3 / 2 + 2 * theta / mu)); [lra|].
      replace ((1 - armijo_c1 (lsopt P)) / (3 / 2 + 2 * theta / mu) * (3 / 2 + 2 * theta / mu)) with (1 - armijo_c1 (lsopt P)) by (field; split; lra). lra. }
    assert (Enough : forall t, 0 <= t <= abar -> ff t <= amer mu le x l + armijo_c1 (lsopt P) * t * slp).
    { intros t Ht. exact (merit_enough n m Q q A b Sy Ps K mu le x l Hp Ok sel dx e K1 K2 theta Th t (armijo_c1 (lsopt P)) Th0 Ht). }
    match goal with |- context [run ?a1 ?a2 ?a3 ?a4 ?a5 ?a6] => destruct (search_enough a1 a2 ff (lsopt P) a5 slp abar Se Ab1) with (fls := a3) as (al & tr & T & Al & Ll & Ad) end.
    { intros tr a. unfold phi_opt. match goal with |- context [phi_eval ?a1 ?a2 ?a3 ?a4 ?a5 ?a6 ?a7 ?a8 ?a9 ?a10] => assert (T : phi_eval a1 a2 a3 a4 a5 a6 a7 a8 a9 a10 = Ret (ff a, mm a)) by exact (Eph a); rewrite T; clear T end. reflexivity. }
    { intros t Ht. rewrite E7. apply Enough, Ht. }
    { exact Hfl. }
    { exact St. }
    cbn [car RSc] in *. rewrite T; clear T. cbn [r_trace r_alpha r_phi].
    match goal with |- context [existsb ?g ?tt] => assert (T : existsb g tt = false) end.
    { assert (G : forall tt, existsb (fun a => is_ub (phi_eval (o_integrate O) (o_px_val O) (o_fac O) (o_bfgs O) P p s (tab n dx) (tab m e) a)) tt = false) by (induction tt as [|a tt IH]; [reflexivity|]; cbn [existsb]; rewrite IH; match goal with |- context [@is_ub ?ty ?o] => assert (T : @is_ub ty o = false) by exact (f_equal is_ub (Eph a)); rewrite T; clear T end; reflexivity).
      exact (G (al :: tr)). }
    rewrite T; clear T.
    rewrite (a_x _ _ _ _ _ _ _ _ _ H), (a_l _ _ _ _ _ _ _ _ _ H). unfold try_step. rewrite !bad_R. unfold bad_scalar. cbn [snan sfin RSc negb orb].
    cbn [last_mults]. match goal with |- context [phi_eval ?a1 ?a2 ?a3 ?a4 ?a5 ?a6 ?a7 ?a8 ?a9 ?a10] => assert (T : phi_eval a1 a2 a3 a4 a5 a6 a7 a8 a9 a10 = Ret (ff al, mm al)) by exact (Eph al); rewrite T; clear T end.
    eexists. exists (fun i => x i + al * dx i), (fun k => l k + al * e k). split; [|split; [|split]].
    - match goal with |- context [if ?c then Stop _ _ ?a else Next _ _ ?a' ?z] => reflexivity end.
    - constructor; cbn; try solve [exact Hp|reflexivity|apply tab_length|apply H].
      + exact (f_equal fst (ptry x l dx e al)).
      + exact (f_equal snd (ptry x l dx e al)).
    - rewrite E7 in Ad. change (ff al <= amer mu le x l - dec). destruct Se as [[C1 C2] Ab _ _ _]. eapply Rle_trans; [exact Ad|]. fold low in Ll. unfold dec.
      assert (Lw : 0 < low * abar) by (apply Rmult_lt_0_compat; [unfold low; apply (low_pos (lsopt P) abar Se)|exact Ab]).
      assert (0 < tol * tol / gam) by (apply Rmult_lt_0_compat; [apply Rmult_lt_0_compat; lra|apply Rinv_0_lt_compat; lra]).
      assert (M1 : low * abar * (tol * tol / gam) <= al * - slp) by (apply Rmult_le_compat; lra).
      assert (M2 : armijo_c1 (lsopt P) * (low * abar * (tol * tol / gam)) <= armijo_c1 (lsopt P) * (al * - slp)) by (apply Rmult_le_compat_l; lra). lra.
    - repeat split. cbn. intros Hn. destruct (Nat.leb_spec (max_iters P) (S (r_num_iters (res s)))); [lia|reflexivity].
  Qed.

  Definition psmall (c : R) (le x l : nat -> R) : Prop := (forall i, (i < n)%nat -> Rabs (lag x l i) <= c) /\ (forall k, (k < m)%nat -> Rabs (prp mu le x l k) <= c).
  Lemma prhs_norm le x l c : 0 <= c -> inf_norm (K := RSc) (tab n (lag x l) ++ tab m (prp mu le x l)) <= c -> psmall c le x l.
  Proof.
    intros Hc. set (v := tab n (lag x l) ++ tab m (prp mu le x l)). pose proof (maxl_nth v _ (inf_norm_maxl v)) as M.
    assert (L : length v = (n + m)%nat) by (unfold v; rewrite app_length, !tab_length; reflexivity).
    assert (N : forall i, (i < n + m)%nat -> nth i v 0 = if (i <? n)%nat then lag x l i else prp mu le x l (i - n)) by (intros i Hi; unfold v; rewrite tab_app, tnth by exact Hi; reflexivity).
    rewrite L in M. intros H. split.
    - intros i Hi. destruct M as [M _]. specialize (M i ltac:(lia)). rewrite N in M by lia. rewrite (proj2 (Nat.ltb_lt i n) Hi) in M. lra.
    - intros k Hk. destruct M as [M _]. specialize (M (n + k)%nat ltac:(lia)). rewrite N in M by lia. rewrite (proj2 (Nat.ltb_ge (n + k) n)) in M by lia. replace (n + k - n)%nat with k in M by lia. lra.
  Qed.
  Lemma prhs_large le x l c : 0 <= c -> c < inf_norm (K := RSc) (tab n (lag x l) ++ tab m (prp mu le x l)) -> large c le x l.
  Proof.
    intros Hc. set (v := tab n (lag x l) ++ tab m (prp mu le x l)). pose proof (maxl_nth v _ (inf_norm_maxl v)) as M.
    assert (L : length v = (n + m)%nat) by (unfold v; rewrite app_length, !tab_length; reflexivity).
    assert (N : forall i, (i < n + m)%nat -> nth i v 0 = if (i <? n)%nat then lag x l i else prp mu le x l (i - n)) by (intros i Hi; unfold v; rewrite tab_app, tnth by exact Hi; reflexivity).
    rewrite L in M. intros H. destruct M as [_ [M|(i & Hi & M)]]; [exfalso; cbn [car RSc] in *; lra|]. rewrite N in M by exact Hi. unfold large. destruct (Nat.ltb_spec i n) as [Li|Li]; [left; exists i|right; exists (i - n)%nat]; (split; [lia|]); rewrite M; exact H.
  Qed.
  Definition presid (s : solver_state O) (x l : nat -> R) : Prop := is_max_abs (aviol n A b p cs mu x l) m (r_prim_infeas (res s)) /\ is_max_abs (lag x l) n (r_dual_infeas (res s)).
  Lemma pinner_p : handles_pd O n m Q A mu -> forall N fi fls fin s x l le dl, (N < fi)%nat -> (0 < fls)%nat -> (0 < fin)%nat -> holda s mu x l le -> s_inner_tol _ _ s = tol ->
    (r_num_iters (res s) + N < max_iters P)%nat -> amer mu le x l - lo <= INR N * dec ->
    exists s' x' l', ainner O P p fi fls fin s dl = Ret s' /\ holda s' mu x' l' le /\ presid s' x' l' /\ amer mu le x' l' <= amer mu le x l /\
      s_inner_tol _ _ s' = s_inner_tol _ _ s /\ s_prim_tol _ _ s' = s_prim_tol _ _ s /\ r_al_iters (res s') = r_al_iters (res s) /\ r_conv (res s') = r_conv (res s) /\
      (r_num_iters (res s) <= r_num_iters (res s') <= r_num_iters (res s) + N)%nat /\
      (psmall tol le x' l' \/ (r_prim_infeas (res s') <= target_tol P /\ r_dual_infeas (res s') <= target_tol P)).
  Proof.
    intros Cap. induction N as [|N IH]; intros fi fls fin s x l le dl Hfi Hfl Hfn H Et Hn Hm; (destruct fi as [|f]; [lia|]); assert (Hp := a_pos _ _ _ _ _ _ _ _ _ H); assert (Ms := a_mus _ _ _ _ _ _ _ _ _ H); pose proof (dec_pos Hp) as Dp;
      destruct (pdiag_p O P n Q q ms A b p like beta hess Kp cs Fit s mu x l le H) as (d & E & Hd & Ke & G1 & G2 & G3 & G4 & G5 & G6 & Ic & Oc & Mp & Md & Mr & Kh); fold m in G1, G2, G4, G5, G6, Ic, Mp, Md, Mr;
      (destruct (sleb (s := RSc) (d_inner_crit _ _ d) (s_inner_tol _ _ s) || sleb (s := RSc) (d_outer_crit _ _ d) (target_tol P))%bool eqn:Bt;
       [exists (d_state _ _ d), x, l; (split; [unfold ainner; cbn [inner_loop]; unfold pass; unfold run_diagnose in E; rewrite E; cbn [bind]; rewrite Bt; reflexivity|]);
        destruct Ke as [k1 k2 k3 k4 k5]; (split; [exact Hd|]); (split; [split; assumption|]); (split; [apply Rle_refl|]); (do 4 (split; [assumption|])); (split; [rewrite k1; lia|]);
        apply orb_true_iff in Bt; cbn [sleb RSc] in Bt; (destruct Bt as [Bt|Bt]; apply Rleb_true in Bt; [left; rewrite Ic, Et in Bt; apply prhs_norm; [lra|exact Bt]|right; rewrite Oc in Bt; apply smax_le in Bt; exact Bt])|]);
      assert (Lg : large tol le x l) by (apply orb_false_iff in Bt; destruct Bt as [Bt _]; apply prhs_large; [lra|]; rewrite Ic, Et in Bt; cbn [sleb RSc] in Bt; destruct (Rle_lt_dec (inf_norm (K := RSc) (tab n (lag x l) ++ tab m (prp mu le x l))) tol) as [Z|Z]; [apply Rleb_true in Z; cbn [car RSc] in *; congruence|exact Z]);
      destruct (pstep_p fls fin d dl x l le Hfl Hfn Hd Cap G1 G2 G3 G4 G5 G6 Mr Kh Lg) as (s1 & x1 & l1 & E1 & H1 & D1 & N1 & A1 & I1 & P1 & V1); destruct Ke as [k1 k2 k3 k4 k5].
    - exfalso. pose proof (merit_low le x1 l1 Hp Ms). cbn [INR] in Hm. lra.
    - rewrite k1 in *. rewrite (proj2 (Nat.leb_gt (max_iters P) (S (r_num_iters (res s)))) ltac:(lia)) in E1. cbn beta iota in E1.
      destruct (IH f fls fin s1 x1 l1 le 0) as (s2 & x2 & l2 & E2 & H2 & R2 & M2 & T2 & U2 & A2 & C2 & N2 & Z2); try assumption; try lia.
      { rewrite I1, k4. exact Et. }
      { rewrite S_INR in Hm. lra. }
      exists s2, x2, l2. split; [unfold ainner; cbn [inner_loop]; unfold pass at 1; unfold run_diagnose in E; rewrite E; cbn [bind]; rewrite Bt; unfold run_step in E1; rewrite E1; cbn [bind]; exact E2|].
      split; [exact H2|]. split; [exact R2|]. split; [lra|]. rewrite T2, U2, A2, C2, I1, P1, A1, V1, k2, k3, k4, k5 by lia. do 4 (split; [reflexivity|]). split; [lia|exact Z2].
  Qed.
End Step.
