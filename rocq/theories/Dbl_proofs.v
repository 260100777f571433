(** The stopping criterion of the inner loop with a penalty (C107). *)
From Coq Require Import Reals List Bool Arith ZArith Lia Lra Psatz.
From Verif Require Import Scalar Cset_model Cset_spec Cset_proofs Armijo_model Problem_model Solver_model Solver_spec SolverR_proofs SolverS_proofs Merit_spec Merit_proofs
  Lin_spec Lin_proofs Ldlt_model Ldlt_spec Ldlt_proofs Bk_spec Descent_spec Descent_proofs DescentX_proofs Refine_proofs Qp_spec Qp_proofs QpD_proofs QpT_proofs QpC_proofs QpF_proofs QpN_proofs Fac_model Fac_spec FacX_proofs QpR_spec Act_spec Act_proofs ActD_proofs ActT_proofs ActF_proofs ActX_proofs
  Glob_spec Glob_proofs GlobD_proofs GlobT_proofs GlobF_proofs GlobX_proofs Pdc_spec Pdc_proofs PdcO_proofs Dbl_spec.
Import ListNotations.
Local Open Scope R_scope.

Lemma norm_rows n m (f g : nat -> R) : inf_norm (K := RSc) (tab n f ++ tab m g) = 0 <-> (forall i, (i < n)%nat -> f i = 0) /\ (forall k, (k < m)%nat -> g k = 0).
Proof.
  set (v := tab n f ++ tab m g). pose proof (maxl_nth v _ (inf_norm_maxl v)) as M. assert (L : length v = (n + m)%nat) by (unfold v; rewrite app_length, !tab_length; reflexivity).
  assert (N : forall i, (i < n + m)%nat -> nth i v 0 = if (i <? n)%nat then f i else g (i - n)%nat) by (intros i Hi; unfold v; rewrite tab_app, tnth by exact Hi; reflexivity).
  rewrite L in M. assert (Z : forall a, Rabs a <= 0 -> a = 0) by (intros a H; destruct (Req_dec a 0) as [E|E]; [exact E|]; apply Rabs_pos_lt in E; lra). split.
  - intros H. rewrite H in M. destruct M as [M _]. split.
    + intros i Hi. specialize (M i ltac:(lia)). rewrite N in M by lia. rewrite (proj2 (Nat.ltb_lt i n) Hi) in M. apply Z, M.
    + intros k Hk. specialize (M (n + k)%nat ltac:(lia)). rewrite N in M by lia. rewrite (proj2 (Nat.ltb_ge (n + k) n)) in M by lia. replace (n + k - n)%nat with k in M by lia. apply Z, M.
  - intros [H1 H2]. apply Rle_antisym; [|destruct M as [_ [[_ ->]|(i & Hi & <-)]]; [lra|apply Rabs_pos]].
    apply (max_abs_le (fun i => nth i v 0) (n + m) _ 0); [exact M|lra|]. intros i Hi. rewrite N by exact Hi. destruct (Nat.ltb_spec i n); [rewrite H1 by assumption|rewrite H2 by lia]; rewrite Rabs_R0; lra.
Qed.

(** A point with the residuals of either system zero. *)
Lemma zero_rows n Q q ms A b p (like : answers_like n p (qp n Q q ms A b)) cs (Fit : sets_fit cs (p_cons p)) mu (Hm : 0 < mu) (Ms : Forall (fun c => mu_of c = mu) cs) le x l kap v : let m := total ms in 0 < kap ->
  (forall k, v k = qp_con n A b x k + mu * (le k - l k) + mu / kap * l k) ->
  (forall k, (k < m)%nat -> ccone (Kr p cs k) (v k) = mu / kap * l k) <->
  (let z := (fun k => qp_con n A b x k + mu * (le k - l k)) in in_set (product_of cs ms) (tab m z) /\
   forall w, length w = m -> in_set (product_of cs ms) w -> rsum m (fun k => l k * (nth k w 0 - z k)) <= kap * (penalty (product_of cs ms) w - penalty (product_of cs ms) (tab m z))).
Proof.
  intros m Hk Ev. set (z := fun k => qp_con n A b x k + mu * (le k - l k)). cbv zeta. set (C := product_of cs ms).
  assert (Nr : nearest C m mu v (fun k => cproj (Kr p cs k) (v k))) by exact (row_nearest n Q q ms A b p like cs Fit mu Hm Ms v).
  assert (Iff : nearest C m mu v z <-> in_set C (tab m z) /\ forall w, length w = m -> in_set C w -> rsum m (fun k => l k * (nth k w 0 - z k)) <= kap * (penalty C w - penalty C (tab m z))).
  { unfold nearest. assert (Eq : forall w, rsum m (fun k => (v k - z k) * (nth k w 0 - z k)) = mu / kap * rsum m (fun k => l k * (nth k w 0 - z k))).
    { intros w. rewrite <- rsum_scale. apply rsum_ext. intros k _. rewrite Ev. unfold z. ring. }
    assert (Mk : 0 < mu / kap) by (apply Rdiv_lt_0_compat; assumption).
    split; intros [H1 H2]; (split; [exact H1|]); intros w Lw Hw; specialize (H2 w Lw Hw).
    - rewrite Eq in H2. apply (Rmult_le_reg_l (mu / kap)); [exact Mk|]. eapply Rle_trans; [exact H2|]. right. field. lra.
    - rewrite Eq. replace (mu * (penalty C w - penalty C (tab m z))) with (mu / kap * (kap * (penalty C w - penalty C (tab m z)))) by (field; lra). apply Rmult_le_compat_l; lra. }
  rewrite <- Iff. split.
  - intros H. apply (nearest_ext_z C m mu v (fun k => cproj (Kr p cs k) (v k))); [|exact Nr]. intros k Hk'. pose proof (cone_sum (Kr p cs k) (v k)) as CS. specialize (H k Hk'). unfold z. rewrite (Ev k) in CS at 3. lra.
  - intros H k Hk'. pose proof (nearest_unique C m mu v _ _ Nr H k Hk') as U. pose proof (cone_sum (Kr p cs k) (v k)) as CS. cbv beta in U. rewrite U in CS. rewrite (Ev k) in CS at 2. unfold z in CS. lra.
Qed.
Lemma criterion_final (O : oracles RSc) (P : @params RSc) n Q q ms A b p (s : solver_state O) : answers_like n p (qp n Q q ms A b) -> plain O P n -> act_state n ms p s ->
  exists d, run_diagnose O P p s = Ret d /\
    (d_inner_crit _ _ d = 0 <-> weighted_subproblem (weight (kkt_sys P)) n (total ms) Q q A b (product_of (sets s) ms) (mu s) (en (w_lams_prev _ _ (wsp s))) (en (r_x (res s))) (en (r_lams (res s)))).
Proof.
  intros like [Pb Ph [Pd1 Pd2] _ Pf Pp] Hs. assert (Fit := as_fit _ _ _ _ Hs). assert (Mu := as_mu _ _ _ _ Hs). assert (Pos := as_pos _ _ _ _ Hs).
  set (m := total ms). set (x := en (r_x (res s))). set (l := en (r_lams (res s))). set (le := en (w_lams_prev _ _ (wsp s))).
  assert (H : holda O n ms (sets s) s (mu s) x l le) by exact (state_holda n ms p s Hs). unfold weighted_subproblem. cbv zeta.
  destruct (kkt_sys P) eqn:Kc.
  - destruct (adiag_p O P n Q q ms A b p like Pb Ph Kc (sets s) Fit s (mu s) x l le H) as (d & E & _ & _ & _ & _ & _ & _ & _ & _ & Ic & _).
    exists d. split; [exact E|]. rewrite Ic, norm_rows. cbn [weight].
    pose proof (zero_rows n Q q ms A b p like (sets s) Fit (mu s) Pos Mu le x l 1 (shift_at n A b (mu s) le x) Rlt_0_1 ltac:(intros; unfold shift_at; field)) as ZR. cbv zeta in ZR. fold m in ZR. rewrite <- ZR.
    split; intros [H1 H2]; (split; [exact H1|]); intros k Hk; specialize (H2 k Hk); unfold arp in *; [unfold Rdiv; rewrite Rinv_1, Rmult_1_r; lra|rewrite H2; field].
  - destruct (pdiag_p O P n Q q ms A b p like Pb Ph Kc (sets s) Fit s (mu s) x l le H) as (d & E & _ & _ & _ & _ & _ & _ & _ & _ & Ic & _).
    exists d. split; [exact E|]. rewrite Ic, norm_rows. cbn [weight].
    pose proof (zero_rows n Q q ms A b p like (sets s) Fit (mu s) Pos Mu le x l 2 (shift_pd_at n A b (mu s) le x l) Rlt_0_2 ltac:(intros; unfold shift_pd_at, shift_at; field)) as ZR. cbv zeta in ZR. fold m in ZR. rewrite <- ZR.
    split; intros [H1 H2]; (split; [exact H1|]); intros k Hk; specialize (H2 k Hk); unfold GlobD_proofs.prp, act_pdal in *; set (cc := ccone _ _) in *.
    + replace (1 / 2 * mu s * (cc * (1 / mu s / (1 / 2)) - l k)) with (cc - mu s / 2 * l k) in H2 by (field; lra). lra.
    + replace (1 / 2 * mu s * (cc * (1 / mu s / (1 / 2)) - l k)) with (cc - mu s / 2 * l k) by (field; lra). lra.
Qed.

(** ** Minimise 1/2 x^2 - 20 x + |x| *)
Definition edge : @problem RSc := qp 1 (fun _ _ => 1) ramp_q [1%nat] (fun _ _ => 1) (fun _ => 0).
Definition edge_params : @params RSc := pd_started (1 / 100) 100.
Definition edge_state : solver_state (dense_oracles 2) := setup (K := RSc) (dldlt RSc) unit edge_params edge [CL1 (K := RSc) 1] [0] (dldlt_new (K := RSc) 2) tt.
Notation EO := (dense_oracles 2).
Notation eh := (holdq EO 1 [1%nat] [CL1 (K := RSc) 1]).
Notation e18 := (fun _ : nat => 18).
Notation e2 := (fun _ : nat => 2).

Lemma edge_like : answers_like 1 edge (qp 1 (fun _ _ => 1) ramp_q [1%nat] (fun _ _ => 1) (fun _ => 0)).
Proof. split; [reflexivity|]. split; [intros; repeat split|]. repeat constructor. Qed.
Lemma edge_fit mu : sets_fit [CL1 (K := RSc) mu] (p_cons edge). Proof. split; repeat constructor. Qed.
Lemma l1_big mu v : 0 < mu < v -> ccone (KL1 mu) v = mu /\ cproj (KL1 mu) v = v - mu.
Proof.
  intros H. assert (E : cproj (KL1 mu) v = v - mu).
  { unfold cproj, l11, sabs. cbn. rewrite Rabs_pos_eq by lra. unfold ssign. cbn. unfold Rltb. destruct (Rlt_dec 0 v); [|exfalso; lra]. destruct (Rlt_dec v 0); [exfalso; lra|]. unfold smax. cbn. unfold Rltb. destruct (Rlt_dec (v - mu) 0); [exfalso; lra|lra]. }
  pose proof (cone_sum (KL1 mu) v). split; [lra|exact E].
Qed.
Lemma edge_row mu v : 0 < mu < v -> ccone (Kr edge [CL1 (K := RSc) mu] 0) v = mu /\ cproj (Kr edge [CL1 (K := RSc) mu] 0) v = v - mu.
Proof. exact (l1_big mu v). Qed.
Lemma edge_inner f fls fin (s : solver_state EO) mu : eh s mu e18 e2 e2 -> mu < 1 -> 0 <= s_inner_tol _ _ s ->
  exists s', inner EO edge_params edge (S f) fls fin s 0 = Ret s' /\ eh s' mu e18 e2 e2 /\ keeps EO s s' /\ r_prim_infeas (res s') = mu /\ r_dual_infeas (res s') = 0.
Proof.
  intros H M1 Ht. assert (Hp := a_pos _ _ _ _ _ _ _ _ _ H). destruct (pd_started_plain 1 2 (1 / 100) 100) as [Pb Ph [Pd1 Pd2] _ Pf Pp].
  destruct (pdiag_p EO edge_params 1 (fun _ _ => 1) ramp_q [1%nat] (fun _ _ => 1) (fun _ => 0) edge edge_like Pb Ph eq_refl [CL1 (K := RSc) mu] (edge_fit mu) s mu e18 e2 e2 H) as (d & E & Hd & Ke & _ & _ & _ & _ & _ & _ & Ic & _ & Mp & Md & _ & _).
  assert (Lz : forall i, qp_lag 1 1 (fun _ _ => 1) ramp_q (fun _ _ => 1) e18 e2 i = 0) by (intros i; unfold qp_lag, qp_grad, ramp_q; cbn; lra).
  assert (Cz : qp_con 1 (fun _ _ => 1) (fun _ => 0) e18 0 = 18) by (unfold qp_con; cbn; lra).
  exists (d_state _ _ d). split; [|split; [exact Hd|split; [exact Ke|split]]].
  - unfold inner. cbn [inner_loop]. unfold pass. unfold run_diagnose in E. rewrite E. cbn [bind].
    assert (Bt : (sleb (s := RSc) (d_inner_crit _ _ d) (s_inner_tol _ _ s)) = true).
    { cbn [sleb RSc]. apply rleb_t. rewrite Ic. eapply Rle_trans; [apply Req_le|exact Ht]. apply norm_rows. split; intros i Hi; [apply Lz|].
      assert (i = 0)%nat by (cbn in Hi; lia). subst i. unfold GlobD_proofs.prp, act_pdal, shift_pd_at, shift_at. rewrite Cz. rewrite (proj1 (edge_row mu (18 + mu * 2 - 1 / 2 * mu * 2) ltac:(lra))). field. lra. }
    rewrite Bt. reflexivity.
  - apply Rle_antisym; [apply (max_abs_le _ _ _ mu Mp ltac:(lra)); intros k Hk; assert (k = 0)%nat by (cbn in Hk; lia); subst k|eapply Rle_trans; [|exact (max_abs_ge _ _ _ 0%nat Mp ltac:(cbn; lia))]];
      unfold aviol; rewrite Cz, (proj2 (edge_row mu (18 + mu * 2) ltac:(lra))); replace (18 - (18 + mu * 2 - mu)) with (- mu) by lra; rewrite Rabs_Ropp, Rabs_pos_eq; lra.
  - apply Rle_antisym; [apply (max_abs_le _ _ _ 0 Md ltac:(lra)); intros k Hk|eapply Rle_trans; [|exact (max_abs_ge _ _ _ 0%nat Md ltac:(lia))]; apply Rabs_pos].
    eapply Rle_trans; [apply Req_le; exact (f_equal Rabs (Lz k))|]. rewrite Rabs_R0. lra.
Qed.

(** Two outer iterations at the penalty parameter mu: an acceptance, after which the tolerance is exactly mu, and a rejection. *)
Definition fresh (s : solver_state EO) (mu : R) : Prop := eh s mu e18 e2 e2 /\ 0 <= s_inner_tol _ _ s /\ s_prim_tol _ _ s = smax (K := RSc) (1 * Rpower mu (1 / 10)) (1 / 1000000) /\ r_num_iters (res s) = 0%nat.
Notation Ep := edge_params.
Lemma edge_pow : forall x y, 0 < x -> o_pow EO x y = Rpower x y. Proof. reflexivity. Qed.
Lemma edge_lo : 0 < mu_lower Ep. Proof. cbn. unfold slit. cbn. lra. Qed.
Lemma edge_in : mu_lower Ep <= mu_init Ep. Proof. cbn. unfold slit. cbn. lra. Qed.
Lemma edge_up : mu_init Ep < mu_upper Ep. Proof. cbn. lra. Qed.
Lemma edge_two fo fi fls fin (s : solver_state EO) mu : fresh s mu -> 1 / 1000000 <= mu < 1 -> (S (r_al_iters (res s)) < 1000)%nat ->
  exists s', outer EO Ep edge (S (S fo)) (S fi) fls fin s = outer EO Ep edge fo (S fi) fls fin s' /\ fresh s' (mu * (1 / 100)) /\ r_al_iters (res s') = S (S (r_al_iters (res s))).
Proof.
  intros (H & Ht & Hq & Hn) [M1 M2] Ha. assert (Tt : target_tol Ep = 1 / 1000000) by reflexivity.
  assert (Pa : mu < Rpower mu (1 / 10)). { rewrite <- (Rpower_1 mu) at 1 by lra. unfold Rpower. apply exp_increasing. assert (ln mu < 0) by (rewrite <- ln_1; apply ln_increasing; lra). lra. }
  destruct (edge_inner fi fls fin (record_params (o_fac EO) (o_bfgs EO) s) mu (q_rec EO 1 [1%nat] [CL1 (K := RSc) 1] s mu _ _ _ H) M2 Ht) as (s1 & E1 & H1 & [k1 k2 k3 k4 k5] & P1 & D1).
  rewrite (outer_unfold EO Ep edge eq_refl (S fo) (S fi) fls fin s s1 ltac:(rewrite Hn; cbn; lia) ltac:(cbn; lia) E1). rewrite P1, D1, Tt.
  destruct (Rlt_dec _ _) as [L|_]; [exfalso; rewrite smax_R_l in L by lra; cbn [car RSc] in *; lra|].
  change (s_inner_tol (o_fac EO) (o_bfgs EO) (record_params (o_fac EO) (o_bfgs EO) s)) with (s_inner_tol _ _ s) in k4. change (s_prim_tol (o_fac EO) (o_bfgs EO) (record_params (o_fac EO) (o_bfgs EO) s)) with (s_prim_tol _ _ s) in k5.
  change (r_al_iters (res (record_params (o_fac EO) (o_bfgs EO) s))) with (r_al_iters (res s)) in k2. change (r_num_iters (res (record_params (o_fac EO) (o_bfgs EO) s))) with (r_num_iters (res s)) in k1.
  assert (Q1 : s_prim_tol _ _ s1 = Rpower mu (1 / 10)) by (rewrite k5, Hq, Rmult_1_l; apply smax_R_l; cbn [car RSc] in *; lra).
  destruct (upd_acc EO Ep 1 [1%nat] [CL1 (K := RSc) 1] eq_refl edge_pow edge_lo edge_in edge_up s1 mu e18 e2 e2 H1 ltac:(rewrite P1, Q1; exact Pa)) as (H2 & I2 & P2).
  set (s2 := after EO Ep (close EO Ep s1)) in *.
  assert (P2' : s_prim_tol _ _ s2 = mu).
  { rewrite P2, Q1, Tt. replace (mu_upper Ep) with 1 by reflexivity. replace (prim_beta Ep) with (9 / 10) by reflexivity. replace (mu / 1) with mu by lra.
    transitivity (smax (K := RSc) mu (1 / 1000000)); [f_equal|apply smax_R_l; lra]. rewrite <- Rpower_plus. replace (1 / 10 + 9 / 10) with 1 by lra. apply Rpower_1. lra. }
  assert (I2' : 0 <= s_inner_tol _ _ s2). { rewrite I2. eapply Rle_trans; [|exact (proj1 (smax_R_ge _ (inner_tol_min Ep)))]. cbn. unfold slit. cbn. lra. }
  destruct (close_res EO Ep eq_refl s1) as (_ & _ & CN & CA & _).
  assert (N2 : r_num_iters (res s2) = 0%nat) by (change (r_num_iters (res (close EO Ep s1)) = 0%nat); rewrite CN, k1; exact Hn).
  assert (A2 : r_al_iters (res s2) = S (r_al_iters (res s))) by (change (S (r_al_iters (res (close EO Ep s1))) = S (r_al_iters (res s))); rewrite CA, k2; reflexivity).
  destruct (edge_inner fi fls fin (record_params (o_fac EO) (o_bfgs EO) s2) mu (q_rec EO 1 [1%nat] [CL1 (K := RSc) 1] s2 mu _ _ _ H2) M2 I2') as (s3 & E3 & H3 & [j1 j2 j3 j4 j5] & P3 & D3).
  change (s_prim_tol (o_fac EO) (o_bfgs EO) (record_params (o_fac EO) (o_bfgs EO) s2)) with (s_prim_tol _ _ s2) in j5.
  change (r_al_iters (res (record_params (o_fac EO) (o_bfgs EO) s2))) with (r_al_iters (res s2)) in j2. change (r_num_iters (res (record_params (o_fac EO) (o_bfgs EO) s2))) with (r_num_iters (res s2)) in j1.
  rewrite (outer_unfold EO Ep edge eq_refl fo (S fi) fls fin s2 s3 ltac:(rewrite N2; cbn; lia) ltac:(rewrite A2; cbn; lia) E3). rewrite P3, D3, Tt.
  destruct (Rlt_dec _ _) as [L|_]; [exfalso; rewrite smax_R_l in L by lra; cbn [car RSc] in *; lra|].
  assert (Lw : mu_lower Ep = 1 / 1000000000) by reflexivity.
  destruct (upd_rej EO Ep 1 [1%nat] [CL1 (K := RSc) 1] edge_pow edge_lo edge_in s3 mu e18 e2 e2 H3 ltac:(rewrite Lw; lra) ltac:(rewrite P3, j5, P2'; apply Rlt_irrefl)) as (mu' & H4 & _ & M4 & I4 & P4).
  destruct (close_res EO Ep eq_refl s3) as (_ & _ & CN3 & CA3 & _).
  exists (after EO Ep (close EO Ep s3)). split; [reflexivity|]. split.
  - assert (Em : mu' = mu * (1 / 100)) by (rewrite M4 by (rewrite Lw; lra); rewrite Lw; replace (mu_factor Ep) with (1 / 100) by reflexivity; apply Rmax_left; lra). rewrite Em in *.
    split; [exact H4|]. split; [rewrite I4; eapply Rle_trans; [|exact (proj1 (smax_R_ge _ (inner_tol_min Ep)))]; cbn; unfold slit; cbn; lra|]. split; [exact P4|].
    change (r_num_iters (res (close EO Ep s3)) = 0%nat). rewrite CN3, j1. exact N2.
  - change (S (r_al_iters (res (close EO Ep s3))) = S (S (r_al_iters (res s)))). rewrite CA3, j2, A2. reflexivity.
Qed.
Lemma edge_run fo fi fls fin : exists s' : solver_state EO, run_solve EO (7 + fo) (S fi) fls fin Ep edge (Some edge_state) [18] [2] = Ret (s', SUCCESS) /\ r_x (res s') = [18] /\ r_lams (res s') = [2] /\ r_al_iters (res s') = 6%nat /\ r_num_iters (res s') = 0%nat.
Proof.
  set (si := init_solve (o_pow EO) (o_fac EO) (o_bfgs EO) Ep edge [18] [2] edge_state).
  assert (Hi : holdq EO 1 [1%nat] [CL1 (K := RSc) 1] si (1 / 100) (en [18]) (en [2]) (en [2])).
  { apply (init_holdq EO Ep 1 (fun _ _ => 1) ramp_q [1%nat] (fun _ _ => 1) (fun _ => 0) edge edge_state [18] [2] edge_like); try reflexivity; [cbn; lra|]. repeat split. }
  assert (F0 : fresh si (1 / 100)).
  { split; [constructor; try apply Hi; reflexivity|]. split; [unfold si; cbn [init_solve]; eapply Rle_trans; [|exact (proj1 (smax_R_ge _ (inner_tol_min Ep)))]; cbn; unfold slit; cbn; lra|]. split; reflexivity. }
  destruct (edge_two (5 + fo) fi fls fin si (1 / 100) F0 ltac:(lra) ltac:(change (r_al_iters (res si)) with 0%nat; lia)) as (s2 & E2 & F2 & A2).
  destruct (edge_two (3 + fo) fi fls fin s2 _ F2 ltac:(lra) ltac:(rewrite A2; change (r_al_iters (res si)) with 0%nat; lia)) as (s4 & E4 & F4 & A4).
  destruct (edge_two (1 + fo) fi fls fin s4 _ F4 ltac:(lra) ltac:(rewrite A4, A2; change (r_al_iters (res si)) with 0%nat; lia)) as (s6 & E6 & F6 & A6).
  destruct F6 as (H & Ht & _ & Hn). set (mu := 1 / 100 * (1 / 100) * (1 / 100) * (1 / 100)) in *. assert (M2 : mu < 1) by (unfold mu; lra).
  destruct (edge_inner fi fls fin (record_params (o_fac EO) (o_bfgs EO) s6) mu (q_rec EO 1 [1%nat] [CL1 (K := RSc) 1] s6 mu _ _ _ H) M2 Ht) as (s7 & E7 & H7 & [k1 k2 k3 k4 k5] & P7 & D7).
  change (r_al_iters (res (record_params (o_fac EO) (o_bfgs EO) s6))) with (r_al_iters (res s6)) in k2. change (r_num_iters (res (record_params (o_fac EO) (o_bfgs EO) s6))) with (r_num_iters (res s6)) in k1.
  assert (Al : r_al_iters (res s6) = 6%nat) by (rewrite A6, A4, A2; reflexivity).
  pose proof (outer_unfold EO Ep edge eq_refl fo (S fi) fls fin s6 s7 ltac:(rewrite Hn; cbn; lia) ltac:(rewrite Al; cbn; lia) E7) as U. rewrite P7, D7 in U.
  assert (Tt : target_tol Ep = 1 / 1000000) by reflexivity. rewrite Tt in U.
  destruct (Rlt_dec _ _) as [L|L]; [|exfalso; apply L; rewrite smax_R_l; unfold mu; cbn [car RSc] in *; lra].
  destruct (close_res EO Ep eq_refl s7) as (_ & _ & CN & CA & CX & CL & _).
  assert (Whole : outer EO Ep edge (7 + fo) (S fi) fls fin si = Ret (set_conv (o_fac EO) (o_bfgs EO) SUCCESS (close EO Ep s7))) by (transitivity (outer EO Ep edge (1 + fo) (S fi) fls fin s6); [etransitivity; [exact E2|]; etransitivity; [exact E4|]; exact E6|exact U]).
  unfold run_solve, solve. fold si. unfold outer in Whole. rewrite Whole. cbn [bind]. eexists. split; [reflexivity|].
  match goal with |- context [r_x (res ?z)] => change (r_x (res z)) with (r_x (res (close EO Ep s7))); change (r_lams (res z)) with (r_lams (res (close EO Ep s7))); change (r_al_iters (res z)) with (r_al_iters (res (close EO Ep s7))); change (r_num_iters (res z)) with (r_num_iters (res (close EO Ep s7))) end.
  rewrite CX, CL, CA, CN, k1, k2, Hn, Al. split; [apply H7|]. split; [apply H7|]. split; reflexivity.
Qed.
Lemma edge_refuted : exists P p (s : solver_state EO) x, let d := default_params (K := RSc) in P = pd_started (mu_init d) (max_iters d) /\ rho_init d = 0 /\ sets s = [CL1 (K := RSc) 1] /\
  p_cons p = qp_cons 1 (fun _ _ => 1) (fun _ => 0) 0 [1%nat] /\ (forall y, p_cost p [y] = Some (1 / 2 * (y * y) - 20 * y)) /\
  (forall fo fi fls fin, (7 <= fo)%nat -> (1 <= fi)%nat -> exists s', run_solve EO fo fi fls fin P p (Some s) [18] [2] = Ret (s', SUCCESS) /\ r_x (res s') = [x] /\ r_lams (res s') = [2]) /\
  let f := (fun y => 1 / 2 * (y * y) - 20 * y + Rabs y) in f 19 = f x - 1 / 2 /\ forall y, f 19 <= f y.
Proof.
  exists edge_params, edge, edge_state, 18. cbv zeta. split; [reflexivity|]. split; [reflexivity|]. split; [reflexivity|]. split; [reflexivity|]. split; [|split; [|split]].
  - intros y. unfold edge, qp, ramp_q. cbn. f_equal. cbn [car RSc] in *. unfold qp_obj. cbn. lra.
  - intros fo fi fls fin H1 H2. destruct fi as [|fi]; [lia|]. destruct (edge_run (fo - 7) fi fls fin) as (s' & E & X & L & _). replace (7 + (fo - 7))%nat with fo in E by lia. exists s'. repeat split; assumption.
  - rewrite !Rabs_pos_eq by lra. lra.
  - intros y. rewrite (Rabs_pos_eq 19) by lra. pose proof (Rle_0_sqr (y - 19)) as S. unfold Rsqr in S. pose proof (Rle_abs y). lra.
Qed.
