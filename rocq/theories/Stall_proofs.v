(** The inner loop with the classic system on a problem where the Newton step is an ascent direction (C108). *)
From Coq Require Import Reals List Bool Arith ZArith Lia Lra Psatz.
From Verif Require Import Scalar Cset_model Cset_spec Cset_proofs Armijo_model Problem_model Solver_model Solver_spec SolverR_proofs SolverS_proofs Merit_spec Merit_proofs
  Lin_spec Lin_proofs Ldlt_model Ldlt_spec Ldlt_proofs Bk_spec Descent_spec Descent_proofs DescentX_proofs Refine_proofs Qp_spec Qp_proofs QpD_proofs QpT_proofs QpC_proofs QpF_proofs QpN_proofs Fac_model Fac_spec FacX_proofs QpR_spec Act_spec Act_proofs ActD_proofs ActT_proofs ActF_proofs ActX_proofs
  Glob_spec Glob_proofs GlobD_proofs GlobT_proofs PdcO_proofs Stall_spec.
Import ListNotations.
Local Open Scope R_scope.

(** ** One step with the classic system, for any line search *)
Section Classic.
  Variables (O : oracles RSc) (P : @params RSc) (n : nat) (Q : nat -> nat -> R) (q : nat -> R) (ms : list nat) (A : nat -> nat -> R) (b : nat -> R).
  Let m := total ms.
  Variable p : @problem RSc.
  Hypothesis like : answers_like n p (qp n Q q ms A b).
  Hypothesis beta : pdal_beta P = 1 / 2.
  Hypothesis hess : hess_approx P = HM_EXACT \/ hess_approx P = HM_GAUSS_NEWTON.
  Hypothesis Kc : kkt_sys P = KKT_CLASSIC.
  Hypothesis Sy : forall i j, (i < n)%nat -> (j < n)%nat -> Q i j = Q j i.
  Hypothesis Flat : forall x v, length x = n -> length v = n -> o_integrate O x v = tab n (fun i => nth i x 0 + nth i v 0).
  Hypothesis Px : forall t x, o_px_val O 0 t x = 0.
  Hypothesis D0 : delta_init P = 0.
  Hypothesis DM : 0 <= delta_max P.
  Variable cs : list rset.
  Hypothesis Fit : sets_fit cs (p_cons p).
  Notation K := (Kr p cs).
  Notation sh := (shift_at n A b).
  Notation holda := (holda O n ms cs).
  Notation amults := (amults n ms A b p cs).
  Notation arp := (arp n A b p cs).
  Notation asel := (asel n A b p cs).
  Notation amer := (act_merit n m Q q A b K).
  Notation lag := (qp_lag n m Q q A).

  Lemma crhs_p (d : diag (K := RSc) (o_fac O) (o_bfgs O)) mu x l le : holda (d_state _ _ d) mu x l le -> (forall k, (k < m)%nat -> asel mu le x k = false -> ccone (K k) (sh mu le x k) = 0) ->
    d_J _ _ d = tab m (fun k => tab n (A k)) -> d_Jp _ _ d = tab m (fun k => tab n (chosen A (asel mu le x) k)) -> d_m _ _ d = amults mu le x l ->
    d_rhs _ _ d = tab n (lag x l) ++ tab m (arp mu le x l) ->
    step_rhs (o_fac O) (o_bfgs O) P p d = tab (n + m) (af n Q q ms A b p cs mu le x l).
  Proof.
    intros H Ze E1 E2 E3 E4. unfold step_rhs. change (s_res (o_fac O) (o_bfgs O) (d_state (o_fac O) (o_bfgs O) d)) with (res (d_state _ _ d)).
    rewrite (a_l _ _ _ _ _ _ _ _ _ H), E1, E2, E3, E4, Kc. rewrite (ndx_p _ _ _ _ _ _ _ like). fold m. cbn [m_plus_r ActD_proofs.amults].
    assert (Er : tab m (fun k => if cact (K k) (sh mu le x k) then 0 else 1 / mu * ccone (K k) (sh mu le x k)) = tab m (fun _ => 0)).
    { apply tab_ext. intros k Hk. destruct (cact (K k) (sh mu le x k)) eqn:Ec; [reflexivity|]. rewrite (Ze k Hk Ec). ring. }
    fold m. rewrite Er. rewrite !mtv_tab, vzero_tab, vsub_tab, !vadd_tab, tab_app, firstn_tab, skipn_tab, vadd_tab. rewrite tab_app. apply tab_ext. intros i Hi. unfold af.
    destruct (Nat.ltb_spec i n) as [L|L].
    - assert (Z : rsum m (fun k => 0 * A k i) = 0) by (apply rsum_zero; intros; ring).
      etransitivity; [apply (f_equal (fun z => lag x l i + z)); apply (f_equal (fun z => 0 - rsum m (fun k => l k * A k i) + rsum m (fun k => l k * chosen A (asel mu le x) k i) + z)); exact Z|]. unfold qp_lag. cbn [car RSc] in *. fold m. lra.
    - destruct (Nat.ltb_spec (n + (i - n)) n); [lia|]. f_equal. lia.
  Qed.

  Lemma cstep_p fls fin (d : diag (K := RSc) (o_fac O) (o_bfgs O)) dl mu x l le : (0 < fin)%nat -> let s := d_state _ _ d in holda s mu x l le -> handles_rows O n m Q A mu ->
    (forall k, (k < m)%nat -> asel mu le x k = false -> ccone (K k) (sh mu le x k) = 0) ->
    d_J _ _ d = tab m (fun k => tab n (A k)) -> d_Jp _ _ d = tab m (fun k => tab n (chosen A (asel mu le x) k)) -> d_m _ _ d = amults mu le x l ->
    d_rhs _ _ d = tab n (lag x l) ++ tab m (arp mu le x l) ->
    d_mg _ _ d = tab n (fun i => qp_grad n Q q x i + rsum m (fun k => act_pdal n A b K mu le x l k * A k i)) ->
    d_md _ _ d = tab m (fun k => 1 / 2 * mu * (l k - act_pdal n A b K mu le x l k)) ->
    r_merit (res s) = amer mu le x l ->
    kkt_hess P 0 (w_hess _ _ (wsp s)) (d_phess _ _ d) (w_vhp _ _ (wsp s)) = tab n (fun i => tab n (Q i)) ->
    exists dx e, let B := chosen A (asel mu le x) in
      (forall i, (i < n)%nat -> rsum n (fun j => Q i j * dx j) + rsum m (fun k => B k i * e k) = - (qp_grad n Q q x i + rsum m (fun k => l k * B k i))) /\
      (forall k, (k < m)%nat -> rsum n (fun j => B k j * dx j) - mu * e k = - (ccone (K k) (sh mu le x k) - mu * l k)) /\
      forall ph lr, (forall tr a, ph tr a = Some (amer mu le (fun i => x i + a * dx i) (fun k => l k + a * e k))) ->
        run (K := RSc) (o_qr O) ph fls (lsopt P) (amer mu le x l) (act_slope n m Q q A b K mu le x l dx e) = Some lr ->
        exists s', run_step O fls fin P p d dl = Ret (if (max_iters P <=? S (r_num_iters (res s)))%nat then Stop _ _ s' else Next _ _ s' 0) /\
          holda s' mu (fun i => x i + r_alpha lr * dx i) (fun k => l k + r_alpha lr * e k) le /\
          r_num_iters (res s') = S (r_num_iters (res s)) /\ r_al_iters (res s') = r_al_iters (res s) /\
          s_inner_tol _ _ s' = s_inner_tol _ _ s /\ s_prim_tol _ _ s' = s_prim_tol _ _ s /\ r_prim_infeas (res s') = r_prim_infeas (res s) /\ r_dual_infeas (res s') = r_dual_infeas (res s) /\
          r_conv (res s') = if (max_iters P <=? S (r_num_iters (res s)))%nat then MAX_ITERS_REACHED else r_conv (res s).
  Proof.
    intros Hfi s H Cap0 Ze E1 E2 E3 E4 E5 E6 E7 E8. assert (Hp := a_pos _ _ _ _ _ _ _ _ _ H). set (sel := asel mu le x). set (B := chosen A sel).
    assert (Cap : handles O n m Q B mu) by apply Cap0.
    unfold run_step, step. fold s. rewrite (crhs_p d mu x l le H Ze E1 E2 E3 E4), E3.
    rewrite (a_mu _ _ _ _ _ _ _ _ _ H), (a_sets _ _ _ _ _ _ _ _ _ H).
    match goal with |- context [kkt_dual_diag ?a1 ?a2 ?a3 ?a4 ?a5] => assert (T : kkt_dual_diag a1 a2 a3 a4 a5 = Ret (tab m (fun _ => - mu))) by exact (add_p P n Q q ms A b p like Kc cs mu a5); rewrite T; clear T end. cbn [bind].
    assert (EM : step_matrix (o_fac O) (o_bfgs O) P p d (tab m (fun _ => - mu)) = kmat n m Q B mu).
    { unfold step_matrix. fold s. rewrite (a_rho _ _ _ _ _ _ _ _ _ H), E2. change (s_ws (o_fac O) (o_bfgs O) s) with (wsp s). rewrite E8. rewrite (numdual_p _ _ _ _ _ _ _ like), (ndx_p _ _ _ _ _ _ _ like). apply (matrix_p n Q ms B mu). }
    cbn [car RSc] in *. rewrite EM. change (s_ws (o_fac O) (o_bfgs O) s) with (wsp s). change (s_res (o_fac O) (o_bfgs O) s) with (res s).
    set (F := w_fac _ _ (wsp s)).
    destruct (Cap F) as [In Ex]. change (qp_kkt n m Q B mu) with (kmat n m Q B mu) in In, Ex.
    assert (EI : inertia_loop (K := RSc) (o_fac O) (o_compute O) (o_signature O) fin P n m (kmat n m Q B mu) F 0 dl = Ret (kmat n m Q B mu, o_compute O F (kmat n m Q B mu), 0, 0)).
    { destruct fin as [|f]; [lia|]. cbn [inertia_loop]. cbn [sleb sltb RSc s0]. rewrite rleb_t by exact DM. rewrite rltb_f by lra. rewrite In.
      f_equal. f_equal. f_equal. f_equal. apply upd_diag_zero. }
    rewrite D0. assert (En : numdual p = m) by exact (numdual_p _ _ _ _ _ _ _ like). rewrite En. rewrite (ndx_p _ _ _ _ _ _ _ like). cbn [car RSc] in *. rewrite EI. cbn [bind].
    set (F1 := o_compute O F (kmat n m Q B mu)) in *. set (ff0 := af n Q q ms A b p cs mu le x l). set (rhs := tab (n + m) ff0).
    set (pd := iterative_refinement (K := RSc) (o_fac O) (o_solve O) P F1 (kmat n m Q B mu) rhs).
    assert (Ksy : forall i j, (i < n + m)%nat -> (j < n + m)%nat -> kf n Q B mu i j = kf n Q B mu j i) by (intros; apply kf_sym, Sy).
    assert (Pd : length pd = (n + m)%nat /\ forall i, (i < n + m)%nat -> rsum (n + m) (fun j => kf n Q B mu i j * nth j pd 0) = - ff0 i).
    { unfold pd, iterative_refinement. apply (refine_exact O P F1 (n + m) (kf n Q B mu) ff0 Ksy Ex).
      - apply Ex. unfold rhs, vneg. cbn [car RSc]. rewrite map_length. apply tab_length.
      - intros i Hi. destruct (Ex (vneg (K := RSc) rhs)) as [_ S]; [unfold rhs, vneg; cbn [car RSc]; rewrite map_length; apply tab_length|].
        specialize (S i Hi). unfold mvec in S. etransitivity; [|etransitivity; [exact S|]].
        + apply rsum_ext. intros j Hj. f_equal. symmetry. apply (kmat_mirror n m Q B mu Sy); assumption.
        + unfold rhs. rewrite vneg_tab, tnth by exact Hi. reflexivity. }
    destruct Pd as [Lp Pd]. rewrite bad_R.
    set (dx := fun i => nth i pd 0). set (e := fun k => nth (n + k) pd 0).
    assert (Ep : pd = tab (n + m) dx) by (apply tab_self, Lp).
    assert (Edx : firstn n pd = tab n dx) by (rewrite Ep; apply firstn_tab).
    assert (Ede : skipn n pd = tab m e) by (rewrite Ep; apply skipn_tab).
    exists dx, e. cbv zeta. split; [|split].
    { intros i Hi. specialize (Pd i ltac:(lia)). change (rsum (n + m) (fun j => kf n Q B mu i j * dx j) = - ff0 i) in Pd. rewrite kmat_mv in Pd by lia. unfold ff0, af in Pd. rewrite (proj2 (Nat.ltb_lt i n) Hi) in Pd. exact Pd. }
    { intros k Hk. specialize (Pd (n + k)%nat ltac:(lia)). change (rsum (n + m) (fun j => kf n Q B mu (n + k) j * dx j) = - ff0 (n + k)%nat) in Pd. rewrite kmat_mv in Pd by lia. unfold ff0, af in Pd. rewrite (proj2 (Nat.ltb_ge (n + k) n)) in Pd by lia. replace (n + k - n)%nat with k in Pd by lia. exact Pd. }
    intros ph lr Hph Hrun.
    cbn [car RSc] in *. rewrite Edx, Ede, E5, E6, E7.
    assert (Esl : (vdot (K := RSc) (tab n (fun i => qp_grad n Q q x i + rsum m (fun k => act_pdal n A b K mu le x l k * A k i))) (tab n dx) + vdot (K := RSc) (tab m (fun k => 1 / 2 * mu * (l k - act_pdal n A b K mu le x l k))) (tab m e)) = act_slope n m Q q A b K mu le x l dx e) by (rewrite !vdot_tab; reflexivity).
    change (sadd (s := RSc)) with Rplus. cbn [car RSc] in *. rewrite Esl.
    set (ff := fun a => amer mu le (fun i => x i + a * dx i) (fun k => l k + a * e k)) in *. set (mm := fun a => amults mu le (fun i => x i + a * dx i) (fun k => l k + a * e k)).
    assert (Eph : forall a, run_phi O P p s (tab n dx) (tab m e) a = Ret (ff a, mm a)) by (intros a; exact (pphi O P n Q q ms A b p like beta Flat Px cs Fit mu s x l le dx e a H)). unfold run_phi in Eph.
    match goal with |- context [run ?a1 ?a2 ?a3 ?a4 ?a5 ?a6] => assert (T : run a1 a2 a3 a4 a5 a6 = Some lr) end.
    { etransitivity; [|exact Hrun]. f_equal. apply FunctionalExtensionality.functional_extensionality. intros tr. apply FunctionalExtensionality.functional_extensionality. intros a. rewrite Hph.
      unfold phi_opt. match goal with |- context [phi_eval ?a1 ?a2 ?a3 ?a4 ?a5 ?a6 ?a7 ?a8 ?a9 ?a10] => assert (T : phi_eval a1 a2 a3 a4 a5 a6 a7 a8 a9 a10 = Ret (ff a, mm a)) by exact (Eph a); rewrite T; clear T end. reflexivity. }
    cbn [car RSc] in *. rewrite T; clear T.
    match goal with |- context [existsb ?g ?tt] => assert (T : existsb g tt = false) end.
    { assert (G : forall tt, existsb (fun a => is_ub (phi_eval (o_integrate O) (o_px_val O) (o_fac O) (o_bfgs O) P p s (tab n dx) (tab m e) a)) tt = false) by (induction tt as [|a tt IH]; [reflexivity|]; cbn [existsb]; rewrite IH; match goal with |- context [@is_ub ?ty ?o] => assert (T : @is_ub ty o = false) by exact (f_equal is_ub (Eph a)); rewrite T; clear T end; reflexivity).
      exact (G (r_trace lr)). }
    rewrite T; clear T.
    rewrite (a_x _ _ _ _ _ _ _ _ _ H), (a_l _ _ _ _ _ _ _ _ _ H). unfold try_step. rewrite !bad_R. unfold bad_scalar. cbn [snan sfin RSc negb orb].
    assert (Lm : last_mults (o_integrate O) (o_px_val O) (o_fac O) (o_bfgs O) P p s (tab n dx) (tab m e) (r_trace lr) = match r_trace lr with [] => None | a :: _ => Some (mm a) end).
    { destruct (r_trace lr) as [|a tr]; [reflexivity|]. cbn [last_mults]. match goal with |- context [phi_eval ?a1 ?a2 ?a3 ?a4 ?a5 ?a6 ?a7 ?a8 ?a9 ?a10] => assert (T : phi_eval a1 a2 a3 a4 a5 a6 a7 a8 a9 a10 = Ret (ff a, mm a)) by exact (Eph a); rewrite T; clear T end. reflexivity. }
    cbn [car RSc] in *. rewrite Lm.
    eexists. split; [|split].
    - match goal with |- context [if ?c then Stop _ _ ?a else Next _ _ ?a' ?z] => reflexivity end.
    - constructor; cbn; try solve [exact Hp|reflexivity|apply tab_length|apply H].
      + exact (f_equal fst (ptry O n ms Flat x l dx e (r_alpha lr))).
      + exact (f_equal snd (ptry O n ms Flat x l dx e (r_alpha lr))).
      + destruct (r_trace lr); [apply H|apply tab_length].
      + destruct (r_trace lr); [apply H|apply tab_length].
    - repeat split.
  Qed.
End Classic.

(** ** The line search on a convex parabola that rises from the start *)
Section Halving.
  Variables (qr : R -> R -> R -> R -> R -> R -> R * R) (it : interp_type) (v g c : R).
  Hypothesis It : it <> CUBIC.
  Hypothesis G : 0 < g.
  Hypothesis Cp : 0 < c.
  Let f (a : R) : R := v + g * a + c * (a * a).
  Variable ph : list R -> R -> option R.
  Hypothesis Hph : forall tr a, 0 <= a -> ph tr a = Some (f a).
  Notation o := (halving it).
  Lemma half_next a pre : 0 < a -> next_alpha (K := RSc) qr o (sample3 (K := RSc) 0 v g) (sample2 (K := RSc) a (f a)) pre a = 1 / 2 * a.
  Proof.
    intros Ha. unfold next_alpha, halving. cbn [interp contraction_min contraction_max]. destruct it; [cbn; unfold shalf; cbn; field|idtac|contradiction It; reflexivity].
    unfold minimize_interpolant, quad_interp. cbn [sphi sa sdphi sample2 sample3]. cbn [car RSc sadd ssub smul sdiv sopp s0 stwo].
    assert (E : (f a - v - a * g) / (a * a) = c) by (unfold f; field; lra).
    assert (E' : - g / (stwo (K := RSc) * ((f a - v - a * g) / (a * a))) = - (g / (2 * c))). { rewrite E. unfold stwo. cbn. field. lra. }
    unfold clip. cbn [sltb RSc smul sdiv ssub sopp]. 
    match goal with |- (if ?bb then _ else _) = _ => assert (T : bb = true) end.
    { apply orb_true_iff. right. apply rltb_t. eapply Rle_lt_trans; [apply Req_le, E'|]. assert (0 < g / (2 * c)) by (apply Rmult_lt_0_compat; [lra|apply Rinv_0_lt_compat; lra]). change (- (g / (2 * c)) < 1 / 2 * a). lra. }
    rewrite T; clear T.
    match goal with |- (if ?bb then _ else _) = _ => assert (T : bb = true) end.
    { apply rltb_t. unfold poly_eval. cbn. rewrite E. nra. }
    rewrite T; clear T. reflexivity.
  Qed.
  Lemma half_loop : forall n a latest pre tr, (1 <= n)%nat -> a = (1 / 2) ^ (20 - n) -> (n <= 20)%nat -> latest = sample2 (K := RSc) a (f a) ->
    exists l t, main_loop (K := RSc) qr ph n o v g a latest pre tr = (1 / 1000000, l, t).
  Proof.
    induction n as [|n IH]; intros a latest pre tr Hn Ha Hl El; [lia|]. assert (Hp : 0 < a) by (rewrite Ha; apply pow_lt; lra).
    cbn [main_loop]. rewrite El. cbn [sphi sample2].
    match goal with |- context [if ?bb then (a, _, _) else _] => assert (T : bb = false) end.
    { apply rleb_f. cbn. unfold f. nra. }
    rewrite T; clear T. cbn [car RSc]. change (s0 (s := RSc)) with 0. pose proof (half_next a pre Hp) as Nx. cbn [car RSc] in Nx. rewrite Nx. unfold guard_alpha. cbn [snan RSc]. change (alpha_min o) with (1 / 1000000).
    destruct n as [|n].
    - assert (E : 1 / 2 * a < 1 / 1000000) by (rewrite Ha; cbn; lra).
      unfold smax. cbn [sltb RSc]. rewrite rltb_t by exact E. rewrite Hph by lra. cbn [sleb RSc]. rewrite rleb_t by lra. eexists _, _. reflexivity.
    - assert (E : (1 / 2) ^ 19 <= 1 / 2 * a).
      { rewrite Ha. replace (1 / 2 * (1 / 2) ^ (20 - S (S n))) with ((1 / 2) ^ (19 - n)) by (replace (19 - n)%nat with (S (20 - S (S n))) by lia; reflexivity).
        replace 19%nat with (19 - n + n)%nat at 1 by lia. rewrite pow_add. rewrite <- (Rmult_1_r ((1 / 2) ^ (19 - n))) at 2. apply Rmult_le_compat_l; [apply pow_le; lra|]. pose proof (pow_incr (1 / 2) 1 n ltac:(lra)) as W. rewrite pow1 in W. exact W. }
      assert (E2 : 1 / 1000000 < 1 / 2 * a) by (eapply Rlt_le_trans; [|exact E]; cbn; lra).
      unfold smax. cbn [sltb RSc]. rewrite rltb_f by lra. rewrite Hph by lra. cbn [sleb RSc]. rewrite rleb_f by lra.
      apply IH; [lia| |lia|reflexivity]. rewrite Ha. replace (20 - S n)%nat with (S (20 - S (S n))) by lia. reflexivity.
  Qed.
  Lemma half_run fls : (0 < fls)%nat -> 1 / 10000000000000 <= g -> exists lr, run (K := RSc) qr ph fls o v g = Some lr /\ r_alpha lr = 1 / 1000000.
  Proof.
    intros Hf Hg. destruct fls as [|fls]; [lia|]. unfold run. cbn [first_loop]. change (s1 (s := RSc)) with 1. rewrite Hph by lra. change (dphi_thresh o) with (1 / 10000000000000). cbn [sltb RSc]. unfold sabs. cbn [RSc].
    match goal with |- context [if ?bb then _ else _] => assert (T : bb = false) end. { apply rltb_f. rewrite Rabs_pos_eq by lra. exact Hg. }
    rewrite T; clear T. change (max_num_steps o) with 20%nat.
    destruct (half_loop 20 1 (sample2 (K := RSc) 1 (f 1)) (sample0 (K := RSc)) [1] ltac:(lia) eq_refl ltac:(lia) eq_refl) as (l & t & E). cbn [car RSc] in *. rewrite E.
    eexists. split; [reflexivity|]. cbn [r_alpha]. change (alpha_min o) with (1 / 1000000). unfold smax. cbn. unfold Rltb. destruct (Rlt_dec _ _); reflexivity.
  Qed.
End Halving.
Lemma floor_final qr it v g c ph fls : let f := (fun a : R => v + g * a + c * (a * a)) in it <> CUBIC -> 1 / 10000000000000 <= g -> 0 < c -> (forall tr a, 0 <= a -> ph tr a = Some (f a)) -> (0 < fls)%nat ->
  exists r, run (K := RSc) qr ph fls (halving it) v g = Some r /\ r_alpha r = 1 / 1000000 /\ v < f (r_alpha r).
Proof.
  intros f It G Cp Hph Hf. destruct (half_run qr it v g c It ltac:(lra) Cp ph Hph fls Hf G) as (r & E & A). exists r. split; [exact E|]. split; [exact A|]. rewrite A. unfold f. nra.
Qed.

(** ** Minimise 1/2 x^2 subject to x + 11 <= 0 *)
Definition slope_qp : @problem RSc := qp 1 (fun _ _ => 1) (fun _ => 0) [1%nat] (fun _ _ => 1) (fun _ => -11).
Definition slope_state (it : interp_type) (N : nat) : solver_state (dense_oracles 2) := setup (K := RSc) (dldlt RSc) unit (halving_params it N) slope_qp [CNeg (K := RSc) 1] [0] (dldlt_new (K := RSc) 2) tt.
Section Run.
  Variables (it : interp_type) (N : nat).
  Hypothesis It : it <> CUBIC.
  Notation SO := (dense_oracles 2).
  Notation SP := (halving_params it N).
  Notation cs := [CNeg (K := RSc) (1 / 100)].
  Notation hold := (holda SO 1 [1%nat] cs).
  Notation qx t := (fun _ : nat => -8 * t).
  Notation ql t := (fun _ : nat => -400 * t).
  Lemma slope_like : answers_like 1 slope_qp (qp 1 (fun _ _ => 1) (fun _ => 0) [1%nat] (fun _ _ => 1) (fun _ => -11)).
  Proof. split; [reflexivity|]. split; [intros; repeat split|]. repeat constructor. Qed.
  Lemma slope_fit : sets_fit cs (p_cons slope_qp). Proof. split; repeat constructor. Qed.
  Lemma slope_plain : plain SO SP 1.
  Proof. constructor; cbn; try solve [reflexivity|lra|split; lra|right; reflexivity]. intros x v Hx _. rewrite Hx. reflexivity. Qed.
  Lemma neg_in v : v < 0 -> cact (Kr slope_qp cs 0) v = false /\ ccone (Kr slope_qp cs 0) v = 0 /\ cproj (Kr slope_qp cs 0) v = v.
  Proof.
    intros H. change (Kr slope_qp cs 0) with KNeg. unfold cact, ccone, cproj, neg1_cone, neg1, smax, smin. cbn. unfold Rltb. repeat (destruct (Rlt_dec _ _)); repeat split; try reflexivity; try (exfalso; lra).
  Qed.
  Lemma neg_out v : 0 < v -> ccone (Kr slope_qp cs 0) v = v /\ cproj (Kr slope_qp cs 0) v = 0.
  Proof.
    intros H. change (Kr slope_qp cs 0) with KNeg. unfold cact, ccone, cproj, neg1_cone, neg1, smax, smin. cbn. unfold Rltb. repeat (destruct (Rlt_dec _ _)); repeat split; try reflexivity; try (exfalso; lra).
  Qed.
  Lemma one_pass fls fin (s : solver_state SO) dl t : (0 < fls)%nat -> (0 < fin)%nat -> hold s (1 / 100) (qx t) (ql t) (fun _ => -400) -> 9 / 10 <= t <= 1 -> s_inner_tol _ _ s <= 1 ->
    exists s', pass (o_integrate SO) (o_px_val SO) (o_px_grad SO) (o_px_hess SO) (o_fac SO) (o_compute SO) (o_signature SO) (o_solve SO) (o_bfgs SO) (o_bfgs_update SO) (o_qr SO) fls fin SP slope_qp s dl =
        Ret (if (N <=? S (r_num_iters (res s)))%nat then Stop _ _ s' else Next _ _ s' 0) /\
      hold s' (1 / 100) (qx (t * (1 - 1 / 1000000))) (ql (t * (1 - 1 / 1000000))) (fun _ => -400) /\
      r_num_iters (res s') = S (r_num_iters (res s)) /\ r_al_iters (res s') = r_al_iters (res s) /\ s_inner_tol _ _ s' = s_inner_tol _ _ s /\ 1 <= r_dual_infeas (res s') /\
      r_conv (res s') = if (N <=? S (r_num_iters (res s)))%nat then MAX_ITERS_REACHED else r_conv (res s).
  Proof.
    intros Hf Hi H Ht Tol. destruct slope_plain as [Pb Ph [Pd1 Pd2] _ Pf Pp].
    destruct (adiag_p SO SP 1 (fun _ _ => 1) (fun _ => 0) [1%nat] (fun _ _ => 1) (fun _ => -11) slope_qp slope_like Pb Ph eq_refl cs slope_fit s (1 / 100) (qx t) (ql t) (fun _ => -400) H)
      as (d & E & Hd & Ke & E1 & E2 & E3 & E4 & E5 & E6 & Ic & Oc & Mp & Md & E7 & E8).
    assert (Lz : forall i, qp_lag 1 1 (fun _ _ => 1) (fun _ => 0) (fun _ _ => 1) (qx t) (ql t) i = -408 * t) by (intros i; unfold qp_lag, qp_grad; cbn; lra).
    assert (Cz : qp_con 1 (fun _ _ => 1) (fun _ => -11) (qx t) 0 = 11 - 8 * t) by (unfold qp_con; cbn; lra).
    assert (Sz : shift_at 1 (fun _ _ => 1) (fun _ => -11) (1 / 100) (fun _ => -400) (qx t) 0 = 7 - 8 * t) by (unfold shift_at; rewrite Cz; lra).
    destruct (neg_in (7 - 8 * t) ltac:(lra)) as (A1 & A2 & _).
    assert (Dl : 1 <= r_dual_infeas (res (d_state _ _ d))).
    { eapply Rle_trans; [|exact (max_abs_ge _ _ _ 0%nat Md ltac:(lia))]. eapply Rle_trans; [|apply Req_le; exact (f_equal Rabs (eq_sym (Lz 0%nat)))]. rewrite Rabs_left by lra. lra. }
    unfold pass. unfold run_diagnose in E. rewrite E. cbn [bind].
    assert (Bt : (sleb (s := RSc) (d_inner_crit _ _ d) (s_inner_tol _ _ s)) = false).
    { cbn [sleb RSc]. apply rleb_f. eapply Rle_lt_trans; [exact Tol|]. rewrite Ic. pose proof (maxl_nth _ _ (inf_norm_maxl (tab 1 (qp_lag 1 (total [1%nat]) (fun _ _ => 1) (fun _ => 0) (fun _ _ => 1) (qx t) (ql t)) ++ tab (total [1%nat]) (arp 1 (fun _ _ => 1) (fun _ => -11) slope_qp cs (1 / 100) (fun _ => -400) (qx t) (ql t))))) as [M1 M2].
      specialize (M1 0%nat ltac:(cbn; lia)). cbn [nth app tab map seq] in M1. eapply Rlt_le_trans; [|exact M1]. eapply Rlt_le_trans; [|apply Req_le; exact (f_equal Rabs (eq_sym (Lz 0%nat)))]. rewrite Rabs_left by lra. lra. }
    assert (Bo : (sleb (s := RSc) (d_outer_crit _ _ d) (target_tol SP)) = false).
    { cbn [sleb RSc]. apply rleb_f. rewrite Oc. eapply Rlt_le_trans; [|exact (proj1 (smax_R_ge _ _))]. eapply Rlt_le_trans; [|exact Dl]. cbn. unfold slit. cbn. lra. }
    rewrite Bt, Bo. cbn [orb].
    assert (Sel : asel 1 (fun _ _ => 1) (fun _ => -11) slope_qp cs (1 / 100) (fun _ => -400) (qx t) 0 = false) by (unfold asel; rewrite Sz; exact A1).
    assert (Cap : handles_rows SO 1 1 (fun _ _ => 1) (fun _ _ => 1) (1 / 100)).
    { pose proof tiny_default. apply (dense_rows _ _ _ _ _ _ _ _ 1 1 (fun _ _ => 1) (fun _ _ => 1) (1 / 100) 1 ramp_strong); cbn [car RSc] in *; lra. }
    destruct (cstep_p SO SP 1 (fun _ _ => 1) (fun _ => 0) [1%nat] (fun _ _ => 1) (fun _ => -11) slope_qp slope_like Pb eq_refl ltac:(reflexivity) Pf Pp Pd1 Pd2 cs slope_fit fls fin d dl (1 / 100) (qx t) (ql t) (fun _ => -400) Hi Hd Cap)
      as (dx & e & K1 & K2 & R); try assumption.
    { intros k Hk _. assert (k = 0)%nat by (cbn in Hk; lia). subst k. rewrite Sz. exact A2. }
    specialize (K1 0%nat ltac:(lia)). specialize (K2 0%nat ltac:(cbn; lia)). unfold chosen, qp_grad in K1, K2. rewrite Sz in K2. cbn [total fold_right Nat.add rsum] in K1, K2. rewrite Sel in K1, K2. rewrite A2 in K2.
    assert (Dx : dx 0%nat = 8 * t) by lra. assert (De : e 0%nat = 400 * t) by lra. clear K1 K2.
    set (mer := act_merit 1 (total [1%nat]) (fun _ _ => 1) (fun _ => 0) (fun _ _ => 1) (fun _ => -11) (Kr slope_qp cs) (1 / 100) (fun _ => -400)) in *.
    assert (Mer : forall a, 0 <= a -> mer (fun i => -8 * t + a * dx i) (fun k => -400 * t + a * e k) = mer (qx t) (ql t) + t * (8400 - 8064 * t) * a + 4032 * (t * t) * (a * a)).
    { assert (V : forall y z, 0 < y 0%nat + 7 - 1 / 200 * z 0%nat -> mer y z = 1 / 2 * (y 0%nat * y 0%nat) + 100 * ((y 0%nat + 7 - 1 / 200 * z 0%nat) * (y 0%nat + 7 - 1 / 200 * z 0%nat)) + 1 / 400 * (z 0%nat * z 0%nat)).
      { intros y z Hy. unfold mer, act_merit, env1. cbn [total fold_right Nat.add rsum]. assert (Es : shift_pd_at 1 (fun _ _ => 1) (fun _ => -11) (1 / 100) (fun _ => -400) y z 0 = y 0%nat + 7 - 1 / 200 * z 0%nat) by (unfold shift_pd_at, shift_at, qp_con; cbn; lra).
        rewrite Es. rewrite (proj2 (neg_out _ Hy)). change (Kr slope_qp cs 0) with KNeg. cbn [cpen]. unfold qp_obj. cbn. field. }
      intros a Ha. rewrite !V; [rewrite Dx, De; field| |]; rewrite ?Dx, ?De; nra. }
    assert (Sl : act_slope 1 (total [1%nat]) (fun _ _ => 1) (fun _ => 0) (fun _ _ => 1) (fun _ => -11) (Kr slope_qp cs) (1 / 100) (fun _ => -400) (qx t) (ql t) dx e = t * (8400 - 8064 * t)).
    { unfold act_slope, act_pdal, qp_grad. cbn [total fold_right Nat.add rsum]. assert (Es : shift_pd_at 1 (fun _ _ => 1) (fun _ => -11) (1 / 100) (fun _ => -400) (qx t) (ql t) 0 = 7 - 6 * t) by (unfold shift_pd_at; rewrite Sz; lra).
      rewrite Es. rewrite (proj1 (neg_out (7 - 6 * t) ltac:(lra))), Dx, De. field. }
    destruct (half_run (o_qr SO) it (mer (qx t) (ql t)) (t * (8400 - 8064 * t)) (4032 * (t * t)) It ltac:(nra) ltac:(nra) (fun _ a => Some (mer (fun i => -8 * t + a * dx i) (fun k => -400 * t + a * e k))) ltac:(intros tr a Ha; exact (f_equal Some (Mer a Ha))) fls Hf ltac:(nra)) as (lr & Er & Ea).
    destruct (R (fun _ a => Some (mer (fun i => -8 * t + a * dx i) (fun k => -400 * t + a * e k))) lr) as (s' & E' & H' & N' & AL' & I' & _ & Pr' & Du' & Cv'); [reflexivity|rewrite Sl; exact Er|].
    destruct Ke as [k1 k2 k3 k4 k5]. change (max_iters SP) with N in E', Cv'. rewrite k1 in *. exists s'. split; [exact E'|]. split.
    { destruct H'. constructor; try assumption.
      - rewrite a_x. apply tab_ext. intros i Hi'. assert (i = 0)%nat by lia. subst i. cbn [car RSc] in *. rewrite Dx, Ea. lra.
      - rewrite a_l. apply tab_ext. intros i Hi'. assert (i = 0)%nat by (cbn in Hi'; lia). subst i. cbn [car RSc] in *. rewrite De, Ea. lra. }
    split; [exact N'|]. split; [rewrite AL'; exact k2|]. split; [rewrite I'; exact k4|]. split; [rewrite Du'; exact Dl|]. rewrite Cv', k3. reflexivity.
  Qed.
  Lemma slope_inner fls fin : (0 < fls)%nat -> (0 < fin)%nat -> forall j f (s : solver_state SO) dl t, (S j <= f)%nat -> (r_num_iters (res s) + S j = N)%nat -> hold s (1 / 100) (qx t) (ql t) (fun _ => -400) ->
    9 / 10 <= t * (1 - 1 / 1000000) ^ j -> 0 < t <= 1 -> s_inner_tol _ _ s <= 1 ->
    exists s', inner SO SP slope_qp f fls fin s dl = Ret s' /\ hold s' (1 / 100) (qx (t * (1 - 1 / 1000000) ^ S j)) (ql (t * (1 - 1 / 1000000) ^ S j)) (fun _ => -400) /\
      r_num_iters (res s') = N /\ r_al_iters (res s') = r_al_iters (res s) /\ 1 <= r_dual_infeas (res s') /\ r_conv (res s') = MAX_ITERS_REACHED.
  Proof.
    intros Hf Hi. induction j as [|j IH]; intros f s dl t Hj Hn H Ht Ht1 Tol; (destruct f as [|f]; [lia|]).
    - destruct (one_pass fls fin s dl t Hf Hi H ltac:(cbn in Ht; lra) Tol) as (s' & E & H' & N' & A' & I' & D' & C'). assert (Lb : (N <=? S (r_num_iters (res s)))%nat = true) by (apply Nat.leb_le; lia). rewrite Lb in E, C'.
      exists s'. unfold inner. cbn [inner_loop]. rewrite E. cbn [bind]. split; [reflexivity|]. split; [|repeat split; try assumption; lia].
      replace (t * (1 - 1 / 1000000) ^ 1) with (t * (1 - 1 / 1000000)) by (cbn; ring). exact H'.
    - assert (Pw : 0 < (1 - 1 / 1000000) ^ j <= 1). { split; [apply pow_lt; lra|]. pose proof (pow_incr (1 - 1 / 1000000) 1 j ltac:(lra)) as W. rewrite pow1 in W. exact W. }
      assert (Ht' : 9 / 10 <= t) by (cbn [pow] in Ht; nra).
      destruct (one_pass fls fin s dl t Hf Hi H ltac:(lra) Tol) as (s' & E & H' & N' & A' & I' & D' & C'). assert (Lb : (N <=? S (r_num_iters (res s)))%nat = false) by (apply Nat.leb_gt; lia). rewrite Lb in E.
      destruct (IH f s' 0 (t * (1 - 1 / 1000000)) ltac:(lia) ltac:(lia) H' ltac:(eapply Rle_trans; [exact Ht|apply Req_le; cbn; ring]) ltac:(lra) ltac:(rewrite I'; exact Tol)) as (s2 & E2 & H2 & N2 & A2 & D2 & C2).
      exists s2. unfold inner in *. cbn [inner_loop]. rewrite E. cbn [bind]. split; [exact E2|]. split; [|repeat split; try assumption; rewrite A2; exact A'].
      replace (t * (1 - 1 / 1000000) ^ S (S j)) with (t * (1 - 1 / 1000000) * (1 - 1 / 1000000) ^ S j) by (cbn; ring). exact H2.
  Qed.
  Lemma slope_run fo fi fls fin : (2 <= fo)%nat -> (N <= fi)%nat -> (0 < fls)%nat -> (0 < fin)%nat -> (0 < N)%nat -> INR N <= 100000 ->
    exists s', run_solve SO fo fi fls fin SP slope_qp (Some (slope_state it N)) [-8] [-400] = Ret (s', MAX_ITERS_REACHED) /\
      r_x (res s') = [-8 * (1 - 1 / 1000000) ^ N] /\ r_lams (res s') = [-400 * (1 - 1 / 1000000) ^ N] /\ r_num_iters (res s') = N /\ r_al_iters (res s') = 1%nat.
  Proof.
    intros Ho Hi Hf Hn HN HI. destruct fo as [|[|fo]]; [lia|lia|].
    set (si := init_solve (o_pow SO) (o_fac SO) (o_bfgs SO) SP slope_qp [-8] [-400] (slope_state it N)).
    assert (Hs : holdq SO 1 [1%nat] [CNeg (K := RSc) 1] si (1 / 100) (en [-8]) (en [-400]) (en [-400])).
    { apply (init_holdq SO SP 1 (fun _ _ => 1) (fun _ => 0) [1%nat] (fun _ _ => 1) (fun _ => -11) slope_qp (slope_state it N) [-8] [-400] slope_like); try reflexivity; [cbn; lra|]. repeat split. }
    assert (H0 : hold si (1 / 100) (qx 1) (ql 1) (fun _ => -400)).
    { destruct Hs. constructor; try assumption; [rewrite a_x|rewrite a_l]; cbn; f_equal; lra. }
    assert (T0 : s_inner_tol _ _ si <= 1).
    { unfold si, init_solve. cbn. apply smax_le. split; [|unfold slit; cbn; lra]. rewrite Rpower_1 by lra. lra. }
    assert (Bern : forall j, 1 - INR j / 1000000 <= (1 - 1 / 1000000) ^ j).
    { induction j as [|j IH]; [cbn; lra|]. rewrite S_INR. cbn [pow]. pose proof (pos_INR j). nra. }
    assert (Nj : exists j, N = S j) by (exists (N - 1)%nat; lia). destruct Nj as (j & Nj).
    assert (Hj : 9 / 10 <= 1 * (1 - 1 / 1000000) ^ j) by (specialize (Bern j); rewrite Nj, S_INR in HI; lra).
    destruct (slope_inner fls fin Hf Hn j fi (record_params (o_fac SO) (o_bfgs SO) si) 0 1 ltac:(lia) ltac:(cbn; lia) ltac:(exact (q_rec SO 1 [1%nat] [CNeg (K := RSc) 1] si (1 / 100) _ _ _ H0)) Hj ltac:(lra) T0) as (s1 & E1 & H1 & N1 & A1 & D1 & C1).
    pose proof (outer_unfold SO SP slope_qp eq_refl (S fo) fi fls fin si s1 ltac:(cbn; lia) ltac:(cbn; lia) E1) as U.
    destruct (Rlt_dec _ _) as [L|_]; [exfalso|].
    { assert (T : target_tol SP = 1 / 1000000) by reflexivity. rewrite T in L. pose proof (proj1 (smax_R_ge (r_prim_infeas (res s1)) (r_dual_infeas (res s1)))). cbn [car RSc] in *. lra. }
    destruct (close_res SO SP eq_refl s1) as (_ & _ & CN & CA & CX & CL & CC).
    set (s2 := after SO SP (close SO SP s1)) in *.
    assert (E2 : outer SO SP slope_qp (S fo) fi fls fin s2 = Ret s2).
    { unfold outer. cbn [outer_loop]. assert (Lb : (r_num_iters (s_res (o_fac SO) (o_bfgs SO) s2) <? max_iters SP)%nat = false) by (apply Nat.ltb_ge; change (N <= r_num_iters (res (close SO SP s1)))%nat; rewrite CN, N1; lia). rewrite Lb. reflexivity. }
    rewrite E2 in U. unfold run_solve, solve. fold si. unfold outer in U. rewrite U. cbn [bind]. eexists. split; [|split; [|split; [|split]]].
    - f_equal. f_equal. change (r_conv (res (close SO SP s1)) = MAX_ITERS_REACHED). rewrite CC. exact C1.
    - change (r_x (res (close SO SP s1)) = [-8 * (1 - 1 / 1000000) ^ N]). rewrite CX, (a_x _ _ _ _ _ _ _ _ _ H1), Nj. cbn [tab map seq]. f_equal. ring.
    - change (r_lams (res (close SO SP s1)) = [-400 * (1 - 1 / 1000000) ^ N]). rewrite CL, (a_l _ _ _ _ _ _ _ _ _ H1), Nj. cbn. f_equal. ring.
    - change (r_num_iters (res (close SO SP s1)) = N). rewrite CN. exact N1.
    - change (S (r_al_iters (res (close SO SP s1))) = 1%nat). rewrite CA, A1. reflexivity.
  Qed.
End Run.

Lemma slope_refuted it N : it <> CUBIC -> (0 < N)%nat -> INR N <= 100000 -> exists p (s : solver_state (dense_oracles 2)), let P := halving_params it N in
  p_cons p = qp_cons 1 (fun _ _ => 1) (fun _ => -11) 0 [1%nat] /\ (forall y, p_cost p [y] = Some (1 / 2 * (y * y))) /\ sets s = [CNeg (K := RSc) 1] /\
  (forall fo fi fls fin, (2 <= fo)%nat -> (N <= fi)%nat -> (0 < fls)%nat -> (0 < fin)%nat -> exists s' x l,
    run_solve (dense_oracles 2) fo fi fls fin P p (Some s) [-8] [-400] = Ret (s', MAX_ITERS_REACHED) /\ r_x (res s') = [x] /\ r_lams (res s') = [l] /\ r_num_iters (res s') = N /\
    3 < x + 11 /\ rising (-8) (-400) < rising x l).
Proof.
  intros It Hn HN. exists slope_qp, (slope_state it N). cbv zeta. split; [reflexivity|]. split; [intros y; unfold slope_qp, qp; cbn; f_equal; cbn [car RSc] in *; unfold qp_obj; cbn; lra|]. split; [reflexivity|].
  intros fo fi fls fin H1 H2 H3 H4. destruct (slope_run it N It fo fi fls fin H1 H2 H3 H4 Hn HN) as (s' & E & X & L & I & _). set (t := (1 - 1 / 1000000) ^ N) in *.
  assert (T : 0 < t < 1).
  { unfold t. split; [apply pow_lt; lra|]. destruct N as [|j]; [lia|]. cbn [pow]. assert (Pw : 0 < (1 - 1 / 1000000) ^ j <= 1). { split; [apply pow_lt; lra|]. pose proof (pow_incr (1 - 1 / 1000000) 1 j ltac:(lra)) as W. rewrite pow1 in W. exact W. } lra. }
  exists s', (-8 * t), (-400 * t). split; [exact E|]. split; [exact X|]. split; [exact L|]. split; [exact I|]. split; [lra|].
  unfold rising. rewrite !Rmax_right by lra. nra.
Qed.
