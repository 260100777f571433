(** Quadratic problems with the primal-dual system: the linear solvers, the constants, and an example (C104). *)
From Coq Require Import Reals List Bool Arith ZArith Lia Lra Psatz Permutation.
From Verif Require Import Scalar Cset_model Cset_spec Problem_model Symb_model Lin_spec Lin_proofs Symb_spec Symb_proofs SymbL_proofs SymbC_proofs SymbP_proofs SymbQ_proofs Armijo_model Solver_model Solver_spec Ldlt_model Ldlt_spec Ldlt_proofs LdltG_proofs LdltB_proofs LdltS_proofs LdltO_proofs LdltQ_proofs LdltZ_proofs
  Bk_spec Descent_spec Descent_proofs DescentX_proofs Qp_spec Qp_proofs QpD_proofs QpT_proofs QpF_proofs QpN_proofs Fac_model Fac_spec Fac_proofs FacX_proofs QpR_spec Act_spec Act_proofs ActX_proofs Glob_spec Glob_proofs GlobT_proofs GlobF_proofs.
Import ListNotations.
Local Open Scope R_scope.

Section Wmat.
  Variables (n m : nat) (Q A : nat -> nat -> R) (mu c : R) (sel : nat -> bool).
  Hypothesis Sc : strongly_convex n Q c.
  Let w := gw mu sel.
  Let B := chosen A sel.
  Lemma gw_low k : 0 <= mu -> mu / 2 <= w k. Proof. intros H. unfold w, gw. destruct (sel k); lra. Qed.
  Lemma wmat_by : 0 <= mu -> qd_by (n + m) (mirror (entries (wmat n m Q B w))) (fun i => Nat.ltb i n) c (mu / 2).
  Proof.
    intros M0. destruct Sc as [Sy H]. apply kkt_by; [lia| | |].
    - intros x. refine (Rle_trans _ _ _ (H x) _). right. unfold form. apply rsum_ext. intros i Hi. apply rsum_ext. intros j Hj. rewrite wmat_mirror by (try exact Sy; lia). rewrite wf_qq by assumption. reflexivity.
    - intros i H1 H2. rewrite wmat_get by lia. replace i with (n + (i - n))%nat by lia. rewrite wf_dd, Nat.eqb_refl. pose proof (gw_low (i - n) M0). lra.
    - intros i j H1 H2 H3. rewrite wmat_get by lia. replace i with (n + (i - n))%nat by lia. replace j with (n + (j - n))%nat by lia. rewrite wf_dd. destruct (Nat.eqb_spec (i - n) (j - n)); [lia|reflexivity].
  Qed.
  Lemma wmat_kkt : 0 < c -> 0 < mu -> kkt_matrix n (n + m) (entries (wmat n m Q B w)).
  Proof.
    intros C0 M0. destruct Sc as [Sy H]. split; [|split].
    - intros x [k [Hk X]]. replace (form n (mirror (entries (wmat n m Q B w))) x) with (form n Q x).
      + refine (Rlt_le_trans _ _ _ _ (H x)). apply Rmult_lt_0_compat; [exact C0|]. fold (nrm n x). pose proof (nrm_pos n x) as G. destruct (Rle_lt_or_eq_dec _ _ G) as [G'|G']; [exact G'|].
        exfalso. apply X. assert (Y : x k * x k = 0) by (apply (rsum_pos_zero n (fun i => x i * x i) (fun k _ => Rle_0_sqr (x k)) (eq_sym G') k Hk)). apply Rmult_integral in Y. tauto.
      + unfold form. apply rsum_ext. intros i Hi. apply rsum_ext. intros j Hj. rewrite wmat_mirror by (try exact Sy; lia). rewrite wf_qq by assumption. reflexivity.
    - intros i H1 H2. rewrite wmat_get by lia. replace i with (n + (i - n))%nat by lia. rewrite wf_dd, Nat.eqb_refl. pose proof (gw_low (i - n) (Rlt_le _ _ M0)). lra.
    - intros i j H1 H2 H3. rewrite wmat_get by lia. replace i with (n + (i - n))%nat by lia. replace j with (n + (j - n))%nat by lia. rewrite wf_dd. destruct (Nat.eqb_spec (i - n) (j - n)); [lia|reflexivity].
  Qed.
End Wmat.
Lemma dense_pd pw ig pv pg ph bf bu qr n m Q A mu c : strongly_convex n Q c -> tiny (K := RSc) < c -> tiny (K := RSc) < mu / 2 ->
  handles_pd (mkOracles (K := RSc) pw ig pv pg ph (dldlt RSc) (dense_fac (K := RSc) (n + m)) (dense_sig (K := RSc)) (dense_solve_list (K := RSc)) bf bu qr) n m Q A mu.
Proof.
  intros Sc Hc Hm sel F. pose proof tiny_pos as TP. assert (M0 : 0 <= mu) by (cbn [car RSc] in *; lra). cbn [o_signature o_compute o_solve]. set (N := (n + m)%nat) in *. change (pd_kkt n m Q A mu sel) with (wmat n m Q (chosen A sel) (gw mu sel)) in *. set (M := wmat n m Q (chosen A sel) (gw mu sel)) in *. cbv zeta.
  destruct (by_factor N (mirror (entries M)) (fun i => Nat.ltb i n) c (mu / 2) ltac:(cbn [car RSc] in *; lra) ltac:(cbn [car RSc] in *; lra) (wmat_by n m Q A mu c sel Sc M0)) as (L & D & FA & SD).
  assert (FA' : factor_of N (entries M) L D). { destruct FA as [U G]. split; [exact U|]. intros i j Hj Hi. rewrite <- G by assumption. unfold mirror. destruct (Nat.leb_spec j i); [reflexivity|lia]. }
  assert (BD : forall i, (i < N)%nat -> tiny (K := RSc) < Rabs (D i) /\ (if Nat.ltb i n then 0 < D i else D i < 0)) by (intros i Hi; exact (pivots_big n i D c (mu / 2) Hc Hm (SD i Hi))).
  destruct (compute_ok F N (entries M) L D FA') as (d' & C1 & C2 & [C3 C3'] & C4 & C5 & C6 & _).
  { intros i Hi. destruct (BD i ltac:(lia)) as [_ B]. destruct (Nat.ltb i n); lra. }
  assert (EF : dense_fac (K := RSc) N F M = d'). { unfold dense_fac. change (fun i j => nth j (nth i M []) (s0 (s := RSc))) with (entries M). rewrite C1. reflexivity. }
  rewrite EF. unfold dense_sig. rewrite C2. split.
  - replace m with (N - n)%nat by (unfold N; lia). apply (inertia_by_index N n (seq 0 N)); [unfold N; lia|reflexivity|]. intros i Hi. rewrite seq_nth by exact Hi. rewrite C3' by exact Hi. apply BD. exact Hi.
  - intros v Lv. unfold dense_solve_list. rewrite C2. split; [rewrite map_length, seq_length; reflexivity|].
    apply (solves_ext N _ (dldlt_solve (K := RSc) d' (fun i => nth i v (s0 (s := RSc))))); [intros i Hi; apply DescentX_proofs.tab_nth, Hi|]. apply C6. intros i Hi. apply BD, Hi.
Qed.
Lemma block_pd fuel junk pw ig pv pg ph bf bu qr prims duals : let n := Qp_spec.total prims in let m := Qp_spec.total duals in let k := (length prims + length duals)%nat in
  (0 < k)%nat -> (k ^ k < fuel)%nat -> exists b, allocate_bldlt (K := RSc) fuel junk prims duals = Ret b /\
    forall Q A mu c, strongly_convex n Q c -> tiny (K := RSc) < c -> tiny (K := RSc) < mu / 2 ->
      handles_pd (mkOracles (K := RSc) pw ig pv pg ph (bldlt RSc) (block_fac (K := RSc) (bl_sym b) (n + m)) (block_sig (K := RSc)) (block_solve_list (K := RSc)) bf bu qr) n m Q A mu.
Proof.
  intros n m k Hk Fu. destruct (allocate_ok fuel prims duals Hk Fu) as (y & p & E & P & Pm & LL & _).
  unfold allocate_block in E. unfold allocate_bldlt, bldlt_new. destruct (bsym_new (total_dim prims duals) (default_structure prims duals)) as [s0| | |] eqn:E0; try discriminate. cbn [bind] in *. unfold on_sym. cbn [bl_sym]. rewrite E. cbn [bind]. eexists. split; [reflexivity|]. cbn [bl_sym].
  intros Q A mu c Sc Hc Hm sel F. pose proof tiny_pos as TP. cbn [o_signature o_compute o_solve]. cbv zeta. set (M := pd_kkt n m Q A mu sel).
  assert (C0 : 0 < c) by (cbn [car RSc] in *; lra). assert (M0 : 0 < mu) by (cbn [car RSc] in *; lra).
  assert (Np : Symb_spec.total prims = n) by apply start_len. assert (NN : Symb_spec.total (prims ++ duals) = (n + m)%nat).
  { rewrite start_len. unfold n, m. clear. induction prims as [|x l IH]; cbn; [reflexivity|]. rewrite IH. lia. }
  set (N := (n + m)%nat) in *. assert (KK : kkt_matrix n N (entries M)) by exact (wmat_kkt n m Q A mu c sel Sc C0 M0).
  assert (PI : Permutation (seq 0 N) (bs_idx y)). { rewrite <- NN. apply Pm. }
  pose proof (by_renumber N (bs_idx y) (entries M) (fun i => Nat.ltb i n) c (mu / 2) PI (wmat_by n m Q A mu c sel Sc (Rlt_le _ _ M0))) as QD.
  destruct (by_factor N _ _ c (mu / 2) C0 ltac:(lra) QD) as (L & D & FA & SD).
  assert (BD : forall i, (i < N)%nat -> tiny (K := RSc) < Rabs (D i) /\ (if Nat.ltb (nth i (bs_idx y) 0%nat) n then 0 < D i else D i < 0)).
  { intros i Hi. specialize (SD i Hi). cbv beta in SD. pose proof (pivots_big n (nth i (bs_idx y) 0%nat) (fun _ => D i) c (mu / 2) Hc Hm SD) as X. exact X. }
  set (b := mkBldlt y (bl_n F) (bl_mat F) (bl_ok F) (bl_sign F)).
  destruct (block_ldlt_ok (default_structure prims duals) p b (entries M) L D) as (b' & C1 & C2 & C3 & C4 & C5 & _); try assumption.
  - apply default_well.
  - apply default_sym.
  - apply default_simple.
  - apply kkt_structure. rewrite Np, NN. exact KK.
  - change (sy_lens (default_structure prims duals)) with (prims ++ duals). rewrite NN. exact FA.
  - change (sy_lens (default_structure prims duals)) with (prims ++ duals). rewrite NN. intros i Hi. destruct (BD i Hi) as [_ B]. destruct (Nat.ltb _ n); lra.
  - change (sy_lens (default_structure prims duals)) with (prims ++ duals) in C1, C2, C3, C4, C5. rewrite NN in C1, C3, C5.
    assert (Nb : bl_n b' = N).
    { clear - C1. unfold bldlt_compute in C1. destruct (negb _); [discriminate C1|]. match type of C1 with bind ?t _ = _ => destruct t as [[[a1 a2] a3]| | |]; try discriminate C1 end. cbn [bind] in C1. injection C1 as <-. reflexivity. }
    assert (EF : block_fac (K := RSc) y N F M = b'). { unfold block_fac. change (fun i j => nth j (nth i M []) (Scalar.s0 (s := RSc))) with (entries M). fold b. rewrite C1. reflexivity. }
    rewrite EF. unfold block_sig. rewrite Nb. destruct C3 as [C3 C3']. split.
    + replace m with (N - n)%nat by (unfold N; lia). apply (inertia_by_index N n (bs_idx y)); [unfold N; lia|exact PI|]. intros i Hi. rewrite C3' by exact Hi. apply BD, Hi.
    + intros v Lv. destruct (C5 (fun i Hi => proj1 (BD i Hi)) (fun i => nth i v (Scalar.s0 (s := RSc)))) as (x' & Ex & Sx). unfold block_solve_list.
      match goal with |- context [bldlt_solve b' ?w] => assert (E' : bldlt_solve b' w = Ret (x', true)) by exact Ex; rewrite E', Nb; clear E' end.
      split; [rewrite map_length, seq_length; reflexivity|]. apply (solves_ext N _ x'); [intros i Hi; apply DescentX_proofs.tab_nth, Hi|exact Sx].
Qed.


(** ** The constants for strongly convex problems *)
Lemma strong_constants n m Q q A c : 0 < c -> strongly_convex n Q c ->
  (forall y, rsum m (fun k => rsum n (fun j => A k j * y j) * rsum n (fun j => A k j * y j)) <= rsum m (fun k => rsum n (fun j => A k j * A k j)) / c * form n Q y) /\
  (forall y, - (rsum n (fun i => q i * q i) / (2 * c)) <= qp_obj n Q q y).
Proof.
  intros C [Sy H]. split.
  - intros y. apply Rle_trans with (rsum m (fun k => rsum n (fun j => A k j * A k j)) * nrm n y).
    + rewrite <- rsum_scale_r. apply rsum_le. intros k _. rewrite (Rmult_comm (rsum n (fun j => A k j * A k j))). exact (sum_product n (fun j => A k j) y).
    + assert (P : 0 <= rsum m (fun k => rsum n (fun j => A k j * A k j))) by (apply rsum_nonneg; intros; apply rsum_nonneg; intros; apply Rle_0_sqr).
      replace (rsum m (fun k => rsum n (fun j => A k j * A k j)) / c * form n Q y) with (rsum m (fun k => rsum n (fun j => A k j * A k j)) * (form n Q y / c)) by (field; lra).
      apply Rmult_le_compat_l; [exact P|]. apply (Rmult_le_reg_l c); [exact C|]. replace (c * (form n Q y / c)) with (form n Q y) by (field; lra). apply H.
  - intros y. unfold qp_obj. change (rsum n (fun i => rsum n (fun j => y i * Q i j * y j))) with (form n Q y). specialize (H y).
    assert (S : 0 <= rsum n (fun i => (c * y i + q i) * (c * y i + q i))) by (apply rsum_nonneg; intros; apply Rle_0_sqr).
    assert (E : rsum n (fun i => (c * y i + q i) * (c * y i + q i)) = c * (c * rsum n (fun i => y i * y i)) + 2 * c * rsum n (fun i => q i * y i) + rsum n (fun i => q i * q i)).
    { rewrite <- !rsum_scale, <- !rsum_plus. apply rsum_ext. intros. ring. }
    rewrite E in S. set (qq := rsum n (fun i => q i * q i)) in *. set (qy := rsum n (fun i => q i * y i)) in *.
    assert (S2 : c * (c * rsum n (fun i => y i * y i)) <= c * form n Q y) by (apply Rmult_le_compat_l; lra).
    apply (Rmult_le_reg_l (2 * c)); [lra|]. replace (2 * c * - (qq / (2 * c))) with (- qq) by (field; lra). lra.
Qed.

(** ** Example: the problem of C101 with the primal-dual system *)
Definition pd_started (mu0 : R) (iters : nat) : @params RSc :=
  let d := default_params (K := RSc) in
  mkParams (K := RSc) 0 mu0 (mu_lower d) (mu_upper d) (pdal_beta d) (target_tol d) (inner_tol0 d) (prim_tol0 d) (inner_tol_min d) (prim_alpha d) (prim_beta d) (dual_alpha d) (dual_beta d)
    (mu_factor d) (rho_factor d) (del_inc_k d) (del_inc_big d) (del_dec_k d) (delta_min d) (delta_max d) (delta_nz_init d) (delta_init d) iters (max_al_iters d) (max_refine d) (kkt_tolerance d)
    (mul_update d) KKT_PRIMAL_DUAL (hess_approx d) (lsopt d) (callbacks d).
Lemma pd_started_plain n N mu0 k : plain (dense_oracles N) (pd_started mu0 k) n.
Proof. constructor; cbn; try solve [reflexivity|lra|split; lra|right; reflexivity]. intros x v Hx _. rewrite Hx. reflexivity. Qed.
Definition ramp_pd (k : nat) : solver_state (dense_oracles 3) := setup (K := RSc) (dldlt RSc) unit (pd_started 1 k) ramp ramp_sets [13] (dldlt_new (K := RSc) 3) tt.
Lemma ramp_pd_act k : act_state 1 [1%nat; 1%nat] ramp (ramp_pd k).
Proof.
  constructor; cbn; try reflexivity; try lra.
  - split; [|repeat constructor]. repeat constructor; cbn; lra.
  - repeat constructor.
Qed.
