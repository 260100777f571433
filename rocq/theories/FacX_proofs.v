(** The DENSE and BLOCKSPARSE factorisations handle the systems of strongly convex problems. *)
From Coq Require Import Reals List Bool Arith ZArith Lia Lra Permutation.
From Verif Require Import Scalar Cset_model Problem_model Symb_model Lin_spec Lin_proofs Symb_spec Symb_proofs SymbL_proofs SymbC_proofs SymbP_proofs SymbQ_proofs Armijo_model Solver_model Solver_spec Ldlt_model Ldlt_spec Ldlt_proofs LdltG_proofs LdltB_proofs LdltS_proofs LdltO_proofs LdltQ_proofs LdltZ_proofs
  Bk_spec Descent_spec Descent_proofs DescentX_proofs Qp_spec Qp_proofs QpD_proofs QpT_proofs QpF_proofs Fac_model Fac_spec Fac_proofs.
Import ListNotations.
Local Open Scope R_scope.

Lemma kkt_by np N A c e : (np <= N)%nat -> (forall x, c * nrm np x <= form np (mirror A) x) -> (forall i, (np <= i)%nat -> (i < N)%nat -> A i i <= - e) ->
  (forall i j, (np <= j)%nat -> (j < i)%nat -> (i < N)%nat -> A i j = 0) -> qd_by N (mirror A) (fun i => Nat.ltb i np) c e.
Proof.
  intros Hn H1 H2 H3. split; [apply mirror_sym|split].
  - intros x Z. assert (Z' : forall i, (np <= i)%nat -> (i < N)%nat -> x i = 0) by (intros i Hi HN; apply Z; [exact HN|apply Nat.ltb_ge; exact Hi]).
    assert (E1 : form N (mirror A) x = form np (mirror A) x).
    { unfold form. rewrite (rsum_cut N np) by (try exact Hn; intros i Hi HN; apply rsum_zero; intros j Hj; rewrite (Z' i) by assumption; ring). apply rsum_ext. intros i Hi.
      apply rsum_cut; [exact Hn|]. intros j Hj HN. rewrite (Z' j) by assumption. ring. }
    assert (E2 : nrm N x = nrm np x) by (unfold nrm; apply rsum_cut; [exact Hn|]; intros j Hj HN; rewrite (Z' j) by assumption; ring).
    rewrite E1, E2. apply H1.
  - intros x Z. assert (Z' : forall i, (i < np)%nat -> x i = 0) by (intros i Hi; apply Z; [lia|apply Nat.ltb_lt; exact Hi]).
    unfold form. rewrite (rsum_ext N _ (fun i => A i i * (x i * x i))).
    + unfold nrm. rewrite <- rsum_scale. enough (0 <= rsum N (fun i => - (e * (x i * x i)) - A i i * (x i * x i))) as G.
      { rewrite rsum_minus in G. rewrite (rsum_ext N (fun i => - (e * (x i * x i))) (fun i => -1 * (e * (x i * x i)))) in G by (intros; ring). rewrite rsum_scale in G. lra. }
      apply rsum_nonneg. intros i Hi. destruct (Nat.lt_ge_cases i np) as [Q|Q]; [rewrite (Z' i Q); lra|]. specialize (H2 i Q Hi).
      replace (- (e * (x i * x i)) - A i i * (x i * x i)) with ((- e - A i i) * (x i * x i)) by ring. apply Rmult_le_pos; [lra|apply Rle_0_sqr].
    + intros i Hi. destruct (Nat.ltb_spec i np) as [Q|Q].
      * rewrite (Z' i Q). rewrite rsum_zero; [ring|]. intros j Hj. ring.
      * rewrite (rsum_one N _ i Hi); [unfold mirror; rewrite Nat.leb_refl; ring|]. intros j Hj Nij. destruct (Nat.lt_ge_cases j np) as [R|R]; [rewrite (Z' j R); ring|].
        unfold mirror. destruct (Nat.leb_spec j i); rewrite H3 by lia; ring.
Qed.
Lemma strong_convex n m Q A c : 0 < c -> strongly_convex n Q c -> qp_convex n m Q A.
Proof.
  intros C [Sy H]. assert (P : forall x, 0 <= form n Q x). { intros x. refine (Rle_trans _ _ _ _ (H x)). apply Rmult_le_pos; [lra|apply nrm_pos]. }
  split; [exact Sy|]. split; [exact P|]. intros x E _ i Hi. specialize (H x). rewrite E in H.
  assert (Z : nrm n x = 0). { pose proof (nrm_pos n x). fold (nrm n x) in H. destruct (Rle_lt_or_eq_dec 0 (nrm n x) ltac:(lra)) as [G|G]; [|lra]. pose proof (Rmult_lt_0_compat _ _ C G). lra. }
  assert (X : x i * x i = 0) by (apply (rsum_pos_zero n (fun i => x i * x i) (fun k _ => Rle_0_sqr (x k)) Z i Hi)). apply Rmult_integral in X. tauto.
Qed.
Section Kmat.
  Variables (n m : nat) (Q A : nat -> nat -> R) (mu c : R).
  Hypothesis Sc : strongly_convex n Q c.
  Lemma kmat_by : qd_by (n + m) (mirror (entries (kmat n m Q A mu))) (fun i => Nat.ltb i n) c mu.
  Proof.
    destruct Sc as [Sy H]. apply kkt_by; [lia| | |].
    - intros x. refine (Rle_trans _ _ _ (H x) _). right. unfold form. apply rsum_ext. intros i Hi. apply rsum_ext. intros j Hj. rewrite kmat_mirror by (try exact Sy; lia). rewrite kf_qq by assumption. reflexivity.
    - intros i H1 H2. rewrite kmat_get by lia. replace i with (n + (i - n))%nat by lia. rewrite kf_dd, Nat.eqb_refl. lra.
    - intros i j H1 H2 H3. rewrite kmat_get by lia. replace i with (n + (i - n))%nat by lia. replace j with (n + (j - n))%nat by lia. rewrite kf_dd. destruct (Nat.eqb_spec (i - n) (j - n)); [lia|reflexivity].
  Qed.
  Lemma kmat_kkt : 0 < c -> 0 < mu -> kkt_matrix n (n + m) (entries (kmat n m Q A mu)).
  Proof.
    intros C0 M0. destruct Sc as [Sy H]. split; [|split].
    - intros x [k [Hk X]]. replace (form n (mirror (entries (kmat n m Q A mu))) x) with (form n Q x).
      + refine (Rlt_le_trans _ _ _ _ (H x)). apply Rmult_lt_0_compat; [exact C0|]. fold (nrm n x). pose proof (nrm_pos n x) as G. destruct (Rle_lt_or_eq_dec _ _ G) as [G'|G']; [exact G'|].
        exfalso. apply X. assert (Y : x k * x k = 0) by (apply (rsum_pos_zero n (fun i => x i * x i) (fun k _ => Rle_0_sqr (x k)) (eq_sym G') k Hk)). apply Rmult_integral in Y. tauto.
      + unfold form. apply rsum_ext. intros i Hi. apply rsum_ext. intros j Hj. rewrite kmat_mirror by (try exact Sy; lia). rewrite kf_qq by assumption. reflexivity.
    - intros i H1 H2. rewrite kmat_get by lia. replace i with (n + (i - n))%nat by lia. rewrite kf_dd, Nat.eqb_refl. lra.
    - intros i j H1 H2 H3. rewrite kmat_get by lia. replace i with (n + (i - n))%nat by lia. replace j with (n + (j - n))%nat by lia. rewrite kf_dd. destruct (Nat.eqb_spec (i - n) (j - n)); [lia|reflexivity].
  Qed.
End Kmat.
Lemma pivots_big n i D c mu : tiny (K := RSc) < c -> tiny (K := RSc) < mu -> (if Nat.ltb i n then c <= D i else D i <= - mu) -> tiny (K := RSc) < Rabs (D i) /\ (if Nat.ltb i n then 0 < D i else D i < 0).
Proof.
  intros C M H. pose proof tiny_pos. cbn [car RSc] in *. destruct (Nat.ltb i n); split; try lra.
  - rewrite Rabs_pos_eq; lra.
  - rewrite Rabs_left; lra.
Qed.
Lemma dense_handles pw ig pv pg ph bf bu qr n m Q A mu c : strongly_convex n Q c -> tiny (K := RSc) < c -> tiny (K := RSc) < mu ->
  handles (mkOracles (K := RSc) pw ig pv pg ph (dldlt RSc) (dense_fac (K := RSc) (n + m)) (dense_sig (K := RSc)) (dense_solve_list (K := RSc)) bf bu qr) n m Q A mu.
Proof.
  intros Sc Hc Hm F. pose proof tiny_pos as TP. cbn [o_signature o_compute o_solve]. set (N := (n + m)%nat) in *. change (qp_kkt n m Q A mu) with (kmat n m Q A mu) in *. set (M := kmat n m Q A mu) in *. cbv zeta.
  destruct (by_factor N (mirror (entries M)) (fun i => Nat.ltb i n) c mu ltac:(cbn [car RSc] in *; lra) ltac:(cbn [car RSc] in *; lra) (kmat_by n m Q A mu c Sc)) as (L & D & FA & SD).
  assert (FA' : factor_of N (entries M) L D). { destruct FA as [U G]. split; [exact U|]. intros i j Hj Hi. rewrite <- G by assumption. unfold mirror. destruct (Nat.leb_spec j i); [reflexivity|lia]. }
  assert (BD : forall i, (i < N)%nat -> tiny (K := RSc) < Rabs (D i) /\ (if Nat.ltb i n then 0 < D i else D i < 0)) by (intros i Hi; exact (pivots_big n i D c mu Hc Hm (SD i Hi))).
  destruct (compute_ok F N (entries M) L D FA') as (d' & C1 & C2 & [C3 C3'] & C4 & C5 & C6 & _).
  { intros i Hi. destruct (BD i ltac:(lia)) as [_ B]. destruct (Nat.ltb i n); lra. }
  assert (EF : dense_fac (K := RSc) N F M = d'). { unfold dense_fac. change (fun i j => nth j (nth i M []) (s0 (s := RSc))) with (entries M). rewrite C1. reflexivity. }
  rewrite EF. unfold dense_sig. rewrite C2. split.
  - replace m with (N - n)%nat by (unfold N; lia). apply (inertia_by_index N n (seq 0 N)); [unfold N; lia|reflexivity|]. intros i Hi. rewrite seq_nth by exact Hi. rewrite C3' by exact Hi. apply BD. exact Hi.
  - intros v Lv. unfold dense_solve_list. rewrite C2. split; [rewrite map_length, seq_length; reflexivity|].
    apply (solves_ext N _ (dldlt_solve (K := RSc) d' (fun i => nth i v (s0 (s := RSc))))); [intros i Hi; apply DescentX_proofs.tab_nth, Hi|]. apply C6. intros i Hi. apply BD, Hi.
Qed.
Lemma start_len l : Symb_spec.total l = Qp_spec.total l.
Proof. unfold Symb_spec.total. induction l as [|x l IH]; cbn; [reflexivity|]. rewrite IH. reflexivity. Qed.
Lemma block_handles fuel junk pw ig pv pg ph bf bu qr prims duals : let n := Qp_spec.total prims in let m := Qp_spec.total duals in let k := (length prims + length duals)%nat in
  (0 < k)%nat -> (k ^ k < fuel)%nat -> exists b, allocate_bldlt (K := RSc) fuel junk prims duals = Ret b /\
    forall Q A mu c, strongly_convex n Q c -> tiny (K := RSc) < c -> tiny (K := RSc) < mu ->
      handles (mkOracles (K := RSc) pw ig pv pg ph (bldlt RSc) (block_fac (K := RSc) (bl_sym b) (n + m)) (block_sig (K := RSc)) (block_solve_list (K := RSc)) bf bu qr) n m Q A mu.
Proof.
  intros n m k Hk Fu. destruct (allocate_ok fuel prims duals Hk Fu) as (y & p & E & P & Pm & LL & _).
  unfold allocate_block in E. unfold allocate_bldlt, bldlt_new. destruct (bsym_new (total_dim prims duals) (default_structure prims duals)) as [s0| | |] eqn:E0; try discriminate. cbn [bind] in *. unfold on_sym. cbn [bl_sym]. rewrite E. cbn [bind]. eexists. split; [reflexivity|]. cbn [bl_sym].
  intros Q A mu c Sc Hc Hm F. pose proof tiny_pos as TP. cbn [o_signature o_compute o_solve]. cbv zeta. set (M := qp_kkt n m Q A mu).
  assert (C0 : 0 < c) by (cbn [car RSc] in *; lra). assert (M0 : 0 < mu) by (cbn [car RSc] in *; lra).
  assert (Np : Symb_spec.total prims = n) by apply start_len. assert (NN : Symb_spec.total (prims ++ duals) = (n + m)%nat).
  { rewrite start_len. unfold n, m. clear. induction prims as [|x l IH]; cbn; [reflexivity|]. rewrite IH. lia. }
  set (N := (n + m)%nat) in *. assert (KK : kkt_matrix n N (entries M)) by exact (kmat_kkt n m Q A mu c Sc C0 M0).
  assert (PI : Permutation (seq 0 N) (bs_idx y)). { rewrite <- NN. apply Pm. }
  pose proof (by_renumber N (bs_idx y) (entries M) (fun i => Nat.ltb i n) c mu PI (kmat_by n m Q A mu c Sc)) as QD.
  destruct (by_factor N _ _ c mu C0 M0 QD) as (L & D & FA & SD).
  assert (BD : forall i, (i < N)%nat -> tiny (K := RSc) < Rabs (D i) /\ (if Nat.ltb (nth i (bs_idx y) 0%nat) n then 0 < D i else D i < 0)).
  { intros i Hi. specialize (SD i Hi). cbv beta in SD. pose proof (pivots_big n (nth i (bs_idx y) 0%nat) (fun _ => D i) c mu Hc Hm SD) as X. exact X. }
  set (b := mkBldlt y (bl_n F) (bl_mat F) (bl_ok F) (bl_sign F)).
  destruct (block_ldlt_ok (default_structure prims duals) p b (entries M) L D) as (b' & C1 & C2 & C3 & C4 & C5 & _); try assumption.
  - apply default_well.
  - apply default_sym.
  - apply default_simple.
  - apply kkt_structure. rewrite Np, NN. exact KK.
  - change (sy_lens (default_structure prims duals)) with (prims ++ duals). rewrite NN. exact FA.
  - change (sy_lens (default_structure prims duals)) with (prims ++ duals). rewrite NN. intros i Hi. destruct (BD i Hi) as [_ B]. destruct (Nat.ltb _ n); lra.
  - change (sy_lens (default_structure prims duals)) with (prims ++ duals) in C1, C2, C3, C4, C5. rewrite NN in C1, C3, C5.
    assert (Nb : bl_n b' = N).
    { clear - C1. unfold bldlt_compute in C1. destruct (negb _); [discriminate C1|]. match type of C1 with bind ?t _ = _ => destruct t as [[[a1 a2] a3]| | |]; try discriminate C1 end. cbn [bind] in C1. injection C1 as <-. reflexivity. }
    assert (EF : block_fac (K := RSc) y N F M = b'). { unfold block_fac. change (fun i j => nth j (nth i M []) (Scalar.s0 (s := RSc))) with (entries M). fold b. rewrite C1. reflexivity. }
    rewrite EF. unfold block_sig. rewrite Nb. destruct C3 as [C3 C3']. split.
    + replace m with (N - n)%nat by (unfold N; lia). apply (inertia_by_index N n (bs_idx y)); [unfold N; lia|exact PI|]. intros i Hi. rewrite C3' by exact Hi. apply BD, Hi.
    + intros v Lv. destruct (C5 (fun i Hi => proj1 (BD i Hi)) (fun i => nth i v (Scalar.s0 (s := RSc)))) as (x' & Ex & Sx). unfold block_solve_list.
      match goal with |- context [bldlt_solve b' ?w] => assert (E' : bldlt_solve b' w = Ret (x', true)) by exact Ex; rewrite E', Nb; clear E' end.
      split; [rewrite map_length, seq_length; reflexivity|]. apply (solves_ext N _ x'); [intros i Hi; apply DescentX_proofs.tab_nth, Hi|exact Sx].
Qed.

(** ** The whole solve *)
Lemma dense_converges pw ig pv pg ph bf bu qr (P : @params RSc) n Q q ms A b p c xs ls D Rn T fo fi fls fin : let m := Qp_spec.total ms in let K := (Rn * S T + T)%nat in
  let O := mkOracles (K := RSc) pw ig pv pg ph (dldlt RSc) (dense_fac (K := RSc) (n + m)) (dense_sig (K := RSc)) (dense_solve_list (K := RSc)) bf bu qr in forall (s : solver_state O) mus x0 l0,
  answers_like n p (qp n Q q ms A b) -> plain O P n -> outer_params O P D Rn T -> strongly_convex n Q c -> tiny (K := RSc) < c -> tiny (K := RSc) < mu_lower P ->
  qp_optimal n m Q q A b xs ls -> rsum m (fun k => (nth k l0 0 - ls k) * (nth k l0 0 - ls k)) <= D * D -> length x0 = n -> length l0 = m ->
  sets s = map CEq mus -> length mus = length ms -> buffers_fit p s ->
  (K < max_al_iters P)%nat -> (S K < max_iters P)%nat -> (max_al_iters P < fo)%nat -> (1 < fi)%nat -> (0 < fls)%nat -> (0 < fin)%nat ->
  exists (s' : solver_state O) f, run_solve O fo fi fls fin P p (Some s) x0 l0 = Ret (s', f) /\ length (r_x (res s')) = n /\ length (r_lams (res s')) = m /\
    let x := fun i => nth i (r_x (res s')) 0 in let l := fun k => nth k (r_lams (res s')) 0 in
    (forall k, (k < m)%nat -> Rabs (qp_con n A b x k) <= target_tol P) /\ (forall i, (i < n)%nat -> Rabs (qp_lag n m Q q A x l i) <= target_tol P) /\
    ((f = SUCCESS /\ (r_al_iters (res s') <= K)%nat /\ (r_num_iters (res s') <= S K)%nat) \/
     (exists k, (k < m)%nat /\ Rabs (qp_con n A b x k) = target_tol P) \/ (exists i, (i < n)%nat /\ Rabs (qp_lag n m Q q A x l i) = target_tol P)).
Proof.
  intros m K O s mus x0 l0 Hp Pl Op Sc Hc Hm. pose proof tiny_pos as TP. apply solve_final; try assumption.
  - apply (strong_convex n (Qp_spec.total ms) Q A c); [cbn [car RSc] in *; lra|exact Sc].
  - intros mu [H _]. apply (dense_handles pw ig pv pg ph bf bu qr n (Qp_spec.total ms) Q A mu c Sc Hc). cbn [car RSc] in *. lra.
Qed.
Lemma block_converges fuel junk pw ig pv pg ph bf bu qr (P : @params RSc) prims Q q ms A b p c xs ls D Rn T fo fi fls fin : let n := Qp_spec.total prims in let m := Qp_spec.total ms in let k := (length prims + length ms)%nat in let K := (Rn * S T + T)%nat in
  (0 < k)%nat -> (k ^ k < fuel)%nat -> exists b0, allocate_bldlt (K := RSc) fuel junk prims ms = Ret b0 /\
  let O := mkOracles (K := RSc) pw ig pv pg ph (bldlt RSc) (block_fac (K := RSc) (bl_sym b0) (n + m)) (block_sig (K := RSc)) (block_solve_list (K := RSc)) bf bu qr in forall (s : solver_state O) mus x0 l0,
  answers_like n p (qp n Q q ms A b) -> plain O P n -> outer_params O P D Rn T -> strongly_convex n Q c -> tiny (K := RSc) < c -> tiny (K := RSc) < mu_lower P ->
  qp_optimal n m Q q A b xs ls -> rsum m (fun k => (nth k l0 0 - ls k) * (nth k l0 0 - ls k)) <= D * D -> length x0 = n -> length l0 = m ->
  sets s = map CEq mus -> length mus = length ms -> buffers_fit p s ->
  (K < max_al_iters P)%nat -> (S K < max_iters P)%nat -> (max_al_iters P < fo)%nat -> (1 < fi)%nat -> (0 < fls)%nat -> (0 < fin)%nat ->
  exists (s' : solver_state O) f, run_solve O fo fi fls fin P p (Some s) x0 l0 = Ret (s', f) /\ length (r_x (res s')) = n /\ length (r_lams (res s')) = m /\
    let x := fun i => nth i (r_x (res s')) 0 in let l := fun k => nth k (r_lams (res s')) 0 in
    (forall k, (k < m)%nat -> Rabs (qp_con n A b x k) <= target_tol P) /\ (forall i, (i < n)%nat -> Rabs (qp_lag n m Q q A x l i) <= target_tol P) /\
    ((f = SUCCESS /\ (r_al_iters (res s') <= K)%nat /\ (r_num_iters (res s') <= S K)%nat) \/
     (exists k, (k < m)%nat /\ Rabs (qp_con n A b x k) = target_tol P) \/ (exists i, (i < n)%nat /\ Rabs (qp_lag n m Q q A x l i) = target_tol P)).
Proof.
  intros n m k K Hk Fu. destruct (block_handles fuel junk pw ig pv pg ph bf bu qr prims ms Hk Fu) as (b0 & E & H). exists b0. split; [exact E|].
  intros O s mus x0 l0 Hp Pl Op Sc Hc Hm. pose proof tiny_pos as TP. apply solve_final; try assumption.
  - apply (strong_convex n (Qp_spec.total ms) Q A c); [cbn [car RSc] in *; lra|exact Sc].
  - intros mu [Hmu _]. apply (H Q A mu c Sc Hc). cbn [car RSc] in *. lra.
Qed.

(** ** A pivot that is too small *)
Lemma dense_tiny pw ig pv pg ph bf bu qr mu : strongly_convex 1 (fun _ _ => tiny (K := RSc)) (tiny (K := RSc)) /\
  let O := mkOracles (K := RSc) pw ig pv pg ph (dldlt RSc) (dense_fac (K := RSc) 1) (dense_sig (K := RSc)) (dense_solve_list (K := RSc)) bf bu qr in
  forall F, let M := qp_kkt 1 0 (fun _ _ => tiny (K := RSc)) (fun _ _ => 0) mu in
    check_inertia 1 0 (o_signature O (o_compute O F M)) = Some INERTIA_OK /\ o_solve O (o_compute O F M) [1] = [0].
Proof.
  pose proof tiny_pos as TP. split; [split; [reflexivity|]; intros x; unfold form; cbn [rsum]; lra|]. intros O F M.
  set (t := tiny (K := RSc)) in *. assert (FA : factor_of 1 (fun i j => nth j (nth i M []) (Scalar.s0 (s := RSc))) (fun i j => if Nat.eqb i j then 1 else 0) (fun _ => t)).
  { split; [split|].
    - intros i Hi. rewrite Nat.eqb_refl. reflexivity.
    - intros i j H1 H2. destruct (Nat.eqb_spec i j); [lia|reflexivity].
    - intros i j H1 H2. assert (i = 0)%nat as -> by lia. assert (j = 0)%nat as -> by lia. unfold ldl. cbn. lra. }
  assert (DN : forall i, (S i < 1)%nat -> t <> 0) by (intros; lia).
  destruct (compute_ok F 1 _ _ _ FA DN) as (d' & C1 & C2 & C3 & _).
  assert (EF : o_compute O F M = d'). { cbn [O o_compute]. unfold dense_fac. match goal with |- match ?e with _ => _ end = _ => assert (E' : e = Ret d') by exact C1; rewrite E' end. reflexivity. }
  rewrite EF. cbn [O o_signature o_solve]. unfold dense_sig, dense_solve_list. rewrite C2. split.
  - change (check_inertia 1 (1 - 1) (d_signature (K := RSc) 1 (dl_mat d')) = Some INERTIA_OK). apply (inertia_by_index 1 1 (seq 0 1)); [lia|reflexivity|]. intros i Hi. rewrite (proj2 C3) by exact Hi. assert (i = 0)%nat as -> by lia. exact TP.
  - unfold dldlt_solve. rewrite C2. destruct (dense_solve_any 1 _ _ (dl_mat d') (fun i => nth i [1] (Scalar.s0 (s := RSc))) (proj1 FA) C3) as (y & _ & Hy). specialize (Hy 0%nat ltac:(lia)). cbn [seq map]. f_equal.
    cbn [rsum Nat.eqb] in Hy. destruct (Rlt_dec (tiny (K := RSc)) (Rabs t)) as [B|_].
    + exfalso. fold t in B. revert B. cbn [car RSc] in *. rewrite Rabs_pos_eq by lra. lra.
    + etransitivity; [|exact Hy]. cbn [car RSc] in *. lra.
Qed.
(** ** An example: minimise x^2 + xy + y^2 (+ a linear term) *)
Definition ex_q (i j : nat) : R := if Nat.eqb i j then 2 else 1.
Lemma ex_strong : strongly_convex 2 ex_q 1.
Proof. split; [intros i j _ _; unfold ex_q; rewrite Nat.eqb_sym; reflexivity|]. intros x. unfold form, ex_q. cbn. pose proof (Rle_0_sqr (x 0%nat + x 1%nat)). unfold Rsqr in *. lra. Qed.
Lemma tiny_default : tiny (K := RSc) < 1 / 10000000000.
Proof.
  unfold tiny, slit. cbn [sdiv sofZ RSc]. assert (H : 10000000000 < IZR (2 ^ 1022)) by (apply IZR_lt; reflexivity). revert H. generalize (IZR (2 ^ 1022)). intros x H. cbn [RSc car] in *.
  unfold Rdiv. rewrite !Rmult_1_l. apply Rinv_lt_contravar; [apply Rmult_lt_0_compat; lra|lra].
Qed.
Definition dense_oracles (N : nat) : oracles RSc :=
  mkOracles (K := RSc) Rpower (fun x v => tab (length x) (fun i => nth i x 0 + nth i v 0)) (fun rho _ _ => rho) (fun _ _ _ => []) (fun _ _ _ => [])
    (dldlt RSc) (dense_fac (K := RSc) N) (dense_sig (K := RSc)) (dense_solve_list (K := RSc)) unit (fun _ _ _ H => (tt, H)) (fun _ _ _ _ _ _ => (0, 0)).
Lemma dense_plain n N : plain (dense_oracles N) (default_params (K := RSc)) n.
Proof. constructor; cbn; try solve [reflexivity|lra|split; lra|right; reflexivity]. intros x v Hx _. rewrite Hx. reflexivity. Qed.
Lemma ex_best : qp_optimal 2 1 ex_q (fun _ => 0) (fun _ _ => 1) (fun _ => 2) (fun _ => 1) (fun _ => -3).
Proof. split; intros i Hi; unfold qp_lag, qp_grad, qp_con, ex_q; [destruct i as [|[|]]; [| |lia]|]; cbn; lra. Qed.
