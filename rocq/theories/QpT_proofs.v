(** Quadratic problems with equality constraints: the step of the inner loop is the Newton step, taken in full. *)
From Coq Require Import Reals List Bool Arith ZArith Lia Lra Psatz.
From Verif Require Import Scalar Cset_model Cset_spec Cset_proofs Armijo_model Problem_model Solver_model Solver_spec SolverR_proofs SolverS_proofs Merit_spec Merit_proofs
  Lin_spec Lin_proofs Ldlt_spec Ldlt_proofs Bk_spec Descent_spec Descent_proofs DescentX_proofs Qp_spec Qp_proofs QpD_proofs.
Import ListNotations.
Local Open Scope R_scope.

Lemma repeat_tab {A} (a : A) n : repeat a n = tab n (fun _ => a).
Proof. induction n as [|n IH]; [reflexivity|]. rewrite tab_S, <- IH. cbn. apply repeat_cons. Qed.
Lemma tnth {A} n (f : nat -> A) d i : (i < n)%nat -> nth i (tab n f) d = f i. Proof. apply Qp_proofs.tab_nth. Qed.
Lemma tab_in {A} n (f : nat -> A) (Pr : A -> Prop) : (forall i, (i < n)%nat -> Pr (f i)) -> Forall Pr (tab n f).
Proof. intros H. apply Forall_forall. intros a Ha. unfold tab in Ha. apply in_map_iff in Ha as (i & <- & Hi). apply in_seq in Hi. apply H. lia. Qed.
Lemma rsum_pos_zero m f : (forall k, (k < m)%nat -> 0 <= f k) -> rsum m f = 0 -> forall k, (k < m)%nat -> f k = 0.
Proof.
  induction m as [|m IH]; intros H E k Hk; [lia|]. cbn in E. pose proof (rsum_nonneg m f (fun j Hj => H j ltac:(lia))) as P. pose proof (H m ltac:(lia)) as Pm.
  destruct (Nat.eq_dec k m) as [->|]; [lra|]. apply IH; [intros; apply H; lia|lra|lia].
Qed.

(** ** The matrix *)
Section Matrix.
  Variables (n m : nat) (Q A : nat -> nat -> R) (mu : R).
  Definition kf (i j : nat) : R :=
    if (i <? n)%nat then if (j <? n)%nat then Q i j else A (j - n)%nat i
    else if (j <? n)%nat then A (i - n)%nat j else if (i =? j)%nat then - mu else 0.
  Definition kmat : list (list R) := tab (n + m) (fun i => tab (n + m) (kf i)).
  Lemma kf_qq i j : (i < n)%nat -> (j < n)%nat -> kf i j = Q i j.
  Proof. intros Hi Hj. unfold kf. rewrite (proj2 (Nat.ltb_lt _ _) Hi), (proj2 (Nat.ltb_lt _ _) Hj). reflexivity. Qed.
  Lemma kf_ax k j : (j < n)%nat -> kf (n + k) j = A k j.
  Proof. intros Hj. unfold kf. rewrite (proj2 (Nat.ltb_ge (n + k) n)) by lia. rewrite (proj2 (Nat.ltb_lt _ _) Hj). f_equal. lia. Qed.
  Lemma kf_xa k j : (j < n)%nat -> kf j (n + k) = A k j.
  Proof. intros Hj. unfold kf. rewrite (proj2 (Nat.ltb_lt _ _) Hj), (proj2 (Nat.ltb_ge (n + k) n)) by lia. f_equal. lia. Qed.
  Lemma kf_dd k j : kf (n + k) (n + j) = if (k =? j)%nat then - mu else 0.
  Proof. unfold kf. rewrite !(proj2 (Nat.ltb_ge (n + _) n)) by lia. destruct (Nat.eqb_spec (n + k) (n + j)), (Nat.eqb_spec k j); auto; lia. Qed.
  Lemma kmat_get i j : (i < n + m)%nat -> (j < n + m)%nat -> entries kmat i j = kf i j.
  Proof. intros Hi Hj. unfold entries, kmat. rewrite !tnth by assumption. reflexivity. Qed.
  Lemma kmat_square : square (n + m) kmat.
  Proof. split; [apply tab_length|]. apply tab_in. intros. apply tab_length. Qed.
  Hypothesis Sy : forall i j, (i < n)%nat -> (j < n)%nat -> Q i j = Q j i.
  Lemma kf_sym i j : kf i j = kf j i.
  Proof.
    unfold kf. destruct (Nat.ltb_spec i n), (Nat.ltb_spec j n); auto.
    - destruct (Nat.eqb_spec i j), (Nat.eqb_spec j i); auto; lia.
  Qed.
  Lemma kmat_sym : sym (n + m) kmat.
  Proof. intros i j Hi Hj. change (entries kmat i j = entries kmat j i). rewrite !kmat_get by assumption. apply kf_sym. Qed.
  Hypothesis Hmu : 0 < mu.
  Lemma kmat_reg : regularised n (n + m) (entries kmat).
  Proof.
    split.
    - intros i H1 H2. rewrite kmat_get by lia. replace i with (n + (i - n))%nat by lia. rewrite kf_dd, Nat.eqb_refl. lra.
    - intros i j H1 H2 H3. rewrite kmat_get by lia. replace i with (n + (i - n))%nat by lia. replace j with (n + (j - n))%nat by lia. rewrite kf_dd.
      destruct (Nat.eqb_spec (i - n) (j - n)); [lia|reflexivity].
  Qed.
  Lemma kmat_mirror i j : (i < n + m)%nat -> (j < n + m)%nat -> mirror (entries kmat) i j = kf i j.
  Proof. intros Hi Hj. unfold mirror. destruct (Nat.leb j i); rewrite kmat_get by assumption; [reflexivity|apply kf_sym]. Qed.
  Hypothesis Ps : forall x, 0 <= form n Q x.
  Hypothesis Ker : forall x, form n Q x = 0 -> (forall k, (k < m)%nat -> rsum n (fun j => A k j * x j) = 0) -> forall i, (i < n)%nat -> x i = 0.
  Lemma kmat_convex : al_convex n (n + m) (entries kmat).
  Proof.
    intros x (i & Hi & Hx). unfold al_form. replace (n + m - n)%nat with m by lia.
    assert (E1 : form n (mirror (entries kmat)) x = form n Q x).
    { unfold form. apply rsum_ext. intros a Ha. apply rsum_ext. intros c Hc. rewrite kmat_mirror by lia. rewrite kf_qq by assumption. reflexivity. }
    set (a := fun k => rsum n (fun j => A k j * x j)).
    assert (E2 : rsum m (fun k => rsum n (fun j => entries kmat (n + k)%nat j * x j) ^ 2 / - entries kmat (n + k)%nat (n + k)%nat) = rsum m (fun k => a k * a k / mu)).
    { apply rsum_ext. intros k Hk. rewrite kmat_get by lia. rewrite kf_dd, Nat.eqb_refl.
      assert (rsum n (fun j => entries kmat (n + k)%nat j * x j) = a k) as -> by (apply rsum_ext; intros j Hj; rewrite kmat_get by lia; rewrite kf_ax by exact Hj; reflexivity).
      field. lra. }
    rewrite E1, E2. pose proof (Ps x) as P1. 
    assert (P2 : forall k, (k < m)%nat -> 0 <= a k * a k / mu) by (intros k _; apply Rmult_le_pos; [nra|left; apply Rinv_0_lt_compat, Hmu]).
    pose proof (rsum_nonneg m _ P2) as P3. destruct (Rle_lt_or_eq_dec 0 (form n Q x + rsum m (fun k => a k * a k / mu)) ltac:(lra)) as [|E]; [assumption|]. exfalso.
    apply Hx. apply Ker; [lra| |exact Hi]. intros k Hk. pose proof (rsum_pos_zero m _ P2 ltac:(lra) k Hk) as Z. cbn beta in Z. fold (a k).
    assert (a k * a k = 0) by (apply (Rmult_eq_reg_r (/ mu)); [unfold Rdiv in Z; lra|apply Rinv_neq_0_compat; lra]). nra.
  Qed.
  Lemma kmat_mv (d : nat -> R) i : (i < n + m)%nat -> rsum (n + m) (fun j => kf i j * d j) =
    if (i <? n)%nat then rsum n (fun j => Q i j * d j) + rsum m (fun k => A k i * d (n + k)%nat) else rsum n (fun j => A (i - n)%nat j * d j) - mu * d i.
  Proof.
    intros Hi. rewrite rsum_split. destruct (Nat.ltb_spec i n) as [H|H].
    - f_equal; apply rsum_ext; intros j Hj; [rewrite kf_qq by assumption|rewrite kf_xa by assumption]; reflexivity.
    - assert (exists k, i = (n + k)%nat) as [k ->] by (exists (i - n)%nat; lia). replace (n + k - n)%nat with k by lia.
      assert (E1 : rsum n (fun j => kf (n + k) j * d j) = rsum n (fun j => A k j * d j)) by (apply rsum_ext; intros j Hj; rewrite kf_ax by exact Hj; reflexivity).
      rewrite E1. unfold Rminus. f_equal. rewrite (rsum_one m _ k); [|lia|].
      + rewrite kf_dd, Nat.eqb_refl. ring.
      + intros j Hj Hne. rewrite kf_dd. destruct (Nat.eqb_spec k j); [lia|ring].
  Qed.
End Matrix.

(** ** The refinement loop keeps an exact solution exact *)
Lemma refine_exact (O : oracles RSc) (P : @params RSc) F N (B : nat -> nat -> R) r : (forall i j, (i < N)%nat -> (j < N)%nat -> B i j = B j i) ->
  exact_solver N (entries (tab N (fun i => tab N (B i)))) (o_solve O F) -> forall k v, length v = N ->
  (forall i, (i < N)%nat -> rsum N (fun j => B i j * nth j v 0) = - r i) ->
  let w := refine_loop (o_fac O) (o_solve O) k P F (tab N (fun i => tab N (B i))) (tab N r) v in
  length w = N /\ forall i, (i < N)%nat -> rsum N (fun j => B i j * nth j w 0) = - r i.
Proof.
  intros Sy Ex. induction k as [|k IH]; intros v Lv Hv; [split; assumption|]. cbv zeta. cbn [refine_loop].
  assert (Ev : v = tab N (fun i => nth i v 0)) by (apply tab_self, Lv).
  match goal with |- context [inf_norm ?e] => assert (E0 : e = tab N (fun i => - r i - rsum N (fun j => B i j * nth j v 0))) end.
  { etransitivity; [|apply vsub_tab]. f_equal; [apply vneg_tab|]. etransitivity; [apply f_equal, Ev|]. apply mv_tab. }
  cbn [car RSc] in *. rewrite E0. destruct (sltb _ _); [split; assumption|].
  set (e := tab N (fun i => - r i - rsum N (fun j => B i j * nth j v 0))). destruct (Ex e) as [L S]; [apply tab_length|].
  assert (Z : forall i, (i < N)%nat -> rsum N (fun j => B i j * nth j (o_solve O F e) 0) = 0).
  { intros i Hi. specialize (S i Hi). unfold mvec in S. unfold e in S at 2. rewrite tnth in S by exact Hi. rewrite Hv in S by exact Hi.
    transitivity (- r i - - r i); [|ring]. etransitivity; [|exact S]. apply rsum_ext. intros j Hj. f_equal. unfold mirror, entries.
    destruct (Nat.leb j i); rewrite !tnth by assumption; [reflexivity|apply Sy; assumption]. }
  cbn [car RSc] in *. apply IH.
  - rewrite vadd_length; cbn [car RSc] in *; congruence.
  - intros i Hi. transitivity (rsum N (fun j => B i j * nth j v 0) + rsum N (fun j => B i j * nth j (o_solve O F e) 0)); [|rewrite Z, Hv by exact Hi; ring]. rewrite <- rsum_plus. apply rsum_ext. intros j Hj.
    etransitivity; [apply f_equal, vadd_nth; cbn [car RSc] in *; congruence|]. apply Rmult_plus_distr_l.
Qed.

(** ** The step *)
Section Step.
  Variables (O : oracles RSc) (P : @params RSc) (n : nat) (Q : nat -> nat -> R) (q : nat -> R) (ms : list nat) (A : nat -> nat -> R) (b : nat -> R).
  Let m := total ms.
  Variable p : @problem RSc.
  Hypothesis like : answers_like n p (qp n Q q ms A b).
  Hypothesis beta : pdal_beta P = 1 / 2.
  Hypothesis hess : hess_approx P = HM_EXACT \/ hess_approx P = HM_GAUSS_NEWTON.
  Hypothesis Cx : qp_convex n m Q A.
  Hypothesis Flat : forall x v, length x = n -> length v = n -> o_integrate O x v = tab n (fun i => nth i x 0 + nth i v 0).
  Hypothesis Px : forall t x, o_px_val O 0 t x = 0.
  Hypothesis D0 : delta_init P = 0.
  Hypothesis DM : 0 <= delta_max P.
  Hypothesis C1 : armijo_c1 (lsopt P) <= 1 / 2.
  Hypothesis Am : alpha_min (lsopt P) <= 1.
  Notation holds := (holds O n ms).

  Definition rf (mu : R) (x l le : nat -> R) (i : nat) : R := if (i <? n)%nat then qp_lag n m Q q A x l i else qp_rp n A b mu le x l (i - n).
  Lemma rhs_p (d : diag (K := RSc) (o_fac O) (o_bfgs O)) mu x l le : holds (d_state _ _ d) mu x l le ->
    d_J _ _ d = tab m (fun k => tab n (A k)) -> d_Jp _ _ d = tab m (fun k => tab n (A k)) -> d_m _ _ d = qmults n ms A b mu le x l ->
    d_rhs _ _ d = tab n (qp_lag n m Q q A x l) ++ tab m (qp_rp n A b mu le x l) ->
    step_rhs (o_fac O) (o_bfgs O) P p d = tab (n + m) (rf mu x l le).
  Proof.
    intros H E1 E2 E3 E4. unfold step_rhs. change (s_res (o_fac O) (o_bfgs O) (d_state (o_fac O) (o_bfgs O) d)) with (res (d_state _ _ d)).
    rewrite (h_l _ _ _ _ _ _ _ _ H), E1, E2, E3, E4. rewrite (ndx_p _ _ _ _ _ _ _ like). fold m.
    assert (Er : (match kkt_sys P with KKT_CLASSIC => m_plus_r (qmults n ms A b mu le x l) | KKT_PRIMAL_DUAL => m_pdal_r (qmults n ms A b mu le x l) end) = tab m (fun _ => 0)) by (destruct (kkt_sys P); reflexivity).
    rewrite Er, !mtv_tab, vzero_tab, vsub_tab, !vadd_tab, tab_app, firstn_tab, skipn_tab, vadd_tab. rewrite tab_app. apply tab_ext. intros i Hi. unfold rf.
    destruct (Nat.ltb_spec i n) as [L|L].
    - assert (Z : rsum m (fun k => 0 * A k i) = 0) by (apply rsum_zero; intros; ring).
      etransitivity; [apply (f_equal (fun z => qp_lag n m Q q A x l i + z)); apply (f_equal (fun z => 0 - rsum m (fun k => l k * A k i) + rsum m (fun k => l k * A k i) + z)); exact Z|lra].
    - destruct (Nat.ltb_spec (n + (i - n)) n); [lia|]. f_equal. lia.
  Qed.
  Lemma dd_p mu x l le : kkt_dual_diag P p mu (eqs mu ms) (m_shift_pd (qmults n ms A b mu le x l)) = Ret (tab m (fun _ => - mu)).
  Proof.
    unfold kkt_dual_diag. rewrite (numdual_p _ _ _ _ _ _ _ like), (stack_p _ _ _ _ _ _ _ like), repeat_tab. destruct (kkt_sys P); [reflexivity|].
    rewrite st_cjv by apply tab_length. cbn [ub bind]. rewrite vadd_tab, vscale_tab. f_equal. apply tab_ext. intros. unfold shalf, slit. cbn. lra.
  Qed.
  Lemma matrix_p mu : assemble_kkt (K := RSc) n m (tab n (fun i => tab n (Q i))) (tab m (fun k => tab n (A k))) (tab m (fun _ => - mu)) = kmat n m Q A mu.
  Proof.
    unfold assemble_kkt, mtab, kmat.
    apply (tab_ext (n + m)). intros i Hi. apply (tab_ext (n + m)). intros j Hj. unfold kf, mget.
    destruct (Nat.ltb_spec i n), (Nat.ltb_spec j n); cbn [car RSc] in *.
    - rewrite !tnth by assumption. reflexivity.
    - rewrite (tnth m) by lia. rewrite tnth by assumption. reflexivity.
    - rewrite (tnth m) by lia. rewrite tnth by assumption. reflexivity.
    - destruct (Nat.eqb_spec i j); [|reflexivity]. rewrite tnth by lia. reflexivity.
  Qed.
  Lemma try_p x l d e : try_step (K := RSc) (o_integrate O) (tab n x) (tab m l) (tab n d) (tab m e) 1 = (tab n (fun i => x i + d i), tab m (fun k => l k + e k)).
  Proof.
    unfold try_step. rewrite !vscale_tab, vadd_tab, Flat by apply tab_length. f_equal; apply tab_ext; intros i Hi.
    - rewrite !tnth by exact Hi. cbn. ring.
    - cbn. ring.
  Qed.
  Lemma phi_p s mu x l le d e : holds s mu x l le ->
    run_phi O P p s (tab n d) (tab m e) 1 = Ret (qp_merit n m Q q A b mu le (fun i => x i + d i) (fun k => l k + e k), qmults n ms A b mu le (fun i => x i + d i) (fun k => l k + e k)).
  Proof.
    intros H. unfold run_phi, phi_eval. change (s_res (o_fac O) (o_bfgs O) s) with (res s). rewrite (h_x _ _ _ _ _ _ _ _ H), (h_l _ _ _ _ _ _ _ _ H).
    match goal with |- context [try_step ?a1 ?a2 ?a3 ?a4 ?a5 ?a6] => assert (T : try_step a1 a2 a3 a4 a5 a6 = (tab n (fun i => x i + d i), tab m (fun k => l k + e k))) by exact (try_p x l d e); rewrite T; clear T end.
    rewrite (eval_p _ _ _ _ _ _ _ like). cbn [bind].
    match goal with |- context [compute_multipliers ?a1 ?a2 ?a3 ?a4 ?a5 ?a6 ?a7] => assert (T : compute_multipliers a1 a2 a3 a4 a5 a6 a7 = Ret (qmults n ms A b mu le (fun i => x i + d i) (fun k => l k + e k))) by exact (mults_p O P n Q q ms A b p like beta s mu x l le (fun i => x i + d i) (fun k => l k + e k) H); rewrite T; clear T end.
    cbn [bind].
    match goal with |- context [merit_value ?a1 ?a2 ?a3 ?a4 ?a5] => assert (T : merit_value a1 a2 a3 a4 a5 = Some (qp_merit n m Q q A b mu le (fun i => x i + d i) (fun k => l k + e k))) by exact (merit_p O P n Q q ms A b p like beta s mu x l le (fun i => x i + d i) (fun k => l k + e k) H); rewrite T; clear T end.
    cbn [ub bind]. rewrite (h_rho _ _ _ _ _ _ _ _ H). f_equal. f_equal. rewrite Px. cbn. lra.
  Qed.
  Lemma search_p (ph : list R -> R -> option R) fls v phi0 sl : (0 < fls)%nat -> ph [] 1 = Some v -> sl <= 0 -> v - phi0 = 1 / 2 * sl ->
    run (K := RSc) (o_qr O) ph fls (lsopt P) phi0 sl = Some (mkRes (K := RSc) v 1 [1]).
  Proof.
    intros Hf Hp Hs Hv. unfold run. destruct fls as [|f]; [lia|]. 
    assert (EF : first_loop (K := RSc) ph (S f) (lsopt P) 1 [] = Some (1, sample2 1 v, [1])) by (cbn [first_loop]; cbn [car RSc]; rewrite Hp; reflexivity).
    change (s1 (s := RSc)) with 1. rewrite EF. destruct (sltb _ _); [reflexivity|].
    assert (Em : forall k, main_loop (K := RSc) (o_qr O) ph k (lsopt P) phi0 sl 1 (sample2 1 v) (sample0 (K := RSc)) [1] = (1, sample2 1 v, [1])).
    { intros [|k]; [reflexivity|]. apply (main_accept _ _ k); [reflexivity|]. apply rleb_t. cbn. rewrite Hv. nra. }
    rewrite Em. f_equal. f_equal. unfold smax. cbn. rewrite rltb_f by exact Am. reflexivity.
  Qed.

  Lemma step_p fls fin (d : diag (K := RSc) (o_fac O) (o_bfgs O)) dl mu x l le : (0 < fls)%nat -> (0 < fin)%nat -> let s := d_state _ _ d in holds s mu x l le -> handles O n m Q A mu ->
    d_J _ _ d = tab m (fun k => tab n (A k)) -> d_Jp _ _ d = tab m (fun k => tab n (A k)) -> d_m _ _ d = qmults n ms A b mu le x l ->
    d_rhs _ _ d = tab n (qp_lag n m Q q A x l) ++ tab m (qp_rp n A b mu le x l) ->
    d_mg _ _ d = tab n (fun i => qp_grad n Q q x i + rsum m (fun k => qp_pdal n A b mu le x l k * A k i)) ->
    d_md _ _ d = tab m (fun k => 1 / 2 * mu * (l k - qp_pdal n A b mu le x l k)) ->
    r_merit (res s) = qp_merit n m Q q A b mu le x l ->
    kkt_hess P 0 (w_hess _ _ (wsp s)) (d_phess _ _ d) (w_vhp _ _ (wsp s)) = tab n (fun i => tab n (Q i)) ->
    exists s' x' l', run_step O fls fin P p d dl = Ret (if (max_iters P <=? S (r_num_iters (res s)))%nat then Stop _ _ s' else Next _ _ s' 0) /\
      holds s' mu x' l' le /\ (forall i, (i < n)%nat -> qp_lag n m Q q A x' l' i = 0) /\ (forall k, (k < m)%nat -> qp_rp n A b mu le x' l' k = 0) /\
      r_num_iters (res s') = S (r_num_iters (res s)) /\ r_al_iters (res s') = r_al_iters (res s) /\
      s_inner_tol _ _ s' = s_inner_tol _ _ s /\ s_prim_tol _ _ s' = s_prim_tol _ _ s /\ w_alpha _ _ (wsp s') = 1 /\
      ((r_num_iters (res s) < Nat.pred (max_iters P))%nat -> r_conv (res s') = r_conv (res s)).
  Proof.
    intros Hfl Hfi s H Cap E1 E2 E3 E4 E5 E6 E7 E8. destruct Cx as (Sy & Ps & Ker). assert (Hp := h_pos _ _ _ _ _ _ _ _ H).
    unfold run_step, step. fold s. rewrite (rhs_p d mu x l le H E1 E2 E3 E4), E3.
    rewrite (h_mu _ _ _ _ _ _ _ _ H), (h_sets _ _ _ _ _ _ _ _ H).
    match goal with |- context [kkt_dual_diag ?a1 ?a2 ?a3 ?a4 ?a5] => assert (T : kkt_dual_diag a1 a2 a3 a4 a5 = Ret (tab m (fun _ => - mu))) by exact (dd_p mu x l le); rewrite T; clear T end. cbn [bind].
    assert (EM : step_matrix (o_fac O) (o_bfgs O) P p d (tab m (fun _ => - mu)) = kmat n m Q A mu).
    { unfold step_matrix. fold s. rewrite (h_rho _ _ _ _ _ _ _ _ H), E2. change (s_ws (o_fac O) (o_bfgs O) s) with (wsp s). rewrite E8. rewrite (numdual_p _ _ _ _ _ _ _ like), (ndx_p _ _ _ _ _ _ _ like). apply matrix_p. }
    cbn [car RSc] in *. rewrite EM. change (s_ws (o_fac O) (o_bfgs O) s) with (wsp s). change (s_res (o_fac O) (o_bfgs O) s) with (res s).
    set (F := w_fac _ _ (wsp s)).
    destruct (Cap F) as [In Ex]. change (qp_kkt n m Q A mu) with (kmat n m Q A mu) in In, Ex.
    assert (EI : inertia_loop (K := RSc) (o_fac O) (o_compute O) (o_signature O) fin P n m (kmat n m Q A mu) F 0 dl = Ret (kmat n m Q A mu, o_compute O F (kmat n m Q A mu), 0, 0)).
    { destruct fin as [|f]; [lia|]. cbn [inertia_loop]. cbn [sleb sltb RSc s0]. rewrite rleb_t by exact DM. rewrite rltb_f by lra. rewrite In.
      f_equal. f_equal. f_equal. f_equal. apply upd_diag_zero. }
    rewrite D0. assert (En : numdual p = m) by exact (numdual_p _ _ _ _ _ _ _ like). rewrite En. rewrite (ndx_p _ _ _ _ _ _ _ like). cbn [car RSc] in *. rewrite EI. cbn [bind].
    set (F1 := o_compute O F (kmat n m Q A mu)) in *. set (rhs := tab (n + m) (rf mu x l le)).
    set (pd := iterative_refinement (K := RSc) (o_fac O) (o_solve O) P F1 (kmat n m Q A mu) rhs).
    assert (Ksy : forall i j, (i < n + m)%nat -> (j < n + m)%nat -> kf n Q A mu i j = kf n Q A mu j i) by (intros; apply kf_sym, Sy).
    assert (Pd : length pd = (n + m)%nat /\ forall i, (i < n + m)%nat -> rsum (n + m) (fun j => kf n Q A mu i j * nth j pd 0) = - rf mu x l le i).
    { unfold pd, iterative_refinement. apply (refine_exact O P F1 (n + m) (kf n Q A mu) (rf mu x l le) Ksy Ex).
      - apply Ex. unfold rhs, vneg. cbn [car RSc]. rewrite map_length. apply tab_length.
      - intros i Hi. destruct (Ex (vneg (K := RSc) rhs)) as [_ S]; [unfold rhs, vneg; cbn [car RSc]; rewrite map_length; apply tab_length|].
        specialize (S i Hi). unfold mvec in S. etransitivity; [|etransitivity; [exact S|]].
        + apply rsum_ext. intros j Hj. f_equal. symmetry. apply (kmat_mirror n m Q A mu Sy); assumption.
        + unfold rhs. rewrite vneg_tab, tnth by exact Hi. reflexivity. }
    destruct Pd as [Lp Pd]. rewrite bad_R.
    set (dx := fun i => nth i pd 0). set (e := fun k => nth (n + k) pd 0).
    assert (Ep : pd = tab (n + m) dx) by (apply tab_self, Lp).
    assert (Edx : firstn n pd = tab n dx) by (rewrite Ep; apply firstn_tab).
    assert (Ede : skipn n pd = tab m e) by (rewrite Ep; apply skipn_tab).
    assert (K1 : forall i, (i < n)%nat -> rsum n (fun j => Q i j * dx j) + rsum m (fun k => A k i * e k) = - qp_lag n m Q q A x l i).
    { intros i Hi. specialize (Pd i ltac:(lia)). change (rsum (n + m) (fun j => kf n Q A mu i j * dx j) = - rf mu x l le i) in Pd. rewrite kmat_mv in Pd by lia. unfold rf in Pd. rewrite (proj2 (Nat.ltb_lt i n) Hi) in Pd. exact Pd. }
    assert (K2 : forall k, (k < m)%nat -> rsum n (fun j => A k j * dx j) - mu * e k = - qp_rp n A b mu le x l k).
    { intros k Hk. specialize (Pd (n + k)%nat ltac:(lia)). change (rsum (n + m) (fun j => kf n Q A mu (n + k) j * dx j) = - rf mu x l le (n + k)) in Pd. rewrite kmat_mv in Pd by lia. unfold rf in Pd. rewrite (proj2 (Nat.ltb_ge (n + k) n)) in Pd by lia. replace (n + k - n)%nat with k in Pd by lia. exact Pd. }
    destruct (slope_facts n m Q q A b mu le x l dx e Hp Sy Ps K1 K2) as [S1 S2].
    cbn [car RSc] in *. rewrite Edx, Ede, E5, E6.
    assert (Esl : (vdot (K := RSc) (tab n (fun i => qp_grad n Q q x i + rsum m (fun k => qp_pdal n A b mu le x l k * A k i))) (tab n dx) + vdot (K := RSc) (tab m (fun k => 1 / 2 * mu * (l k - qp_pdal n A b mu le x l k))) (tab m e)) = qp_slope n m Q q A b mu le x l dx e) by (rewrite !vdot_tab; reflexivity).
    change (sadd (s := RSc)) with Rplus. cbn [car RSc] in *. rewrite Esl.
    set (v := qp_merit n m Q q A b mu le (fun i => x i + dx i) (fun k => l k + e k)) in *. set (mm := qmults n ms A b mu le (fun i => x i + dx i) (fun k => l k + e k)).
    pose proof (phi_p s mu x l le dx e H) as Eph. fold v mm in Eph. unfold run_phi in Eph.
    match goal with |- context [run ?a1 ?a2 ?a3 ?a4 ?a5 ?a6] => assert (T : run a1 a2 a3 a4 a5 a6 = Some (mkRes (K := RSc) v 1 [1])) end.
    { apply search_p; [exact Hfl| |exact S1|rewrite E7; exact S2]. unfold phi_opt. match goal with |- context [phi_eval ?a1 ?a2 ?a3 ?a4 ?a5 ?a6 ?a7 ?a8 ?a9 ?a10] => assert (T : phi_eval a1 a2 a3 a4 a5 a6 a7 a8 a9 a10 = Ret (v, mm)) by exact Eph; rewrite T; clear T end. reflexivity. }
    rewrite T; clear T. cbn [r_trace existsb r_alpha r_phi]. 
    match goal with |- context [@is_ub ?ty ?o] => assert (T : @is_ub ty o = false) by exact (f_equal is_ub Eph); rewrite T; clear T end. cbn [orb].
    rewrite (h_x _ _ _ _ _ _ _ _ H), (h_l _ _ _ _ _ _ _ _ H). unfold try_step. rewrite !bad_R. unfold bad_scalar. cbn [snan sfin RSc negb orb].
    cbn [last_mults]. match goal with |- context [phi_eval ?a1 ?a2 ?a3 ?a4 ?a5 ?a6 ?a7 ?a8 ?a9 ?a10] => assert (T : phi_eval a1 a2 a3 a4 a5 a6 a7 a8 a9 a10 = Ret (v, mm)) by exact Eph; rewrite T; clear T end.
    eexists. exists (fun i => x i + dx i), (fun k => l k + e k). split; [|split].
    - match goal with |- context [if ?c then Stop _ _ ?a else Next _ _ ?a' ?z] => reflexivity end.
    - constructor; cbn; try solve [exact Hp|reflexivity|apply tab_length|apply H].
      + exact (f_equal fst (try_p x l dx e)).
      + exact (f_equal snd (try_p x l dx e)).
    - split; [|split; [|repeat split]].
      + intros i Hi. rewrite lag_expand. specialize (K1 i Hi). lra.
      + intros k Hk. unfold qp_rp in *. rewrite con_expand. specialize (K2 k Hk). lra.
      + cbn. intros Hn. destruct (Nat.leb_spec (max_iters P) (S (r_num_iters (res s)))); [lia|reflexivity].
  Qed.
End Step.
