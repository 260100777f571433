(** Quadratic problems with the primal-dual system: the statement about the inner loop. *)
From Coq Require Import Reals List Bool Arith ZArith Lia Lra Psatz.
From Verif Require Import Scalar Cset_model Cset_spec Cset_proofs Armijo_model Problem_model Solver_model Solver_spec SolverR_proofs SolverS_proofs Merit_spec Merit_proofs
  Lin_spec Lin_proofs Ldlt_model Ldlt_spec Ldlt_proofs Bk_spec Descent_spec Descent_proofs DescentX_proofs Refine_proofs Qp_spec Qp_proofs QpD_proofs QpT_proofs QpC_proofs QpF_proofs QpN_proofs Act_spec Act_proofs ActD_proofs ActT_proofs ActF_proofs
  Glob_spec Glob_proofs GlobD_proofs GlobT_proofs.
Import ListNotations.
Local Open Scope R_scope.

Lemma rsum_first n (f : nat -> R) : rsum (S n) f = f 0%nat + rsum n (fun k => f (S k)).
Proof. induction n as [|n IH]; [cbn; lra|]. cbn [rsum] in *. lra. Qed.
Lemma sumk_rsum f ks : forall z, length ks = length z -> sumk f ks z = rsum (length z) (fun k => f (nth k ks KEq) (nth k z 0)).
Proof.
  induction ks as [|c ks IH]; intros [|a z] L; try discriminate L; [reflexivity|]. cbn [sumk length]. rewrite (IH z) by (cbn in L; lia).
  rewrite rsum_first. reflexivity.
Qed.
(** The proximal point is unique. *)
Lemma nearest_unique C m mu v z z' : nearest C m mu v z -> nearest C m mu v z' -> forall k, (k < m)%nat -> z k = z' k.
Proof.
  intros [I1 H1] [I2 H2]. specialize (H1 _ (tab_length m z') I2). specialize (H2 _ (tab_length m z) I1).
  assert (E1 : rsum m (fun k => (v k - z k) * (nth k (tab m z') 0 - z k)) = rsum m (fun k => (v k - z k) * (z' k - z k))) by (apply rsum_ext; intros k Hk; rewrite tab_nth by exact Hk; reflexivity).
  assert (E2 : rsum m (fun k => (v k - z' k) * (nth k (tab m z) 0 - z' k)) = rsum m (fun k => (v k - z' k) * (z k - z' k))) by (apply rsum_ext; intros k Hk; rewrite tab_nth by exact Hk; reflexivity).
  rewrite E1 in H1. rewrite E2 in H2.
  assert (E : rsum m (fun k => (z' k - z k) * (z' k - z k)) = rsum m (fun k => (v k - z k) * (z' k - z k)) + rsum m (fun k => (v k - z' k) * (z k - z' k))) by (rewrite <- rsum_plus; apply rsum_ext; intros; ring).
  assert (Z : rsum m (fun k => (z' k - z k) * (z' k - z k)) = 0) by (apply Rle_antisym; [lra|apply rsum_nonneg; intros; apply Rle_0_sqr]).
  intros k Hk. pose proof (rsum_pos_zero m _ (fun k _ => Rle_0_sqr (z' k - z k)) Z k Hk) as Y. cbn beta in Y. unfold Rsqr in Y. assert (z' k - z k = 0) by (destruct (Rmult_integral _ _ Y); assumption). lra.
Qed.
Lemma nearest_ext C m mu v v' z : (forall k, (k < m)%nat -> v k = v' k) -> nearest C m mu v z -> nearest C m mu v' z.
Proof.
  intros E [H1 H2]. split; [exact H1|]. intros w Lw Hw. eapply Rle_trans; [|apply (H2 w Lw Hw)]. right. apply rsum_ext. intros k Hk. rewrite E by exact Hk. reflexivity.
Qed.
Lemma merit_unique n m Q q A b C mu le x l v v' : merit_at n m Q q A b C mu le x l v -> merit_at n m Q q A b C mu le x l v' -> v = v'.
Proof.
  intros (z & N & ->) (z' & N' & ->). pose proof (nearest_unique _ _ _ _ _ _ N N') as E.
  assert (Et : tab m z = tab m z') by (apply tab_ext; exact E). rewrite Et. f_equal. f_equal. f_equal. apply rsum_ext. intros k Hk. rewrite E by exact Hk. reflexivity.
Qed.

Section Final.
  Variables (n : nat) (Q : nat -> nat -> R) (q : nat -> R) (ms : list nat) (A : nat -> nat -> R) (b : nat -> R).
  Let m := total ms.
  Variable p : @problem RSc.
  Hypothesis like : answers_like n p (qp n Q q ms A b).
  Variable cs : list rset.
  Hypothesis Fit : sets_fit cs (p_cons p).
  Variable mu : R.
  Hypothesis Hm : 0 < mu.
  Hypothesis Ms : Forall (fun c => mu_of c = mu) cs.
  Let C := product_of cs ms.
  Lemma shCg : shape C m. Proof. exact (shape_a n Q q ms A b p like cs Fit). Qed.
  Lemma rowsCg k : nth k (coords C m) KEq = Kr p cs k. Proof. unfold Kr. f_equal. exact (coords_a n Q q ms A b p like cs). Qed.
  Lemma penalty_rows z : length z = m -> penalty C z = rsum m (fun k => cpen (Kr p cs k) (nth k z 0)).
  Proof.
    intros L. rewrite (penalty_coords C m z shCg L). rewrite sumk_rsum by (cbn [car RSc] in *; rewrite (coords_length C m shCg); congruence). cbn [car RSc] in *. rewrite L. apply rsum_ext. intros k Hk. rewrite rowsCg. reflexivity.
  Qed.
  Lemma row_nearest v : nearest C m mu v (fun k => cproj (Kr p cs k) (v k)).
  Proof.
    assert (Ok : forall k, cok (Kr p cs k) /\ cmu mu (Kr p cs k)) by (intros k; apply (stack_coords_ok _ _ mu Fit Ms k)). split.
    - rewrite (in_set_nth C m _ shCg) by apply tab_length. intros k Hk. rewrite tab_nth by exact Hk. rewrite rowsCg. apply cproj_cin, Ok.
    - intros w Lw Hw. rewrite (in_set_nth C m w shCg Lw) in Hw. rewrite !penalty_rows by (first [exact Lw|apply tab_length]). rewrite <- rsum_minus, <- rsum_scale. apply rsum_le. intros k Hk. specialize (Hw k Hk). rewrite rowsCg in Hw.
      rewrite tab_nth by exact Hk. destruct (Ok k) as [O1 O2]. pose proof (cvar _ mu (v k) _ O1 O2 (Rlt_le _ _ Hm) Hw) as V. pose proof (cone_sum (Kr p cs k) (v k)) as S.
      replace (v k - cproj (Kr p cs k) (v k)) with (ccone (Kr p cs k) (v k)) by lra. exact V.
  Qed.
  Lemma act_merit_at le x l : merit_at n m Q q A b C mu le x l (act_merit n m Q q A b (Kr p cs) mu le x l).
  Proof.
    exists (fun k => cproj (Kr p cs k) (shift_pd_at n A b mu le x l k)). split; [apply row_nearest|]. unfold act_merit. f_equal. rewrite penalty_rows by apply tab_length.
    assert (E : forall a t c d, t = c + d -> a + t = a + c + d) by (intros; lra). apply E. unfold Rdiv. rewrite <- rsum_scale_r, <- !rsum_scale, <- rsum_plus. apply rsum_ext. intros k Hk. rewrite tab_nth by exact Hk. unfold env1. field. lra.
  Qed.
End Final.
Lemma nearest_ext_z C m mu v z z' : (forall k, (k < m)%nat -> z k = z' k) -> nearest C m mu v z -> nearest C m mu v z'.
Proof.
  intros E [H1 H2]. assert (Et : tab m z = tab m z') by (apply tab_ext; exact E). rewrite Et in *. split; [exact H1|]. intros w Lw Hw. eapply Rle_trans; [|apply (H2 w Lw Hw)]. right. apply rsum_ext. intros k Hk. rewrite E by exact Hk. reflexivity.
Qed.

Lemma global_final (O : oracles RSc) (P : @params RSc) n Q q ms A b p fi fls fin (s : solver_state O) N theta gam lo v : let m := total ms in let C := product_of (sets s) ms in
  let x := en (r_x (res s)) in let l := en (r_lams (res s)) in let le := en (w_lams_prev _ _ (wsp s)) in let tol := s_inner_tol _ _ s in
  let c1 := armijo_c1 (lsopt P) in let abar := (1 - c1) / (3 / 2 + 2 * theta / mu s) in let low := Rmin (contraction_min (lsopt P)) (1 / 2) in
  answers_like n p (qp n Q q ms A b) -> plain O P n -> kkt_sys P = KKT_PRIMAL_DUAL -> handles_pd O n m Q A (mu s) -> act_state n ms p s ->
  (forall i j, (i < n)%nat -> (j < n)%nat -> Q i j = Q j i) -> (forall y, 0 <= form n Q y) -> (forall y, lo <= qp_obj n Q q y) ->
  0 <= theta -> (forall y, rsum m (fun k => rsum n (fun j => A k j * y j) * rsum n (fun j => A k j * y j)) <= theta * form n Q y) ->
  mu s <= gam -> (forall i, (i < n)%nat -> 2 * Q i i + 4 / mu s * rsum m (fun k => A k i * A k i) <= gam) -> gam * dphi_thresh (lsopt P) <= tol * tol -> 0 < tol ->
  searches (lsopt P) abar ->
  merit_at n m Q q A b C (mu s) le x l v -> v - lo <= INR N * (c1 * (low * abar) * (tol * tol / gam)) ->
  (r_num_iters (res s) + N < max_iters P)%nat -> (N < fi)%nat -> (0 < fls)%nat -> (0 < fin)%nat ->
  exists s' : solver_state O, inner_loop (o_integrate O) (o_px_val O) (o_px_grad O) (o_px_hess O) (o_fac O) (o_compute O) (o_signature O) (o_solve O) (o_bfgs O) (o_bfgs_update O) (o_qr O)
      fi fls fin P p s 0 = Ret s' /\
    act_state n ms p s' /\ mu s' = mu s /\ sets s' = sets s /\ w_lams_prev _ _ (wsp s') = w_lams_prev _ _ (wsp s) /\ r_conv (res s') = r_conv (res s) /\
    (r_num_iters (res s) <= r_num_iters (res s') <= r_num_iters (res s) + N)%nat /\
    let x' := en (r_x (res s')) in let l' := en (r_lams (res s')) in
    (exists v', merit_at n m Q q A b C (mu s) le x' l' v' /\ v' <= v) /\
    is_max_abs (qp_lag n m Q q A x' l') n (r_dual_infeas (res s')) /\
    (exists z, nearest C m (mu s) (fun k => qp_con n A b x' k + mu s * l' k) z /\ is_max_abs (fun k => qp_con n A b x' k - z k) m (r_prim_infeas (res s'))) /\
    ((r_prim_infeas (res s') <= target_tol P /\ r_dual_infeas (res s') <= target_tol P) \/
     (forall i, (i < n)%nat -> Rabs (qp_lag n m Q q A x' l' i) <= tol) /\
     exists z, nearest C m (mu s) (shift_pd_at n A b (mu s) le x' l') z /\ forall k, (k < m)%nat -> Rabs (qp_con n A b x' k + mu s * (le k - l' k) - z k) <= tol).
Proof.
  intros m C x l le tol c1 abar low like [Pb Ph [Pd1 Pd2] _ Pf Pp] Kp Hh Hs Sy Ps Lo Th0 Th Gm Gr Gt Tp Se Mv Hv Hn Hfi Hfl Hfn.
  assert (Fit := as_fit _ _ _ _ Hs). assert (Mu := as_mu _ _ _ _ Hs). assert (Pos := as_pos _ _ _ _ Hs).
  pose proof (act_merit_at n Q q ms A b p like (sets s) Fit (mu s) Pos Mu) as AM. fold m C in AM.
  pose proof (merit_unique _ _ _ _ _ _ _ _ _ _ _ _ _ Mv (AM le x l)) as Ev. rewrite Ev in *.
  destruct (pinner_p O P n Q q ms A b p like Pb Ph Kp Sy Ps Pf Pp Pd1 Pd2 (sets s) Fit (mu s) theta gam tol lo Th0 Th Gm Gr Tp Gt Lo Se Hh N fi fls fin s x l le 0 Hfi Hfl Hfn (state_holda n ms p s Hs) eq_refl Hn Hv)
    as (s' & x' & l' & E & H' & [R1 R2] & M' & _ & _ & _ & Cv & N' & T).
  fold m in R1, R2, M'. destruct (holda_state n ms p (sets s) s' _ _ _ _ Fit H') as (S' & M2 & C').
  exists s'. split; [exact E|]. split; [exact S'|]. split; [exact M2|]. split; [exact C'|]. split; [rewrite (a_le _ _ _ _ _ _ _ _ _ H'); symmetry; apply tab_self, Hs|]. split; [exact Cv|]. split; [exact N'|].
  cbv zeta. rewrite (a_x _ _ _ _ _ _ _ _ _ H'), (a_l _ _ _ _ _ _ _ _ _ H'). fold m.
  assert (Ex : forall i, (i < n)%nat -> x' i = en (tab n x') i) by (intros i Hi; symmetry; apply en_tab, Hi). assert (El : forall k, (k < m)%nat -> l' k = en (tab m l') k) by (intros k Hk; symmetry; apply en_tab, Hk).
  split; [|split; [|split]].
  - eexists. split; [apply AM|]. eapply Rle_trans; [|exact M']. right. symmetry. apply (amer_ext n Q q ms A b p (sets s) (mu s) le); assumption.
  - apply (max_ext _ _ _ _ (fun i _ => lag_ext n Q q ms A x' (en (tab n x')) l' (en (tab m l')) i Ex El) R2).
  - exists (fun k => cproj (Kr p (sets s) k) (qp_con n A b (en (tab n x')) k + mu s * en (tab m l') k)). split; [exact (row_nearest n Q q ms A b p like (sets s) Fit (mu s) Pos Mu _)|].
    refine (max_ext _ _ _ _ _ R1). intros k Hk. unfold aviol. rewrite (con_ext n A b x' _ k Ex), (El k Hk). reflexivity.
  - destruct T as [[T1 T2]|T]; [right|left; exact T]. split.
    + intros i Hi. assert (EL : qp_lag n m Q q A x' l' i = qp_lag n m Q q A (en (tab n x')) (en (tab m l')) i) by exact (lag_ext n Q q ms A x' (en (tab n x')) l' (en (tab m l')) i Ex El). exact (Rle_trans _ _ _ (Req_le _ _ (f_equal Rabs (eq_sym EL))) (T1 i Hi)).
    + exists (fun k => cproj (Kr p (sets s) k) (shift_pd_at n A b (mu s) le (en (tab n x')) (en (tab m l')) k)). split; [exact (row_nearest n Q q ms A b p like (sets s) Fit (mu s) Pos Mu _)|].
      intros k Hk. specialize (T2 k Hk). assert (Es : shift_pd_at n A b (mu s) le (en (tab n x')) (en (tab m l')) k = shift_pd_at n A b (mu s) le x' l' k) by (unfold shift_pd_at, shift_at; rewrite (con_ext n A b x' _ k Ex), <- (El k Hk); reflexivity).
      change (Rabs (qp_con n A b (en (tab n x')) k + mu s * (le k - en (tab m l') k) - cproj (Kr p (sets s) k) (shift_pd_at n A b (mu s) le (en (tab n x')) (en (tab m l')) k)) <= tol). rewrite Es, <- (con_ext n A b x' _ k Ex), <- (El k Hk). unfold GlobD_proofs.prp, act_pdal in T2. eapply Rle_trans; [apply Req_le|exact T2]. f_equal.
      pose proof (cone_sum (Kr p (sets s) k) (shift_pd_at n A b (mu s) le x' l' k)) as CS. unfold shift_pd_at, shift_at in *. set (cc := ccone _ _) in *. 
      replace (1 / 2 * mu s * (cc * (1 / mu s / (1 / 2)) - l' k)) with (cc - 1 / 2 * mu s * l' k) by (field; lra). lra.
Qed.
