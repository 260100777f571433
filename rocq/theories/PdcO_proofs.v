(** Quadratic problems with inequality constraints and the primal-dual system: the outer loop converges. *)
From Coq Require Import Reals List Bool Arith ZArith Lia Lra Psatz.
From Verif Require Import Scalar Cset_model Cset_spec Cset_proofs Armijo_model Problem_model Solver_model Solver_spec SolverR_proofs SolverS_proofs Merit_spec Merit_proofs
  Lin_spec Lin_proofs Ldlt_spec Ldlt_proofs Bk_spec Descent_spec Descent_proofs DescentX_proofs Refine_proofs Qp_spec Qp_proofs QpD_proofs QpT_proofs QpC_proofs QpF_proofs QpN_proofs Fac_spec Act_spec Act_proofs ActD_proofs ActT_proofs ActF_proofs
  Glob_spec Glob_proofs GlobD_proofs GlobT_proofs GlobF_proofs Pdc_spec Pdc_proofs.
Import ListNotations.
Local Open Scope R_scope.

(** ** The penalty parameter of the sets does not matter without an l1 penalty *)
Lemma prox_in nu (c : rset) z : in_set (set_prox (K := RSc) nu c) z <-> in_set c z. Proof. destruct c; reflexivity. Qed.
Lemma prox_pen nu (c : rset) z : penalty (set_prox (K := RSc) nu c) z = penalty c z. Proof. destruct c; reflexivity. Qed.
Lemma prod_in nu cs : forall ms z, in_set (product_of (map (set_prox (K := RSc) nu) cs) ms) z <-> in_set (product_of cs ms) z.
Proof.
  unfold product_of. cbn [in_set]. induction cs as [|c cs IH]; intros [|k ms] z; cbn [map combine]; try reflexivity. rewrite prox_in, (IH ms (skipn k z)). reflexivity.
Qed.
Lemma prod_pen nu cs : forall ms z, penalty (product_of (map (set_prox (K := RSc) nu) cs) ms) z = penalty (product_of cs ms) z.
Proof.
  unfold product_of. cbn [penalty]. induction cs as [|c cs IH]; intros [|k ms] z; cbn [map combine]; try reflexivity. rewrite prox_pen, (IH ms (skipn k z)). reflexivity.
Qed.
Lemma prod_near nu cs ms m mu v z : nearest (product_of (map (set_prox (K := RSc) nu) cs) ms) m mu v z <-> nearest (product_of cs ms) m mu v z.
Proof.
  unfold nearest. split; intros [H1 H2]; (split; [apply (prod_in nu cs ms); exact H1|]); intros w Lw Hw; specialize (H2 w Lw); rewrite ?prod_pen in *; apply H2; apply (prod_in nu cs ms); exact Hw.
Qed.
Lemma prox_fit nu cs fs : sets_fit cs fs -> sets_fit (map (set_prox (K := RSc) nu) cs) fs.
Proof.
  intros [H1 H2]. split; [clear H2; induction H1 as [|c f l r H Hr IH]; cbn; constructor; [destruct c; exact H|exact IH]|].
  clear H1. induction H2 as [|c l H Hr IH]; cbn; constructor; [destruct c; exact H|exact IH].
Qed.
Lemma prox_twice nu mu cs : map (set_prox (K := RSc) nu) (map (set_prox (K := RSc) mu) cs) = map (set_prox (K := RSc) nu) cs.
Proof. rewrite map_map. apply map_ext. intros c. destruct c; reflexivity. Qed.
Lemma prox_mus nu cs : Forall (fun c => mu_of c = nu) (map (set_prox (K := RSc) nu) cs).
Proof. apply Forall_forall. intros c H. apply in_map_iff in H as (c' & <- & _). destruct c'; reflexivity. Qed.

(** ** What a rejection and an acceptance do *)
Section Update.
  Variables (O : oracles RSc) (P : @params RSc) (n : nat) (ms : list nat) (cs : list rset).
  Hypothesis Mm : mul_update P = MM_NEWTON.
  Hypothesis Pow : forall x y, 0 < x -> o_pow O x y = Rpower x y.
  Hypothesis Hlo : 0 < mu_lower P.
  Hypothesis Hin : mu_lower P <= mu_init P.
  Hypothesis Hup : mu_init P < mu_upper P.
  Notation prox mu := (map (set_prox (K := RSc) mu) cs).
  Definition holdq (s : solver_state O) (mu : R) (x l le : nat -> R) : Prop := holda O n ms (prox mu) s mu x l le.
  Notation close := (close O P).
  Notation after := (after O P).
    Lemma upd_rej s1 mu x l le : holdq s1 mu x l le -> mu_lower P <= mu -> ~ r_prim_infeas (res s1) < s_prim_tol _ _ s1 ->
    exists mu', holdq (after (close s1)) mu' x l le /\ mu_lower P <= mu' /\ (mu <> mu_lower P -> mu' = Rmax (mu * mu_factor P) (mu_lower P)) /\
      s_inner_tol _ _ (after (close s1)) = smax (K := RSc) (inner_tol0 P * Rpower mu' (dual_alpha P)) (inner_tol_min P) /\
      s_prim_tol _ _ (after (close s1)) = smax (K := RSc) (prim_tol0 P * Rpower mu' (prim_alpha P)) (target_tol P).
  Proof.
    intros H0 Hl L. assert (H : holda O n ms (prox mu) (accept_primal (o_fac O) (o_bfgs O) s1) mu x l le) by (constructor; cbn; apply H0).
    assert (Hm := a_pos _ _ _ _ _ _ _ _ _ H).
    unfold QpC_proofs.close, run_bcl, bcl_update. cbn [sltb RSc]. change (s_res (o_fac O) (o_bfgs O) (accept_primal (o_fac O) (o_bfgs O) s1)) with (res s1).
    change (s_prim_tol (o_fac O) (o_bfgs O) (accept_primal (o_fac O) (o_bfgs O) s1)) with (s_prim_tol _ _ s1). rewrite rltb_f by lra.
    set (s := accept_primal (o_fac O) (o_bfgs O) s1) in *. unfold QpC_proofs.after, tol_failure, set_tols, update_penalty. rewrite (a_mu _ _ _ _ _ _ _ _ _ H).
    assert (Gd : forall nu, 0 < nu -> holdq (after (tol_failure (o_pow O) (o_fac O) (o_bfgs O) P (set_penalty (o_fac O) (o_bfgs O) nu s))) nu x l le).
    { intros nu Hn. constructor; cbn; try solve [exact Hn|reflexivity|apply H0|apply prox_mus].
      - pose proof (a_rho _ _ _ _ _ _ _ _ _ H0) as R0. change (s_rho (o_fac O) (o_bfgs O) s1 * rho_factor P = 0). rewrite R0. ring.
      - pose proof (a_sets _ _ _ _ _ _ _ _ _ H0) as S0. change (map (set_prox (K := RSc) nu) (s_sets (o_fac O) (o_bfgs O) s1) = prox nu). rewrite S0. apply prox_twice. }
    destruct (seqb mu (mu_lower P)) eqn:E.
    - exists (mu_init P). split; [apply Gd; lra|]. split; [exact Hin|]. cbn in E. apply Reqb_true in E. split; [intros F; contradiction|]. cbn. rewrite !Pow by lra. split; reflexivity.
    - assert (Em : smax (K := RSc) (mu * mu_factor P) (mu_lower P) = Rmax (mu * mu_factor P) (mu_lower P)).
      { destruct (Rle_dec (mu * mu_factor P) (mu_lower P)); [rewrite smax_R_r, Rmax_right|rewrite smax_R_l, Rmax_left]; lra. }
      exists (Rmax (mu * mu_factor P) (mu_lower P)). pose proof (Rmax_r (mu * mu_factor P) (mu_lower P)) as Hr. rewrite <- Em in *. split; [apply (Gd (smax (K := RSc) (mu * mu_factor P) (mu_lower P))); cbn [car RSc] in *; lra|].
      split; [exact Hr|]. split; [reflexivity|]. cbn. rewrite !Pow by (cbn [car RSc] in *; lra). split; reflexivity.
  Qed.
  Lemma upd_acc s1 mu x l le : holdq s1 mu x l le -> r_prim_infeas (res s1) < s_prim_tol _ _ s1 ->
    holdq (after (close s1)) mu x l l /\
    s_inner_tol _ _ (after (close s1)) = smax (K := RSc) (s_inner_tol _ _ s1 * Rpower (mu / mu_upper P) (dual_beta P)) (inner_tol_min P) /\
    s_prim_tol _ _ (after (close s1)) = smax (K := RSc) (s_prim_tol _ _ s1 * Rpower (mu / mu_upper P) (prim_beta P)) (target_tol P).
  Proof.
    intros H L. assert (Hm := a_pos _ _ _ _ _ _ _ _ _ H). assert (Hd : 0 < mu / mu_upper P) by (apply Rdiv_lt_0_compat; lra).
    unfold QpC_proofs.close, run_bcl, bcl_update. cbn [sltb RSc]. change (s_res (o_fac O) (o_bfgs O) (accept_primal (o_fac O) (o_bfgs O) s1)) with (res s1).
    change (s_prim_tol (o_fac O) (o_bfgs O) (accept_primal (o_fac O) (o_bfgs O) s1)) with (s_prim_tol _ _ s1). rewrite rltb_t by exact L.
    split; [|cbn; change (s_mu (o_fac O) (o_bfgs O) s1) with (s_mu _ _ s1); rewrite (a_mu _ _ _ _ _ _ _ _ _ H), !Pow by exact Hd; split; reflexivity].
    constructor; cbn; try solve [apply H]; rewrite ?Mm.
    - change (s_rho (o_fac O) (o_bfgs O) s1 * rho_factor P = 0). rewrite (a_rho _ _ _ _ _ _ _ _ _ H). ring.
    - apply H.
    - apply H.
  Qed.
  Lemma q_rec s mu x l le : holdq s mu x l le -> holdq (record_params (o_fac O) (o_bfgs O) s) mu x l le.
  Proof. intros H. constructor; cbn; apply H. Qed.
End Update.

Section Outer.
  Variables (O : oracles RSc) (P : @params RSc) (n : nat) (Q : nat -> nat -> R) (q : nat -> R) (ms : list nat) (A : nat -> nat -> R) (b : nat -> R).
  Let m := total ms.
  Variable p : @problem RSc.
  Hypothesis like : answers_like n p (qp n Q q ms A b).
  Hypothesis beta : pdal_beta P = 1 / 2.
  Hypothesis hess : hess_approx P = HM_EXACT \/ hess_approx P = HM_GAUSS_NEWTON.
  Hypothesis Kp : kkt_sys P = KKT_PRIMAL_DUAL.
  Hypothesis Flat : forall x v, length x = n -> length v = n -> o_integrate O x v = tab n (fun i => nth i x 0 + nth i v 0).
  Hypothesis Px : forall t x, o_px_val O 0 t x = 0.
  Hypothesis D0 : delta_init P = 0.
  Hypothesis DM : 0 <= delta_max P.
  Variable cs : list rset.
  Hypothesis Fit : sets_fit cs (p_cons p).
  Let C := product_of cs ms.
  Hypothesis NoPen : forall z, penalty C z = 0.
  Variables (c theta gam lo X D G B : R) (xs ls : nat -> R) (Rn T N : nat).
  Hypothesis Cp : 0 < c.
  Hypothesis Sc : strongly_convex n Q c.
  Hypothesis Th0 : 0 <= theta.
  Hypothesis Th : forall y, rsum m (fun k => rsum n (fun j => A k j * y j) * rsum n (fun j => A k j * y j)) <= theta * form n Q y.
  Hypothesis Lo : forall y, lo <= qp_obj n Q q y.
  Hypothesis Opt : kkt_pair n m Q q A b C xs ls.
  Hypothesis Po : pd_outer O P n m Q q A c theta gam lo X D G B xs ls Rn T N.
  Hypothesis Cap : forall mu, mu_lower P <= mu <= mu_init P -> handles_pd O n m Q A mu.
  Notation con := (qp_con n A b).
  Notation lag := (qp_lag n m Q q A).
  Notation prox mu := (map (set_prox (K := RSc) mu) cs).
  Notation holdq := (holdq O n ms cs).
  Notation close := (close O P).
  Notation after := (after O P).
  Notation outer := (outer O P p).
  Let th := Rpower (mu_init P / mu_upper P) (dual_beta P).
  Let tp := Rpower (mu_init P / mu_upper P) (prim_beta P).

  Lemma form_pos x : 0 <= form n Q x.
  Proof. destruct Sc as [_ H]. eapply Rle_trans; [|apply H]. apply Rmult_le_pos; [lra|apply sq_nonneg]. Qed.
  Lemma smax_widest mu : smax (K := RSc) (inner_tol0 P * Rpower mu (dual_alpha P)) (inner_tol_min P) = widest P mu.
  Proof. unfold widest, Rmax. destruct (Rle_dec _ _); [apply smax_R_r; assumption|apply smax_R_l; lra]. Qed.

  Lemma q_rej s1 mu x l le : holdq s1 mu x l le -> mu_lower P <= mu -> ~ r_prim_infeas (res s1) < s_prim_tol _ _ s1 ->
    exists mu', holdq (after (close s1)) mu' x l le /\ mu_lower P <= mu' /\ (mu <> mu_lower P -> mu' = Rmax (mu * mu_factor P) (mu_lower P)) /\
      s_inner_tol _ _ (after (close s1)) = smax (K := RSc) (inner_tol0 P * Rpower mu' (dual_alpha P)) (inner_tol_min P) /\
      s_prim_tol _ _ (after (close s1)) = smax (K := RSc) (prim_tol0 P * Rpower mu' (prim_alpha P)) (target_tol P).
  Proof. destruct Po as [_ _ Pow ([Hlo Hin] & _ & _) _ _ _ _ _ _ _ _ _ _ _ _]. apply (upd_rej O P n ms cs Pow Hlo Hin). Qed.
  Lemma q_acc s1 mu x l le : holdq s1 mu x l le -> r_prim_infeas (res s1) < s_prim_tol _ _ s1 ->
    holdq (after (close s1)) mu x l l /\
    s_inner_tol _ _ (after (close s1)) = smax (K := RSc) (s_inner_tol _ _ s1 * Rpower (mu / mu_upper P) (dual_beta P)) (inner_tol_min P) /\
    s_prim_tol _ _ (after (close s1)) = smax (K := RSc) (s_prim_tol _ _ s1 * Rpower (mu / mu_upper P) (prim_beta P)) (target_tol P).
  Proof. destruct Po as [Mm _ Pow ([Hlo Hin] & Hup & _) _ _ _ _ _ _ _ _ _ _ _ _]. apply (upd_acc O P n ms cs Mm Pow Hlo Hin Hup). Qed.
  (** One inner loop. *)
  Lemma q_inner fi fls fin s mu x l le : (N < fi)%nat -> (0 < fls)%nat -> (0 < fin)%nat -> holdq s mu x l le -> mu_lower P <= mu <= mu_init P -> inner_tol_min P <= s_inner_tol _ _ s ->
    form n Q (fun i => x i - xs i) <= X -> sqdist m l ls <= B * B -> sqdist m le ls <= B * B -> (r_num_iters (res s) + N < max_iters P)%nat ->
    exists s' x' l', inner O P p fi fls fin s 0 = Ret s' /\ holdq s' mu x' l' le /\
      is_max_abs (lag x' l') n (r_dual_infeas (res s')) /\ (exists z, nearest C m mu (fun k => con x' k + mu * l' k) z /\ is_max_abs (fun k => con x' k - z k) m (r_prim_infeas (res s'))) /\
      s_inner_tol _ _ s' = s_inner_tol _ _ s /\ s_prim_tol _ _ s' = s_prim_tol _ _ s /\ r_al_iters (res s') = r_al_iters (res s) /\ (r_num_iters (res s') <= r_num_iters (res s) + N)%nat /\
      ((r_prim_infeas (res s') <= target_tol P /\ r_dual_infeas (res s') <= target_tol P) \/
       (forall i, (i < n)%nat -> Rabs (lag x' l' i) <= s_inner_tol _ _ s) /\
       exists z, nearest C m mu (shift_pd_at n A b mu le x' l') z /\ forall k, (k < m)%nat -> Rabs (con x' k + mu * (le k - l' k) - z k) <= s_inner_tol _ _ s).
  Proof.
    destruct Po as [_ _ _ ([Hlo Hin] & _ & _) _ (Tg & _ & _ & Tm & _) _ _ _ _ _ _ _ (G1 & G2 & G3) Se Hn]. intros Hfi Hfl Hfn H Hmu Ht HX Hl Hle Hit.
    assert (Hm := a_pos _ _ _ _ _ _ _ _ _ H). assert (Fp := prox_fit mu cs _ Fit). assert (Mp := prox_mus mu cs).
    set (w := s_inner_tol (o_fac O) (o_bfgs O) s) in *.
    assert (Gr : forall i, (i < n)%nat -> 2 * Q i i + 4 / mu * rsum m (fun k => A k i * A k i) <= gam).
    { intros i Hi. eapply Rle_trans; [|apply G2, Hi]. apply Rplus_le_compat_l. apply Rmult_le_compat_r; [apply sq_nonneg|]. unfold Rdiv. apply Rmult_le_compat_l; [lra|]. apply Rinv_le_contravar; lra. }
    assert (Ww : inner_tol_min P * inner_tol_min P <= w * w) by (apply Rmult_le_compat; cbn [car RSc] in *; lra).
    pose proof (act_merit_at n Q q ms A b p like (prox mu) Fp mu Hm Mp le x l) as AM. fold m in AM.
    assert (AM' : merit_at n m Q q A b C mu le x l (act_merit n m Q q A b (Kr p (prox mu)) mu le x l)).
    { destruct AM as (z & Z1 & Z2). exists z. split; [apply (prod_near mu), Z1|]. rewrite prod_pen in Z2. exact Z2. }
    assert (Gp : 0 < gam) by lra. pose proof (se_c1 _ _ (Se mu Hmu)) as C1. pose proof (se_abar _ _ (Se mu Hmu)) as C2. pose proof (se_con _ _ (Se mu Hmu)) as C3.
    assert (Hv : act_merit n m Q q A b (Kr p (prox mu)) mu le x l - lo <= INR N * (armijo_c1 (lsopt P) * (Rmin (contraction_min (lsopt P)) (1 / 2) * ((1 - armijo_c1 (lsopt P)) / (3 / 2 + 2 * theta / mu))) * (w * w / gam))).
    { pose proof (merit_top_ok n m Q q A b C theta xs ls X B mu le x l _ (proj1 Sc) Th0 Th Opt NoPen Hm HX Hl Hle AM') as Mt. specialize (Hn mu Hmu).
      eapply Rle_trans; [apply Rplus_le_compat_r, Mt|]. eapply Rle_trans; [exact Hn|]. apply Rmult_le_compat_l; [apply pos_INR|]. apply Rmult_le_compat_l.
      - apply Rmult_le_pos; [lra|]. apply Rmult_le_pos; [|lra]. apply Rmin_glb; lra.
      - unfold Rdiv. apply Rmult_le_compat_r; [left; apply Rinv_0_lt_compat, Gp|exact Ww]. }
    destruct (pinner_p O P n Q q ms A b p like beta hess Kp (proj1 Sc) form_pos Flat Px D0 DM (prox mu) Fp mu theta gam w lo Th0 Th ltac:(lra) Gr ltac:(cbn [car RSc] in *; lra) ltac:(cbn [car RSc] in *; lra) Lo (Se mu Hmu) (Cap mu Hmu) N fi fls fin s x l le 0 Hfi Hfl Hfn H eq_refl Hit Hv)
      as (s' & x' & l' & E & H' & [R1 R2] & _ & I' & P' & A' & _ & N' & Tt).
    exists s', x', l'. split; [exact E|]. split; [exact H'|]. split; [exact R2|]. split.
    { exists (fun k => cproj (Kr p (prox mu) k) (con x' k + mu * l' k)). split; [|exact R1]. apply (prod_near mu). exact (row_nearest n Q q ms A b p like (prox mu) Fp mu Hm Mp _). }
    split; [exact I'|]. split; [exact P'|]. split; [exact A'|]. split; [lia|]. destruct Tt as [[T1 T2]|Tt]; [right|left; exact Tt]. split; [exact T1|].
    exists (fun k => cproj (Kr p (prox mu) k) (shift_pd_at n A b mu le x' l' k)). split; [apply (prod_near mu); exact (row_nearest n Q q ms A b p like (prox mu) Fp mu Hm Mp _)|].
    intros k Hk. specialize (T2 k Hk). unfold GlobD_proofs.prp, act_pdal in T2. eapply Rle_trans; [apply Req_le|exact T2]. f_equal.
    pose proof (cone_sum (Kr p (prox mu) k) (shift_pd_at n A b mu le x' l' k)) as CS. unfold shift_pd_at, shift_at in *. set (cc := ccone _ _) in *.
    replace (1 / 2 * mu * (cc * (1 / mu / (1 / 2)) - l' k)) with (cc - 1 / 2 * mu * l' k) by (field; lra). lra.
  Qed.

  Record qinv (s : solver_state O) (mu : R) (x l le : nat -> R) (r t M : nat) : Prop := {
    q_h : holdq s mu x l le; q_lo : mu_lower P <= mu; q_hi : mu <= mu_init P; q_r : mu * mu_factor P ^ r <= mu_lower P;
    q_D : nm m (fun k => le k - ls k) + INR (S M) * G <= B; q_l : nm m (fun k => l k - ls k) <= B; q_x : form n Q (fun i => x i - xs i) <= X;
    q_t : (t <= T)%nat; q_0 : inner_tol_min P <= s_inner_tol _ _ s;
    q_in : tolb (inner_tol0 P) (dual_alpha P) th (inner_tol_min P) (s_inner_tol _ _ s) mu (T - t);
    q_pr : tolb (prim_tol0 P) (prim_alpha P) tp (target_tol P) (s_prim_tol _ _ s) mu (T - t) }.

  Lemma tolb_widest v mu j : mu_lower P <= mu <= mu_init P -> tolb (inner_tol0 P) (dual_alpha P) th (inner_tol_min P) v mu j -> v <= widest P mu.
  Proof.
    destruct Po as [_ _ _ ([Hlo Hin] & Hup & _) (_ & Hdb & _ & _) (_ & Hi0 & _ & _ & _) _ _ _ _ _ _ _ _ _ _]. intros Hm H. unfold widest.
    pose proof (Rmax_l (inner_tol0 P * Rpower mu (dual_alpha P)) (inner_tol_min P)). pose proof (Rmax_r (inner_tol0 P * Rpower mu (dual_alpha P)) (inner_tol_min P)). destruct H as [H|H]; [|lra].
    destruct (ratio P Hlo Hin Hup mu (dual_beta P) Hm Hdb) as (R1 & R2 & R3). fold th in R2, R3. assert (th ^ j <= 1) by (rewrite <- (pow1 j); apply pow_incr; lra). assert (0 < th ^ j) by (apply pow_lt; lra).
    pose proof (rpow_pos mu (dual_alpha P)). assert (0 <= inner_tol0 P * Rpower mu (dual_alpha P)) by (apply Rmult_le_pos; lra). nra.
  Qed.
  Lemma G_pos : 0 <= G.
  Proof.
    destruct Po as [_ _ _ ([Hlo Hin] & _ & _) _ (_ & _ & _ & Tm & _) _ _ _ _ HG _ _ _ _ _]. eapply Rle_trans; [|apply (HG (mu_lower P)); lra]. unfold drift. cbv zeta. apply Rplus_le_le_0_compat; [|apply sqrt_pos].
    apply Rmult_le_pos; [lra|]. apply Rmult_le_pos; [|left; apply Rinv_0_lt_compat, Hlo]. apply Rmult_le_pos; [apply sqrt_pos|]. unfold widest. eapply Rle_trans; [|apply Rmax_r]. lra.
  Qed.

  Definition good_end (al nu : nat) (s' : solver_state O) : Prop := r_conv (res s') = SUCCESS /\ (r_al_iters (res s') <= al)%nat /\ (r_num_iters (res s') <= nu)%nat /\
    exists mu x l, mu_lower P <= mu <= mu_init P /\ r_x (res s') = tab n x /\ r_lams (res s') = tab m l /\ within n m Q q A b C mu x l (target_tol P).
  Definition on_edge (al nu : nat) (s' : solver_state O) : Prop := (r_al_iters (res s') <= al)%nat /\ (r_num_iters (res s') <= nu)%nat /\
    exists mu x l, mu_lower P <= mu <= mu_init P /\ r_x (res s') = tab n x /\ r_lams (res s') = tab m l /\ within n m Q q A b C mu x l (target_tol P) /\ touches n m Q q A b C mu x l (target_tol P).

  Lemma outer_q fi fls fin : (N < fi)%nat -> (0 < fls)%nat -> (0 < fin)%nat -> forall M fo s mu x l le r t, qinv s mu x l le r t M -> (r * S T + t <= M)%nat ->
    (r_al_iters (res s) + M < max_al_iters P)%nat -> (r_num_iters (res s) + S M * N < max_iters P)%nat -> (M < fo)%nat ->
    let al := (r_al_iters (res s) + M)%nat in let nu := (r_num_iters (res s) + S M * N)%nat in
    (exists s', outer fo fi fls fin s = Ret s' /\ good_end al nu s') \/ (exists fo' s2, (fo' < fo)%nat /\ outer fo fi fls fin s = outer fo' fi fls fin s2 /\ on_edge (S al) nu s2).
  Proof.
    intros Hfi Hfl Hfn. assert (Po' := Po). destruct Po' as [Mm _ Pow ([Hlo Hin] & Hup & Hf) (Hda & Hdb & Hpa & Hpb) (Tg & Hi0 & Hp0 & Tm & Tm2) Low HR HT HTp HG [HD HB] HX _ _ _].
    induction M as [M IH] using lt_wf_ind. intros fo s mu x l le r t [H Hlow Hhi Hr HDl Hll Hxx Htt H0 Hit Hpt] HM Hal Hnu Hfo al nu.
    destruct fo as [|fo]; [lia|]. assert (Hm := a_pos _ _ _ _ _ _ _ _ _ H). pose proof G_pos as G0. pose proof (nm_pos m (fun k => le k - ls k)) as Le0. pose proof (nm_pos m (fun k => l k - ls k)) as Ll0.
    assert (SM : INR (S M) * G = INR M * G + G) by (rewrite S_INR; ring). assert (MG : 0 <= INR M * G) by (apply Rmult_le_pos; [apply pos_INR|exact G0]).
    assert (NuS : (S M * N = N + M * N)%nat) by lia.
    destruct (q_inner fi fls fin (record_params (o_fac O) (o_bfgs O) s) mu x l le Hfi Hfl Hfn (q_rec O n ms cs _ _ _ _ _ H) (conj Hlow Hhi)) as (s1 & x1 & l1 & E & H1 & Rd & (z1 & Nz1 & Rp) & T1 & T2 & A1 & N1 & Cs).
    { exact H0. } { exact Hxx. } { rewrite dist_le. apply Rmult_le_compat; assumption. } { rewrite dist_le. apply Rmult_le_compat; try assumption; lra. } { change (r_num_iters (res s) + N < max_iters P)%nat. lia. }
    change (s_inner_tol (o_fac O) (o_bfgs O) (record_params (o_fac O) (o_bfgs O) s)) with (s_inner_tol _ _ s) in *. change (s_prim_tol (o_fac O) (o_bfgs O) (record_params (o_fac O) (o_bfgs O) s)) with (s_prim_tol _ _ s) in *.
    change (r_al_iters (res (record_params (o_fac O) (o_bfgs O) s))) with (r_al_iters (res s)) in *. change (r_num_iters (res (record_params (o_fac O) (o_bfgs O) s))) with (r_num_iters (res s)) in *.
    rewrite (outer_unfold O P p Mm fo fi fls fin s s1 ltac:(lia) ltac:(lia) E).
    set (pi := r_prim_infeas (res s1)) in *. set (di := r_dual_infeas (res s1)) in *.
    destruct (close_res O P Mm s1) as (_ & _ & CN & CA & CX & CL & _).
    assert (Bd : pi <= target_tol P /\ di <= target_tol P -> within n m Q q A b C mu x1 l1 (target_tol P)).
    { intros [B1 B2]. split; [intros i Hi; pose proof (max_abs_ge _ _ _ i Rd Hi); lra|]. exists z1. split; [exact Nz1|]. intros k Hk. pose proof (max_abs_ge _ _ _ k Rp Hk). cbv beta in *. lra. }
    destruct (Rlt_dec (smax (K := RSc) pi di) (target_tol P)) as [L|L].
    { left. eexists. split; [reflexivity|]. unfold good_end. change (res (set_conv (o_fac O) (o_bfgs O) SUCCESS (close s1))) with (res (set_conv (o_fac O) (o_bfgs O) SUCCESS (close s1) : solver_state O)).
      change (r_x (res (set_conv (o_fac O) (o_bfgs O) SUCCESS (close s1) : solver_state O))) with (r_x (res (close s1))). change (r_lams (res (set_conv (o_fac O) (o_bfgs O) SUCCESS (close s1) : solver_state O))) with (r_lams (res (close s1))).
      change (r_al_iters (res (set_conv (o_fac O) (o_bfgs O) SUCCESS (close s1) : solver_state O))) with (r_al_iters (res (close s1))). change (r_num_iters (res (set_conv (o_fac O) (o_bfgs O) SUCCESS (close s1) : solver_state O))) with (r_num_iters (res (close s1))).
      split; [reflexivity|]. rewrite CA, CN, A1. split; [unfold al; lia|]. split; [unfold nu; lia|]. exists mu, x1, l1. split; [lra|]. rewrite CX, CL. split; [apply H1|]. split; [apply H1|]. apply Bd, smax_le, Rlt_le, L. }
    destruct (Req_dec (smax (K := RSc) pi di) (target_tol P)) as [Eq|Ne].
    { right. exists fo, (after (close s1)). split; [lia|]. split; [reflexivity|]. unfold on_edge.
      change (r_al_iters (res (after (close s1)))) with (S (r_al_iters (res (close s1)))). change (r_num_iters (res (after (close s1)))) with (r_num_iters (res (close s1))). rewrite CA, CN, A1. split; [unfold al; lia|]. split; [unfold nu; lia|].
      exists mu, x1, l1. split; [lra|]. change (r_x (res (after (close s1)))) with (r_x (res (close s1))). change (r_lams (res (after (close s1)))) with (r_lams (res (close s1))). rewrite CX, CL. split; [apply H1|]. split; [apply H1|].
      split; [apply Bd, smax_le, Req_le, Eq|]. destruct (Rle_dec pi di) as [Le|Le]; [rewrite smax_R_r in Eq by exact Le; left|rewrite smax_R_l in Eq by lra; right].
      + destruct Rd as [_ [[_ Z]|(i & Hi & Ei)]]; [fold di in Z; lra|]. exists i. split; [exact Hi|]. fold di in Ei. lra.
      + destruct Rp as [_ [[_ Z]|(i & Hi & Ei)]]; [fold pi in Z; lra|]. exists z1, i. split; [exact Nz1|]. split; [exact Hi|]. fold pi in Ei. lra. }
    assert (Big : ~ (pi <= target_tol P /\ di <= target_tol P)) by (intros B1; apply smax_le in B1; cbn [car RSc] in *; lra).
    destruct Cs as [Cs|(Lg & z & Nz & Sm)]; [contradiction|]. set (w := s_inner_tol (o_fac O) (o_bfgs O) s) in *.
    assert (W0 : 0 <= w) by (cbn [car RSc] in *; lra). assert (Ww : w <= widest P mu) by (apply (tolb_widest w mu (T - t)); [lra|exact Hit]).
    (* the multipliers *)
    destruct (fejer_drift n m Q q A b C c theta xs ls Cp Sc Th0 Th Opt NoPen mu w le x1 l1 z Hm W0 Lg Nz Sm (nm m (fun k => le k - ls k)) Le0 ltac:(rewrite dist_le; lra)) as [Fa Fd].
    pose proof (drift_mono n m c theta mu w (widest P mu) Cp Th0 Hm W0 Ww) as Dm. specialize (HG mu (conj Hlow Hhi)). assert (Fa' : nm m (fun k => l1 k - ls k) <= nm m (fun k => le k - ls k) + G) by lra. assert (Fd' : nm m (fun k => le k - l1 k) <= B) by lra.
    assert (B0 : 0 <= B) by lra. assert (Hl1 : nm m (fun k => l1 k - ls k) <= B) by lra.
    assert (Hx1 : form n Q (fun i => x1 i - xs i) <= X).
    { pose proof (point_near n m Q q A b C c theta xs ls Cp Sc Th0 Th Opt w x1 l1 W0 Lg B B0 Hl1) as Pn. specialize (HX mu (conj Hlow Hhi)). eapply Rle_trans; [exact Pn|]. eapply Rle_trans; [|exact HX]. apply Rplus_le_compat_r.
      unfold Rdiv. apply Rmult_le_compat_r; [left; apply Rinv_0_lt_compat, Cp|]. apply Rmult_le_compat_l; [apply Rmult_le_pos; [lra|apply pos_INR]|]. apply Rmult_le_compat; assumption. }
    assert (Dual : di <= w) by (apply (max_abs_le _ _ _ _ Rd W0); exact Lg).
    assert (NotLow : mu <> mu_lower P).
    { intros Emu. apply Big. rewrite <- Emu in Low. pose proof (sqrt_pos (INR m)) as Sq. assert (Sw : sqrt (INR m) * w <= sqrt (INR m) * widest P mu) by (apply Rmult_le_compat_l; assumption).
      assert (Sw0 : 0 <= sqrt (INR m) * w) by (apply Rmult_le_pos; assumption). assert (MB : mu * nm m (fun k => le k - l1 k) <= mu * B) by (apply Rmult_le_compat_l; lra). assert (MB0 : 0 <= mu * B) by (apply Rmult_le_pos; lra).
      split; [|lra]. apply (max_abs_le _ _ _ (target_tol P) Rp ltac:(lra)). intros k Hk.
      pose proof (prim_bound n m A b C NoPen mu w le x1 l1 z Hm W0 Nz Sm z1 k Nz1 Hk) as Pb. lra. }
    destruct (ratio P Hlo Hin Hup mu (dual_beta P) ltac:(lra) Hdb) as (Q1 & Q2 & Q3). destruct (ratio P Hlo Hin Hup mu (prim_beta P) ltac:(lra) Hpb) as (Q4 & Q5 & Q6). fold th in Q2, Q3. fold tp in Q5, Q6.
    assert (Step : forall s2 mu' le' r' t', after (close s1) = s2 -> forall M', M = S M' -> qinv s2 mu' x1 l1 le' r' t' M' -> (r' * S T + t' <= M')%nat ->
      (exists s', outer fo fi fls fin (after (close s1)) = Ret s' /\ good_end al nu s') \/ (exists fo' s2, (fo' < S fo)%nat /\ outer fo fi fls fin (after (close s1)) = outer fo' fi fls fin s2 /\ on_edge (S al) nu s2)).
    { intros s2 mu' le' r' t' Es M' EM Iv HM'. assert (Ea : r_al_iters (res s2) = S (r_al_iters (res s))) by (rewrite <- Es; change (r_al_iters (res (after (close s1)))) with (S (r_al_iters (res (close s1)))); rewrite CA, A1; reflexivity).
      assert (En : (r_num_iters (res s2) <= r_num_iters (res s) + N)%nat) by (rewrite <- Es; change (r_num_iters (res (after (close s1)))) with (r_num_iters (res (close s1))); rewrite CN; exact N1).
      rewrite Es. subst M. assert (NuS' : (S (S M') * N = N + S M' * N)%nat) by lia.
      destruct (IH M' ltac:(lia) fo s2 mu' x1 l1 le' r' t' Iv HM') as [(s' & E' & g1 & g2 & g3 & g4)|(fo' & s3 & F & E' & g2 & g3 & g4)]; try lia.
      - left. exists s'. split; [exact E'|]. split; [exact g1|]. split; [unfold al; lia|]. split; [unfold nu; lia|exact g4].
      - right. exists fo', s3. split; [lia|]. split; [exact E'|]. split; [unfold al; lia|]. split; [unfold nu; lia|exact g4]. }
    destruct (Rlt_dec pi (s_prim_tol _ _ s1)) as [Ac|Rj].
    - (* accepted *)
      destruct (q_acc s1 mu x1 l1 le H1 Ac) as (H2 & I2 & P2). destruct t as [|t].
      { exfalso. apply Big. rewrite Nat.sub_0_r in *. split.
        - rewrite T2 in Ac. apply Rlt_le. eapply Rlt_le_trans; [exact Ac|]. apply (tolb_T P T (prim_tol0 P) (prim_alpha P) tp (target_tol P) (s_prim_tol _ _ s) mu); solve [assumption|lra].
        - eapply Rle_trans; [exact Dual|]. apply (tolb_T P T (inner_tol0 P) (dual_alpha P) th (inner_tol_min P) w mu); solve [assumption|lra]. }
      destruct M as [|M]; [lia|]. apply (Step _ mu l1 r t eq_refl M eq_refl); [|lia].
      constructor; try assumption; try lia; try lra.
      + rewrite I2. pose proof (proj1 (smax_R_ge (s_inner_tol _ _ s1 * Rpower (mu / mu_upper P) (dual_beta P)) (inner_tol_min P))). cbn [car RSc] in *. lra.
      + rewrite I2, T1. replace (T - t)%nat with (S (T - S t)) by lia. apply tol_next; try assumption. lra.
      + rewrite P2, T2. replace (T - t)%nat with (S (T - S t)) by lia. apply tol_next; try assumption. lra.
    - (* rejected *)
      destruct (q_rej s1 mu x1 l1 le H1 Hlow Rj) as (mu' & H2 & Hl2 & M2 & I2 & P2). specialize (M2 NotLow).
      destruct r as [|r]; [exfalso; cbn in Hr; apply NotLow; lra|]. destruct M as [|M]; [lia|].
      assert (Mle : mu' <= mu) by (rewrite M2; apply Rmax_lub; nra). apply (Step _ mu' le r T eq_refl M eq_refl); [|cbn in HM; lia].
      constructor; try assumption; try lia; try lra.
      + rewrite M2. unfold Rmax. destruct (Rle_dec _ _).
        * assert (mu_factor P ^ r <= 1) by (rewrite <- (pow1 r); apply pow_incr; lra). nra.
        * cbn in Hr. lra.
      + rewrite I2. pose proof (proj1 (smax_R_ge (inner_tol0 P * Rpower mu' (dual_alpha P)) (inner_tol_min P))). cbn [car RSc] in *. lra.
      + rewrite I2, Nat.sub_diag. apply tol_init.
      + rewrite P2, Nat.sub_diag. apply tol_init.
  Qed.
End Outer.

Lemma init_holdq (O : oracles RSc) (P : @params RSc) n Q q ms A b p (s : solver_state O) x0 l0 : answers_like n p (qp n Q q ms A b) -> rho_init P = 0 -> 0 < mu_init P -> length x0 = n -> length l0 = total ms -> buffers_fit p s ->
  holdq O n ms (sets s) (init_solve (o_pow O) (o_fac O) (o_bfgs O) P p x0 l0 s) (mu_init P) (en x0) (en l0) (en l0).
Proof.
  intros like Or Mu Lx Ll (B1 & B2 & B3 & B4). rewrite (rows_p _ _ _ _ _ _ _ like) in B1, B2, B3. assert (B5 : length (p_cons p) = length ms) by (rewrite <- (dims_p _ _ _ _ _ _ _ like); unfold dims; rewrite map_length; reflexivity). rewrite B5 in B4.
  assert (En : Nat.eqb (length l0) (numdual p) = true) by (apply Nat.eqb_eq; rewrite (numdual_p _ _ _ _ _ _ _ like); exact Ll).
  constructor; cbn; try solve [lra|reflexivity|assumption|apply prox_mus].
  - apply tab_self, Lx.
  - match goal with |- context [if ?c then _ else _] => assert (T0 : c = true) by exact En; rewrite T0 end. apply tab_self, Ll.
  - match goal with |- context [if ?c then _ else _] => assert (T0 : c = true) by exact En; rewrite T0 end. apply tab_self, Ll.
Qed.
Lemma lag_same n m Q q A x x' l l' i : (forall i, (i < n)%nat -> x' i = x i) -> (forall k, (k < m)%nat -> l' k = l k) -> qp_lag n m Q q A x' l' i = qp_lag n m Q q A x l i.
Proof. intros H H2. unfold qp_lag, qp_grad. f_equal; [f_equal; apply rsum_ext; intros j Hj; rewrite H by exact Hj; reflexivity|]. apply rsum_ext. intros j Hj. rewrite H2 by exact Hj. reflexivity. Qed.
Lemma within_ext n m Q q A b C mu x x' l l' t : (forall i, (i < n)%nat -> x' i = x i) -> (forall k, (k < m)%nat -> l' k = l k) -> within n m Q q A b C mu x l t -> within n m Q q A b C mu x' l' t.
Proof.
  intros Ex El [W1 (z & Z1 & Z2)]. split.
  - intros i Hi. rewrite (lag_same n m Q q A x x' l l' i) by assumption. apply W1, Hi.
  - exists z. split; [|intros k Hk; rewrite (con_ext n A b x' x k) by assumption; apply Z2, Hk].
    apply (nearest_ext C m mu (fun k => qp_con n A b x k + mu * l k)); [intros k Hk; rewrite (con_ext n A b x' x k), El by assumption; reflexivity|exact Z1].
Qed.
Lemma touches_ext n m Q q A b C mu x x' l l' t : (forall i, (i < n)%nat -> x' i = x i) -> (forall k, (k < m)%nat -> l' k = l k) -> touches n m Q q A b C mu x l t -> touches n m Q q A b C mu x' l' t.
Proof.
  intros Ex El [(i & Hi & Ei)|(z & k & Z1 & Hk & Z2)].
  - left. exists i. split; [exact Hi|]. rewrite (lag_same n m Q q A x x' l l' i) by assumption. exact Ei.
  - right. exists z, k. split; [|split; [exact Hk|rewrite (con_ext n A b x' x k) by assumption; exact Z2]].
    apply (nearest_ext C m mu (fun k => qp_con n A b x k + mu * l k)); [intros j Hj; rewrite (con_ext n A b x' x j), El by assumption; reflexivity|exact Z1].
Qed.
Lemma pd_solve_final (O : oracles RSc) (P : @params RSc) n Q q ms A b p c theta gam lo X D G B xs ls Rn T N fo fi fls fin (s : solver_state O) x0 l0 : let m := total ms in let K := (Rn * S T + T)%nat in let C := product_of (sets s) ms in
  answers_like n p (qp n Q q ms A b) -> plain O P n -> kkt_sys P = KKT_PRIMAL_DUAL -> pd_outer O P n m Q q A c theta gam lo X D G B xs ls Rn T N ->
  0 < c -> strongly_convex n Q c -> 0 <= theta -> (forall y, rsum m (fun k => rsum n (fun j => A k j * y j) * rsum n (fun j => A k j * y j)) <= theta * form n Q y) -> (forall y, lo <= qp_obj n Q q y) ->
  (forall mu, mu_lower P <= mu <= mu_init P -> handles_pd O n m Q A mu) -> sets_fit (sets s) (p_cons p) -> (forall z, penalty C z = 0) -> buffers_fit p s ->
  kkt_pair n m Q q A b C xs ls -> length x0 = n -> length l0 = m -> sqdist m (fun k => nth k l0 0) ls <= D * D -> form n Q (fun i => nth i x0 0 - xs i) <= X ->
  (K < max_al_iters P)%nat -> (S K * N < max_iters P)%nat -> (max_al_iters P < fo)%nat -> (N < fi)%nat -> (0 < fls)%nat -> (0 < fin)%nat ->
  (exists s' : solver_state O, run_solve O fo fi fls fin P p (Some s) x0 l0 = Ret (s', SUCCESS) /\ (r_al_iters (res s') <= K)%nat /\ (r_num_iters (res s') <= S K * N)%nat /\ length (r_x (res s')) = n /\ length (r_lams (res s')) = m /\
    exists mu, mu_lower P <= mu <= mu_init P /\ within n m Q q A b C mu (fun i => nth i (r_x (res s')) 0) (fun k => nth k (r_lams (res s')) 0) (target_tol P)) \/
  (exists fo' (s2 : solver_state O), (fo' < fo)%nat /\
    (let loop := outer_loop (o_pow O) (o_integrate O) (o_px_val O) (o_px_grad O) (o_px_hess O) (o_fac O) (o_compute O) (o_signature O) (o_solve O) (o_bfgs O) (o_bfgs_update O) (o_qr O) in
     loop fo fi fls fin P p (init_solve (o_pow O) (o_fac O) (o_bfgs O) P p x0 l0 s) = loop fo' fi fls fin P p s2) /\
    (r_al_iters (res s2) <= S K)%nat /\ (r_num_iters (res s2) <= S K * N)%nat /\
    exists mu, mu_lower P <= mu <= mu_init P /\
      let x := (fun i => nth i (r_x (res s2)) 0) in let l := (fun k => nth k (r_lams (res s2)) 0) in
      within n m Q q A b C mu x l (target_tol P) /\ touches n m Q q A b C mu x l (target_tol P)).
Proof.
  intros m K C like [Pb Ph [Pd1 Pd2] [Ps1 Ps2] Pf Pp] Kp Po Cp Sc Th0 Th Lo Cap Fit NoP Bf Opt Lx Ll HD HX Ka Kn Hfo Hfi Hfl Hfn.
  assert (Po' := Po). destruct Po' as [Mm Or Pow ([Hlo Hin] & Hup & Hf) (Hda & Hdb & Hpa & Hpb) (Tg & Hi0 & Hp0 & Tm & Tm2) Low HR HT HTp HG [HD0 HB] HXx _ _ _].
  set (si := init_solve (o_pow O) (o_fac O) (o_bfgs O) P p x0 l0 s).
  assert (Hi : holdq O n ms (sets s) si (mu_init P) (en x0) (en l0) (en l0)) by exact (init_holdq O P n Q q ms A b p s x0 l0 like Or ltac:(lra) Lx Ll Bf).
  pose proof (G_pos O P n Q q ms A c theta gam lo X D G B xs ls Rn T N Po) as G0.
  assert (Nl : nm m (fun k => en l0 k - ls k) <= D) by (apply nm_le; [exact HD0|exact HD]).
  assert (KG : 0 <= INR (S K) * G) by (apply Rmult_le_pos; [apply pos_INR|exact G0]).
  assert (Iv : qinv O P n Q ms (sets s) X G B xs ls T si (mu_init P) (en x0) (en l0) (en l0) Rn T K).
  { assert (HB' : D + INR (S K) * G <= B) by exact HB. fold m in Nl. constructor; try assumption; try exact (Rle_trans _ _ _ (Rplus_le_compat_r _ _ _ Nl) HB'); try lra; try lia.
    - apply (Rle_trans _ D); [exact Nl|lra].
    - unfold si. cbn. pose proof (proj1 (smax_R_ge (inner_tol0 P * o_pow O (mu_init P) (dual_alpha P)) (inner_tol_min P))). cbn [car RSc] in *. lra.
    - rewrite Nat.sub_diag. unfold si. cbn. rewrite Pow by lra. apply tol_init.
    - rewrite Nat.sub_diag. unfold si. cbn. rewrite Pow by lra. apply tol_init. }
  destruct (outer_q O P n Q q ms A b p like Pb Ph Kp Pf Pp Pd1 Pd2 (sets s) Fit NoP c theta gam lo X D G B xs ls Rn T N Cp Sc Th0 Th Lo Opt Po Cap fi fls fin Hfi Hfl Hfn K fo si _ _ _ _ Rn T Iv)
    as [(s' & E' & g1 & g2 & g3 & mu & x & l & Hm & X' & L' & W)|(fo' & s2 & F & E' & g2 & g3 & mu & x & l & Hm & X' & L' & W & W2)].
  { unfold K. lia. } { exact Ka. } { exact Kn. } { lia. }
  - left. unfold run_solve, solve. fold si. unfold outer in E'. rewrite E'. cbn [bind]. eexists. split; [f_equal; f_equal; exact g1|].
    match goal with |- context [r_x (res ?z)] => change (r_x (res z)) with (r_x (res s')); change (r_lams (res z)) with (r_lams (res s')); change (r_al_iters (res z)) with (r_al_iters (res s')); change (r_num_iters (res z)) with (r_num_iters (res s')) end.
    split; [exact g2|]. split; [exact g3|]. rewrite X', L'. split; [apply tab_length|]. split; [apply tab_length|]. exists mu. split; [exact Hm|]. refine (within_ext n m Q q A b C mu x _ l _ _ _ _ W); intros; apply en_tab; assumption.
  - right. exists fo', s2. split; [exact F|]. split; [exact E'|]. split; [exact g2|]. split; [exact g3|]. exists mu. split; [exact Hm|]. rewrite X', L'. cbv zeta.
    split; [refine (within_ext n m Q q A b C mu x _ l _ _ _ _ W)|refine (touches_ext n m Q q A b C mu x _ l _ _ _ _ W2)]; intros; apply en_tab; assumption.
Qed.
Lemma pd_step_final n m Q q A b C c theta xs ls mu w le x l z D : 0 < c -> strongly_convex n Q c -> 0 <= theta ->
  (forall y, rsum m (fun k => rsum n (fun j => A k j * y j) * rsum n (fun j => A k j * y j)) <= theta * form n Q y) -> kkt_pair n m Q q A b C xs ls -> (forall z, penalty C z = 0) -> 0 < mu -> 0 <= w ->
  (forall i, (i < n)%nat -> Rabs (qp_lag n m Q q A x l i) <= w) -> nearest C m mu (shift_pd_at n A b mu le x l) z -> (forall k, (k < m)%nat -> Rabs (qp_con n A b x k + mu * (le k - l k) - z k) <= w) ->
  0 <= D -> sqdist m le ls <= D * D -> sqrt (sqdist m l ls) <= D + drift n m c theta mu w /\ sqrt (sqdist m le l) <= D + drift n m c theta mu w /\
  forall z' k, nearest C m mu (fun k => qp_con n A b x k + mu * l k) z' -> (k < m)%nat -> Rabs (qp_con n A b x k - z' k) <= w + sqrt (INR m) * w + 2 * (mu * sqrt (sqdist m le l)).
Proof.
  intros Cp Sc Th0 Th Opt NoP Hm W0 Lg Nz Sm D0 HD.
  destruct (fejer_drift n m Q q A b C c theta xs ls Cp Sc Th0 Th Opt NoP mu w le x l z Hm W0 Lg Nz Sm D D0 HD) as [Fa Fd].
  split; [exact Fa|]. split; [exact Fd|]. intros z' k Nz' Hk. pose proof (prim_bound n m A b C NoP mu w le x l z Hm W0 Nz Sm z' k Nz' Hk) as Pb. exact Pb.
Qed.
