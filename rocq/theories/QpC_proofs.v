(** Quadratic problems with equality constraints: the inner loop takes at most one step, and the outer loop converges. *)
From Coq Require Import Reals List Bool Arith ZArith Lia Lra Psatz.
From Verif Require Import Scalar Cset_model Cset_spec Cset_proofs Armijo_model Problem_model Solver_model Solver_spec SolverR_proofs SolverS_proofs Merit_spec Merit_proofs
  Lin_spec Lin_proofs Ldlt_spec Ldlt_proofs Bk_spec Descent_spec Descent_proofs DescentX_proofs Refine_proofs Qp_spec Qp_proofs QpD_proofs QpT_proofs.
Import ListNotations.
Local Open Scope R_scope.

Lemma rsum_ge m f k : (forall k, (k < m)%nat -> 0 <= f k) -> (k < m)%nat -> f k <= rsum m f.
Proof.
  induction m as [|m IH]; intros H Hk; [lia|]. cbn. pose proof (rsum_nonneg m f (fun j Hj => H j ltac:(lia))). pose proof (H m ltac:(lia)).
  destruct (Nat.eq_dec k m) as [->|]; [lra|]. specialize (IH (fun j Hj => H j ltac:(lia)) ltac:(lia)). lra.
Qed.
Lemma d2_ext m u v w : (forall k, (k < m)%nat -> u k = v k) -> d2 m u w = d2 m v w.
Proof. intros H. unfold d2. apply rsum_ext. intros k Hk. rewrite H by exact Hk. reflexivity. Qed.
Lemma max_abs_ge f n v i : is_max_abs f n v -> (i < n)%nat -> Rabs (f i) <= v. Proof. intros [H _]. apply H. Qed.
Lemma max_abs_le f n v c : is_max_abs f n v -> 0 <= c -> (forall i, (i < n)%nat -> Rabs (f i) <= c) -> v <= c.
Proof. intros [_ [[_ ->]|(i & Hi & <-)]] Hc H; [exact Hc|apply H, Hi]. Qed.
Lemma max_abs_unique f n u v : is_max_abs f n u -> is_max_abs f n v -> u = v.
Proof.
  intros [A1 A2] [B1 B2]. destruct A2 as [[-> ->]|(i & Hi & <-)], B2 as [[E ->]|(j & Hj & <-)]; try lia; try reflexivity; try lra.
  apply Rle_antisym; [apply B1, Hi|apply A1, Hj].
Qed.
Lemma smax_le a b c : smax (K := RSc) a b <= c <-> a <= c /\ b <= c.
Proof. destruct (Rle_dec a b); [rewrite smax_R_r|rewrite smax_R_l]; lra. Qed.
Lemma rpow_pos x y : 0 < Rpower x y. Proof. apply exp_pos. Qed.
Lemma rpow_le x y a : 0 < x -> x <= y -> 0 <= a -> Rpower x a <= Rpower y a.
Proof. intros H1 H2 H3. apply Rle_Rpower_l; lra. Qed.
Lemma abs_sq a c : 0 <= c -> a * a <= c * c -> Rabs a <= c.
Proof. intros Hc H. unfold Rabs. destruct (Rcase_abs a); nra. Qed.

Section Conv.
  Variables (O : oracles RSc) (P : @params RSc) (n : nat) (Q : nat -> nat -> R) (q : nat -> R) (ms : list nat) (A : nat -> nat -> R) (b : nat -> R).
  Let m := total ms.
  Variable p : @problem RSc.
  Hypothesis like : answers_like n p (qp n Q q ms A b).
  Hypothesis beta : pdal_beta P = 1 / 2.
  Hypothesis hess : hess_approx P = HM_EXACT \/ hess_approx P = HM_GAUSS_NEWTON.
  Hypothesis Cx : qp_convex n m Q A.
  Hypothesis Flat : forall x v, length x = n -> length v = n -> o_integrate O x v = tab n (fun i => nth i x 0 + nth i v 0).
  Hypothesis Px : forall t x, o_px_val O 0 t x = 0.
  Hypothesis D0 : delta_init P = 0.
  Hypothesis DM : 0 <= delta_max P.
  Hypothesis C1 : armijo_c1 (lsopt P) <= 1 / 2.
  Hypothesis Am : alpha_min (lsopt P) <= 1.
  Notation holds := (holds O n ms).
  Notation con := (qp_con n A b).
  Notation lag := (qp_lag n m Q q A).
  Notation rp := (qp_rp n A b).
  Definition resid (s : solver_state O) (x l : nat -> R) : Prop := is_max_abs (con x) m (r_prim_infeas (res s)) /\ is_max_abs (lag x l) n (r_dual_infeas (res s)).
  Definition inner fi fls fin s dl :=
    inner_loop (o_integrate O) (o_px_val O) (o_px_grad O) (o_px_hess O) (o_fac O) (o_compute O) (o_signature O) (o_solve O) (o_bfgs O) (o_bfgs_update O) (o_qr O) fi fls fin P p s dl.
  Definition outer fo fi fls fin s :=
    outer_loop (o_pow O) (o_integrate O) (o_px_val O) (o_px_grad O) (o_px_hess O) (o_fac O) (o_compute O) (o_signature O) (o_solve O) (o_bfgs O) (o_bfgs_update O) (o_qr O) fo fi fls fin P p s.
  Definition small (c : R) (mu : R) (le x l : nat -> R) : Prop := (forall i, (i < n)%nat -> Rabs (lag x l i) <= c) /\ (forall k, (k < m)%nat -> Rabs (rp mu le x l k) <= c).

  Lemma rhs_norm mu le x l c : 0 <= c -> inf_norm (K := RSc) (tab n (lag x l) ++ tab m (rp mu le x l)) <= c <-> small c mu le x l.
  Proof.
    intros Hc. set (v := tab n (lag x l) ++ tab m (rp mu le x l)). pose proof (maxl_nth v _ (inf_norm_maxl v)) as M.
    assert (L : length v = (n + m)%nat) by (unfold v; rewrite app_length, !tab_length; reflexivity).
    assert (N : forall i, (i < n + m)%nat -> nth i v 0 = if (i <? n)%nat then lag x l i else rp mu le x l (i - n)) by (intros i Hi; unfold v; rewrite tab_app, tnth by exact Hi; reflexivity).
    rewrite L in M. split.
    - intros H. split.
      + intros i Hi. pose proof (max_abs_ge _ _ _ i M ltac:(lia)) as G. cbv beta in G. rewrite N in G by lia. rewrite (proj2 (Nat.ltb_lt i n) Hi) in G. lra.
      + intros k Hk. pose proof (max_abs_ge _ _ _ (n + k)%nat M ltac:(lia)) as G. cbv beta in G. rewrite N in G by lia. rewrite (proj2 (Nat.ltb_ge (n + k) n)) in G by lia.
        replace (n + k - n)%nat with k in G by lia. lra.
    - intros [H1 H2]. apply (max_abs_le _ _ _ _ M Hc). intros i Hi. rewrite N by exact Hi. destruct (Nat.ltb_spec i n); [apply H1; assumption|apply H2; lia].
  Qed.

  (** A pass that stops. *)
  Lemma pass_stop f fls fin s dl mu x l le : holds s mu x l le -> 0 <= s_inner_tol _ _ s ->
    small (s_inner_tol _ _ s) mu le x l \/ (forall pi di, is_max_abs (con x) m pi -> is_max_abs (lag x l) n di -> pi <= target_tol P /\ di <= target_tol P) ->
    exists s', inner (S f) fls fin s dl = Ret s' /\ holds s' mu x l le /\ keeps O s s' /\ resid s' x l.
  Proof.
    intros H Ht Hs. destruct (diag_p O P n Q q ms A b p like beta hess s mu x l le H) as (d & E & Hd & Kp & _ & _ & _ & _ & _ & _ & Ic & Oc & Mp & Md & _).
    exists (d_state _ _ d). split; [|split; [exact Hd|split; [exact Kp|split; assumption]]].
    unfold inner. cbn [inner_loop]. unfold pass. unfold run_diagnose in E. rewrite E. cbn [bind].
    assert (B : (sleb (s := RSc) (d_inner_crit _ _ d) (s_inner_tol _ _ s) || sleb (s := RSc) (d_outer_crit _ _ d) (target_tol P))%bool = true).
    { apply orb_true_iff. destruct Hs as [Hs|Hs].
      - left. cbn [sleb RSc]. apply rleb_t. rewrite Ic. apply rhs_norm; assumption.
      - right. cbn [sleb RSc]. apply rleb_t. rewrite Oc. apply smax_le. apply Hs; assumption. }
    rewrite B. reflexivity.
  Qed.

  (** The inner loop. *)
  Lemma inner_p f fls fin s mu x l le : (0 < fls)%nat -> (0 < fin)%nat -> holds s mu x l le -> handles O n m Q A mu -> 0 <= s_inner_tol _ _ s -> (S (r_num_iters (res s)) < max_iters P)%nat ->
    exists s' x' l', inner (S (S f)) fls fin s 0 = Ret s' /\ holds s' mu x' l' le /\ resid s' x' l' /\
      s_inner_tol _ _ s' = s_inner_tol _ _ s /\ s_prim_tol _ _ s' = s_prim_tol _ _ s /\ r_al_iters (res s') = r_al_iters (res s) /\ r_conv (res s') = r_conv (res s) /\
      (r_num_iters (res s') <= S (r_num_iters (res s)))%nat /\
      ((x' = x /\ l' = l /\ (small (s_inner_tol _ _ s) mu le x l \/ (r_prim_infeas (res s') <= target_tol P /\ r_dual_infeas (res s') <= target_tol P))) \/
       (forall i, (i < n)%nat -> lag x' l' i = 0) /\ (forall k, (k < m)%nat -> con x' k = mu * (l' k - le k))).
  Proof.
    intros Hfl Hfi H Cap Ht Hn. destruct (diag_p O P n Q q ms A b p like beta hess s mu x l le H) as (d & E & Hd & Kp & G1 & G2 & G3 & G4 & G5 & G6 & Ic & Oc & Mp & Md & Mr & Kh).
    destruct (sleb (s := RSc) (d_inner_crit _ _ d) (s_inner_tol _ _ s) || sleb (s := RSc) (d_outer_crit _ _ d) (target_tol P))%bool eqn:B.
    - exists (d_state _ _ d), x, l. split; [unfold inner; cbn [inner_loop]; unfold pass; unfold run_diagnose in E; rewrite E; cbn [bind]; rewrite B; reflexivity|].
      split; [exact Hd|]. split; [split; assumption|]. destruct Kp as [k1 k2 k3 k4 k5]. rewrite k1, k2, k3, k4, k5. repeat split; [lia|]. left. split; [reflexivity|]. split; [reflexivity|].
      apply orb_true_iff in B. cbn [sleb RSc] in B. destruct B as [B|B]; apply Rleb_true in B.
      + left. rewrite Ic in B. apply rhs_norm in B; assumption.
      + right. rewrite Oc in B. apply smax_le in B. exact B.
    - destruct Kp as [k1 k2 k3 k4 k5].
      destruct (step_p O P n Q q ms A b p like beta Cx Flat Px D0 DM C1 Am fls fin d 0 mu x l le Hfl Hfi Hd Cap G1 G2 G3 G4 G5 G6 Mr Kh) as (s1 & x1 & l1 & E1 & H1 & L1 & R1 & N1 & A1 & I1 & P1 & _ & V1).
      rewrite k1 in *. rewrite (proj2 (Nat.leb_gt _ _) Hn) in E1. cbn beta iota in E1.
      assert (I1' : s_inner_tol _ _ s1 = s_inner_tol _ _ s) by (rewrite I1; exact k4).
      destruct (pass_stop f fls fin s1 0 mu x1 l1 le H1) as (s2 & E2 & H2 & K2 & R2).
      { rewrite I1'. exact Ht. }
      { left. split; intros k Hk; [rewrite L1|rewrite R1]; try exact Hk; rewrite Rabs_R0, I1'; exact Ht. }
      exists s2, x1, l1. destruct K2 as [q1 q2 q3 q4 q5]. split.
      { unfold inner. cbn [inner_loop]. unfold pass at 1. unfold run_diagnose in E. rewrite E. cbn [bind]. rewrite B. unfold run_step in E1. rewrite E1. cbn [bind]. exact E2. }
      split; [exact H2|]. split; [exact R2|]. rewrite q4, q5, q2, q3, q1, I1', P1, k5, A1, k2, V1, k3, N1 by lia. repeat split; [lia|]. right. split; [exact L1|].
      intros k Hk. specialize (R1 k Hk). unfold qp_rp in R1. lra.
  Qed.

  (** ** The outer loop *)
  Variables (xs ls : nat -> R) (D : R) (T : nat).
  Hypothesis Opt : qp_optimal n m Q q A b xs ls.
  Hypothesis Mm : mul_update P = MM_NEWTON.
  Hypothesis Pow : forall x y, 0 < x -> o_pow O x y = Rpower x y.
  Hypothesis Hlo : 0 < mu_lower P.
  Hypothesis Hin : mu_lower P <= mu_init P.
  Hypothesis Hup : mu_init P < mu_upper P.
  Hypothesis Hf : 0 < mu_factor P < 1.
  Hypothesis Htol : 0 < target_tol P.
  Hypothesis Hda : 0 <= dual_alpha P.
  Hypothesis Hdb : 0 < dual_beta P.
  Hypothesis Hpa : 0 <= prim_alpha P.
  Hypothesis Hpb : 0 < prim_beta P.
  Hypothesis Hi0 : 0 <= inner_tol0 P.
  Hypothesis Hp0 : 0 <= prim_tol0 P.
  Hypothesis Him : 0 <= inner_tol_min P.
  Hypothesis Him2 : 2 * inner_tol_min P <= target_tol P.
  Hypothesis Hil : 2 * (inner_tol0 P * Rpower (mu_lower P) (dual_alpha P)) <= target_tol P.
  Hypothesis HD : 0 <= D.
  Hypothesis HDl : 2 * (mu_lower P * D) <= target_tol P.
  Let th := Rpower (mu_init P / mu_upper P) (dual_beta P).
  Let tp := Rpower (mu_init P / mu_upper P) (prim_beta P).
  Hypothesis HT : inner_tol0 P * Rpower (mu_init P) (dual_alpha P) * th ^ T <= target_tol P.
  Hypothesis Cap : forall mu, mu_lower P <= mu <= mu_init P -> handles O n m Q A mu.
  Hypothesis HTp : prim_tol0 P * Rpower (mu_init P) (prim_alpha P) * tp ^ T <= target_tol P.

  Lemma ratio mu bt : mu_lower P <= mu <= mu_init P -> 0 < bt -> 0 < Rpower (mu / mu_upper P) bt /\ Rpower (mu / mu_upper P) bt <= Rpower (mu_init P / mu_upper P) bt /\ Rpower (mu_init P / mu_upper P) bt < 1.
  Proof.
    intros Hm Hb. split; [apply rpow_pos|]. assert (Hu : 0 < / mu_upper P) by (apply Rinv_0_lt_compat; lra). split.
    - apply rpow_le; [|unfold Rdiv; nra|lra]. unfold Rdiv. apply Rmult_lt_0_compat; lra.
    - unfold Rpower. rewrite <- exp_0. apply exp_increasing. assert (ln (mu_init P / mu_upper P) < 0); [|nra]. rewrite <- ln_1. apply ln_increasing.
      + unfold Rdiv. apply Rmult_lt_0_compat; lra.
      + apply (Rmult_lt_reg_r (mu_upper P)); [lra|]. unfold Rdiv. rewrite Rmult_assoc, Rinv_l by lra. lra.
  Qed.

  (** One of the two tolerances, [j] acceptances after the last rejection. *)
  Definition tolb (a0 al h lo v : R) (mu : R) (j : nat) : Prop := v <= a0 * Rpower mu al * h ^ j \/ v <= lo.
  Lemma tol_init a0 al h lo mu : tolb a0 al h lo (smax (K := RSc) (a0 * Rpower mu al) lo) mu 0.
  Proof. unfold tolb. destruct (Rle_dec (a0 * Rpower mu al) lo); [rewrite smax_R_r by assumption; right; lra|rewrite smax_R_l by lra; left; cbn; lra]. Qed.
  Lemma tol_next a0 al h k lo v mu j : 0 <= a0 -> 0 <= lo -> 0 < k -> k <= h -> h < 1 -> tolb a0 al h lo v mu j -> tolb a0 al h lo (smax (K := RSc) (v * k) lo) mu (S j).
  Proof.
    intros Ha Hl Hk Hkh Hh H. unfold tolb in *. destruct (Rle_dec (v * k) lo); [rewrite smax_R_r by assumption; right; lra|]. rewrite smax_R_l by lra.
    destruct H as [H|H]; [left|exfalso; nra]. cbn [pow]. pose proof (pow_lt h j ltac:(lra)). pose proof (rpow_pos mu al).
    assert (0 <= a0 * Rpower mu al * h ^ j) by (apply Rmult_le_pos; [apply Rmult_le_pos|]; lra). nra.
  Qed.

  Record inv (s : solver_state O) (mu : R) (x l le : nat -> R) (r t : nat) : Prop := {
    i_h : holds s mu x l le;
    i_lo : mu_lower P <= mu; i_hi : mu <= mu_init P; i_r : mu * mu_factor P ^ r <= mu_lower P;
    i_D : d2 m le ls <= D * D;
    i_l : (forall k, (k < m)%nat -> l k = le k) \/ exists nu, mu <= nu /\ (forall i, (i < n)%nat -> lag x l i = 0) /\ (forall k, (k < m)%nat -> con x k = nu * (l k - le k));
    i_t : (t <= T)%nat; i_0 : 0 <= s_inner_tol _ _ s;
    i_in : tolb (inner_tol0 P) (dual_alpha P) th (inner_tol_min P) (s_inner_tol _ _ s) mu (T - t);
    i_pr : tolb (prim_tol0 P) (prim_alpha P) tp (target_tol P) (s_prim_tol _ _ s) mu (T - t) }.

  (** What a rejection and an acceptance do. *)
  Lemma sets_prox mu nu : map (set_prox (K := RSc) nu) (eqs mu ms) = eqs nu ms.
  Proof. unfold eqs. rewrite map_map. reflexivity. Qed.
  Definition after (s : solver_state O) : solver_state O := incr_al (o_fac O) (o_bfgs O) (set_rho (o_fac O) (o_bfgs O) (s_rho _ _ s * rho_factor P) s).
  Lemma fail_p s mu x l le : holds s mu x l le -> mu_lower P <= mu -> let s' := tol_failure (o_pow O) (o_fac O) (o_bfgs O) P (update_penalty (o_fac O) (o_bfgs O) P s) in
    exists mu', holds (after s') mu' x l le /\ mu_lower P <= mu' /\ (mu <> mu_lower P -> mu' = Rmax (mu * mu_factor P) (mu_lower P)) /\
      s_inner_tol _ _ (after s') = smax (K := RSc) (inner_tol0 P * Rpower mu' (dual_alpha P)) (inner_tol_min P) /\
      s_prim_tol _ _ (after s') = smax (K := RSc) (prim_tol0 P * Rpower mu' (prim_alpha P)) (target_tol P).
  Proof.
    intros H Hl s'. assert (Hm := h_pos _ _ _ _ _ _ _ _ H). unfold s', after, tol_failure, set_tols, update_penalty. rewrite (h_mu _ _ _ _ _ _ _ _ H).
    assert (G : forall nu, 0 < nu -> holds (after (tol_failure (o_pow O) (o_fac O) (o_bfgs O) P (set_penalty (o_fac O) (o_bfgs O) nu s))) nu x l le).
    { intros nu Hn. constructor; cbn; try solve [exact Hn|reflexivity|apply H].
      - rewrite (h_rho _ _ _ _ _ _ _ _ H). ring.
      - rewrite (h_sets _ _ _ _ _ _ _ _ H). apply sets_prox. }
    destruct (seqb mu (mu_lower P)) eqn:E.
    - exists (mu_init P). split; [apply G; lra|]. split; [exact Hin|]. cbn in E. apply Reqb_true in E. split; [intros F; contradiction|]. cbn. rewrite !Pow by lra. split; reflexivity.
    - assert (Em : smax (K := RSc) (mu * mu_factor P) (mu_lower P) = Rmax (mu * mu_factor P) (mu_lower P)).
      { destruct (Rle_dec (mu * mu_factor P) (mu_lower P)); [rewrite smax_R_r, Rmax_right|rewrite smax_R_l, Rmax_left]; lra. }
      exists (Rmax (mu * mu_factor P) (mu_lower P)). pose proof (Rmax_r (mu * mu_factor P) (mu_lower P)) as Hr. rewrite <- Em in *. split; [apply (G (smax (K := RSc) (mu * mu_factor P) (mu_lower P))); cbn [car RSc] in *; lra|].
      split; [exact Hr|]. split; [reflexivity|]. cbn. rewrite !Pow by (cbn [car RSc] in *; lra). split; reflexivity.
  Qed.
  Lemma succ_p s mu x l le : holds s mu x l le -> let s' := tol_success (o_pow O) (o_fac O) (o_bfgs O) P (accept_multipliers (o_fac O) (o_bfgs O) P s) in
    holds (after s') mu x l l /\
    s_inner_tol _ _ (after s') = smax (K := RSc) (s_inner_tol _ _ s * Rpower (mu / mu_upper P) (dual_beta P)) (inner_tol_min P) /\
    s_prim_tol _ _ (after s') = smax (K := RSc) (s_prim_tol _ _ s * Rpower (mu / mu_upper P) (prim_beta P)) (target_tol P).
  Proof.
    intros H s'. assert (Hm := h_pos _ _ _ _ _ _ _ _ H). assert (Hd : 0 < mu / mu_upper P) by (apply Rdiv_lt_0_compat; lra).
    split; [|cbn; change (s_mu (o_fac O) (o_bfgs O) s) with (s_mu _ _ s); rewrite (h_mu _ _ _ _ _ _ _ _ H), !Pow by exact Hd; split; reflexivity].
    constructor; cbn; try solve [apply H]; rewrite ?Mm.
    - rewrite (h_rho _ _ _ _ _ _ _ _ H). ring.
    - apply H.
    - apply H.
  Qed.

  Definition close (s1 : solver_state O) : solver_state O := run_bcl O P (accept_primal (o_fac O) (o_bfgs O) s1).
  Lemma close_res s1 : r_prim_infeas (res (close s1)) = r_prim_infeas (res s1) /\ r_dual_infeas (res (close s1)) = r_dual_infeas (res s1) /\
    r_num_iters (res (close s1)) = r_num_iters (res s1) /\ r_al_iters (res (close s1)) = r_al_iters (res s1) /\ r_x (res (close s1)) = r_x (res s1) /\ r_lams (res (close s1)) = r_lams (res s1) /\ r_conv (res (close s1)) = r_conv (res s1).
  Proof.
    unfold close, run_bcl, bcl_update. destruct (sltb _ _).
    - cbn. rewrite Mm. repeat split.
    - unfold update_penalty. cbn. destruct (Reqb _ _); repeat split.
  Qed.
  Lemma close_acc s1 mu x l le : holds s1 mu x l le -> r_prim_infeas (res s1) < s_prim_tol _ _ s1 ->
    holds (after (close s1)) mu x l l /\
    s_inner_tol _ _ (after (close s1)) = smax (K := RSc) (s_inner_tol _ _ s1 * Rpower (mu / mu_upper P) (dual_beta P)) (inner_tol_min P) /\
    s_prim_tol _ _ (after (close s1)) = smax (K := RSc) (s_prim_tol _ _ s1 * Rpower (mu / mu_upper P) (prim_beta P)) (target_tol P).
  Proof.
    intros H L. assert (H1 : holds (accept_primal (o_fac O) (o_bfgs O) s1) mu x l le) by (constructor; cbn; apply H).
    unfold close, run_bcl, bcl_update. cbn [sltb RSc]. change (s_res (o_fac O) (o_bfgs O) (accept_primal (o_fac O) (o_bfgs O) s1)) with (res s1).
    change (s_prim_tol (o_fac O) (o_bfgs O) (accept_primal (o_fac O) (o_bfgs O) s1)) with (s_prim_tol _ _ s1). rewrite rltb_t by exact L. exact (succ_p _ mu x l le H1).
  Qed.
  Lemma close_rej s1 mu x l le : holds s1 mu x l le -> mu_lower P <= mu -> ~ r_prim_infeas (res s1) < s_prim_tol _ _ s1 ->
    exists mu', holds (after (close s1)) mu' x l le /\ mu_lower P <= mu' /\ (mu <> mu_lower P -> mu' = Rmax (mu * mu_factor P) (mu_lower P)) /\
      s_inner_tol _ _ (after (close s1)) = smax (K := RSc) (inner_tol0 P * Rpower mu' (dual_alpha P)) (inner_tol_min P) /\
      s_prim_tol _ _ (after (close s1)) = smax (K := RSc) (prim_tol0 P * Rpower mu' (prim_alpha P)) (target_tol P).
  Proof.
    intros H Hl L. assert (H1 : holds (accept_primal (o_fac O) (o_bfgs O) s1) mu x l le) by (constructor; cbn; apply H).
    unfold close, run_bcl, bcl_update. cbn [sltb RSc]. change (s_res (o_fac O) (o_bfgs O) (accept_primal (o_fac O) (o_bfgs O) s1)) with (res s1).
    change (s_prim_tol (o_fac O) (o_bfgs O) (accept_primal (o_fac O) (o_bfgs O) s1)) with (s_prim_tol _ _ s1). rewrite rltb_f by lra. exact (fail_p _ mu x l le H1 Hl).
  Qed.
  Lemma close_any s1 mu x l le : holds s1 mu x l le -> mu_lower P <= mu -> exists mu' le', holds (after (close s1)) mu' x l le' /\ mu_lower P <= mu' /\ 0 <= s_inner_tol _ _ (after (close s1)).
  Proof.
    intros H Hl. destruct (Rlt_dec (r_prim_infeas (res s1)) (s_prim_tol _ _ s1)) as [L|L].
    - destruct (close_acc s1 mu x l le H L) as (H1 & -> & _). exists mu, l. split; [exact H1|]. split; [exact Hl|]. pose proof (proj1 (smax_R_ge (s_inner_tol _ _ s1 * Rpower (mu / mu_upper P) (dual_beta P)) (inner_tol_min P))). cbn [car RSc] in *. lra.
    - destruct (close_rej s1 mu x l le H Hl L) as (mu' & H1 & Hl' & _ & -> & _). exists mu', le. split; [exact H1|]. split; [exact Hl'|]. pose proof (proj1 (smax_R_ge (inner_tol0 P * Rpower mu' (dual_alpha P)) (inner_tol_min P))). cbn [car RSc] in *. lra.
  Qed.
  Lemma outer_unfold fo fi fls fin s s1 : (r_num_iters (res s) < max_iters P)%nat -> (r_al_iters (res s) < max_al_iters P)%nat ->
    inner fi fls fin (record_params (o_fac O) (o_bfgs O) s) 0 = Ret s1 ->
    outer (S fo) fi fls fin s = if Rlt_dec (smax (K := RSc) (r_prim_infeas (res s1)) (r_dual_infeas (res s1))) (target_tol P)
      then Ret (set_conv (o_fac O) (o_bfgs O) SUCCESS (close s1)) else outer fo fi fls fin (after (close s1)).
  Proof.
    intros H1 H2 E. unfold outer. cbn [outer_loop]. change (s_res (o_fac O) (o_bfgs O) s) with (res s). rewrite (proj2 (Nat.ltb_lt _ _) H1), (proj2 (Nat.ltb_lt _ _) H2). cbn [andb].
    unfold inner in E. change (s0 (s := RSc)) with 0. rewrite E. cbn [bind]. change (bcl_update (o_pow O) (o_fac O) (o_bfgs O) P (accept_primal (o_fac O) (o_bfgs O) s1)) with (close s1).
    destruct (close_res s1) as (C1' & C2' & _). change (s_res (o_fac O) (o_bfgs O) (close s1)) with (res (close s1)). rewrite C1', C2'. cbn [sltb RSc].
    destruct (Rlt_dec _ _) as [L|L]; [rewrite rltb_t by exact L|rewrite rltb_f by (apply Rnot_lt_le; exact L)]; reflexivity.
  Qed.
  Lemma rec_p s mu x l le : holds s mu x l le -> holds (record_params (o_fac O) (o_bfgs O) s) mu x l le.
  Proof. intros H. constructor; cbn; apply H. Qed.

  (** At a point whose residual is exactly the tolerance, nothing changes any more. *)
  Lemma stuck_p f fls fin fo : forall s mu x l le, holds s mu x l le -> mu_lower P <= mu -> 0 <= s_inner_tol _ _ s ->
    (forall pi di, is_max_abs (con x) m pi -> is_max_abs (lag x l) n di -> smax (K := RSc) pi di = target_tol P) -> (max_al_iters P - r_al_iters (res s) < fo)%nat ->
    exists s', outer fo (S f) fls fin s = Ret s' /\ r_x (res s') = tab n x /\ r_lams (res s') = tab m l /\ r_conv (res s') = r_conv (res s).
  Proof.
    induction fo as [|fo IH]; intros s mu x l le H Hl Ht He Hfo; [lia|].
    destruct (Nat.ltb_spec (r_num_iters (res s)) (max_iters P)) as [N1|N1]; [destruct (Nat.ltb_spec (r_al_iters (res s)) (max_al_iters P)) as [N2|N2]|].
    - destruct (pass_stop f fls fin (record_params (o_fac O) (o_bfgs O) s) 0 mu x l le (rec_p _ _ _ _ _ H)) as (s1 & E & H1 & K1 & R1 & R2).
      { exact Ht. }
      { right. intros pi di Hpi Hdi. apply smax_le. rewrite (He pi di Hpi Hdi). lra. }
      rewrite (outer_unfold fo (S f) fls fin s s1 N1 N2 E). rewrite (He _ _ R1 R2). destruct (Rlt_dec (target_tol P) (target_tol P)) as [B|_]; [lra|].
      destruct (close_any s1 mu x l le H1 Hl) as (mu' & le' & H2 & Hl2 & Ht2). destruct (close_res s1) as (_ & _ & _ & CA & _ & _ & CC).
      assert (Ec : r_conv (res (after (close s1))) = r_conv (res s)) by (change (r_conv (res (after (close s1)))) with (r_conv (res (close s1))); rewrite CC; apply (k_conv _ _ _ K1)).
      rewrite <- Ec. apply (IH _ mu' x l le'); try assumption. change (r_al_iters (res (after (close s1)))) with (S (r_al_iters (res (close s1)))). rewrite CA, (k_al _ _ _ K1).
      change (r_al_iters (res (record_params (o_fac O) (o_bfgs O) s))) with (r_al_iters (res s)). lia.
    - exists s. split; [|split; [apply H|split; [apply H|reflexivity]]]. unfold outer. cbn [outer_loop]. change (s_res (o_fac O) (o_bfgs O) s) with (res s). rewrite (proj2 (Nat.ltb_ge _ _) N2), andb_false_r. reflexivity.
    - exists s. split; [|split; [apply H|split; [apply H|reflexivity]]]. unfold outer. cbn [outer_loop]. change (s_res (o_fac O) (o_bfgs O) s) with (res s). rewrite (proj2 (Nat.ltb_ge _ _) N1). reflexivity.
  Qed.

  Lemma tolb_T a0 al h lo v mu : 0 <= a0 -> 0 <= al -> 0 < h -> 0 < mu -> mu <= mu_init P -> a0 * Rpower (mu_init P) al * h ^ T <= target_tol P -> lo <= target_tol P ->
    tolb a0 al h lo v mu T -> v <= target_tol P.
  Proof.
    intros Ha Hal Hh Hm Hmi Hx Hlo' [H|H]; [|lra]. pose proof (rpow_le mu (mu_init P) al Hm Hmi Hal). pose proof (pow_lt h T Hh).
    assert (a0 * Rpower mu al * h ^ T <= a0 * Rpower (mu_init P) al * h ^ T) by (apply Rmult_le_compat_r; [lra|apply Rmult_le_compat_l; lra]). lra.
  Qed.
  Lemma tolb_low v j : tolb (inner_tol0 P) (dual_alpha P) th (inner_tol_min P) v (mu_lower P) j -> 2 * v <= target_tol P.
  Proof.
    intros [H|H]; [|lra]. destruct (ratio (mu_init P) (dual_beta P)) as (R1 & _ & R3); [lra|exact Hdb|]. fold th in R1, R3.
    assert (th ^ j <= 1) by (rewrite <- (pow1 j); apply pow_incr; lra). pose proof (pow_lt th j R1). pose proof (rpow_pos (mu_lower P) (dual_alpha P)).
    assert (0 <= inner_tol0 P * Rpower (mu_lower P) (dual_alpha P)) by (apply Rmult_le_pos; lra). nra.
  Qed.

  Definition link (mu : R) (x l le : nat -> R) : Prop :=
    (forall k, (k < m)%nat -> l k = le k) \/ exists nu, mu <= nu /\ (forall i, (i < n)%nat -> lag x l i = 0) /\ (forall k, (k < m)%nat -> con x k = nu * (l k - le k)).
  Lemma link_D mu x l le : 0 < mu -> link mu x l le -> d2 m le ls <= D * D -> d2 m l ls <= D * D.
  Proof.
    intros Hm [H|(nu & H1 & H2 & H3)] Hd; [rewrite (d2_ext m l le ls H); exact Hd|]. destruct Cx as (_ & Ps & _).
    pose proof (closer n m Q q A b xs ls nu x l le Ps ltac:(lra) Opt H2 H3) as C.
    pose proof (rsum_nonneg m (fun k => con x k * con x k) (fun k _ => Rle_0_sqr _)) as G. cbv beta in G.
    assert (Hnn : 0 < nu * nu) by nra. assert (Hle : nu * nu * d2 m l ls <= nu * nu * d2 m le ls) by (eapply Rle_trans; [|exact C]; rewrite <- (Rplus_0_r (nu * nu * d2 m l ls)) at 1; apply Rplus_le_compat_l, G).
    apply Rmult_le_reg_l in Hle; [lra|exact Hnn].
  Qed.
  Lemma con_small nu x l le : 0 < nu -> d2 m le ls <= D * D -> (forall i, (i < n)%nat -> lag x l i = 0) -> (forall k, (k < m)%nat -> con x k = nu * (l k - le k)) ->
    forall k, (k < m)%nat -> Rabs (con x k) <= nu * D.
  Proof.
    intros Hn Hd H2 H3 k Hk. destruct Cx as (_ & Ps & _). pose proof (closer n m Q q A b xs ls nu x l le Ps Hn Opt H2 H3) as C.
    pose proof (rsum_ge m (fun k => con x k * con x k) k (fun k _ => Rle_0_sqr _) Hk) as G. cbv beta in G.
    pose proof (rsum_nonneg m (fun k => (l k - ls k) * (l k - ls k)) (fun k _ => Rle_0_sqr _)) as G2. cbv beta in G2. fold (d2 m l ls) in G2.
    apply abs_sq; [apply Rmult_le_pos; lra|]. assert (nu * nu * d2 m le ls <= nu * nu * (D * D)) by (apply Rmult_le_compat_l; nra). assert (0 <= nu * nu * d2 m l ls) by (apply Rmult_le_pos; nra). lra.
  Qed.

  Definition done (al nu : nat) (s' : solver_state O) : Prop := exists x l, r_x (res s') = tab n x /\ r_lams (res s') = tab m l /\ d2 m l ls <= D * D /\
    (forall k, (k < m)%nat -> Rabs (con x k) <= target_tol P) /\ (forall i, (i < n)%nat -> Rabs (lag x l i) <= target_tol P) /\
    ((r_conv (res s') = SUCCESS /\ (r_al_iters (res s') <= al)%nat /\ (r_num_iters (res s') <= nu)%nat) \/
     (exists k, (k < m)%nat /\ Rabs (con x k) = target_tol P) \/ (exists i, (i < n)%nat /\ Rabs (lag x l i) = target_tol P)).

  Lemma outer_p f fls fin : (0 < fls)%nat -> (0 < fin)%nat -> forall N fo s mu x l le r t, inv s mu x l le r t -> (r * S T + t <= N)%nat ->
    (r_al_iters (res s) + N < max_al_iters P)%nat -> (S (r_num_iters (res s) + N) < max_iters P)%nat -> (max_al_iters P - r_al_iters (res s) < fo)%nat ->
    exists s', outer fo (S (S f)) fls fin s = Ret s' /\ done (r_al_iters (res s) + N) (S (r_num_iters (res s) + N)) s'.
  Proof.
    intros Hfl Hfi. induction N as [N IH] using lt_wf_ind. intros fo s mu x l le r t [H Hlow Hhi Hr Hd Hlk Htt H0 Hit Hpt] HN Hal Hnu Hfo.
    destruct fo as [|fo]; [lia|]. assert (Hm := h_pos _ _ _ _ _ _ _ _ H).
    destruct (inner_p f fls fin (record_params (o_fac O) (o_bfgs O) s) mu x l le Hfl Hfi (rec_p _ _ _ _ _ H) (Cap mu (conj Hlow Hhi))) as (s1 & x1 & l1 & E & H1 & [R1 R2] & T1 & T2 & A1 & _ & N1 & Cs).
    { exact H0. } { change (S (r_num_iters (res s)) < max_iters P)%nat. lia. }
    change (s_inner_tol (o_fac O) (o_bfgs O) (record_params (o_fac O) (o_bfgs O) s)) with (s_inner_tol _ _ s) in *. change (s_prim_tol (o_fac O) (o_bfgs O) (record_params (o_fac O) (o_bfgs O) s)) with (s_prim_tol _ _ s) in *.
    change (r_al_iters (res (record_params (o_fac O) (o_bfgs O) s))) with (r_al_iters (res s)) in *. change (r_num_iters (res (record_params (o_fac O) (o_bfgs O) s))) with (r_num_iters (res s)) in *.
    rewrite (outer_unfold fo (S (S f)) fls fin s s1 ltac:(lia) ltac:(lia) E).
    set (pi := r_prim_infeas (res s1)) in *. set (di := r_dual_infeas (res s1)) in *.
    assert (Bd : pi <= target_tol P /\ di <= target_tol P -> (forall k, (k < m)%nat -> Rabs (con x1 k) <= target_tol P) /\ (forall i, (i < n)%nat -> Rabs (lag x1 l1 i) <= target_tol P)).
    { intros [B1 B2]. split; intros k Hk; [pose proof (max_abs_ge _ _ _ k R1 Hk)|pose proof (max_abs_ge _ _ _ k R2 Hk)]; lra. }
    destruct (close_res s1) as (_ & _ & CN & CA & CX & CL & _).
    (* what the inner loop leaves *)
    assert (Lk1 : link mu x1 l1 le).
    { destruct Cs as [(-> & -> & _)|[B1 B2]]; [destruct Hlk as [K|(nu & K1 & K2 & K3)]; [left; exact K|right; exists nu; repeat split; assumption]|]. right. exists mu. split; [lra|]. split; assumption. }
    assert (Hd1 : d2 m l1 ls <= D * D) by exact (link_D mu x1 l1 le Hm Lk1 Hd).
    destruct (Rlt_dec (smax (K := RSc) pi di) (target_tol P)) as [L|L].
    { (* success *)
      eexists. split; [reflexivity|]. exists x1, l1. change (res (set_conv (o_fac O) (o_bfgs O) SUCCESS (close s1))) with (res (set_conv (o_fac O) (o_bfgs O) SUCCESS (close s1) : solver_state O)).
      change (r_x (res (set_conv (o_fac O) (o_bfgs O) SUCCESS (close s1) : solver_state O))) with (r_x (res (close s1))). change (r_lams (res (set_conv (o_fac O) (o_bfgs O) SUCCESS (close s1) : solver_state O))) with (r_lams (res (close s1))).
      rewrite CX, CL. split; [apply H1|]. split; [apply H1|]. split; [exact Hd1|]. destruct (Bd (proj1 (smax_le _ _ _) (Rlt_le _ _ L))) as [B1 B2]. split; [exact B1|]. split; [exact B2|]. left. split; [reflexivity|].
      change ((r_al_iters (res (close s1)) <= r_al_iters (res s) + N)%nat /\ (r_num_iters (res (close s1)) <= S (r_num_iters (res s) + N))%nat). rewrite CN, CA. lia. }
    destruct (Req_dec (smax (K := RSc) pi di) (target_tol P)) as [Eq|Ne].
    { (* exactly the tolerance *)
      destruct (close_any s1 mu x1 l1 le H1 Hlow) as (mu' & le' & H2 & Hl2 & Ht2).
      destruct (stuck_p (S f) fls fin fo (after (close s1)) mu' x1 l1 le' H2 Hl2 Ht2) as (s' & E' & X' & L' & _).
      - intros pi' di' Hpi Hdi. rewrite <- Eq. f_equal; eapply max_abs_unique; eassumption.
      - change (r_al_iters (res (after (close s1)))) with (S (r_al_iters (res (close s1)))). rewrite CA, A1. lia.
      - exists s'. split; [exact E'|]. exists x1, l1. split; [exact X'|]. split; [exact L'|]. split; [exact Hd1|]. destruct (Bd (proj1 (smax_le _ _ _) (Req_le _ _ Eq))) as [B1 B2]. split; [exact B1|]. split; [exact B2|]. right.
        destruct (Rle_dec pi di) as [Le|Le]; [rewrite smax_R_r in Eq by exact Le; right|rewrite smax_R_l in Eq by lra; left].
        + destruct R2 as [_ [[_ Z]|(i & Hi & Ei)]]; [fold di in Z; lra|]. exists i. split; [exact Hi|]. fold di in Ei. lra.
        + destruct R1 as [_ [[_ Z]|(i & Hi & Ei)]]; [fold pi in Z; lra|]. exists i. split; [exact Hi|]. fold pi in Ei. lra. }
    assert (Big : ~ (pi <= target_tol P /\ di <= target_tol P)) by (intros B; apply smax_le in B; cbn [car RSc] in *; lra).
    assert (Dual : di <= s_inner_tol _ _ s).
    { destruct Cs as [(-> & -> & [[B _]|B])|[B _]]; [|contradiction|]; apply (max_abs_le _ _ _ _ R2 H0); intros i Hi; [apply B, Hi|rewrite B, Rabs_R0 by exact Hi; exact H0]. }
    assert (NotLow : mu <> mu_lower P).
    { intros Emu. apply Big. rewrite Emu in Hit. pose proof (tolb_low _ _ Hit) as It. cbn [car RSc] in *. split; [|lra]. apply (max_abs_le _ _ _ (target_tol P) R1 ltac:(lra)). intros k Hk.
      destruct Cs as [(-> & -> & [[B1 B2]|B])|[B1 B2]]; [|contradiction|].
      - destruct Hlk as [K|(nu & K1 & K2 & K3)].
        + specialize (B2 k Hk). unfold qp_rp in B2. rewrite K in B2 by exact Hk. replace (con x k + mu * le k - mu * le k) with (con x k) in B2 by ring. lra.
        + destruct (Rle_dec (2 * mu) nu) as [G|G].
          * specialize (B2 k Hk). specialize (K3 k Hk). unfold qp_rp in B2. set (w := l k - le k) in *. replace (con x k + mu * le k - mu * l k) with ((nu - mu) * w) in B2 by (rewrite K3; unfold w; ring).
            rewrite K3, Rabs_mult in *. rewrite (Rabs_pos_eq (nu - mu)) in B2 by lra. rewrite (Rabs_pos_eq nu) by lra. pose proof (Rabs_pos w). nra.
          * pose proof (con_small nu x l le ltac:(lra) Hd K2 K3 k Hk) as G1. rewrite <- Emu in HDl. assert (nu * D <= 2 * (mu * D)) by nra. lra.
      - pose proof (con_small mu x1 l1 le Hm Hd B1 B2 k Hk) as G1. rewrite <- Emu in HDl. assert (0 <= mu * D) by (apply Rmult_le_pos; lra). lra. }
    destruct (ratio mu (dual_beta P) ltac:(lra) Hdb) as (Q1 & Q2 & Q3). destruct (ratio mu (prim_beta P) ltac:(lra) Hpb) as (Q4 & Q5 & Q6). fold th in Q2, Q3. fold tp in Q5, Q6.
    destruct (Rlt_dec pi (s_prim_tol _ _ s1)) as [Ac|Rj].
    - (* accepted *)
      destruct (close_acc s1 mu x1 l1 le H1 Ac) as (H2 & I2 & P2). destruct t as [|t].
      { exfalso. apply Big. rewrite Nat.sub_0_r in *. split.
        - rewrite T2 in Ac. apply Rlt_le. eapply Rlt_le_trans; [exact Ac|]. apply (tolb_T (prim_tol0 P) (prim_alpha P) tp (target_tol P) (s_prim_tol _ _ s) mu); solve [assumption|lra].
        - eapply Rle_trans; [exact Dual|]. apply (tolb_T (inner_tol0 P) (dual_alpha P) th (inner_tol_min P) (s_inner_tol _ _ s) mu); solve [assumption|lra]. }
      destruct N as [|N]; [lia|].
      destruct (IH N ltac:(lia) fo (after (close s1)) mu x1 l1 l1 r t) as (s' & E' & D').
      + constructor; try assumption; try lia.
        * left. reflexivity.
        * rewrite I2. pose proof (proj1 (smax_R_ge (s_inner_tol _ _ s1 * Rpower (mu / mu_upper P) (dual_beta P)) (inner_tol_min P))). cbn [car RSc] in *. lra.
        * rewrite I2, T1. replace (T - t)%nat with (S (T - S t)) by lia. apply tol_next; assumption.
        * rewrite P2, T2. replace (T - t)%nat with (S (T - S t)) by lia. apply tol_next; try assumption. lra.
      + lia.
      + change (r_al_iters (res (after (close s1)))) with (S (r_al_iters (res (close s1)))). rewrite CA, A1. lia.
      + change (r_num_iters (res (after (close s1)))) with (r_num_iters (res (close s1))). rewrite CN. lia.
      + change (r_al_iters (res (after (close s1)))) with (S (r_al_iters (res (close s1)))). rewrite CA, A1. lia.
      + exists s'. split; [exact E'|]. destruct D' as (x' & l' & W1 & W2 & W0 & W3 & W4 & W5). exists x', l'. repeat split; try assumption. destruct W5 as [(W5 & W6 & W7)|W5]; [left|right; exact W5]. split; [exact W5|].
        change (r_al_iters (res (after (close s1)))) with (S (r_al_iters (res (close s1)))) in W6. change (r_num_iters (res (after (close s1)))) with (r_num_iters (res (close s1))) in W7. rewrite CA, A1 in W6. rewrite CN in W7. lia.
    - (* rejected *)
      destruct (close_rej s1 mu x1 l1 le H1 Hlow Rj) as (mu' & H2 & Hl2 & M2 & I2 & P2). specialize (M2 NotLow).
      destruct r as [|r]; [exfalso; cbn in Hr; apply NotLow; lra|]. destruct N as [|N]; [lia|].
      assert (Mle : mu' <= mu) by (rewrite M2; apply Rmax_lub; nra).
      destruct (IH N ltac:(lia) fo (after (close s1)) mu' x1 l1 le r T) as (s' & E' & D').
      + constructor; try assumption; try lia; try lra.
        * rewrite M2. unfold Rmax. destruct (Rle_dec _ _).
          -- assert (mu_factor P ^ r <= 1) by (rewrite <- (pow1 r); apply pow_incr; lra). nra.
          -- cbn in Hr. lra.
        * destruct Lk1 as [K|(nu & K1 & K2 & K3)]; [left; exact K|right; exists nu; repeat split; try assumption; lra].
        * rewrite I2. pose proof (proj1 (smax_R_ge (inner_tol0 P * Rpower mu' (dual_alpha P)) (inner_tol_min P))). cbn [car RSc] in *. lra.
        * rewrite I2, Nat.sub_diag. apply tol_init.
        * rewrite P2, Nat.sub_diag. apply tol_init.
      + cbn in HN. lia.
      + change (r_al_iters (res (after (close s1)))) with (S (r_al_iters (res (close s1)))). rewrite CA, A1. lia.
      + change (r_num_iters (res (after (close s1)))) with (r_num_iters (res (close s1))). rewrite CN. lia.
      + change (r_al_iters (res (after (close s1)))) with (S (r_al_iters (res (close s1)))). rewrite CA, A1. lia.
      + exists s'. split; [exact E'|]. destruct D' as (x' & l' & W1 & W2 & W0 & W3 & W4 & W5). exists x', l'. repeat split; try assumption. destruct W5 as [(W5 & W6 & W7)|W5]; [left|right; exact W5]. split; [exact W5|].
        change (r_al_iters (res (after (close s1)))) with (S (r_al_iters (res (close s1)))) in W6. change (r_num_iters (res (after (close s1)))) with (r_num_iters (res (close s1))) in W7. rewrite CA, A1 in W6. rewrite CN in W7. lia.
  Qed.
End Conv.
