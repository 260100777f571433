(** Quadratic problems with equality constraints and a proximal term: the inner loop takes at most one step, and the outer loop converges. *)
From Coq Require Import Reals List Bool Arith ZArith Lia Lra Psatz.
From Verif Require Import Scalar Cset_model Cset_spec Cset_proofs Armijo_model Problem_model Solver_model Solver_spec SolverR_proofs SolverS_proofs Merit_spec Merit_proofs
  Lin_spec Lin_proofs Ldlt_spec Ldlt_proofs Bk_spec Descent_spec Descent_proofs DescentX_proofs Refine_proofs Qp_spec Qp_proofs QpD_proofs QpT_proofs QpC_proofs QpR_spec QpR_proofs.
Import ListNotations.
Local Open Scope R_scope.

Lemma dist2_ext n u v w z : (forall k, (k < n)%nat -> u k = v k) -> (forall k, (k < n)%nat -> w k = z k) -> dist2 n u w = dist2 n v z.
Proof. intros H H2. unfold dist2. apply rsum_ext. intros k Hk. rewrite H, H2 by exact Hk. reflexivity. Qed.
Lemma dist2_pos n u v : 0 <= dist2 n u v. Proof. apply rsum_nonneg. intros k _. apply Rle_0_sqr. Qed.
Lemma dist2_ge n u v k : (k < n)%nat -> (u k - v k) * (u k - v k) <= dist2 n u v.
Proof. intros Hk. apply (rsum_ge n (fun k => (u k - v k) * (u k - v k)) k); [intros; apply Rle_0_sqr|exact Hk]. Qed.
Lemma dist2_tri n u v w : dist2 n u w <= 2 * dist2 n u v + 2 * dist2 n v w.
Proof.
  unfold dist2. rewrite <- !rsum_scale, <- rsum_plus. induction n as [|n IH]; cbn; [lra|]. pose proof (Rle_0_sqr (u n - v n - (v n - w n))) as S. unfold Rsqr in S. nra.
Qed.
Lemma max_abs_lt f n v c : is_max_abs f n v -> 0 < c -> (forall i, (i < n)%nat -> Rabs (f i) < c) -> v < c.
Proof. intros [_ [[_ ->]|(i & Hi & <-)]] Hc H; [exact Hc|apply H, Hi]. Qed.

(** One step of the method of multipliers with a proximal term: the distance to the solution does not grow. *)
Lemma closer_prox n m Q q A b xs ls e mu rho t x l le : convex_by n Q e -> 0 < mu -> 0 < rho -> qp_optimal n m Q q A b xs ls ->
  (forall i, (i < n)%nat -> qp_lag n m Q q A x l i + rho * (x i - t i) = 0) -> (forall k, (k < m)%nat -> qp_con n A b x k = mu * (l k - le k)) ->
  (rho + 2 * e) * dist2 n x xs + mu * dist2 m l ls + rho * dist2 n x t + mu * dist2 m l le <= rho * dist2 n t xs + mu * dist2 m le ls.
Proof.
  intros [_ Cv] Hm Hr [O1 O2] H1 H2. set (d := fun i => x i - xs i).
  assert (Ex : forall k, (k < m)%nat -> rsum n (fun j => A k j * d j) = qp_con n A b x k).
  { intros k Hk. specialize (O2 k Hk). unfold qp_con in *. unfold d. assert (rsum n (fun j => A k j * (x j - xs j)) = rsum n (fun j => A k j * x j) - rsum n (fun j => A k j * xs j)) as -> by (rewrite <- rsum_minus; apply rsum_ext; intros; ring). lra. }
  assert (El : forall i, (i < n)%nat -> rsum n (fun j => Q i j * d j) + rsum m (fun k => (l k - ls k) * A k i) + rho * (x i - t i) = 0).
  { intros i Hi. specialize (O1 i Hi). specialize (H1 i Hi). unfold qp_lag, qp_grad in *.
    assert (E1 : rsum n (fun j => Q i j * d j) = rsum n (fun j => Q i j * x j) - rsum n (fun j => Q i j * xs j)) by (rewrite <- rsum_minus; apply rsum_ext; intros; unfold d; ring).
    assert (E2 : rsum m (fun k => (l k - ls k) * A k i) = rsum m (fun k => l k * A k i) - rsum m (fun k => ls k * A k i)) by (rewrite <- rsum_minus; apply rsum_ext; intros; ring).
    lra. }
  assert (In : form n Q d + rsum m (fun k => (l k - ls k) * qp_con n A b x k) + rho * rsum n (fun i => d i * (x i - t i)) = 0).
  { transitivity (rsum n (fun i => d i * (rsum n (fun j => Q i j * d j) + rsum m (fun k => (l k - ls k) * A k i) + rho * (x i - t i)))).
    - transitivity (form n Q d + rsum n (fun i => d i * rsum m (fun k => (l k - ls k) * A k i)) + rsum n (fun i => rho * (d i * (x i - t i)))).
      + f_equal; [f_equal|symmetry; apply rsum_scale]. transitivity (rsum m (fun k => rsum n (fun i => d i * ((l k - ls k) * A k i)))).
        * apply rsum_ext. intros k Hk. rewrite <- Ex by exact Hk. rewrite <- rsum_scale. apply rsum_ext. intros. ring.
        * rewrite rsum_swap. apply rsum_ext. intros i _. apply rsum_scale.
      + unfold form. rewrite <- !rsum_plus. apply rsum_ext. intros i _. rewrite !Rmult_plus_distr_l. f_equal; [f_equal|ring]. rewrite <- rsum_scale. apply rsum_ext. intros. ring.
    - apply rsum_zero. intros i Hi. rewrite El by exact Hi. ring. }
  pose proof (Cv d) as P. change (rsum n (fun i => d i * d i)) with (dist2 n x xs) in P.
  assert (F1 : 2 * rsum n (fun i => d i * (x i - t i)) = dist2 n x xs + dist2 n x t - dist2 n t xs).
  { unfold dist2. rewrite <- rsum_scale, <- rsum_plus, <- rsum_minus. apply rsum_ext. intros i _. unfold d. ring. }
  assert (F2 : 2 * rsum m (fun k => (l k - ls k) * qp_con n A b x k) = mu * (dist2 m l ls + dist2 m l le - dist2 m le ls)).
  { unfold dist2. rewrite <- rsum_plus, <- rsum_minus, <- !rsum_scale. apply rsum_ext. intros k Hk. rewrite H2 by exact Hk. ring. }
  nra.
Qed.

Section ConvR.
  Variables (O : oracles RSc) (P : @params RSc) (n : nat) (Q : nat -> nat -> R) (q : nat -> R) (ms : list nat) (A : nat -> nat -> R) (b : nat -> R).
  Notation m := (total ms).
  Variable p : @problem RSc.
  Hypothesis like : answers_like n p (qp n Q q ms A b).
  Hypothesis beta : pdal_beta P = 1 / 2.
  Hypothesis hess : hess_approx P = HM_EXACT \/ hess_approx P = HM_GAUSS_NEWTON.
  Variable e : R.
  Hypothesis He : 0 <= e.
  Hypothesis Cx : convex_by n Q e.
  Hypothesis Flat : forall x v, length x = n -> length v = n -> o_integrate O x v = tab n (fun i => nth i x 0 + nth i v 0).
  Hypothesis Px : prox_penalty O n.
  Hypothesis D0 : delta_init P = 0.
  Hypothesis DM : 0 <= delta_max P.
  Hypothesis C1 : armijo_c1 (lsopt P) <= 1 / 2.
  Hypothesis Am : alpha_min (lsopt P) <= 1.
  Notation holdr := (holdr O n ms).
  Notation con := (qp_con n A b).
  Notation lag := (qp_lag n m Q q A).
  Notation lagr rho t := (qp_lag n m (prox_hessian Q rho) (qt q t rho) A).
  Notation rp := (qp_rp n A b).
  Notation resid := (resid O n Q q ms A b).
  Notation inner := (inner O P p).
  Notation outer := (outer O P p).
  Notation close := (close O P).
  Notation after := (after O P).
  Notation smallr c mu rho t le := (small n (prox_hessian Q rho) (qt q t rho) ms A b c mu le).
  Lemma Psd y : 0 <= form n Q y.
  Proof. destruct Cx as [_ H]. specialize (H y). pose proof (rsum_nonneg n (fun i => y i * y i) (fun i _ => Rle_0_sqr _)) as G. cbv beta in G. assert (0 <= e * rsum n (fun i => y i * y i)) by (apply Rmult_le_pos; assumption). lra. Qed.

  (** A pass that stops. *)
  Lemma pass_stopr f fls fin s dl mu rho t x l le : holdr s mu rho t x l le -> 0 <= s_inner_tol _ _ s ->
    smallr (s_inner_tol _ _ s) mu rho t le x l \/ (forall pi di, is_max_abs (con x) m pi -> is_max_abs (lag x l) n di -> pi <= target_tol P /\ di <= target_tol P) ->
    exists s', inner (S f) fls fin s dl = Ret s' /\ holdr s' mu rho t x l le /\ keeps O s s' /\ resid s' x l.
  Proof.
    intros H Ht Hs. destruct (diagr_p O P n Q q ms A b p like beta hess Px s mu rho t x l le H) as (d & E & Hd & Kp & _ & _ & _ & _ & _ & _ & Ic & Oc & Mp & Md & _).
    exists (d_state _ _ d). split; [|split; [exact Hd|split; [exact Kp|split; assumption]]].
    unfold QpC_proofs.inner. cbn [inner_loop]. unfold pass. unfold run_diagnose in E. rewrite E. cbn [bind].
    assert (B : (sleb (s := RSc) (d_inner_crit _ _ d) (s_inner_tol _ _ s) || sleb (s := RSc) (d_outer_crit _ _ d) (target_tol P))%bool = true).
    { apply orb_true_iff. destruct Hs as [Hs|Hs].
      - left. cbn [sleb RSc]. apply rleb_t. rewrite Ic. apply rhs_norm; assumption.
      - right. cbn [sleb RSc]. apply rleb_t. rewrite Oc. apply smax_le. apply Hs; assumption. }
    rewrite B. reflexivity.
  Qed.

  (** The inner loop. *)
  Lemma innerr_p f fls fin s mu rho t x l le : (0 < fls)%nat -> (0 < fin)%nat -> holdr s mu rho t x l le -> handles O n m (prox_hessian Q rho) A mu -> 0 <= s_inner_tol _ _ s -> (S (r_num_iters (res s)) < max_iters P)%nat ->
    exists s' x' l', inner (S (S f)) fls fin s 0 = Ret s' /\ holdr s' mu rho t x' l' le /\ resid s' x' l' /\
      s_inner_tol _ _ s' = s_inner_tol _ _ s /\ s_prim_tol _ _ s' = s_prim_tol _ _ s /\ r_al_iters (res s') = r_al_iters (res s) /\ r_conv (res s') = r_conv (res s) /\
      (r_num_iters (res s') <= S (r_num_iters (res s)))%nat /\
      ((x' = x /\ l' = l /\ (smallr (s_inner_tol _ _ s) mu rho t le x l \/ (r_prim_infeas (res s') <= target_tol P /\ r_dual_infeas (res s') <= target_tol P))) \/
       (forall i, (i < n)%nat -> lag x' l' i + rho * (x' i - t i) = 0) /\ (forall k, (k < m)%nat -> con x' k = mu * (l' k - le k))).
  Proof.
    intros Hfl Hfi H Cap Ht Hn. destruct (diagr_p O P n Q q ms A b p like beta hess Px s mu rho t x l le H) as (d & E & Hd & Kp & G1 & G2 & G3 & G4 & G5 & G6 & Ic & Oc & Mp & Md & Mr & Kh).
    destruct (sleb (s := RSc) (d_inner_crit _ _ d) (s_inner_tol _ _ s) || sleb (s := RSc) (d_outer_crit _ _ d) (target_tol P))%bool eqn:B.
    - exists (d_state _ _ d), x, l. split; [unfold QpC_proofs.inner; cbn [inner_loop]; unfold pass; unfold run_diagnose in E; rewrite E; cbn [bind]; rewrite B; reflexivity|].
      split; [exact Hd|]. split; [split; assumption|]. destruct Kp as [k1 k2 k3 k4 k5]. rewrite k1, k2, k3, k4, k5. repeat split; [lia|]. left. split; [reflexivity|]. split; [reflexivity|].
      apply orb_true_iff in B. cbn [sleb RSc] in B. destruct B as [B|B]; apply Rleb_true in B.
      + left. rewrite Ic in B. apply rhs_norm in B; assumption.
      + right. rewrite Oc in B. apply smax_le in B. exact B.
    - destruct Kp as [k1 k2 k3 k4 k5].
      destruct (stepr_p O P n Q q ms A b p like beta (proj1 Cx) Psd Flat Px D0 DM C1 Am fls fin d 0 mu rho t x l le Hfl Hfi Hd Cap G1 G2 G3 G4 G5 G6 Mr Kh) as (s1 & x1 & l1 & E1 & H1 & L1 & R1 & N1 & A1 & I1 & P1 & _ & V1).
      rewrite k1 in *. rewrite (proj2 (Nat.leb_gt _ _) Hn) in E1. cbn beta iota in E1.
      assert (I1' : s_inner_tol _ _ s1 = s_inner_tol _ _ s) by (rewrite I1; exact k4).
      destruct (pass_stopr f fls fin s1 0 mu rho t x1 l1 le H1) as (s2 & E2 & H2 & K2 & R2).
      { rewrite I1'. exact Ht. }
      { left. split; intros k Hk; [rewrite L1|rewrite R1]; try exact Hk; rewrite Rabs_R0, I1'; exact Ht. }
      exists s2, x1, l1. destruct K2 as [q1 q2 q3 q4 q5]. split.
      { unfold QpC_proofs.inner. cbn [inner_loop]. unfold pass at 1. unfold run_diagnose in E. rewrite E. cbn [bind]. rewrite B. unfold run_step in E1. rewrite E1. cbn [bind]. exact E2. }
      split; [exact H2|]. split; [exact R2|]. rewrite q4, q5, q2, q3, q1, I1', P1, k5, A1, k2, V1, k3, N1 by lia. repeat split; [lia|]. right. split; [intros i Hi; rewrite <- lag_prox by exact Hi; apply L1, Hi|].
      intros k Hk. specialize (R1 k Hk). unfold qp_rp in R1. lra.
  Qed.

  (** ** The outer loop *)
  Variables (xs ls : nat -> R) (D kap : R) (T B : nat).
  Hypothesis Opt : qp_optimal n m Q q A b xs ls.
  Hypothesis Mm : mul_update P = MM_NEWTON.
  Hypothesis Pow : forall x y, 0 < x -> o_pow O x y = Rpower x y.
  Hypothesis Hlo : 0 < mu_lower P.
  Hypothesis Hin : mu_lower P <= mu_init P.
  Hypothesis Hup : mu_init P < mu_upper P.
  Hypothesis Hf : 0 < mu_factor P < 1.
  Hypothesis Hri : 0 < rho_init P.
  Hypothesis Hrf : 0 < rho_factor P <= 1.
  Hypothesis Htol : 0 < target_tol P.
  Hypothesis Hda : 0 <= dual_alpha P.
  Hypothesis Hdb : 0 < dual_beta P.
  Hypothesis Hpa : 0 <= prim_alpha P.
  Hypothesis Hpb : 0 < prim_beta P.
  Hypothesis Hi0 : 0 <= inner_tol0 P.
  Hypothesis Hp0 : 0 <= prim_tol0 P.
  Hypothesis Him : 0 <= inner_tol_min P.
  Hypothesis Him2 : 2 * inner_tol_min P < target_tol P.
  Hypothesis Hil : 2 * (inner_tol0 P * Rpower (mu_lower P) (dual_alpha P)) < target_tol P.
  Hypothesis HD : 0 <= D.
  Hypothesis HDl : 2 * (mu_lower P * D) < target_tol P.
  Let th := Rpower (mu_init P / mu_upper P) (dual_beta P).
  Let tp := Rpower (mu_init P / mu_upper P) (prim_beta P).
  Hypothesis HT1 : (0 < T)%nat.
  Hypothesis HT : inner_tol0 P * Rpower (mu_init P) (dual_alpha P) * th ^ T <= target_tol P.
  Hypothesis HTp : prim_tol0 P * Rpower (mu_init P) (prim_alpha P) * tp ^ T <= target_tol P.
  Hypothesis Hk : rho_init P * (mu_init P * (D * D)) <= kap * (rho_init P + 2 * e).
  Hypothesis HB : 4 * (rho_init P * kap) <= target_tol P * target_tol P \/ rho_init P * (mu_init P * (D * D)) < INR (S B) * (target_tol P * target_tol P).
  Hypothesis Cap : forall mu j, mu_lower P <= mu <= mu_init P -> handles O n m (prox_hessian Q (rho_init P * rho_factor P ^ j)) A mu.

  Notation gr := (grown kap (mu_lower P) (mu_factor P)).
  Lemma kap_pos : 0 <= kap.
  Proof. assert (0 <= rho_init P * (mu_init P * (D * D))) by (apply Rmult_le_pos; [lra|apply Rmult_le_pos; nra]). assert (0 < rho_init P + 2 * e) by lra. nra. Qed.
  Lemma step_pos u : 0 <= u -> 0 <= Rmin (kap / mu_lower P) (u / mu_factor P).
  Proof. intros Hu. pose proof kap_pos. apply Rmin_glb; apply Rmult_le_pos; try assumption; left; apply Rinv_0_lt_compat; lra. Qed.
  Lemma grown_ge r : forall u, 0 <= u -> u <= gr r u.
  Proof. induction r as [|r IH]; intros u Hu; cbn; [lra|]. pose proof (step_pos u Hu). eapply Rle_trans; [|apply IH]; lra. Qed.

  Definition sinkr (j : nat) : R := INR (j - T) * (target_tol P * target_tol P / rho_init P).
  Lemma sink_pos j : 0 <= sinkr j.
  Proof. unfold sinkr. apply Rmult_le_pos; [apply pos_INR|]. apply Rmult_le_pos; [nra|left; apply Rinv_0_lt_compat, Hri]. Qed.
  Definition linkr (mu : R) (x l le : nat -> R) : Prop :=
    (forall k, (k < m)%nat -> l k = le k) \/ exists nu, mu <= nu /\ (forall k, (k < m)%nat -> con x k = nu * (l k - le k) /\ Rabs (l k - le k) <= D).

  Record invr (s : solver_state O) (mu rho : R) (t x l le : nat -> R) (r c : nat) : Prop := {
    v_h : holdr s mu rho t x l le;
    v_lo : mu_lower P <= mu; v_hi : mu <= mu_init P; v_r : mu * mu_factor P ^ r <= mu_lower P; v_rho : exists j, rho = rho_init P * rho_factor P ^ j;
    v_u : exists u, 0 <= u /\ gr r u <= D * D /\
      rho * dist2 n t xs + mu * dist2 m le ls + sinkr (T + B - c) <= mu * u /\
      rho * dist2 n x xs + mu * dist2 m le ls + sinkr (T + B - c) <= mu * u /\
      rho * dist2 n x xs + mu * dist2 m l ls + sinkr (T + B - c) <= mu * u;
    v_k : rho * dist2 n x xs <= kap;
    v_l : linkr mu x l le;
    v_t : (0 < T + B - c)%nat -> forall i, (i < n)%nat -> t i = x i;
    v_c : (c <= T + B)%nat; v_0 : 0 <= s_inner_tol _ _ s; v_pt : target_tol P <= s_prim_tol _ _ s;
    v_in : tolb (inner_tol0 P) (dual_alpha P) th (inner_tol_min P) (s_inner_tol _ _ s) mu (T + B - c);
    v_pr : tolb (prim_tol0 P) (prim_alpha P) tp (target_tol P) (s_prim_tol _ _ s) mu (T + B - c) }.

  Lemma close_accr s1 mu rho t x l le : holdr s1 mu rho t x l le -> r_prim_infeas (res s1) < s_prim_tol _ _ s1 ->
    holdr (after (close s1)) mu (rho * rho_factor P) x x l l /\
    s_inner_tol _ _ (after (close s1)) = smax (K := RSc) (s_inner_tol _ _ s1 * Rpower (mu / mu_upper P) (dual_beta P)) (inner_tol_min P) /\
    s_prim_tol _ _ (after (close s1)) = smax (K := RSc) (s_prim_tol _ _ s1 * Rpower (mu / mu_upper P) (prim_beta P)) (target_tol P).
  Proof.
    intros H L. assert (Hm := g_pos _ _ _ _ _ _ _ _ _ _ H). assert (Hr := g_rpos _ _ _ _ _ _ _ _ _ _ H). assert (Hd : 0 < mu / mu_upper P).
    { apply Rdiv_lt_0_compat; [exact Hm|]. lra. }
    unfold QpC_proofs.close, run_bcl, bcl_update. cbn [sltb RSc]. change (s_res (o_fac O) (o_bfgs O) (accept_primal (o_fac O) (o_bfgs O) s1)) with (res s1).
    change (s_prim_tol (o_fac O) (o_bfgs O) (accept_primal (o_fac O) (o_bfgs O) s1)) with (s_prim_tol _ _ s1). rewrite rltb_t by exact L.
    split; [|cbn; change (s_mu (o_fac O) (o_bfgs O) s1) with (s_mu _ _ s1); rewrite (g_mu _ _ _ _ _ _ _ _ _ _ H), !Pow by exact Hd; split; reflexivity].
    constructor; cbn; try solve [apply H]; rewrite ?Mm; try solve [apply H].
    - apply Rmult_lt_0_compat; lra.
    - rewrite (g_rho _ _ _ _ _ _ _ _ _ _ H). reflexivity.
  Qed.
  Lemma close_rejr s1 mu rho t x l le : holdr s1 mu rho t x l le -> mu_lower P <= mu -> ~ r_prim_infeas (res s1) < s_prim_tol _ _ s1 ->
    exists mu', holdr (after (close s1)) mu' (rho * rho_factor P) x x l le /\ mu_lower P <= mu' /\ (mu <> mu_lower P -> mu' = Rmax (mu * mu_factor P) (mu_lower P)) /\
      s_inner_tol _ _ (after (close s1)) = smax (K := RSc) (inner_tol0 P * Rpower mu' (dual_alpha P)) (inner_tol_min P) /\
      s_prim_tol _ _ (after (close s1)) = smax (K := RSc) (prim_tol0 P * Rpower mu' (prim_alpha P)) (target_tol P).
  Proof.
    intros H Hl L. assert (Hm := g_pos _ _ _ _ _ _ _ _ _ _ H). assert (Hr := g_rpos _ _ _ _ _ _ _ _ _ _ H).
    unfold QpC_proofs.close, run_bcl, bcl_update. cbn [sltb RSc]. change (s_res (o_fac O) (o_bfgs O) (accept_primal (o_fac O) (o_bfgs O) s1)) with (res s1).
    change (s_prim_tol (o_fac O) (o_bfgs O) (accept_primal (o_fac O) (o_bfgs O) s1)) with (s_prim_tol _ _ s1). rewrite rltb_f by lra.
    set (sa := accept_primal (o_fac O) (o_bfgs O) s1).
    assert (G : forall nu, 0 < nu -> holdr (after (tol_failure (o_pow O) (o_fac O) (o_bfgs O) P (set_penalty (o_fac O) (o_bfgs O) nu sa))) nu (rho * rho_factor P) x x l le).
    { intros nu Hn. constructor; cbn; try solve [exact Hn|reflexivity|apply H].
      - apply Rmult_lt_0_compat; lra.
      - rewrite (g_rho _ _ _ _ _ _ _ _ _ _ H). reflexivity.
      - rewrite (g_sets _ _ _ _ _ _ _ _ _ _ H). apply sets_prox. }
    unfold update_penalty. change (s_mu (o_fac O) (o_bfgs O) sa) with (s_mu _ _ s1). rewrite (g_mu _ _ _ _ _ _ _ _ _ _ H).
    destruct (seqb mu (mu_lower P)) eqn:E.
    - exists (mu_init P). split; [apply G; lra|]. split; [exact Hin|]. cbn in E. apply Reqb_true in E. split; [intros F; contradiction|]. cbn. rewrite !Pow by lra. split; reflexivity.
    - assert (Em : smax (K := RSc) (mu * mu_factor P) (mu_lower P) = Rmax (mu * mu_factor P) (mu_lower P)).
      { destruct (Rle_dec (mu * mu_factor P) (mu_lower P)); [rewrite smax_R_r, Rmax_right|rewrite smax_R_l, Rmax_left]; lra. }
      exists (Rmax (mu * mu_factor P) (mu_lower P)). pose proof (Rmax_r (mu * mu_factor P) (mu_lower P)) as Hmr. rewrite <- Em in *. split; [apply (G (smax (K := RSc) (mu * mu_factor P) (mu_lower P))); cbn [car RSc] in *; lra|].
      split; [exact Hmr|]. split; [reflexivity|]. cbn. rewrite !Pow by (cbn [car RSc] in *; lra). split; reflexivity.
  Qed.
  Lemma close_anyr s1 mu rho t x l le : holdr s1 mu rho t x l le -> mu_lower P <= mu -> exists mu' rho' le', holdr (after (close s1)) mu' rho' x x l le' /\ mu_lower P <= mu' /\ 0 <= s_inner_tol _ _ (after (close s1)).
  Proof.
    intros H Hl. destruct (Rlt_dec (r_prim_infeas (res s1)) (s_prim_tol _ _ s1)) as [L|L].
    - destruct (close_accr s1 mu rho t x l le H L) as (H1 & -> & _). eexists mu, _, l. split; [exact H1|]. split; [exact Hl|]. pose proof (proj1 (smax_R_ge (s_inner_tol _ _ s1 * Rpower (mu / mu_upper P) (dual_beta P)) (inner_tol_min P))). cbn [car RSc] in *. lra.
    - destruct (close_rejr s1 mu rho t x l le H Hl L) as (mu' & H1 & Hl' & _ & -> & _). eexists mu', _, le. split; [exact H1|]. split; [exact Hl'|]. pose proof (proj1 (smax_R_ge (inner_tol0 P * Rpower mu' (dual_alpha P)) (inner_tol_min P))). cbn [car RSc] in *. lra.
  Qed.
  Lemma recr_p s mu rho t x l le : holdr s mu rho t x l le -> holdr (record_params (o_fac O) (o_bfgs O) s) mu rho t x l le.
  Proof. intros H. constructor; cbn; apply H. Qed.

  (** At a point whose residual is exactly the tolerance, nothing changes any more. *)
  Lemma stuckr_p f fls fin fo : forall s mu rho t x l le, holdr s mu rho t x l le -> mu_lower P <= mu -> 0 <= s_inner_tol _ _ s ->
    (forall pi di, is_max_abs (con x) m pi -> is_max_abs (lag x l) n di -> smax (K := RSc) pi di = target_tol P) -> (max_al_iters P - r_al_iters (res s) < fo)%nat ->
    exists s', outer fo (S f) fls fin s = Ret s' /\ r_x (res s') = tab n x /\ r_lams (res s') = tab m l /\ r_conv (res s') = r_conv (res s).
  Proof.
    induction fo as [|fo IH]; intros s mu rho t x l le H Hl Ht Heq Hfo; [lia|].
    destruct (Nat.ltb_spec (r_num_iters (res s)) (max_iters P)) as [N1|N1]; [destruct (Nat.ltb_spec (r_al_iters (res s)) (max_al_iters P)) as [N2|N2]|].
    - destruct (pass_stopr f fls fin (record_params (o_fac O) (o_bfgs O) s) 0 mu rho t x l le (recr_p _ _ _ _ _ _ _ H)) as (s1 & E & H1 & K1 & R1 & R2).
      { exact Ht. }
      { right. intros pi di Hpi Hdi. apply smax_le. rewrite (Heq pi di Hpi Hdi). lra. }
      rewrite (outer_unfold O P p Mm fo (S f) fls fin s s1 N1 N2 E). rewrite (Heq _ _ R1 R2). destruct (Rlt_dec (target_tol P) (target_tol P)) as [F|_]; [lra|].
      destruct (close_anyr s1 mu rho t x l le H1 Hl) as (mu' & rho' & le' & H2 & Hl2 & Ht2). destruct (close_res O P Mm s1) as (_ & _ & _ & CA & _ & _ & CC).
      assert (Ec : r_conv (res (after (close s1))) = r_conv (res s)) by (change (r_conv (res (after (close s1)))) with (r_conv (res (close s1))); rewrite CC; apply (k_conv _ _ _ K1)).
      rewrite <- Ec. apply (IH _ mu' rho' x x l le'); try assumption. change (r_al_iters (res (after (close s1)))) with (S (r_al_iters (res (close s1)))). rewrite CA, (k_al _ _ _ K1).
      change (r_al_iters (res (record_params (o_fac O) (o_bfgs O) s))) with (r_al_iters (res s)). lia.
    - exists s. split; [|split; [apply H|split; [apply H|reflexivity]]]. unfold QpC_proofs.outer. cbn [outer_loop]. change (s_res (o_fac O) (o_bfgs O) s) with (res s). rewrite (proj2 (Nat.ltb_ge _ _) N2), andb_false_r. reflexivity.
    - exists s. split; [|split; [apply H|split; [apply H|reflexivity]]]. unfold QpC_proofs.outer. cbn [outer_loop]. change (s_res (o_fac O) (o_bfgs O) s) with (res s). rewrite (proj2 (Nat.ltb_ge _ _) N1). reflexivity.
  Qed.

  Lemma tolb_late a0 al h lo v mu j : 0 <= a0 -> 0 <= al -> 0 < h -> h < 1 -> 0 < mu -> mu <= mu_init P -> a0 * Rpower (mu_init P) al * h ^ T <= target_tol P -> lo <= target_tol P ->
    (T <= j)%nat -> tolb a0 al h lo v mu j -> v <= target_tol P.
  Proof.
    intros Ha Hal Hh Hh1 Hm Hmi Hx Hlo' Hj [H|H]; [|lra]. apply (tolb_T P T a0 al h lo v mu Ha Hal Hh Hm Hmi Hx Hlo'). left.
    assert (G : h ^ j <= h ^ T) by (replace j with (T + (j - T))%nat by lia; rewrite pow_add; rewrite <- (Rmult_1_r (h ^ T)) at 2; apply Rmult_le_compat_l; [left; apply pow_lt, Hh|rewrite <- (pow1 (j - T)); apply pow_incr; lra]).
    assert (0 <= a0 * Rpower mu al) by (apply Rmult_le_pos; [exact Ha|left; apply rpow_pos]). nra.
  Qed.
  Lemma tolb_lowr v j : tolb (inner_tol0 P) (dual_alpha P) th (inner_tol_min P) v (mu_lower P) j -> 2 * v < target_tol P.
  Proof.
    intros [H|H]; [|lra]. destruct (ratio P Hlo Hin Hup (mu_init P) (dual_beta P)) as (R1 & _ & R3); [lra|exact Hdb|]. fold th in R1, R3.
    assert (th ^ j <= 1) by (rewrite <- (pow1 j); apply pow_incr; lra). pose proof (pow_lt th j R1). pose proof (rpow_pos (mu_lower P) (dual_alpha P)).
    assert (0 <= inner_tol0 P * Rpower (mu_lower P) (dual_alpha P)) by (apply Rmult_le_pos; lra). nra.
  Qed.
  Definition doner (al nu : nat) (s' : solver_state O) : Prop := exists x l, r_x (res s') = tab n x /\ r_lams (res s') = tab m l /\ dist2 m l ls <= D * D /\
    (forall k, (k < m)%nat -> Rabs (con x k) <= target_tol P) /\ (forall i, (i < n)%nat -> Rabs (lag x l i) <= target_tol P) /\
    ((r_conv (res s') = SUCCESS /\ (r_al_iters (res s') <= al)%nat /\ (r_num_iters (res s') <= nu)%nat) \/
     (exists k, (k < m)%nat /\ Rabs (con x k) = target_tol P) \/ (exists i, (i < n)%nat /\ Rabs (lag x l i) = target_tol P)).
  Lemma div_mul a c : 0 < c -> a / c * c = a. Proof. intros. field. lra. Qed.

  (** What the inner loop leaves, in numbers. *)
  Definition stepped (mu rho : R) (t x1 l1 le : nat -> R) : Prop :=
    (forall i, (i < n)%nat -> lag x1 l1 i + rho * (x1 i - t i) = 0) /\ (forall k, (k < m)%nat -> con x1 k = mu * (l1 k - le k)).
  Lemma step_facts mu rho t x1 l1 le u w : 0 < mu -> 0 < rho -> mu <= mu_init P -> rho <= rho_init P -> stepped mu rho t x1 l1 le -> 0 <= w -> 0 <= u -> u <= D * D ->
    rho * dist2 n t xs + mu * dist2 m le ls + w <= mu * u ->
    rho * dist2 n x1 xs <= kap /\ rho * dist2 n x1 xs + mu * dist2 m l1 ls + rho * dist2 n x1 t + w <= mu * u /\ (forall k, (k < m)%nat -> Rabs (l1 k - le k) <= D).
  Proof.
    intros Hm Hr Hmi Hrl [S1 S2] Hw Hu HuD HV. pose proof (closer_prox n m Q q A b xs ls e mu rho t x1 l1 le Cx Hm Hr Opt S1 S2) as C.
    pose proof (dist2_pos n x1 xs) as P1. pose proof (dist2_pos m l1 ls) as P2. pose proof (dist2_pos n x1 t) as P3. pose proof (dist2_pos m l1 le) as P4.
    set (X := dist2 n x1 xs) in *. set (L := dist2 m l1 ls) in *. set (Y := dist2 n x1 t) in *. set (Z := dist2 m l1 le) in *.
    assert (0 <= mu * L) by (apply Rmult_le_pos; lra). assert (0 <= rho * Y) by (apply Rmult_le_pos; lra). assert (0 <= mu * Z) by (apply Rmult_le_pos; lra). assert (0 <= rho * X) by (apply Rmult_le_pos; lra). assert (0 <= e * X) by (apply Rmult_le_pos; lra).
    assert (U1 : mu * u <= mu_init P * (D * D)) by (apply Rmult_le_compat; lra).
    assert (K1 : (rho + 2 * e) * X <= mu_init P * (D * D)) by lra.
    split; [|split].
    - (* rho X (ri + 2e) <= ri (rho + 2e) X <= ri mu_init D^2 <= kap (ri + 2e) *)
      apply (Rmult_le_reg_r (rho_init P + 2 * e)); [lra|]. eapply Rle_trans; [|exact Hk]. eapply Rle_trans; [|apply Rmult_le_compat_l; [lra|exact K1]].
      assert (0 <= (rho_init P - rho) * (e * X)) by (apply Rmult_le_pos; lra). nra.
    - nra.
    - intros k Hk'. apply abs_sq; [exact HD|]. pose proof (dist2_ge m l1 le k Hk') as G. fold Z in G. assert (mu * Z <= mu * u) by nra. apply Rmult_le_reg_l in H4; [lra|exact Hm].
  Qed.

  Lemma outerr_p f fls fin : (0 < fls)%nat -> (0 < fin)%nat -> forall N fo s mu rho t x l le r c, invr s mu rho t x l le r c -> (r * S (T + B) + c <= N)%nat ->
    (r_al_iters (res s) + N < max_al_iters P)%nat -> (S (r_num_iters (res s) + N) < max_iters P)%nat -> (max_al_iters P - r_al_iters (res s) < fo)%nat ->
    exists s', outer fo (S (S f)) fls fin s = Ret s' /\ doner (r_al_iters (res s) + N) (S (r_num_iters (res s) + N)) s'.
  Proof.
    intros Hfl Hfi. induction N as [N IH] using lt_wf_ind. intros fo s mu rho t x l le r c [H Hlow Hhi Hr [jr Hrj] (u & Hu0 & HuD & HV1 & HV2 & HV3) Hkx Hlk Htx Hcc H0 Hptl Hit Hpt] HN Hal Hnu Hfo.
    destruct fo as [|fo]; [lia|]. assert (Hm := g_pos _ _ _ _ _ _ _ _ _ _ H). assert (Hrp := g_rpos _ _ _ _ _ _ _ _ _ _ H).
    assert (Hrl : rho <= rho_init P) by (rewrite Hrj; rewrite <- (Rmult_1_r (rho_init P)) at 2; apply Rmult_le_compat_l; [lra|rewrite <- (pow1 jr); apply pow_incr; lra]).
    destruct (innerr_p f fls fin (record_params (o_fac O) (o_bfgs O) s) mu rho t x l le Hfl Hfi (recr_p _ _ _ _ _ _ _ H) ltac:(rewrite Hrj; exact (Cap mu jr (conj Hlow Hhi)))) as (s1 & x1 & l1 & E & H1 & [R1 R2] & T1 & T2 & A1 & _ & N1 & Cs).
    { exact H0. } { change (S (r_num_iters (res s)) < max_iters P)%nat. lia. }
    change (s_inner_tol (o_fac O) (o_bfgs O) (record_params (o_fac O) (o_bfgs O) s)) with (s_inner_tol _ _ s) in *. change (s_prim_tol (o_fac O) (o_bfgs O) (record_params (o_fac O) (o_bfgs O) s)) with (s_prim_tol _ _ s) in *.
    change (r_al_iters (res (record_params (o_fac O) (o_bfgs O) s))) with (r_al_iters (res s)) in *. change (r_num_iters (res (record_params (o_fac O) (o_bfgs O) s))) with (r_num_iters (res s)) in *.
    rewrite (outer_unfold O P p Mm fo (S (S f)) fls fin s s1 ltac:(lia) ltac:(lia) E).
    set (pi := r_prim_infeas (res s1)) in *. set (di := r_dual_infeas (res s1)) in *.
    assert (Bd : pi <= target_tol P /\ di <= target_tol P -> (forall k, (k < m)%nat -> Rabs (con x1 k) <= target_tol P) /\ (forall i, (i < n)%nat -> Rabs (lag x1 l1 i) <= target_tol P)).
    { intros [B1 B2]. split; intros k Hk'; [pose proof (max_abs_ge _ _ _ k R1 Hk')|pose proof (max_abs_ge _ _ _ k R2 Hk')]; lra. }
    destruct (close_res O P Mm s1) as (_ & _ & CN & CA & CX & CL & _).
    pose proof (sink_pos (T + B - c)) as Sk. assert (Hu1 : u <= D * D) by (pose proof (grown_ge r u Hu0); lra).
    assert (Hfr : 0 <= rho * rho_factor P <= rho) by (split; nra).
    (* what the inner loop leaves *)
    assert (W : rho * dist2 n x1 xs <= kap /\ rho * dist2 n x1 xs + mu * dist2 m l1 ls + sinkr (T + B - c) <= mu * u /\ rho * dist2 n x1 xs <= mu * u /\ linkr mu x1 l1 le).
    { destruct Cs as [(-> & -> & _)|St].
      - split; [exact Hkx|]. split; [exact HV3|]. split; [|exact Hlk]. pose proof (dist2_pos m l ls). nra.
      - destruct (step_facts mu rho t x1 l1 le u _ Hm Hrp Hhi Hrl St Sk Hu0 Hu1 HV1) as (F1 & F2 & F3). pose proof (dist2_pos n x1 t). pose proof (dist2_pos m l1 ls).
        assert (0 <= rho * dist2 n x1 t) by (apply Rmult_le_pos; lra). assert (0 <= mu * dist2 m l1 ls) by (apply Rmult_le_pos; lra). split; [exact F1|]. split; [lra|]. split; [lra|]. right. exists mu. split; [lra|]. intros k Hk'. split; [apply (proj2 St), Hk'|apply F3, Hk']. }
    destruct W as (W1 & W2 & W3 & Lk1).
    assert (Le : dist2 m le ls <= u) by (pose proof (dist2_pos n t xs); assert (0 <= rho * dist2 n t xs) by (apply Rmult_le_pos; lra); assert (G : mu * dist2 m le ls <= mu * u) by lra; apply Rmult_le_reg_l in G; assumption).
    assert (L1 : dist2 m l1 ls <= u) by (pose proof (dist2_pos n x1 xs); assert (0 <= rho * dist2 n x1 xs) by (apply Rmult_le_pos; lra); assert (G : mu * dist2 m l1 ls <= mu * u) by lra; apply Rmult_le_reg_l in G; assumption).
    assert (Hd1 : dist2 m l1 ls <= D * D) by lra.
    destruct (Rlt_dec (smax (K := RSc) pi di) (target_tol P)) as [L|L].
    { (* success *)
      eexists. split; [reflexivity|]. exists x1, l1. change (res (set_conv (o_fac O) (o_bfgs O) SUCCESS (close s1))) with (res (set_conv (o_fac O) (o_bfgs O) SUCCESS (close s1) : solver_state O)).
      change (r_x (res (set_conv (o_fac O) (o_bfgs O) SUCCESS (close s1) : solver_state O))) with (r_x (res (close s1))). change (r_lams (res (set_conv (o_fac O) (o_bfgs O) SUCCESS (close s1) : solver_state O))) with (r_lams (res (close s1))).
      rewrite CX, CL. split; [apply H1|]. split; [apply H1|]. split; [exact Hd1|]. destruct (Bd (proj1 (smax_le _ _ _) (Rlt_le _ _ L))) as [B1 B2]. split; [exact B1|]. split; [exact B2|]. left. split; [reflexivity|].
      change ((r_al_iters (res (close s1)) <= r_al_iters (res s) + N)%nat /\ (r_num_iters (res (close s1)) <= S (r_num_iters (res s) + N))%nat). rewrite CN, CA. lia. }
    destruct (Req_dec (smax (K := RSc) pi di) (target_tol P)) as [Eq|Ne].
    { (* exactly the tolerance *)
      destruct (close_anyr s1 mu rho t x1 l1 le H1 Hlow) as (mu' & rho' & le' & H2 & Hl2 & Ht2).
      destruct (stuckr_p (S f) fls fin fo (after (close s1)) mu' rho' x1 x1 l1 le' H2 Hl2 Ht2) as (s' & E' & X' & L' & _).
      - intros pi' di' Hpi Hdi. rewrite <- Eq. f_equal; eapply max_abs_unique; eassumption.
      - change (r_al_iters (res (after (close s1)))) with (S (r_al_iters (res (close s1)))). rewrite CA, A1. lia.
      - exists s'. split; [exact E'|]. exists x1, l1. split; [exact X'|]. split; [exact L'|]. split; [exact Hd1|]. destruct (Bd (proj1 (smax_le _ _ _) (Req_le _ _ Eq))) as [B1 B2]. split; [exact B1|]. split; [exact B2|]. right.
        destruct (Rle_dec pi di) as [Lee|Lee]; [rewrite smax_R_r in Eq by exact Lee; right|rewrite smax_R_l in Eq by lra; left].
        + destruct R2 as [_ [[_ Z]|(i & Hi & Ei)]]; [fold di in Z; lra|]. exists i. split; [exact Hi|]. fold di in Ei. lra.
        + destruct R1 as [_ [[_ Z]|(i & Hi & Ei)]]; [fold pi in Z; lra|]. exists i. split; [exact Hi|]. fold pi in Ei. lra. }
    assert (Big : ~ (pi <= target_tol P /\ di <= target_tol P)) by (intros F; apply smax_le in F; cbn [car RSc] in *; lra).
    destruct (ratio P Hlo Hin Hup mu (dual_beta P) ltac:(lra) Hdb) as (Q1 & Q2 & Q3). destruct (ratio P Hlo Hin Hup mu (prim_beta P) ltac:(lra) Hpb) as (Q4 & Q5 & Q6). fold th in Q2, Q3. fold tp in Q5, Q6.
    destruct (Rlt_dec pi (s_prim_tol _ _ s1)) as [Ac|Rj].
    - (* accepted *)
      destruct (close_accr s1 mu rho t x1 l1 le H1 Ac) as (H2 & I2 & P2).
      (* the potential after the acceptance *)
      assert (Pot : rho * dist2 n x1 xs + mu * dist2 m l1 ls + sinkr (S (T + B - c)) <= mu * u /\ (c <> 0)%nat).
      { destruct (Nat.ltb_spec (T + B - c) T) as [Lt|Ge].
        - split; [|lia]. replace (sinkr (S (T + B - c))) with (sinkr (T + B - c)); [exact W2|]. unfold sinkr. replace (S (T + B - c) - T)%nat with (T + B - c - T)%nat by lia. reflexivity.
        - assert (Pi : pi <= target_tol P).
          { rewrite T2 in Ac. apply Rlt_le. eapply Rlt_le_trans; [exact Ac|]. apply (tolb_late (prim_tol0 P) (prim_alpha P) tp (target_tol P) (s_prim_tol _ _ s) mu (T + B - c)); solve [assumption|lra]. }
          assert (It : s_inner_tol _ _ s <= target_tol P).
          { apply (tolb_late (inner_tol0 P) (dual_alpha P) th (inner_tol_min P) (s_inner_tol _ _ s) mu (T + B - c)); solve [assumption|lra]. }
          destruct Cs as [(-> & -> & [[F1 _]|F])|St]; [|contradiction|].
          + exfalso. apply Big. split; [exact Pi|]. apply (max_abs_le _ _ _ (target_tol P) R2 (Rlt_le _ _ Htol)). intros i Hi. specialize (F1 i Hi). eapply Rle_trans; [apply Req_le|eapply Rle_trans; [exact F1|exact It]]. f_equal.
            rewrite lag_prox by exact Hi. rewrite (Htx ltac:(lia) i Hi). ring.
          + assert (Dg : target_tol P < di) by (destruct (Rle_dec di (target_tol P)); [exfalso; apply Big; split; assumption|lra]).
            assert (Far : target_tol P * target_tol P < rho * (rho * dist2 n x1 t)).
            { destruct R2 as [_ [[_ Z]|(i & Hi & Ei)]]; [fold di in Z; lra|]. fold di in Ei. pose proof (proj1 St i Hi) as G. assert (G2 : lag x1 l1 i = - (rho * (x1 i - t i))) by lra.
              pose proof (dist2_ge n x1 t i Hi) as G3. assert (G4 : di * di = rho * (rho * ((x1 i - t i) * (x1 i - t i)))).
              { rewrite <- Ei. rewrite <- Rabs_mult, Rabs_pos_eq by nra. cbn [car RSc] in *. rewrite G2. ring. }
              assert (rho * (rho * ((x1 i - t i) * (x1 i - t i))) <= rho * (rho * dist2 n x1 t)) by (do 2 (apply Rmult_le_compat_l; [lra|]); exact G3). nra. }
            destruct (step_facts mu rho t x1 l1 le u _ Hm Hrp Hhi Hrl St Sk Hu0 Hu1 HV1) as (_ & F2 & _).
            pose proof (dist2_pos n x1 t) as P3. assert (Hry : 0 <= rho * dist2 n x1 t) by (apply Rmult_le_pos; lra).
            assert (Gain : target_tol P * target_tol P / rho_init P < rho * dist2 n x1 t).
            { apply (Rmult_lt_reg_r (rho_init P)); [exact Hri|]. rewrite div_mul by exact Hri. nra. }
            assert (New : rho * dist2 n x1 xs + mu * dist2 m l1 ls + sinkr (S (T + B - c)) <= mu * u).
            { unfold sinkr in *. replace (S (T + B - c) - T)%nat with (S (T + B - c - T)) by lia. rewrite S_INR. cbn [car RSc] in *. lra. }
            split; [exact New|]. intros Ec. subst c.
            destruct HB as [HB1|HB2].
            * (* the dual residual is small *)
              assert (Xt : rho * dist2 n t xs <= kap) by (rewrite (dist2_ext n t x xs xs (Htx ltac:(lia)) (fun _ _ => eq_refl)); exact Hkx).
              pose proof (dist2_tri n x1 xs t) as G.
              assert (Sy2 : dist2 n xs t = dist2 n t xs) by (unfold dist2; apply rsum_ext; intros; ring). rewrite Sy2 in G.
              assert (rho * dist2 n x1 t <= 4 * kap) by nra. pose proof kap_pos. nra.
            * unfold sinkr in New. replace (S (T + B - 0) - T)%nat with (S B) in New by lia.
              pose proof (dist2_pos n x1 xs). pose proof (dist2_pos m l1 ls). assert (0 <= rho * dist2 n x1 xs) by (apply Rmult_le_pos; lra). assert (0 <= mu * dist2 m l1 ls) by (apply Rmult_le_pos; lra).
              assert (U1 : mu * u <= mu_init P * (D * D)) by (apply Rmult_le_compat; lra).
              assert (G : INR (S B) * (target_tol P * target_tol P / rho_init P) <= mu_init P * (D * D)) by lra.
              apply (Rmult_le_compat_l (rho_init P)) in G; [|lra]. replace (rho_init P * (INR (S B) * (target_tol P * target_tol P / rho_init P))) with (INR (S B) * (target_tol P * target_tol P)) in G by (field; lra). lra. }
      destruct Pot as [Pot Hc0]. destruct c as [|c]; [contradiction|]. destruct N as [|N]; [lia|].
      assert (Ej : (T + B - c)%nat = S (T + B - S c)) by lia.
      destruct (IH N ltac:(lia) fo (after (close s1)) mu (rho * rho_factor P) x1 x1 l1 l1 r c) as (s' & E' & D').
      + assert (G1 : rho * rho_factor P * dist2 n x1 xs <= rho * dist2 n x1 xs) by (apply Rmult_le_compat_r; [apply dist2_pos|lra]).
        constructor; try assumption; try lia; try lra.
        * exists (S jr). rewrite Hrj. cbn [pow]. ring.
        * exists u. split; [exact Hu0|]. split; [exact HuD|]. rewrite Ej. lra.
        * left. reflexivity.
        * reflexivity.
        * rewrite I2. pose proof (proj1 (smax_R_ge (s_inner_tol _ _ s1 * Rpower (mu / mu_upper P) (dual_beta P)) (inner_tol_min P))). cbn [car RSc] in *. lra.
        * rewrite P2. apply smax_R_ge.
        * rewrite I2, T1, Ej. apply tol_next; assumption.
        * rewrite P2, T2, Ej. apply tol_next; try assumption. lra.
      + lia.
      + change (r_al_iters (res (after (close s1)))) with (S (r_al_iters (res (close s1)))). rewrite CA, A1. lia.
      + change (r_num_iters (res (after (close s1)))) with (r_num_iters (res (close s1))). rewrite CN. lia.
      + change (r_al_iters (res (after (close s1)))) with (S (r_al_iters (res (close s1)))). rewrite CA, A1. lia.
      + exists s'. split; [exact E'|]. destruct D' as (x' & l' & V1 & V2 & V0 & V3 & V4 & V5). exists x', l'. repeat split; try assumption. destruct V5 as [(V5 & V6 & V7)|V5]; [left|right; exact V5]. split; [exact V5|].
        change (r_al_iters (res (after (close s1)))) with (S (r_al_iters (res (close s1)))) in V6. change (r_num_iters (res (after (close s1)))) with (r_num_iters (res (close s1))) in V7. rewrite CA, A1 in V6. rewrite CN in V7. lia.
    - (* rejected *)
      assert (NotLow : mu <> mu_lower P).
      { intros Emu. apply Rj. rewrite T2. eapply Rlt_le_trans; [|exact Hptl]. rewrite Emu in Hit. pose proof (tolb_lowr _ _ Hit) as It. cbn [car RSc] in *. apply (max_abs_lt _ _ _ (target_tol P) R1 Htol). intros k Hk'.
        assert (MD : 0 <= mu * D) by (apply Rmult_le_pos; lra). rewrite <- Emu in HDl.
        destruct Cs as [(-> & -> & [[B1 B2]|F])|St]; [|contradiction|].
        - destruct Hlk as [K|(nu & K1 & K3)].
          + specialize (B2 k Hk'). unfold qp_rp in B2. rewrite K in B2 by exact Hk'. replace (con x k + mu * le k - mu * le k) with (con x k) in B2 by ring. lra.
          + destruct (K3 k Hk') as [K4 K5]. set (w := l k - le k) in *. pose proof (Rabs_pos w). destruct (Rle_dec (2 * mu) nu) as [G|G].
            * specialize (B2 k Hk'). unfold qp_rp in B2. replace (con x k + mu * le k - mu * l k) with ((nu - mu) * w) in B2 by (rewrite K4; unfold w; ring).
              rewrite K4, Rabs_mult in *. rewrite (Rabs_pos_eq (nu - mu)) in B2 by lra. rewrite (Rabs_pos_eq nu) by lra. nra.
            * rewrite K4, Rabs_mult, (Rabs_pos_eq nu) by lra. assert (nu * Rabs w <= 2 * mu * D) by (apply Rmult_le_compat; lra). lra.
        - destruct (step_facts mu rho t x1 l1 le u _ Hm Hrp Hhi Hrl St Sk Hu0 Hu1 HV1) as (_ & _ & F3). rewrite (proj2 St k Hk'), Rabs_mult, (Rabs_pos_eq mu) by lra. specialize (F3 k Hk'). nra. }
      destruct (close_rejr s1 mu rho t x1 l1 le H1 Hlow Rj) as (mu' & H2 & Hl2 & M2 & I2 & P2). specialize (M2 NotLow).
      destruct r as [|r]; [exfalso; cbn in Hr; apply NotLow; lra|]. destruct N as [|N]; [lia|].
      assert (Mle : mu' <= mu) by (rewrite M2; apply Rmax_lub; nra). assert (Mge : mu * mu_factor P <= mu') by (rewrite M2; apply Rmax_l).
      destruct (IH N ltac:(lia) fo (after (close s1)) mu' (rho * rho_factor P) x1 x1 l1 le r (T + B)%nat) as (s' & E' & D').
      + assert (G1 : rho * rho_factor P * dist2 n x1 xs <= rho * dist2 n x1 xs) by (apply Rmult_le_compat_r; [apply dist2_pos|lra]).
        constructor; try assumption; try lia; try lra.
        * rewrite M2. unfold Rmax. destruct (Rle_dec _ _).
          -- assert (mu_factor P ^ r <= 1) by (rewrite <- (pow1 r); apply pow_incr; lra). nra.
          -- cbn in Hr. lra.
        * exists (S jr). rewrite Hrj. cbn [pow]. ring.
        * exists (u + Rmin (kap / mu_lower P) (u / mu_factor P)). pose proof (step_pos u Hu0) as Sp. split; [lra|]. split; [exact HuD|].
          rewrite Nat.sub_diag. unfold sinkr. cbn [INR]. rewrite Rmult_0_l.
          assert (Gx : rho * dist2 n x1 xs <= mu' * Rmin (kap / mu_lower P) (u / mu_factor P)).
          { unfold Rmin. destruct (Rle_dec _ _).
            - eapply Rle_trans; [exact W1|]. pose proof (div_mul kap (mu_lower P) Hlo) as Ek. assert (0 <= kap / mu_lower P) by (apply Rmult_le_pos; [apply kap_pos|left; apply Rinv_0_lt_compat, Hlo]). nra.
            - eapply Rle_trans; [exact W3|]. pose proof (div_mul u (mu_factor P) (proj1 Hf)) as Ek. assert (0 <= u / mu_factor P) by (apply Rmult_le_pos; [exact Hu0|left; apply Rinv_0_lt_compat, Hf]).
              rewrite <- Ek at 1. replace (mu * (u / mu_factor P * mu_factor P)) with (mu * mu_factor P * (u / mu_factor P)) by ring. apply Rmult_le_compat_r; assumption. }
          assert (mu' * dist2 m le ls <= mu' * u) by (apply Rmult_le_compat_l; lra). assert (mu' * dist2 m l1 ls <= mu' * u) by (apply Rmult_le_compat_l; lra).
          rewrite Rmult_plus_distr_l. lra.
        * destruct Lk1 as [K|(nu & K1 & K3)]; [left; exact K|right; exists nu; split; [lra|exact K3]].
        * rewrite I2. pose proof (proj1 (smax_R_ge (inner_tol0 P * Rpower mu' (dual_alpha P)) (inner_tol_min P))). cbn [car RSc] in *. lra.
        * rewrite P2. apply smax_R_ge.
        * rewrite I2, Nat.sub_diag. apply tol_init.
        * rewrite P2, Nat.sub_diag. apply tol_init.
      + cbn in HN. lia.
      + change (r_al_iters (res (after (close s1)))) with (S (r_al_iters (res (close s1)))). rewrite CA, A1. lia.
      + change (r_num_iters (res (after (close s1)))) with (r_num_iters (res (close s1))). rewrite CN. lia.
      + change (r_al_iters (res (after (close s1)))) with (S (r_al_iters (res (close s1)))). rewrite CA, A1. lia.
      + exists s'. split; [exact E'|]. destruct D' as (x' & l' & V1 & V2 & V0 & V3 & V4 & V5). exists x', l'. repeat split; try assumption. destruct V5 as [(V5 & V6 & V7)|V5]; [left|right; exact V5]. split; [exact V5|].
        change (r_al_iters (res (after (close s1)))) with (S (r_al_iters (res (close s1)))) in V6. change (r_num_iters (res (after (close s1)))) with (r_num_iters (res (close s1))) in V7. rewrite CA, A1 in V6. rewrite CN in V7. lia.
  Qed.
End ConvR.
