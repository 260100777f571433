(** Quadratic problems with equality constraints: distance of the result to the solution. *)
From Coq Require Import Reals List Bool Arith ZArith Lia Lra Psatz.
From Verif Require Import Scalar Cset_model Armijo_model Problem_model Solver_model Solver_spec Lin_spec Lin_proofs Ldlt_spec Bk_spec Descent_spec Qp_spec Qp_proofs QpD_proofs QpT_proofs QpC_proofs QpF_proofs QpX_proofs Fac_spec Fac_proofs FacX_proofs.
Import ListNotations.
Local Open Scope R_scope.

Section Near.
  Variables (n m : nat) (Q : nat -> nat -> R) (q : nat -> R) (A : nat -> nat -> R) (b : nat -> R) (xs ls : nat -> R).
  Hypothesis Sy : forall i j, (i < n)%nat -> (j < n)%nat -> Q i j = Q j i.
  Hypothesis Opt : qp_optimal n m Q q A b xs ls.
  Notation dx x := (fun i => x i - xs i).
  Lemma diff_con x k : (k < m)%nat -> rsum n (fun j => A k j * (x j - xs j)) = qp_con n A b x k.
  Proof. intros Hk. destruct Opt as [_ O2]. specialize (O2 k Hk). unfold qp_con in *. assert (rsum n (fun j => A k j * (x j - xs j)) = rsum n (fun j => A k j * x j) - rsum n (fun j => A k j * xs j)) as -> by (rewrite <- rsum_minus; apply rsum_ext; intros; ring). lra. Qed.
  Lemma diff_lag x l i : (i < n)%nat -> rsum n (fun j => Q i j * (x j - xs j)) + rsum m (fun k => (l k - ls k) * A k i) = qp_lag n m Q q A x l i.
  Proof.
    intros Hi. destruct Opt as [O1 _]. specialize (O1 i Hi). unfold qp_lag, qp_grad in *.
    assert (E1 : rsum n (fun j => Q i j * (x j - xs j)) = rsum n (fun j => Q i j * x j) - rsum n (fun j => Q i j * xs j)) by (rewrite <- rsum_minus; apply rsum_ext; intros; ring).
    assert (E2 : rsum m (fun k => (l k - ls k) * A k i) = rsum m (fun k => l k * A k i) - rsum m (fun k => ls k * A k i)) by (rewrite <- rsum_minus; apply rsum_ext; intros; ring).
    lra.
  Qed.
  Lemma gap x l : form n Q (dx x) = rsum n (fun i => (x i - xs i) * qp_lag n m Q q A x l i) - rsum m (fun k => (l k - ls k) * qp_con n A b x k).
  Proof.
    enough (form n Q (dx x) + rsum m (fun k => (l k - ls k) * qp_con n A b x k) = rsum n (fun i => (x i - xs i) * qp_lag n m Q q A x l i)) by lra.
    transitivity (rsum n (fun i => (x i - xs i) * (rsum n (fun j => Q i j * (x j - xs j)) + rsum m (fun k => (l k - ls k) * A k i)))); [|apply rsum_ext; intros i Hi; rewrite diff_lag by exact Hi; reflexivity].
    transitivity (form n Q (dx x) + rsum n (fun i => (x i - xs i) * rsum m (fun k => (l k - ls k) * A k i))).
    - f_equal. transitivity (rsum m (fun k => rsum n (fun i => (x i - xs i) * ((l k - ls k) * A k i)))).
      + apply rsum_ext. intros k Hk. rewrite <- diff_con by exact Hk. rewrite <- rsum_scale. apply rsum_ext. intros. ring.
      + rewrite rsum_swap. apply rsum_ext. intros i _. apply rsum_scale.
    - unfold form. rewrite <- rsum_plus. apply rsum_ext. intros i _. rewrite Rmult_plus_distr_l. f_equal. rewrite <- rsum_scale. apply rsum_ext. intros. ring.
  Qed.
  Lemma obj_gap x : qp_obj n Q q x - qp_obj n Q q xs = 1 / 2 * form n Q (dx x) - rsum m (fun k => ls k * qp_con n A b x k).
  Proof.
    assert (E : qp_obj n Q q x = qp_obj n Q q (fun i => xs i + (x i - xs i))).
    { unfold qp_obj. f_equal; [f_equal|]; apply rsum_ext; intros i _; [apply rsum_ext; intros j _|]; replace (xs i + (x i - xs i)) with (x i) by ring; [replace (xs j + (x j - xs j)) with (x j) by ring|]; reflexivity. }
    rewrite E, obj_expand by exact Sy.
    assert (G : rsum n (fun i => qp_grad n Q q xs i * (x i - xs i)) = - rsum m (fun k => ls k * qp_con n A b x k)).
    { transitivity (rsum n (fun i => -1 * (rsum m (fun k => ls k * A k i) * (x i - xs i)))).
      - apply rsum_ext. intros i Hi. destruct Opt as [O1 _]. specialize (O1 i Hi). unfold qp_lag in O1. assert (qp_grad n Q q xs i = - rsum m (fun k => ls k * A k i)) as -> by lra. ring.
      - rewrite rsum_scale. assert (rsum n (fun i => rsum m (fun k => ls k * A k i) * (x i - xs i)) = rsum m (fun k => ls k * qp_con n A b x k)) as ->; [|ring].
        transitivity (rsum n (fun i => rsum m (fun k => ls k * A k i * (x i - xs i)))); [apply rsum_ext; intros i _; rewrite <- rsum_scale_r; reflexivity|].
        rewrite rsum_swap. apply rsum_ext. intros k Hk. rewrite <- diff_con by exact Hk. rewrite <- rsum_scale. apply rsum_ext. intros. ring. }
    unfold form in *. lra.
  Qed.
End Near.
Lemma rsum_le n f g : (forall i, (i < n)%nat -> f i <= g i) -> rsum n f <= rsum n g.
Proof. induction n as [|n IH]; cbn; intros H; [lra|]. pose proof (H n ltac:(lia)). specialize (IH (fun i Hi => H i ltac:(lia))). lra. Qed.
Lemma rsum_const n c : rsum n (fun _ => c) = INR n * c.
Proof. induction n as [|n IH]; [cbn; ring|]. rewrite S_INR. cbn [rsum]. rewrite IH. ring. Qed.
Lemma sum_abs_sq m u : rsum m (fun k => Rabs (u k)) * rsum m (fun k => Rabs (u k)) <= INR m * rsum m (fun k => u k * u k).
Proof.
  induction m as [|m IH]; [cbn; lra|]. rewrite S_INR. cbn [rsum]. set (S := rsum m (fun k => Rabs (u k))) in *. set (E := rsum m (fun k => u k * u k)) in *.
  assert (Ea : Rabs (u m) * Rabs (u m) = u m * u m) by (rewrite <- Rabs_mult; apply Rabs_pos_eq, Rle_0_sqr). set (a := Rabs (u m)) in *.
  enough (2 * S * a <= E + INR m * (a * a)) by (rewrite <- Ea; lra).
  assert (E0 : 0 <= E) by (apply rsum_nonneg; intros; apply Rle_0_sqr). destruct m as [|m']; [unfold S, E; cbn; lra|]. set (M := INR (Datatypes.S m')) in *. assert (M0 : 0 < M) by (apply lt_0_INR; lia).
  apply (Rmult_le_reg_l M); [exact M0|]. pose proof (Rle_0_sqr (S - M * a)) as H. unfold Rsqr in H. nra.
Qed.
Lemma sum_abs_le m u D : 0 <= D -> rsum m (fun k => u k * u k) <= D * D -> rsum m (fun k => Rabs (u k)) <= sqrt (INR m) * D.
Proof.
  intros H0 H. pose proof (sum_abs_sq m u) as C. assert (P : 0 <= rsum m (fun k => Rabs (u k))) by (apply rsum_nonneg; intros; apply Rabs_pos). pose proof (pos_INR m) as PM.
  apply Rsqr_incr_0; [|exact P|apply Rmult_le_pos; [apply sqrt_pos|exact H0]]. unfold Rsqr. replace (sqrt (INR m) * D * (sqrt (INR m) * D)) with (sqrt (INR m) * sqrt (INR m) * (D * D)) by ring.
  rewrite sqrt_sqrt by exact PM. refine (Rle_trans _ _ _ C _). apply Rmult_le_compat_l; assumption.
Qed.
Lemma pair_le m u v t : (forall k, (k < m)%nat -> Rabs (v k) <= t) -> rsum m (fun k => u k * v k) <= rsum m (fun k => Rabs (u k)) * t.
Proof.
  intros H. rewrite <- rsum_scale_r. apply rsum_le. intros k Hk. refine (Rle_trans _ _ _ (Rle_abs _) _). rewrite Rabs_mult. apply Rmult_le_compat_l; [apply Rabs_pos|apply H, Hk].
Qed.
Lemma pair_ge m u v t : (forall k, (k < m)%nat -> Rabs (v k) <= t) -> - (rsum m (fun k => Rabs (u k)) * t) <= rsum m (fun k => u k * v k).
Proof.
  intros H. pose proof (pair_le m (fun k => - u k) v t H) as G. cbv beta in G. rewrite (rsum_ext m (fun k => - u k * v k) (fun k => -1 * (u k * v k))) in G by (intros; ring). rewrite rsum_scale in G.
  rewrite (rsum_ext m (fun k => Rabs (- u k)) (fun k => Rabs (u k))) in G by (intros; apply Rabs_Ropp). lra.
Qed.
(** Residuals below t: bounds for the distance and for the objective. *)
Lemma near n m Q q A b xs ls x l c t D : strongly_convex n Q c -> 0 < c -> 0 <= D -> qp_optimal n m Q q A b xs ls ->
  (forall k, (k < m)%nat -> Rabs (qp_con n A b x k) <= t) -> (forall i, (i < n)%nat -> Rabs (qp_lag n m Q q A x l i) <= t) -> d2 m l ls <= D * D -> 0 <= t ->
  rsum n (fun i => (x i - xs i) * (x i - xs i)) <= INR n * (t / c) * (t / c) + 2 * sqrt (INR m) * D * t / c /\
  - (rsum m (fun k => Rabs (ls k)) * t) <= qp_obj n Q q x - qp_obj n Q q xs <= rsum m (fun k => Rabs (ls k)) * t + INR n * t * t / (2 * c) + sqrt (INR m) * D * t.
Proof.
  intros [Sy H] C0 D0 Opt Hc Hl Hd T0. set (u := rsum n (fun i => (x i - xs i) * (x i - xs i))).
  pose proof (H (fun i => x i - xs i)) as Hf. cbv beta in Hf. fold u in Hf. set (F := form n Q (fun i => x i - xs i)) in *.
  assert (G : F <= c / 2 * u + INR n * (t * t / (2 * c)) + sqrt (INR m) * D * t).
  { unfold F. rewrite (gap n m Q q A b xs ls Opt x l).
    assert (E1 : rsum n (fun i => (x i - xs i) * qp_lag n m Q q A x l i) <= c / 2 * u + INR n * (t * t / (2 * c))).
    { unfold u. rewrite <- rsum_scale, <- rsum_const, <- rsum_plus. apply rsum_le. intros i Hi. specialize (Hl i Hi). set (g := qp_lag n m Q q A x l i) in *. set (a := x i - xs i).
      assert (g * g <= t * t). { assert (Eg : g * g = Rabs g * Rabs g) by (rewrite <- Rabs_mult; symmetry; apply Rabs_pos_eq, Rle_0_sqr). rewrite Eg. apply Rmult_le_compat; try apply Rabs_pos; exact Hl. }
      assert (X : a * g <= c / 2 * (a * a) + g * g / (2 * c)).
      { apply (Rmult_le_reg_l (2 * c)); [lra|]. replace (2 * c * (c / 2 * (a * a) + g * g / (2 * c))) with (c * a * (c * a) + g * g) by (field; lra). pose proof (Rle_0_sqr (c * a - g)). unfold Rsqr in *. nra. }
      refine (Rle_trans _ _ _ X _). apply Rplus_le_compat_l. unfold Rdiv. apply Rmult_le_compat_r; [left; apply Rinv_0_lt_compat; lra|assumption]. }
    assert (E2 : - (sqrt (INR m) * D * t) <= rsum m (fun k => (l k - ls k) * qp_con n A b x k)).
    { refine (Rle_trans _ _ _ _ (pair_ge m (fun k => l k - ls k) (qp_con n A b x) t Hc)). apply Ropp_le_contravar, Rmult_le_compat_r; [exact T0|]. apply sum_abs_le; assumption. }
    lra. }
  assert (G2 : F <= INR n * (t * t / c) + 2 * (sqrt (INR m) * D * t)).
  { replace (INR n * (t * t / c)) with (2 * (INR n * (t * t / (2 * c)))) by (field; lra). lra. }
  split.
  - apply (Rmult_le_reg_l c); [exact C0|]. refine (Rle_trans _ _ _ Hf _). refine (Rle_trans _ _ _ G2 _). right. field. lra.
  - rewrite (obj_gap n m Q q A b xs ls Sy Opt x). fold F. pose proof (pair_le m ls (qp_con n A b x) t Hc) as P1. pose proof (pair_ge m ls (qp_con n A b x) t Hc) as P2.
    assert (0 <= F) by (refine (Rle_trans _ _ _ _ Hf); apply Rmult_le_pos; [lra|apply rsum_nonneg; intros; apply Rle_0_sqr]).
    replace (INR n * t * t / (2 * c)) with (1 / 2 * (INR n * (t * t / c))) by (field; lra). split; lra.
Qed.
Lemma optimal_min n m Q q A b xs ls : qp_convex n m Q A -> qp_optimal n m Q q A b xs ls -> forall y, (forall k, (k < m)%nat -> qp_con n A b y k = 0) ->
  qp_obj n Q q xs <= qp_obj n Q q y /\ (qp_obj n Q q y = qp_obj n Q q xs -> forall i, (i < n)%nat -> y i = xs i).
Proof.
  intros (Sy & Ps & Ker) Opt y Hy. pose proof (obj_gap n m Q q A b xs ls Sy Opt y) as G. rewrite (rsum_zero m) in G by (intros k Hk; rewrite Hy by exact Hk; ring).
  pose proof (Ps (fun i => y i - xs i)) as P. split; [lra|]. intros E i Hi. enough (y i - xs i = 0) by lra. apply (Ker (fun i => y i - xs i)); [lra| |exact Hi].
  intros k Hk. rewrite (diff_con n m Q q A b xs ls Opt) by exact Hk. apply Hy, Hk.
Qed.
Lemma solve_near (O : oracles RSc) (P : @params RSc) n Q q ms A b p c xs ls D Rn T fo fi fls fin (s : solver_state O) mus x0 l0 s' f : let m := total ms in let K := (Rn * S T + T)%nat in
  answers_like n p (qp n Q q ms A b) ->
  plain O P n -> outer_params O P D Rn T -> strongly_convex n Q c -> 0 < c -> (forall mu, mu_lower P <= mu <= mu_init P -> handles O n m Q A mu) ->
  qp_optimal n m Q q A b xs ls -> rsum m (fun k => (nth k l0 0 - ls k) * (nth k l0 0 - ls k)) <= D * D -> length x0 = n -> length l0 = m ->
  sets s = map CEq mus -> length mus = length ms -> buffers_fit p s ->
  (K < max_al_iters P)%nat -> (S K < max_iters P)%nat -> (max_al_iters P < fo)%nat -> (1 < fi)%nat -> (0 < fls)%nat -> (0 < fin)%nat ->
  run_solve O fo fi fls fin P p (Some s) x0 l0 = Ret (s', f) ->
  let x := fun i => nth i (r_x (res s')) 0 in let l := fun k => nth k (r_lams (res s')) 0 in let t := target_tol P in
  rsum m (fun k => (l k - ls k) * (l k - ls k)) <= D * D /\
  rsum n (fun i => (x i - xs i) * (x i - xs i)) <= INR n * (t / c) * (t / c) + 2 * sqrt (INR m) * D * t / c /\
  - (rsum m (fun k => Rabs (ls k)) * t) <= qp_obj n Q q x - qp_obj n Q q xs <= rsum m (fun k => Rabs (ls k)) * t + INR n * t * t / (2 * c) + sqrt (INR m) * D * t.
Proof.
  intros m K H1 H2 H3 Sc C0 H5 H6 H7 H8 H9 H10 H11 H12 H13 H14 H15 H16 H17 H18 E.
  destruct (solve_strong O P n Q q ms A b p xs ls D Rn T fo fi fls fin s mus x0 l0 H1 H2 H3 (strong_convex n _ Q A c C0 Sc) H5 H6 H7 H8 H9 H10 H11 H12 H13 H14 H15 H16 H17 H18) as (s2 & f2 & E2 & _ & _ & W1 & W2 & _ & W3).
  rewrite E in E2. injection E2 as <- <-. intros x l t. split; [exact W3|]. assert (T0 : 0 <= t) by (unfold t; pose proof (op_tol _ _ _ _ _ H3); lra). assert (D0 : 0 <= D) by apply (op_D _ _ _ _ _ H3).
  apply (near n m Q q A b xs ls x l c t D); assumption.
Qed.
(** ** Numbers of iterations *)
Lemma geometric a h t : 0 < h < 1 -> 0 < t -> exists N, forall k, (N <= k)%nat -> a * h ^ k <= t.
Proof.
  intros [H0 H1] Ht. assert (Pa : 0 < Rabs a + 1) by (pose proof (Rabs_pos a); lra).
  destruct (pow_lt_1_zero h ltac:(rewrite Rabs_pos_eq; lra) (t / (Rabs a + 1))) as (N & HN); [apply Rdiv_lt_0_compat; lra|]. exists N. intros k Hk. specialize (HN k Hk).
  assert (Pk : 0 < h ^ k) by (apply pow_lt; lra). rewrite Rabs_pos_eq in HN by lra. pose proof (Rle_abs a) as La.
  apply Rle_trans with ((Rabs a + 1) * h ^ k); [apply Rmult_le_compat_r; lra|]. apply Rlt_le in HN. apply (Rmult_le_compat_l (Rabs a + 1)) in HN; [|lra].
  replace ((Rabs a + 1) * (t / (Rabs a + 1))) with t in HN by (field; lra). exact HN.
Qed.
Lemma iterations (O : oracles RSc) (P : @params RSc) D : mul_update P = MM_NEWTON -> rho_init P = 0 -> (forall x y, 0 < x -> o_pow O x y = Rpower x y) ->
  0 < mu_lower P <= mu_init P -> mu_init P < mu_upper P -> 0 < mu_factor P < 1 -> 0 <= dual_alpha P -> 0 < dual_beta P -> 0 <= prim_alpha P -> 0 < prim_beta P ->
  0 < target_tol P -> 0 <= inner_tol0 P -> 0 <= prim_tol0 P -> 0 <= inner_tol_min P -> 2 * inner_tol_min P <= target_tol P ->
  2 * (inner_tol0 P * Rpower (mu_lower P) (dual_alpha P)) <= target_tol P -> 0 <= D -> 2 * (mu_lower P * D) <= target_tol P -> exists Rn T, outer_params O P D Rn T.
Proof.
  intros M1 M2 M3 [M4 M5] M6 M7 M8 M9 M10 M11 M12 M13 M14 M15 M16 M17 M18 M19.
  assert (Rt : forall bt, 0 < bt -> 0 < Rpower (mu_init P / mu_upper P) bt < 1).
  { intros bt Hb. split; [apply exp_pos|]. assert (Z : 0 < mu_init P / mu_upper P < 1). { split; [apply Rdiv_lt_0_compat; lra|]. apply (Rmult_lt_reg_r (mu_upper P)); [lra|]. unfold Rdiv. rewrite Rmult_assoc, Rinv_l by lra. lra. }
    unfold Rpower. rewrite <- exp_0. apply exp_increasing. assert (L : ln (mu_init P / mu_upper P) < 0) by (rewrite <- ln_1; apply ln_increasing; lra). nra. }
  destruct (geometric (mu_init P) (mu_factor P) (mu_lower P) M7 M4) as (Rn & HR).
  destruct (geometric (inner_tol0 P * Rpower (mu_init P) (dual_alpha P)) _ (target_tol P) (Rt _ M9) M12) as (T1 & HT1).
  destruct (geometric (prim_tol0 P * Rpower (mu_init P) (prim_alpha P)) _ (target_tol P) (Rt _ M11) M12) as (T2 & HT2).
  exists Rn, (Nat.max T1 T2). constructor; auto 10.
  - apply HT1. lia.
  - apply HT2. lia.
Qed.
