(** Quadratic problems with a proximal term: the default parameters, the dense factorisation, and a linear program. *)
From Coq Require Import Reals List Bool Arith ZArith Lia Lra Psatz.
From Verif Require Import Scalar Cset_model Cset_spec Armijo_model Problem_model Solver_model Solver_spec Ldlt_model Ldlt_spec Manifold_model Objects_model Objects_spec
  Lin_spec Lin_proofs Bk_spec Descent_spec Qp_spec Qp_proofs QpD_proofs QpT_proofs QpC_proofs QpF_proofs Fac_model Fac_spec FacX_proofs QpR_spec QpR_proofs QpRC_proofs QpRF_proofs QpRO_proofs.
Import ListNotations.
Local Open Scope R_scope.

Lemma grown_le k lo f r : 0 < lo -> 0 <= k -> forall u, grown k lo f r u <= u + INR r * (k / lo).
Proof.
  intros Hl Hk. induction r as [|r IH]; intros u; [cbn; lra|]. cbn [grown]. eapply Rle_trans; [apply IH|]. rewrite S_INR. pose proof (Rmin_l (k / lo) (u / f)).
  assert (0 <= k / lo) by (apply Rmult_le_pos; [exact Hk|left; apply Rinv_0_lt_compat, Hl]). lra.
Qed.
Lemma prim_small : 1 * Rpower (1 / 100) (1 / 10) * Rpower (1 / 100 / 1) (9 / 10) ^ 4 <= 1 / 1000000.
Proof.
  replace (1 / 100 / 1) with (1 / 100) by lra. set (a := Rpower (1 / 100) (9 / 10)). cbn [pow].
  assert (E : 1 * Rpower (1 / 100) (1 / 10) * (a * (a * (a * (a * 1)))) = Rpower (1 / 100) (37 / 10)).
  { unfold a. replace (37 / 10) with (1 / 10 + (9 / 10 + (9 / 10 + (9 / 10 + 9 / 10)))) by lra. rewrite !Rpower_plus. ring. }
  rewrite E. assert (L : ln (1 / 100) < 0) by (rewrite <- ln_1; apply ln_increasing; lra).
  apply Rle_trans with (Rpower (1 / 100) 3).
  + unfold Rpower. left. apply exp_increasing. nra.
  + replace 3 with (INR 3) by (cbn; lra). rewrite Rpower_pow by lra. cbn. lra.
Qed.
(** Default parameters and a small rho: problems whose Hessian is at least one. *)
Lemma default_prox (O : oracles RSc) n m rho e xs ls x0 t0 l0 : (forall x y, 0 < x -> o_pow O x y = Rpower x y) -> 0 < rho <= 1 / 100000000 -> 1 <= e ->
  dist2 n x0 xs <= 100 -> dist2 n t0 xs <= 100 -> dist2 m l0 ls <= 100000 ->
  prox_params O (started (1 / 100) rho) n m e (1 / 100000) 400 4 4 0 xs ls x0 t0 l0.
Proof.
  intros Hp Hr He Hx Ht Hl. pose proof (dist2_pos n x0 xs). pose proof (dist2_pos n t0 xs). pose proof (dist2_pos m l0 ls).
  assert (Bx : rho * dist2 n x0 xs <= 1 / 1000000) by nra. assert (Bt : rho * dist2 n t0 xs <= 1 / 1000000) by nra.
  constructor; cbn [started default_params mul_update mu_lower mu_init mu_upper mu_factor rho_init rho_factor dual_alpha dual_beta prim_alpha prim_beta target_tol inner_tol0 prim_tol0 inner_tol_min];
    unfold slit; cbn [sdiv sofZ s0 s1 RSc]; try solve [reflexivity|exact Hp|repeat split; lra|lra|lia].
  - rewrite Rpower_1 by lra. lra.
  - rewrite !Rpower_1 by lra. cbn [pow]. lra.
  - exact prim_small.
  - split; [lra|]. split; [lra|]. exists (100000 + 1). split; [lra|]. split; [lra|].
    eapply Rle_trans; [apply grown_le; lra|]. cbn [INR]. lra.
Qed.

Lemma prox_strong n Q e rho : convex_by n Q e -> strongly_convex n (prox_hessian Q rho) (e + rho).
Proof.
  intros [S H]. split.
  - intros i j Hi Hj. unfold prox_hessian. rewrite (S i j Hi Hj), Nat.eqb_sym. reflexivity.
  - intros x. rewrite form_prox. specialize (H x). lra.
Qed.
(** The dense factorisation: only the sum of the curvature and of the proximal parameter must exceed 2^-1022. *)
Lemma dense_prox_converges pw ig pv pg ph bf bu qr (P : @params RSc) n Q q ms A b p xs ls e k D Rn T B fo fi fls fin : let m := Qp_spec.total ms in let K := (Rn * S (T + B) + (T + B))%nat in
  let O := mkOracles (K := RSc) pw ig pv pg ph (dldlt RSc) (dense_fac (K := RSc) (n + m)) (dense_sig (K := RSc)) (dense_solve_list (K := RSc)) bf bu qr in forall (s : solver_state O) mus x0 l0,
  answers_like n p (qp n Q q ms A b) -> plain_prox O P n -> prox_params O P n m e k D Rn T B xs ls (en x0) (en (s_target _ _ s)) (en l0) -> convex_by n Q e ->
  (forall j, tiny (K := RSc) < e + rho_init P * rho_factor P ^ j) -> tiny (K := RSc) < mu_lower P ->
  qp_optimal n m Q q A b xs ls -> length x0 = n -> length (s_target _ _ s) = n -> length l0 = m ->
  sets s = map CEq mus -> length mus = length ms -> buffers_fit p s ->
  (K < max_al_iters P)%nat -> (S K < max_iters P)%nat -> (max_al_iters P < fo)%nat -> (1 < fi)%nat -> (0 < fls)%nat -> (0 < fin)%nat ->
  exists (s' : solver_state O) f, run_solve O fo fi fls fin P p (Some s) x0 l0 = Ret (s', f) /\ length (r_x (res s')) = n /\ length (r_lams (res s')) = m /\
    let x := en (r_x (res s')) in let l := en (r_lams (res s')) in
    (forall i, (i < m)%nat -> Rabs (qp_con n A b x i) <= target_tol P) /\ (forall i, (i < n)%nat -> Rabs (qp_lag n m Q q A x l i) <= target_tol P) /\
    ((f = SUCCESS /\ (r_al_iters (res s') <= K)%nat /\ (r_num_iters (res s') <= S K)%nat) \/
     (exists i, (i < m)%nat /\ Rabs (qp_con n A b x i) = target_tol P) \/ (exists i, (i < n)%nat /\ Rabs (qp_lag n m Q q A x l i) = target_tol P)) /\
    dist2 m l ls <= D * D.
Proof.
  intros m K O s mus x0 l0 Hp Pl Op Cx Hc Hm. apply (solve_final_r O P n Q q ms A b p xs ls e k D Rn T B); try assumption.
  intros mu j [H _]. apply (dense_handles pw ig pv pg ph bf bu qr n m (prox_hessian Q (rho_init P * rho_factor P ^ j)) A mu (e + rho_init P * rho_factor P ^ j)).
  - apply prox_strong, Cx.
  - apply Hc.
  - cbn [car RSc] in *. lra.
Qed.

(** With the target at the point, the inner loop does not raise the objective of an unconstrained problem. *)
Lemma descends (O : oracles RSc) (P : @params RSc) n Q q A b p fi fls fin (s : solver_state O) : 
  answers_like n p (qp n Q q [] A b) ->
  plain_prox O P n -> convex_by n Q 0 -> handles O n 0 (prox_hessian Q (s_rho _ _ s)) A (mu s) -> prox_state n [] s -> 0 <= s_inner_tol _ _ s -> s_target _ _ s = r_x (res s) ->
  (S (r_num_iters (res s)) < max_iters P)%nat -> (1 < fi)%nat -> (0 < fls)%nat -> (0 < fin)%nat ->
  exists s' : solver_state O, inner_loop (o_integrate O) (o_px_val O) (o_px_grad O) (o_px_hess O) (o_fac O) (o_compute O) (o_signature O) (o_solve O) (o_bfgs O) (o_bfgs_update O) (o_qr O)
      fi fls fin P p s 0 = Ret s' /\ qp_obj n Q q (en (r_x (res s'))) + s_rho _ _ s * dist2 n (en (r_x (res s'))) (en (r_x (res s))) <= qp_obj n Q q (en (r_x (res s))).
Proof.
  intros like Pl Cx Hh Hs Ht Tg Hn Hfi Hfl Hfn.
  destruct (inner_final_r O P n Q q [] A b p fi fls fin s like Pl Cx Hh Hs Ht Hn Hfi Hfl Hfn) as (s' & E & _ & _ & _ & _ & _ & _ & _ & C). exists s'. split; [exact E|].
  destruct C as [(-> & _)|[C _]].
  - unfold dist2. rewrite (rsum_zero n) by (intros; ring). lra.
  - rewrite Tg in C. set (x' := en (r_x (res s'))) in *. set (x := en (r_x (res s))) in *. set (rho := s_rho _ _ s) in *. set (d := fun i => x i - x' i).
    pose proof (obj_expand n Q q x' d (proj1 Cx)) as X. rewrite (obj_ext n Q q (fun i => x' i + d i) x) in X by (intros; unfold d; ring).
    assert (F : 0 <= form n Q d) by (pose proof (proj2 Cx d); lra).
    assert (G : rsum n (fun i => qp_grad n Q q x' i * d i) = rho * dist2 n x' x).
    { unfold dist2. rewrite <- rsum_scale. apply rsum_ext. intros i Hi. assert (C' : qp_grad n Q q x' i + 0 + rho * (x' i - x i) = 0) by exact (C i Hi).
      replace (qp_grad n Q q x' i) with (- (rho * (x' i - x i))) by (cbn [car RSc] in *; lra). unfold d. cbn [car RSc]. ring. }
    lra.
Qed.


(** ** A linear program: minimise 3 x subject to x = 1; the multiplier is -3 *)
Definition prox_oracles (n N : nat) : oracles RSc :=
  mkOracles (K := RSc) Rpower (fun x v => tab (length x) (fun i => nth i x 0 + nth i v 0))
    (fun rho t x => rho / 2 * dist2 n (fun i => nth i x 0) (fun i => nth i t 0)) (fun rho t x => tab n (fun i => rho * (nth i x 0 - nth i t 0))) (fun rho _ _ => tab n (fun i => tab n (fun j => if (i =? j)%nat then rho else 0)))
    (dldlt RSc) (dense_fac (K := RSc) N) (dense_sig (K := RSc)) (dense_solve_list (K := RSc)) unit (fun _ _ _ H => (tt, H)) (fun _ _ _ _ _ _ => (0, 0)).
Lemma prox_plain n N mu0 rho0 : plain_prox (prox_oracles n N) (started mu0 rho0) n.
Proof.
  constructor; cbn; try solve [reflexivity|lra|split; lra|right; reflexivity].
  - intros x v Hx _. rewrite Hx. reflexivity.
  - intros rho t x _ _ _. repeat split.
Qed.
Definition nil_q (_ _ : nat) : R := 0.
Lemma nil_convex n : convex_by n nil_q 0.
Proof. split; [reflexivity|]. intros x. unfold form, nil_q. rewrite (rsum_zero n (fun i => rsum n _)); [lra|]. intros i _. apply rsum_zero. intros j _. ring. Qed.
Lemma nil_optimal : qp_optimal 1 1 nil_q (fun _ => 3) (fun _ _ => 1) (fun _ => 1) (fun _ => 1) (fun _ => -3).
Proof. split; intros i _; unfold qp_lag, qp_grad, qp_con, nil_q; cbn; lra. Qed.
Lemma lp_params : prox_params (prox_oracles 1 2) (started (1 / 1000000000) (1 / 1000000000)) 1 1 0 (16 / 1000000000) 4 0 1 0 (fun _ => 1) (fun _ => -3) (fun i => nth i [0] 0) (fun i => nth i [0] 0) (fun i => nth i [0] 0).
Proof.
  assert (D1 : dist2 1 (fun i => nth i [0] 0) (fun _ => 1) = 1) by (unfold dist2; cbn; lra). assert (D2 : dist2 1 (fun i => nth i [0] 0) (fun _ => -3) = 9) by (unfold dist2; cbn; lra).
  constructor; rewrite ?D1, ?D2; cbn [started default_params mul_update mu_lower mu_init mu_upper mu_factor rho_init rho_factor dual_alpha dual_beta prim_alpha prim_beta target_tol inner_tol0 prim_tol0 inner_tol_min];
    unfold slit; cbn [sdiv sofZ Scalar.s0 s1 RSc]; try solve [reflexivity|repeat split; lra|lra|lia].
  - rewrite Rpower_1 by lra. lra.
  - rewrite !Rpower_1 by lra. cbn [pow]. lra.
  - replace (1 / 1000000000 / 1) with (1 / 1000000000) by lra. cbn [pow]. rewrite Rmult_1_r, Rmult_1_l, <- Rpower_plus. replace (1 / 10 + 9 / 10) with 1 by lra. rewrite Rpower_1 by lra. lra.
  - split; [lra|]. split; [lra|]. exists 10. split; [lra|]. split; [lra|]. cbn [grown]. lra.
Qed.
Definition lp_problem : @problem RSc := qp 1 nil_q (fun _ => 3) [1%nat] (fun _ _ => 1) (fun _ => 1).
Definition lp_state : solver_state (prox_oracles 1 2) := setup (K := RSc) (dldlt RSc) unit (started (1 / 1000000000) (1 / 1000000000)) lp_problem [CEq (1 / 1000000000)] [0] (dldlt_new (K := RSc) 2) tt.
