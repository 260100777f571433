(** Quadratic problems with equality constraints: the default parameters, and a small problem with the Bunch-Kaufman factorisation. *)
From Coq Require Import Reals List Bool Arith ZArith Lia Lra Psatz.
From Verif Require Import Scalar Cset_model Cset_spec Armijo_model Problem_model Solver_model Solver_spec
  Lin_spec Ldlt_spec Bk_model Bk_spec BkX_proofs Descent_spec DescentX_proofs Qp_spec Qp_proofs QpD_proofs QpT_proofs QpC_proofs QpF_proofs.
Import ListNotations.
Local Open Scope R_scope.

Lemma default_outer (O : oracles RSc) D : (forall x y, 0 < x -> o_pow O x y = Rpower x y) -> 0 <= D <= 500 -> outer_params O (default_params (K := RSc)) D 4 4.
Proof.
  intros Hp Hd. constructor; cbn; try solve [reflexivity|exact Hp|repeat split; lra|lra].
  - rewrite Rpower_1 by lra. lra.
  - rewrite !Rpower_1 by lra. lra.
  - replace (1 / 100 / 1) with (1 / 100) by lra. set (a := Rpower (1 / 100) (9 / 10)).
    assert (E : 1 * Rpower (1 / 100) (1 / 10) * (a * (a * (a * (a * 1)))) = Rpower (1 / 100) (37 / 10)).
    { unfold a. replace (37 / 10) with (1 / 10 + (9 / 10 + (9 / 10 + (9 / 10 + 9 / 10)))) by lra. rewrite !Rpower_plus. ring. }
    rewrite E. assert (L : ln (1 / 100) < 0) by (rewrite <- ln_1; apply ln_increasing; lra).
    apply Rle_trans with (Rpower (1 / 100) 3).
    + unfold Rpower. left. apply exp_increasing. nra.
    + replace 3 with (INR 3) by (cbn; lra). rewrite Rpower_pow by lra. cbn. lra.
Qed.

(** External code: a vector space, real powers, no proximal term at rho = 0, and the Bunch-Kaufman factorisation of two rows. *)
Definition small_oracles : oracles RSc :=
  mkOracles (K := RSc) Rpower (fun x v => tab (length x) (fun i => nth i x 0 + nth i v 0)) (fun rho _ _ => rho) (fun _ _ _ => []) (fun _ _ _ => [])
    (bk RSc) (bk_fac (K := RSc) 2) (bk_sig (K := RSc)) (bk_solve_list (K := RSc)) unit (fun _ _ _ H => (tt, H)) (fun _ _ _ _ _ _ => (0, 0)).
(** minimise x^2/2 - 3 x subject to x = 1; the multiplier is 2 *)
Definition one (_ _ : nat) : R := 1.
Definition small_qp : @problem RSc := qp 1 one (fun _ => -3) [1%nat] one (fun _ => 1).
Lemma small_plain : plain small_oracles (default_params (K := RSc)) 1.
Proof.
  constructor; cbn; try solve [reflexivity|lra|split; lra|right; reflexivity].
  intros x v Hx _. rewrite Hx. reflexivity.
Qed.
Lemma small_convex : qp_convex 1 1 one one.
Proof.
  split; [reflexivity|]. split.
  - intros x. unfold form, one. cbn. nra.
  - intros x _ H i Hi. specialize (H 0%nat ltac:(lia)). unfold one in H. cbn in H. assert (i = 0)%nat as -> by lia. lra.
Qed.
Lemma small_optimal : qp_optimal 1 1 one (fun _ => -3) one (fun _ => 1) (fun _ => 1) (fun _ => 2).
Proof. split; intros i _; unfold qp_lag, qp_grad, qp_con, one; cbn; lra. Qed.
Lemma small_handles mu : 0 < mu -> handles small_oracles 1 1 one one mu.
Proof.
  intros Hm. apply (bk_handles _ _ _ _ _ _ _ _ 1 1 one one mu); [lia|exact small_convex|exact Hm|]. intros F. change (qp_kkt 1 1 one one mu) with [[1; 1]; [1; - mu]]. change (1 + 1)%nat with 2%nat.
  destruct (small_compute (fun i j => nth j (nth i [[1; 1]; [1; - mu]] []) 0)) as (s & E1 & E2).
  - cbn. lra.
  - cbn. lra.
  - cbn. lra.
  - unfold bk_fac. match goal with |- context[bk_compute 2 ?f] => change (bk_compute 2 f) with (bk_compute (K := RSc) 2 (fun i j => nth j (nth i [[1; 1]; [1; - mu]] []) 0)) end. rewrite E1. unfold bk_sig. rewrite E2.
    cbn [nth]. assert (Z : - mu - 1 * (1 / 1) * 1 = - (mu + 1)) by lra. rewrite Z. unfold isign. cbn [sltb s0 RSc].
    assert (N : 1 / - (mu + 1) < 0) by (unfold Rdiv; rewrite Rmult_1_l; apply Rinv_lt_0_compat; lra).
    rewrite (rltb_t 0 (1 / 1)) by lra. rewrite (rltb_f 0 (1 / - (mu + 1))) by lra. rewrite (rltb_t (1 / - (mu + 1)) 0) by lra. intros [H|[H|[]]]; discriminate H.
Qed.
Definition small_state : solver_state small_oracles := setup (K := RSc) (bk RSc) unit (default_params (K := RSc)) small_qp [CEq (1 / 100)] [0] (mkBk (K := RSc) 0 (fun _ _ => 0) (fun _ => 0) (fun _ => 0%Z) true) tt.
Lemma small_stuck : exists s' : solver_state small_oracles, run_solve small_oracles 1001 2 1 1 (default_params (K := RSc)) small_qp (Some small_state) [1] [2 + 1 / 1000000] = Ret (s', UNINIT) /\
  qp_con 1 one (fun _ => 1) (fun i => nth i (r_x (res s')) 0) 0 = 0 /\
  qp_lag 1 1 one (fun _ => -3) one (fun i => nth i (r_x (res s')) 0) (fun k => nth k (r_lams (res s')) 0) 0 = target_tol (default_params (K := RSc)).
Proof.
  assert (C : qp_con 1 one (fun _ => 1) (fun i => nth i [1] 0) 0 = 0) by (unfold qp_con, one; cbn; lra).
  assert (L : qp_lag 1 1 one (fun _ => -3) one (fun i => nth i [1] 0) (fun k => nth k [2 + 1 / 1000000] 0) 0 = 1 / 1000000) by (unfold qp_lag, qp_grad, one; cbn; lra).
  assert (T : target_tol (default_params (K := RSc)) = 1 / 1000000) by reflexivity.
  destruct (boundary_final small_oracles (default_params (K := RSc)) 1 one (fun _ => -3) [1%nat] one (fun _ => 1) small_qp 1001 2 1 1 small_state [1 / 100] [1] [2 + 1 / 1000000]) as (s' & E & X & Y); try exact (like_refl _ _);
    try solve [reflexivity|cbn; lra|cbn; lia|right; reflexivity|repeat split].
  - intros k Hk. cbn in Hk. assert (k = 0)%nat as -> by lia. rewrite C, Rabs_R0. rewrite T. lra.
  - intros k Hk. assert (k = 0)%nat as -> by lia. rewrite T. apply Req_le. etransitivity; [exact (f_equal Rabs L)|]. apply Rabs_pos_eq. lra.
  - right. exists 0%nat. split; [lia|]. rewrite T. etransitivity; [exact (f_equal Rabs L)|]. apply Rabs_pos_eq. lra.
  - exists s'. split; [exact E|]. rewrite X, Y. split; [exact C|exact L].
Qed.
