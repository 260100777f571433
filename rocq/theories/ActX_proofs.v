(** Quadratic problems with inequality constraints: the dense factorisation, and an example with an active inequality (C101). *)
From Coq Require Import Reals List Bool Arith ZArith Lia Lra.
From Verif Require Import Scalar Cset_model Cset_spec Armijo_model Problem_model Solver_model Solver_spec Ldlt_model Lin_spec Lin_proofs Ldlt_spec Bk_spec Descent_spec Qp_spec Qp_proofs Fac_model Fac_spec FacX_proofs
  QpR_spec Act_spec Act_proofs ActF_proofs.
Import ListNotations.
Local Open Scope R_scope.

Lemma squares_zero n (x : nat -> R) : rsum n (fun i => x i * x i) <= 0 -> forall i, (i < n)%nat -> x i = 0.
Proof.
  induction n as [|n IH]; [lia|]. cbn [rsum]. intros H i Hi. assert (P : 0 <= rsum n (fun i => x i * x i)). { clear. induction n as [|n IH]; cbn [rsum]; [lra|]. pose proof (Rle_0_sqr (x n)). unfold Rsqr in *. lra. }
  pose proof (Rle_0_sqr (x n)) as S. unfold Rsqr in S. destruct (Nat.eq_dec i n) as [->|Ne]; [|apply IH; [lra|lia]]. assert (x n * x n = 0) by lra. destruct (Rmult_integral _ _ H0); assumption.
Qed.
Lemma strong_definite n Q c : 0 < c -> strongly_convex n Q c -> definite n Q.
Proof.
  intros Hc [S H]. assert (P : forall x, 0 <= rsum n (fun i => x i * x i)). { intros x. clear. induction n as [|n IH]; cbn [rsum]; [lra|]. pose proof (Rle_0_sqr (x n)). unfold Rsqr in *. lra. }
  split; [exact S|]. split.
  - intros x. eapply Rle_trans; [|apply H]. apply Rmult_le_pos; [lra|apply P].
  - intros x E. apply squares_zero. specialize (H x). rewrite E in H. specialize (P x). nra.
Qed.
Lemma dense_rows pw ig pv pg ph bf bu qr n m Q A mu c : strongly_convex n Q c -> tiny (K := RSc) < c -> tiny (K := RSc) < mu ->
  handles_rows (mkOracles (K := RSc) pw ig pv pg ph (dldlt RSc) (dense_fac (K := RSc) (n + m)) (dense_sig (K := RSc)) (dense_solve_list (K := RSc)) bf bu qr) n m Q A mu.
Proof. intros Sc Hc Hm sel. exact (dense_handles pw ig pv pg ph bf bu qr n m Q (chosen A sel) mu c Sc Hc Hm). Qed.
Lemma started_plain n N mu0 : plain (dense_oracles N) (started mu0 0) n.
Proof. constructor; cbn; try solve [reflexivity|lra|split; lra|right; reflexivity]. intros x v Hx _. rewrite Hx. reflexivity. Qed.

(** Minimise 1/2 x^2 - 20 x subject to x <= 10 and -50 <= x <= 50, from x = 13, with mu = 1. *)
Definition ramp_q (i : nat) : R := -20.
Definition ramp_b (k : nat) : R := if Nat.eqb k 0 then 10 else 0.
Definition ramp : @problem RSc := qp 1 (fun _ _ => 1) ramp_q [1%nat; 1%nat] (fun _ _ => 1) ramp_b.
Definition ramp_sets : list rset := [CNeg (K := RSc) 1; CBox (K := RSc) 1 [-50] [50]].
Definition ramp_state : solver_state (dense_oracles 3) := setup (K := RSc) (dldlt RSc) unit (started 1 0) ramp ramp_sets [13] (dldlt_new (K := RSc) 3) tt.
Definition ramp_l (k : nat) : R := if Nat.eqb k 0 then 5 else 0.
Lemma ramp_strong : strongly_convex 1 (fun _ _ => 1) 1.
Proof. split; [reflexivity|]. intros x. unfold form. cbn. lra. Qed.
Lemma ramp_act : act_state 1 [1%nat; 1%nat] ramp ramp_state.
Proof.
  constructor; cbn; try reflexivity; try lra.
  - split; [|repeat constructor]. repeat constructor; cbn; lra.
  - repeat constructor.
Qed.
Lemma ramp_sub : subproblem 1 2 (fun _ _ => 1) ramp_q (fun _ _ => 1) ramp_b (product_of ramp_sets [1%nat; 1%nat]) 1 (fun k => nth k [0; 0] 0) (fun _ => 15) ramp_l.
Proof.
  split; [|split].
  - intros i Hi. unfold qp_lag, qp_grad, ramp_q, ramp_l. cbn. lra.
  - cbn. unfold qp_con, ramp_b, ramp_l. cbn. repeat split; repeat constructor; lra.
  - intros [|a [|b' [|]]] L; try discriminate L. cbn. intros [Ha [_ _]]. inversion Ha. subst. unfold qp_con, ramp_b, ramp_l. cbn. lra.
Qed.
Lemma ramp_clear : clear_of 5 (product_of ramp_sets [1%nat; 1%nat]) (tab 2 (shift_at 1 (fun _ _ => 1) ramp_b 1 (fun k => nth k [0; 0] 0) (fun _ => 15))).
Proof. cbn. unfold shift_at, qp_con, ramp_b. cbn. repeat split; repeat constructor; unfold Rabs; destruct Rcase_abs; lra. Qed.
