(** Lower bounds for the pivots of quasi-definite matrices. *)
From Coq Require Import Reals List Bool Arith ZArith Lia Lra Permutation.
From Verif Require Import Scalar Problem_model Symb_model Lin_spec Lin_proofs Symb_spec Symb_proofs SymbL_proofs SymbC_proofs SymbP_proofs SymbQ_proofs Armijo_model Solver_model Solver_spec Ldlt_model Ldlt_spec Ldlt_proofs LdltG_proofs LdltB_proofs LdltS_proofs LdltO_proofs LdltQ_proofs
  Bk_spec Descent_spec Descent_proofs DescentX_proofs Qp_spec Qp_proofs QpD_proofs QpT_proofs Fac_model Fac_spec.
Import ListNotations.
Local Open Scope R_scope.

Definition nrm (n : nat) (x : nat -> R) : R := rsum n (fun i => x i * x i).
Lemma nrm_pos n x : 0 <= nrm n x.
Proof. unfold nrm. induction n as [|n IH]; cbn; [lra|]. pose proof (Rle_0_sqr (x n)). unfold Rsqr in *. lra. Qed.
Lemma nrm_cons n a x : nrm (S n) (cons0 a x) = a * a + nrm n x.
Proof. unfold nrm. rewrite rsum_head. reflexivity. Qed.
(** Quasi-definite with margins c and e. *)
Definition qd_by (n : nat) (A : nat -> nat -> R) (pos : nat -> bool) (c e : R) : Prop :=
  msym n A /\
  (forall x, (forall i, (i < n)%nat -> pos i = false -> x i = 0) -> c * nrm n x <= form n A x) /\
  (forall x, (forall i, (i < n)%nat -> pos i = true -> x i = 0) -> form n A x <= - (e * nrm n x)).
Lemma by_first n A pos c e : qd_by (S n) A pos c e -> (pos 0%nat = true -> c <= A 0%nat 0%nat) /\ (pos 0%nat = false -> A 0%nat 0%nat <= - e).
Proof.
  intros (SY & HP & HN). set (u := cons0 1 (fun _ => 0)). assert (E : form (S n) A u = A 0%nat 0%nat).
  { rewrite form_head by exact SY. unfold form, u. cbn [cons0]. rewrite !rsum_zero; [ring| |]; intros; [apply rsum_zero; intros|]; ring. }
  assert (N : nrm (S n) u = 1). { unfold u. rewrite nrm_cons. unfold nrm. rewrite rsum_zero by (intros; ring). ring. }
  split; intros H.
  - pose proof (HP u) as X. rewrite E, N in X. enough (c * 1 <= A 0%nat 0%nat) by lra. apply X. intros [|i] Hi Q; [congruence|reflexivity].
  - pose proof (HN u) as X. rewrite E, N in X. enough (A 0%nat 0%nat <= - (e * 1)) by lra. apply X. intros [|i] Hi Q; [congruence|reflexivity].
Qed.
Lemma by_next n A pos c e : 0 < c -> 0 < e -> qd_by (S n) A pos c e -> qd_by n (fun i j => A (S i) (S j) - A 0%nat (S i) * A 0%nat (S j) / A 0%nat 0%nat) (fun i => pos (S i)) c e.
Proof.
  intros C0 E0 Q. destruct (by_first n A pos c e Q) as [D1 D2]. destruct Q as (SY & HP & HN). split; [|split].
  - intros i j Hi Hj. rewrite (SY (S i) (S j)) by lia. unfold Rdiv. ring.
  - intros x Z. rewrite (form_schur n (fun i j => A (S i) (S j)) (fun i => A 0%nat (S i))). set (g := rsum n (fun j => A 0%nat (S j) * x j)).
    destruct (pos 0%nat) eqn:E.
    + specialize (D1 eq_refl). pose proof (HP (cons0 (- g / A 0%nat 0%nat) x)) as H. rewrite form_head, nrm_cons in H by exact SY. cbn [cons0] in H. fold g in H. change (fun i => x i) with x in H.
      replace (form n (fun i j => A (S i) (S j)) x - g * g / A 0%nat 0%nat) with (- g / A 0%nat 0%nat * (- g / A 0%nat 0%nat) * A 0%nat 0%nat + 2 * (- g / A 0%nat 0%nat) * g + form n (fun i j => A (S i) (S j)) x) by (field; lra).
      refine (Rle_trans _ _ _ _ (H _)); [|intros [|i] Hi P; [congruence|apply Z; [lia|exact P]]]. apply Rmult_le_compat_l; [lra|]. pose proof (Rle_0_sqr (- g / A 0%nat 0%nat)). unfold Rsqr in *. lra.
    + specialize (D2 eq_refl). pose proof (HP (cons0 0 x)) as H. rewrite form_head, nrm_cons in H by exact SY. cbn [cons0] in H. fold g in H. change (fun i => x i) with x in H.
      assert (X : c * nrm n x <= form n (fun i j => A (S i) (S j)) x). { refine (Rle_trans _ _ _ _ (Rle_trans _ _ _ (H _) _)); [lra|intros [|i] Hi P; [reflexivity|apply Z; [lia|exact P]]|lra]. }
      assert (0 <= g * g * (- / A 0%nat 0%nat)). { apply Rmult_le_pos; [apply Rle_0_sqr|]. apply Rlt_le. rewrite <- Ropp_0. apply Ropp_lt_contravar, Rinv_lt_0_compat. lra. } unfold Rdiv. lra.
  - intros x Z. rewrite (form_schur n (fun i j => A (S i) (S j)) (fun i => A 0%nat (S i))). set (g := rsum n (fun j => A 0%nat (S j) * x j)).
    destruct (pos 0%nat) eqn:E.
    + specialize (D1 eq_refl). pose proof (HN (cons0 0 x)) as H. rewrite form_head, nrm_cons in H by exact SY. cbn [cons0] in H. fold g in H. change (fun i => x i) with x in H.
      assert (X : form n (fun i j => A (S i) (S j)) x <= - (e * nrm n x)). { refine (Rle_trans _ _ _ _ (Rle_trans _ _ _ (H _) _)); [lra|intros [|i] Hi P; [reflexivity|apply Z; [lia|exact P]]|lra]. }
      assert (0 <= g * g * (/ A 0%nat 0%nat)). { apply Rmult_le_pos; [apply Rle_0_sqr|]. apply Rlt_le, Rinv_0_lt_compat. lra. } unfold Rdiv. lra.
    + specialize (D2 eq_refl). pose proof (HN (cons0 (- g / A 0%nat 0%nat) x)) as H. rewrite form_head, nrm_cons in H by exact SY. cbn [cons0] in H. fold g in H. change (fun i => x i) with x in H.
      replace (form n (fun i j => A (S i) (S j)) x - g * g / A 0%nat 0%nat) with (- g / A 0%nat 0%nat * (- g / A 0%nat 0%nat) * A 0%nat 0%nat + 2 * (- g / A 0%nat 0%nat) * g + form n (fun i j => A (S i) (S j)) x) by (field; lra).
      refine (Rle_trans _ _ _ (H _) _); [intros [|i] Hi P; [congruence|apply Z; [lia|exact P]]|]. apply Ropp_le_contravar, Rmult_le_compat_l; [lra|]. pose proof (Rle_0_sqr (- g / A 0%nat 0%nat)). unfold Rsqr in *. lra.
Qed.
Lemma by_factor : forall n A pos c e, 0 < c -> 0 < e -> qd_by n A pos c e -> exists L D, factor_of n A L D /\ forall i, (i < n)%nat -> if pos i then c <= D i else D i <= - e.
Proof.
  induction n as [|n IH]; intros A pos c e C0 E0 Q.
  - exists (fun _ _ => 0), (fun _ => 0). split; [split; [split|]|]; intros; lia.
  - destruct (by_first n A pos c e Q) as [D1 D2]. destruct (IH _ _ c e C0 E0 (by_next n A pos c e C0 E0 Q)) as (L & D & [[U1 U2] F] & S). destruct Q as (SY & _).
    assert (NZ : A 0%nat 0%nat <> 0) by (destruct (pos 0%nat); [specialize (D1 eq_refl)|specialize (D2 eq_refl)]; lra).
    exists (fun i j => match i, j with O, O => 1 | O, _ => 0 | Datatypes.S i', O => A i 0%nat / A 0%nat 0%nat | Datatypes.S i', Datatypes.S j' => L i' j' end), (cons0 (A 0%nat 0%nat) D). split; [split; [split|]|].
    + intros [|i] Hi; [reflexivity|apply U1; lia].
    + intros [|i] [|j] Hij Hj; try lia; [reflexivity|apply U2; lia].
    + intros i j Hji Hi. unfold ldl. rewrite rsum_head. destruct i as [|i], j as [|j]; try lia.
      * rewrite rsum_zero by (intros; ring). cbn [cons0]. ring.
      * rewrite rsum_zero by (intros; ring). cbn [cons0]. field. exact NZ.
      * cbn [cons0]. specialize (F i j ltac:(lia) ltac:(lia)). unfold ldl in F. rewrite <- F. rewrite (SY (Datatypes.S i) 0%nat), (SY (Datatypes.S j) 0%nat) by lia. field. exact NZ.
    + intros [|i] Hi; cbn [cons0]; [destruct (pos 0%nat); auto|apply S; lia].
Qed.
Lemma by_renumber N idx A pos c e : Permutation (seq 0 N) idx -> qd_by N (mirror A) pos c e -> qd_by N (renumber idx A) (fun i => pos (nth i idx 0%nat)) c e.
Proof.
  intros P (SY & HP & HN).
  assert (NR : forall x, nrm N (perm_fwd (K := RSc) N idx x) = nrm N x).
  { intros x. unfold nrm. rewrite <- (rsum_perm N idx (fun i => perm_fwd (K := RSc) N idx x i * perm_fwd (K := RSc) N idx x i) P). apply rsum_ext. intros i Hi. rewrite !perm_fwd_ok by assumption. reflexivity. }
  split; [|split].
  - intros i j Hi Hj. unfold renumber, mirror. bd; try reflexivity. replace (nth j idx 0%nat) with (nth i idx 0%nat) by lia. reflexivity.
  - intros x Z. rewrite form_renumber by exact P. rewrite <- NR. apply HP.
    intros r Hr Q. destruct (idx_onto N idx r P Hr) as (i & Hi & <-). rewrite perm_fwd_ok by assumption. apply Z; assumption.
  - intros x Z. rewrite form_renumber by exact P. rewrite <- NR. apply HN.
    intros r Hr Q. destruct (idx_onto N idx r P Hr) as (i & Hi & <-). rewrite perm_fwd_ok by assumption. apply Z; assumption.
Qed.
