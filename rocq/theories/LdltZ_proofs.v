(** Solving with pivots below the threshold. *)
From Coq Require Import Reals List Bool Arith Lia Lra.
From Verif Require Import Scalar Problem_model Symb_model Lin_spec Lin_proofs Symb_spec Ldlt_model Ldlt_spec Ldlt_proofs.
Import ListNotations.
Local Open Scope R_scope.

Lemma dense_solve_any n L D a b : unit_lower n L -> stores n a L D ->
  exists y, (forall i, (i < n)%nat -> b i = rsum n (fun t => L i t * y t)) /\
    forall i, (i < n)%nat -> rsum n (fun t => L t i * dense_solve (K := RSc) n a b t) = if Rlt_dec (tiny (K := RSc)) (Rabs (D i)) then y i / D i else 0.
Proof.
  intros U [S1 S2]. unfold dense_solve. destruct (lower_solution n L b U) as [y Hy]. exists y. split; [exact Hy|]. set (y' := fwd (K := RSc) 0 n a b).
  assert (Y : forall i, (i < n)%nat -> y' i = y i).
  { intros q Hq. destruct (fwd_ok 0 n a b y) as [G _]; [|exact (G q Hq)]. intros p Hp. cbn [Nat.add]. rewrite Hy by exact Hp. rewrite (lower_rows n L y p U Hp). f_equal. apply rsum_ext. intros t Ht. rewrite S1 by lia. reflexivity. }
  set (z := dsolve (K := RSc) n a y'). destruct (upper_solution n L z U) as [x Hx].
  assert (X : forall i, (i < n)%nat -> bwd (K := RSc) 0 n (fun r c => a c r) z i = x i).
  { intros q Hq. destruct (bwd_ok 0 n (fun r c => a c r) z x) as [G _]; [|exact (G q Hq)]. intros p Hp. cbn [Nat.add]. rewrite Hx by exact Hp. rewrite (upper_rows n L x p U Hp). f_equal. apply rsum_ext. intros t Ht. rewrite S1 by lia. reflexivity. }
  intros i Hi. rewrite (rsum_ext n _ (fun t => L t i * x t)) by (intros t Ht; rewrite X by exact Ht; reflexivity). rewrite <- Hx by exact Hi.
  unfold z, dsolve. bd. rewrite S2, Y by exact Hi. rs. cbn [sltb RSc]. destruct (Rltb _ _) eqn:E.
  - apply Rltb_true in E. destruct (Rlt_dec _ _); [reflexivity|contradiction].
  - apply Rltb_false in E. destruct (Rlt_dec _ _); [lra|reflexivity].
Qed.
Lemma lower_unique n L y y' : unit_lower n L -> (forall i, (i < n)%nat -> rsum n (fun t => L i t * y t) = rsum n (fun t => L i t * y' t)) -> forall i, (i < n)%nat -> y i = y' i.
Proof.
  intros U H. induction i as [i IH] using lt_wf_ind. intros Hi. specialize (H i Hi). rewrite !(lower_rows n L _ i U Hi) in H.
  rewrite (rsum_ext i (fun t => L i t * y t) (fun t => L i t * y' t)) in H; [lra|]. intros t Ht. rewrite IH by lia. reflexivity.
Qed.
Lemma singular_consistent d n A L D : factor_of n A L D -> (forall i, (S i < n)%nat -> D i <> 0) ->
  exists d', dldlt_compute (K := RSc) d n A = Ret d' /\
    (forall b, exists y, (forall i, (i < n)%nat -> b i = rsum n (fun t => L i t * y t)) /\
       forall i, (i < n)%nat -> rsum n (fun t => L t i * dldlt_solve (K := RSc) d' b t) = if Rlt_dec (tiny (K := RSc)) (Rabs (D i)) then y i / D i else 0) /\
    ((forall i, (i < n)%nat -> D i = 0 \/ tiny (K := RSc) < Rabs (D i)) -> forall b, (exists x, solves n A x b) -> solves n A (dldlt_solve (K := RSc) d' b) b).
Proof.
  intros F DN. destruct (compute_ok d n A L D F DN) as (d' & E & En & S & _). exists d'. split; [exact E|].
  assert (H : forall b, exists y, (forall i, (i < n)%nat -> b i = rsum n (fun t => L i t * y t)) /\
       forall i, (i < n)%nat -> rsum n (fun t => L t i * dldlt_solve (K := RSc) d' b t) = if Rlt_dec (tiny (K := RSc)) (Rabs (D i)) then y i / D i else 0).
  { intros b. unfold dldlt_solve. rewrite En. apply (dense_solve_any n L D (dl_mat d') b (proj1 F) S). }
  split; [exact H|]. intros HD b [x Hx]. destruct (H b) as (y & Hy & Hz). set (w := dldlt_solve (K := RSc) d' b) in *.
  intros i Hi. rewrite (mvec_factor n A L D w i F Hi).
  apply (ldl_solves n L D w y (fun i => rsum n (fun t => L t i * w t)) b); auto.
  assert (Yx : forall i, (i < n)%nat -> y i = D i * rsum n (fun t => L t i * x t)).
  { apply (lower_unique n L); [apply F|]. intros q Hq. rewrite <- Hy by exact Hq. rewrite <- (Hx q Hq). rewrite (mvec_factor n A L D x q F Hq).
    apply (ldl_solves n L D x (fun i => D i * rsum n (fun t => L t i * x t)) (fun i => rsum n (fun t => L t i * x t)) (fun q => rsum n (fun t => L q t * (D t * rsum n (fun u => L u t * x u))))); auto. }
  intros q Hq. rewrite Hz by exact Hq. destruct (HD q Hq) as [Z|T].
  - rewrite (Yx q Hq), Z. lra.
  - destruct (Rlt_dec _ _) as [_|N]; [|contradiction]. field. intros Z. rewrite Z, Rabs_R0 in T. pose proof tiny_pos. lra.
Qed.
