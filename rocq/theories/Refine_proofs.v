(** The step after the refinement loop: still a descent direction, although the loop uses the matrix
    without its regularisation. *)
From Coq Require Import Reals List Bool Arith ZArith Lia Lra.
From Verif Require Import Scalar Cset_model Cset_spec Cset_proofs Armijo_model Armijo_proofs Problem_model Solver_model Solver_spec Merit_spec
  Solver_proofs SolverR_proofs Merit_proofs SolverS_proofs Lin_spec Lin_proofs Ldlt_spec Ldlt_proofs Bk_spec BkV_proofs Inertia_proofs BkX_proofs Descent_spec Descent_proofs.
Import ListNotations.
Local Open Scope R_scope.
Local Notation mx := (nat -> nat -> R).

Lemma correction_slope np nd (A : mx) g c0 c mg md mu w : 0 < mu -> regularised np (np + nd) A ->
  (forall i, (i < np + nd)%nat -> mvec (np + nd) (mirror A) c0 i = - g i) ->
  (forall k, (k < nd)%nat -> mvec (np + nd) (mirror A) c (np + k) = 0) ->
  (forall i, (i < np)%nat -> mg i = g i - rsum nd (fun k => A (np + k)%nat i * (2 / mu * md k))) ->
  (forall k, (k < nd)%nat -> (A (np + k)%nat (np + k)%nat = - mu /\ g (np + k)%nat = - md k /\ w k = mu) \/
     ((forall i, (i < np)%nat -> A (np + k)%nat i = 0) /\ w k = mu / 2 /\ g (np + k)%nat * (mu / 2) = md k * A (np + k)%nat (np + k)%nat)) ->
  rsum np (fun i => mg i * c i) + rsum nd (fun k => md k * c (np + k)%nat) = - rsum np (fun i => c i * rsum np (fun j => schur np nd A i j * c0 j)).
Proof.
  intros Hmu Rg H0 Hc Hm Hk. set (J := fun k => rsum np (fun i => A (np + k)%nat i * c i)).
  assert (B : forall k, (k < nd)%nat -> J k + A (np + k)%nat (np + k)%nat * c (np + k)%nat = 0).
  { intros k Hk0. pose proof (row_equation np nd A (fun _ => 0) c k Rg Hk0) as R. cbn beta in R. rewrite Ropp_0 in R. apply R, Hc, Hk0. }
  rewrite (rsum_ext np (fun i => c i * _) (fun i => -1 * (c i * g i) + -1 * rsum nd (fun k => A (np + k)%nat i * c i * (g (np + k)%nat / - A (np + k)%nat (np + k)%nat)))).
  2:{ intros i Hi. rewrite (schur_eq np nd A c0 (fun i => - g i) Rg H0 i Hi). cbn beta. rewrite Rmult_plus_distr_l. f_equal; [ring|].
      rewrite <- !rsum_scale. apply rsum_ext. intros k _. unfold Rdiv. ring. }
  rewrite rsum_plus, !rsum_scale, rsum_swap.
  rewrite (rsum_ext nd (fun j => rsum np _) (fun k => J k * (g (np + k)%nat / - A (np + k)%nat (np + k)%nat))) by (intros k _; rewrite rsum_scale_r; reflexivity).
  rewrite (rsum_ext np (fun i => mg i * c i) (fun i => c i * g i - rsum nd (fun k => A (np + k)%nat i * c i * (2 / mu * md k)))).
  2:{ intros i Hi. rewrite Hm by exact Hi. rewrite Rmult_minus_distr_r. f_equal; [ring|]. rewrite <- rsum_scale_r. apply rsum_ext. intros; ring. }
  rewrite rsum_minus, rsum_swap. rewrite (rsum_ext nd (fun j => rsum np _) (fun k => J k * (2 / mu * md k))) by (intros k _; rewrite rsum_scale_r; reflexivity).
  enough (E : rsum nd (fun k => md k * c (np + k)%nat) - rsum nd (fun k => J k * (2 / mu * md k)) = rsum nd (fun k => J k * (g (np + k)%nat / - A (np + k)%nat (np + k)%nat))) by lra.
  rewrite <- rsum_minus. apply rsum_ext. intros k Hk0. specialize (B k Hk0). destruct Rg as [R1 _]. specialize (R1 (np + k)%nat ltac:(lia) ltac:(lia)).
  destruct (Hk k Hk0) as [(D1 & D2 & _)|(D1 & _ & _)].
  - rewrite D1, D2 in *. assert (EJ : J k = mu * c (np + k)%nat) by lra. rewrite EJ. field. lra.
  - assert (J0 : J k = 0) by (unfold J; apply rsum_zero; intros i Hi; rewrite D1 by exact Hi; ring). rewrite J0 in *.
    assert (C0 : A (np + k)%nat (np + k)%nat * c (np + k)%nat = 0) by lra. apply Rmult_integral in C0. destruct C0 as [C0|C0]; [lra|]. rewrite C0. ring.
Qed.
Lemma refined_slope np nd (A : mx) g (c : nat -> nat -> R) mg md mu w delta n : 0 < mu -> 0 <= delta -> regularised np (np + nd) A -> al_convex np (np + nd) A ->
  (forall i, (i < np + nd)%nat -> mvec (np + nd) (mirror A) (c 0%nat) i = - g i) ->
  (forall m i, (i < np + nd)%nat -> mvec (np + nd) (mirror A) (c (m + 1)%nat) i = if Nat.ltb i np then delta * c m i else 0) ->
  (forall i, (i < np)%nat -> mg i = g i - rsum nd (fun k => A (np + k)%nat i * (2 / mu * md k))) ->
  (forall k, (k < nd)%nat -> (A (np + k)%nat (np + k)%nat = - mu /\ g (np + k)%nat = - md k /\ w k = mu) \/
     ((forall i, (i < np)%nat -> A (np + k)%nat i = 0) /\ w k = mu / 2 /\ g (np + k)%nat * (mu / 2) = md k * A (np + k)%nat (np + k)%nat)) ->
  let x := fun i => rsum (n + 1) (fun m => c m i) in
  rsum np (fun i => mg i * x i) + rsum nd (fun k => md k * x (np + k)%nat) <= rsum np (fun i => mg i * c 0%nat i) + rsum nd (fun k => md k * c 0%nat (np + k)%nat).
Proof.
  intros Hmu Hd Rg Cx H0 Hc Hm Hk. cbv zeta. set (sl := fun y : nat -> R => rsum np (fun i => mg i * y i) + rsum nd (fun k => md k * y (np + k)%nat)).
  change (sl (fun i => rsum (n + 1) (fun m => c m i)) <= sl (c 0%nat)).
  assert (Ps : forall x, 0 <= rsum np (fun i => x i * rsum np (fun j => schur np nd A i j * x j))).
  { intros x. rewrite <- schur_form. destruct (zero_or_not np x) as [Z|Z]; [|left; apply Cx, Z]. right. unfold al_form, form.
    rewrite (rsum_zero np) by (intros i Hi; apply rsum_zero; intros j Hj; rewrite (Z j Hj); ring).
    rewrite rsum_zero; [ring|]. intros k Hk0. rewrite (rsum_zero np) by (intros j Hj; rewrite (Z j Hj); ring). unfold Rdiv. ring. }
  assert (Sc : forall m i, (i < np)%nat -> rsum np (fun j => schur np nd A i j * c (m + 1)%nat j) = delta * c m i).
  { intros m i Hi. rewrite (schur_eq np nd A (c (m + 1)%nat) _ Rg (Hc m) i Hi). cbn beta. rewrite (proj2 (Nat.ltb_lt i np) Hi). rewrite rsum_zero; [ring|].
    intros k _. rewrite (proj2 (Nat.ltb_ge (np + k) np)) by lia. unfold Rdiv. ring. }
  pose proof (chain_nonneg np (schur np nd A) delta c Hd (schur_sym np nd A) Ps Sc) as Ch.
  assert (Co : forall m, sl (c (m + 1)%nat) <= 0).
  { intros m. unfold sl. rewrite (correction_slope np nd A g (c 0%nat) (c (m + 1)%nat) mg md mu w Hmu Rg H0); [specialize (Ch (m + 1)%nat); lra| |exact Hm|exact Hk].
    intros k Hk0. rewrite Hc by lia. rewrite (proj2 (Nat.ltb_ge (np + k) np)) by lia. reflexivity. }
  assert (Add : forall y z, sl (fun i => y i + z i) = sl y + sl z).
  { intros y z. unfold sl. rewrite (rsum_ext np _ (fun i => mg i * y i + mg i * z i)) by (intros; ring). rewrite (rsum_ext nd (fun k => md k * (_ + _)) (fun k => md k * y (np + k)%nat + md k * z (np + k)%nat)) by (intros; ring).
    rewrite !rsum_plus. ring. }
  induction n as [|n IH].
  - replace (0 + 1)%nat with 1%nat by lia. apply Req_le. unfold sl. f_equal; apply rsum_ext; intros; cbn; ring.
  - replace (S n + 1)%nat with (S (n + 1)) by lia. cbn [rsum]. rewrite (Add (fun i => rsum (n + 1) (fun m => c m i)) (c (n + 1)%nat)). specialize (Co n). lra.
Qed.

(** ** The loop is a sum of corrections *)
Definition shift_rhs (ndx N : nat) (delta : R) (v : list R) : list R := map (fun i => if Nat.ltb i ndx then delta * nth i v 0 else 0) (seq 0 N).
Fixpoint corr (G : list R -> list R) (ndx N : nat) (delta : R) (b : list R) (n : nat) : list R :=
  match n with O => G b | S n' => G (shift_rhs ndx N delta (corr G ndx N delta b n')) end.
Lemma shift_rhs_length ndx N delta v : length (shift_rhs ndx N delta v) = N.
Proof. unfold shift_rhs. rewrite map_length, seq_length. reflexivity. Qed.
Lemma shift_rhs_nth ndx N delta v i : (i < N)%nat -> nth i (shift_rhs ndx N delta v) 0 = if Nat.ltb i ndx then delta * nth i v 0 else 0.
Proof.
  intros Hi. unfold shift_rhs. set (h := fun i => if Nat.ltb i ndx then delta * nth i v 0 else 0).
  rewrite (nth_indep _ 0 (h 0%nat)) by (rewrite map_length, seq_length; exact Hi). rewrite map_nth, seq_nth by exact Hi. reflexivity.
Qed.
Lemma vneg_nth (v : list R) i : nth i (vneg (K := RSc) v) 0 = - nth i v 0.
Proof.
  unfold vneg. destruct (Nat.lt_ge_cases i (length v)) as [L|L].
  - rewrite (nth_indep _ 0 (- 0)) by (rewrite map_length; exact L). exact (map_nth (fun x => - x) v 0 i).
  - rewrite !nth_overflow; [lra|exact L|rewrite map_length; exact L].
Qed.
Lemma mv_nth N (M : list (list R)) (v : list R) i : square N M -> length v = N -> (i < N)%nat -> nth i (Solver_model.mv (K := RSc) M v) 0 = rsum N (fun j => entries M i j * nth j v 0).
Proof.
  intros [L F] Lv Hi. unfold Solver_model.mv. set (h := fun row : list R => vdot (K := RSc) row v).
  transitivity (h (nth i M [])).
  - rewrite (nth_indep _ 0 (h [])) by (rewrite map_length; cbn [car RSc] in *; lia). apply (map_nth h).
  - unfold h. rewrite <- sumn_rsum. apply vdot_sumn; [|exact Lv]. rewrite Forall_forall in F. apply F, nth_In. cbn [car RSc] in *. lia.
Qed.
Lemma telescope (a e : nat -> R) r : a 0%nat = - r -> (forall m, a (S m) = e m) -> forall k, rsum (k + 1) (fun m => a m - e m) = - r - e k.
Proof.
  intros H0 H1. induction k as [|k IH]; [cbn; lra|]. change (S k + 1)%nat with (S (k + 1)). cbn [rsum]. rewrite IH. replace (k + 1)%nat with (S k) by lia. rewrite H1. ring.
Qed.
Section Loop.
  Variables (ndx N : nat) (delta : R) (M M1 : list (list R)) (rhs : list R) (G : list R -> list R).
  Hypotheses (Hn : (ndx <= N)%nat) (QM : square N M) (SM : sym N M) (PD : plus_diag ndx delta M M1) (EG : exact_solver N (entries M1) G) (Lr : length rhs = N).
  Local Notation c := (corr G ndx N delta (vneg (K := RSc) rhs)).
  Lemma vneg_length : length (vneg (K := RSc) rhs) = N.
  Proof. unfold vneg. rewrite map_length. exact Lr. Qed.
  Lemma corr_ok n : length (c n) = N /\
    (n = 0%nat -> forall i, (i < N)%nat -> mvec N (mirror (entries M1)) (fun i => nth i (c n) 0) i = - nth i rhs 0) /\
    forall i, (i < N)%nat -> mvec N (mirror (entries M1)) (fun i => nth i (c (S n)) 0) i = if Nat.ltb i ndx then delta * nth i (c n) 0 else 0.
  Proof.
    split; [|split].
    - destruct n; cbn [corr]; [apply EG, vneg_length|apply EG, shift_rhs_length].
    - intros -> i Hi. cbn [corr]. destruct (EG _ vneg_length) as [_ S]. etransitivity; [exact (S i Hi)|]. apply vneg_nth.
    - intros i Hi. cbn [corr]. destruct (EG _ (shift_rhs_length ndx N delta (c n))) as [_ S]. etransitivity; [exact (S i Hi)|]. apply shift_rhs_nth, Hi.
  Qed.
  Lemma mirror_plain i j : (i < N)%nat -> (j < N)%nat -> mirror (entries M1) i j = entries M i j + (if Nat.eqb i j && Nat.ltb i ndx then delta else 0).
  Proof.
    intros Hi Hj. destruct PD as (_ & _ & P3). destruct QM as [L F]. rewrite Forall_forall in F.
    assert (R : forall i, (i < N)%nat -> length (nth i M []) = N) by (intros k Hk; apply F, nth_In; cbn [car RSc] in *; lia).
    assert (P : forall i j, (i < N)%nat -> (j < N)%nat -> entries M1 i j = entries M i j + (if Nat.eqb i j && Nat.ltb i ndx then delta else 0)).
    { intros a b Ha Hb. apply P3; [cbn [car RSc] in *; lia|]. pose proof (R a Ha). cbn [car RSc] in *. lia. }
    pose proof (SM i j Hi Hj) as S. change (entries M i j = entries M j i) in S.
    unfold mirror. destruct (Nat.leb j i); rewrite P by assumption; [reflexivity|]. rewrite S. f_equal. destruct (Nat.eqb_spec j i) as [->|Ne]; [rewrite Nat.eqb_refl; reflexivity|].
    rewrite (proj2 (Nat.eqb_neq i j)) by congruence. reflexivity.
  Qed.
  Lemma residual k (x : list R) : length x = N -> (forall i, (i < N)%nat -> nth i x 0 = rsum (k + 1) (fun m => nth i (c m) 0)) ->
    vsub (K := RSc) (vneg (K := RSc) rhs) (Solver_model.mv (K := RSc) M x) = shift_rhs ndx N delta (c k).
  Proof.
    intros Lx Hx. assert (Lm : length (Solver_model.mv (K := RSc) M x) = N) by (unfold Solver_model.mv; rewrite map_length; apply QM).
    pose proof vneg_length as Lv. apply (nth_ext _ _ 0 0); [rewrite vsub_length, shift_rhs_length; lc|].
    intros i Hi. rewrite vsub_length in Hi by lc. assert (Hi' : (i < N)%nat) by (cbn [car RSc] in *; lia). rewrite vsub_nth by lc. rewrite (mv_nth N) by assumption. rewrite shift_rhs_nth by exact Hi'.
    etransitivity; [apply (f_equal2 Rminus); [apply vneg_nth|]|].
    { apply rsum_ext. intros j Hj. rewrite (Hx j Hj). rewrite <- rsum_scale. reflexivity. }
    rewrite rsum_swap.
    assert (E : forall m, rsum N (fun j => entries M i j * nth j (c m) 0) = mvec N (mirror (entries M1)) (fun j => nth j (c m) 0) i - (if Nat.ltb i ndx then delta * nth i (c m) 0 else 0)).
    { intros m. unfold mvec. rewrite (rsum_ext N (fun j => mirror _ i j * _) (fun j => entries M i j * nth j (c m) 0 + (if Nat.eqb i j && Nat.ltb i ndx then delta else 0) * nth j (c m) 0)) by (intros j Hj; rewrite mirror_plain by assumption; ring).
      rewrite rsum_plus. rewrite (rsum_one N (fun j => (if Nat.eqb i j && Nat.ltb i ndx then delta else 0) * nth j (c m) 0) i Hi').
      - rewrite Nat.eqb_refl. cbn [andb]. destruct (Nat.ltb i ndx); lra.
      - intros j Hj Ne. rewrite (proj2 (Nat.eqb_neq i j)) by congruence. cbn [andb]. ring. }
    rewrite (rsum_ext (k + 1) _ (fun m => mvec N (mirror (entries M1)) (fun j => nth j (c m) 0) i - (if Nat.ltb i ndx then delta * nth i (c m) 0 else 0))) by (intros; apply E).
    rewrite (telescope (fun m => mvec N (mirror (entries M1)) (fun j => nth j (c m) 0) i) (fun m => if Nat.ltb i ndx then delta * nth i (c m) 0 else 0) (nth i rhs 0)).
    - ring.
    - destruct (corr_ok 0) as (_ & C0 & _). apply (C0 eq_refl i Hi').
    - intros m. destruct (corr_ok m) as (_ & _ & C1). apply (C1 i Hi').
  Qed.
  Lemma refine_sum (fac : Type) (sol : fac -> list R -> list R) (F : fac) (P : @params RSc) : sol F = G -> forall n k (x : list R), length x = N ->
    (forall i, (i < N)%nat -> nth i x 0 = rsum (k + 1) (fun m => nth i (c m) 0)) ->
    exists k', (k' <= k + n)%nat /\ length (refine_loop (K := RSc) fac sol n P F M rhs x) = N /\
      forall i, (i < N)%nat -> nth i (refine_loop (K := RSc) fac sol n P F M rhs x) 0 = rsum (k' + 1) (fun m => nth i (c m) 0).
  Proof.
    intros Es. induction n as [|n IH]; intros k x Lx Hx; cbn [refine_loop]; [exists k; split; [lia|auto]|].
    rewrite (residual k x Lx Hx). destruct (_ <? _)%S; [exists k; split; [lia|auto]|]. rewrite Es.
    change (G (shift_rhs ndx N delta (c k))) with (c (S k)). destruct (corr_ok (S k)) as (Lc & _).
    destruct (IH (S k) (vadd (K := RSc) x (c (S k)))) as (k' & B1 & B2 & B3).
    - rewrite vadd_length; lc.
    - intros i Hi. rewrite vadd_nth by lc. rewrite (Hx i Hi). replace (S k + 1)%nat with (S (k + 1)) by lia. cbn [rsum]. replace (k + 1)%nat with (S k) at 3 by lia. reflexivity.
    - exists k'. split; [lia|]. split; assumption.
  Qed.
  Lemma refinement_sum (fac : Type) (sol : fac -> list R -> list R) (F : fac) (P : @params RSc) : sol F = G ->
    exists k', (k' <= max_refine P)%nat /\ length (iterative_refinement (K := RSc) fac sol P F M rhs) = N /\
      forall i, (i < N)%nat -> nth i (iterative_refinement (K := RSc) fac sol P F M rhs) 0 = rsum (k' + 1) (fun m => nth i (c m) 0).
  Proof.
    intros Es. unfold iterative_refinement. destruct (corr_ok 0) as (Lc & _). apply (refine_sum fac sol F P Es (max_refine P) 0).
    - rewrite Es. exact Lc.
    - intros i Hi. rewrite Es. cbn. lra.
  Qed.
End Loop.

(** ** The step of the solver *)
Lemma step_matrix_square fac bfgs P p d dd : square (p_ndx p + rows_of (p_cons p)) (step_matrix (K := RSc) fac bfgs P p d dd).
Proof.
  unfold step_matrix, assemble_kkt. rewrite numdual_rows. set (N := (p_ndx p + rows_of (p_cons p))%nat). split.
  - unfold mtab. rewrite map_length, seq_length. reflexivity.
  - apply Forall_forall. intros row H. unfold mtab in H. apply in_map_iff in H. destruct H as (i & <- & _). rewrite map_length, seq_length. reflexivity.
Qed.
Lemma convex_kernel np nd (A : mx) x : regularised np (np + nd) A -> al_convex np (np + nd) A -> (forall i, (i < np + nd)%nat -> mvec (np + nd) (mirror A) x i = 0) -> forall i, (i < np + nd)%nat -> x i = 0.
Proof.
  intros Rg Cx H. assert (F : al_form np (np + nd) A x = 0).
  { pose proof (kkt_descent np (np + nd) A (fun _ => 0) x ltac:(lia) Rg) as K. cbn beta in K. rewrite rsum_zero in K.
    - rewrite Ropp_0 in K. specialize (K H). lra.
    - intros i _. rewrite rsum_zero; [ring|]. intros k _. unfold Rdiv. ring. }
  assert (Z : forall i, (i < np)%nat -> x i = 0).
  { destruct (zero_or_not np x) as [Z|Z]; [exact Z|]. specialize (Cx x Z). lra. }
  intros i Hi. destruct (Nat.lt_ge_cases i np) as [L|L]; [apply Z, L|]. replace i with (np + (i - np))%nat by lia. set (k := (i - np)%nat). assert (Hk : (k < nd)%nat) by (unfold k; lia).
  pose proof (row_equation np nd A (fun _ => 0) x k Rg Hk) as R. cbn beta in R. rewrite Ropp_0 in R. specialize (R (H (np + k)%nat ltac:(lia))).
  rewrite rsum_zero in R by (intros j Hj; rewrite (Z j Hj); ring). destruct Rg as [R1 _]. specialize (R1 (np + k)%nat ltac:(lia) ltac:(lia)). assert (E : A (np + k)%nat (np + k)%nat * x (np + k)%nat = 0) by lra. apply Rmult_integral in E. destruct E; lra.
Qed.
Lemma refined_step (O : oracles RSc) (P : @params RSc) (p : @problem RSc) (s : solver_state O) d dd delta M1 F :
  let ndx := p_ndx p in let nd := rows_of (p_cons p) in let M := step_matrix (o_fac O) (o_bfgs O) P p d dd in
  let st := iterative_refinement (o_fac O) (o_solve O) P F M (step_rhs (o_fac O) (o_bfgs O) P p d) in
  consistent p s -> pdal_beta P = 1 / 2 -> run_diagnose O P p s = Ret d -> agrees P p s (d_m _ _ d) ->
  kkt_dual_diag P p (mu s) (sets s) (m_shift_pd (d_m _ _ d)) = Ret dd ->
  0 <= delta -> sym (ndx + nd) M -> plus_diag ndx delta M M1 -> exact_solver (ndx + nd) (entries M1) (o_solve O F) ->
  length st = (ndx + nd)%nat /\
  (al_convex ndx (ndx + nd) (entries M1) -> 
   (delta = 0 -> solves (ndx + nd) (entries M) (fun i => nth i st 0) (fun i => - nth i (step_rhs (o_fac O) (o_bfgs O) P p d) 0)) /\
   (slope p d (fun i => nth i st 0) < 0 \/
   ((forall i, (i < ndx)%nat -> nth i (d_mg _ _ d) 0 = 0) /\ (forall k, (k < nd)%nat -> nth k (d_md _ _ d) 0 = 0) /\ forall i, (i < ndx + nd)%nat -> nth i st 0 = 0))).
Proof.
  intros ndx nd M st Co Hb Hd Ag Hdd Dp Sy PD Ex. pose proof Co as (Hmu & _).
  destruct (system_facts O P p s d dd delta M1 Co Hb Hd Ag Hdd PD) as (_ & _ & Lr & Rg & Hm & w & Hw). fold ndx nd in Rg, Hm, Hw, Lr.
  pose proof (step_matrix_square (o_fac O) (o_bfgs O) P p d dd) as QM. fold ndx nd M in QM.
  set (rhs := step_rhs (o_fac O) (o_bfgs O) P p d) in *.
  destruct (refinement_sum ndx (ndx + nd) delta M M1 rhs (o_solve O F) ltac:(lia) QM Sy PD Ex Lr (o_fac O) (o_solve O) F P eq_refl) as (k & _ & Ls & Hs). fold st in Ls, Hs.
  split; [exact Ls|]. set (c := corr (o_solve O F) ndx (ndx + nd) delta (vneg (K := RSc) rhs)) in *.
  assert (C0 : forall i, (i < ndx + nd)%nat -> mvec (ndx + nd) (mirror (entries M1)) (fun i => nth i (c 0%nat) 0) i = - nth i rhs 0)
    by (destruct (corr_ok ndx (ndx + nd) delta M1 rhs (o_solve O F) Ex Lr 0) as (_ & C & _); exact (C eq_refl)).
  assert (C1 : forall m i, (i < ndx + nd)%nat -> mvec (ndx + nd) (mirror (entries M1)) (fun i => nth i (c (m + 1)%nat) 0) i = if Nat.ltb i ndx then delta * nth i (c m) 0 else 0)
    by (intros m; replace (m + 1)%nat with (S m) by lia; destruct (corr_ok ndx (ndx + nd) delta M1 rhs (o_solve O F) Ex Lr m) as (_ & _ & C); exact C).
  intros Cx. split.
  - intros E i Hi. rewrite <- (C0 i Hi).
    assert (Z : forall m j, (j < ndx + nd)%nat -> rsum (m + 1) (fun m => nth j (c m) 0) = nth j (c 0%nat) 0).
    { intros m j Hj. induction m as [|m IH]; [cbn; lra|]. change (S m + 1)%nat with (S (m + 1)). cbn [rsum]. rewrite IH.
      rewrite (convex_kernel ndx nd (entries M1) (fun i => nth i (c (m + 1)%nat) 0) Rg Cx) with (i := j); [lra| |exact Hj].
      intros i0 Hi0. rewrite C1 by exact Hi0. rewrite E. destruct (Nat.ltb i0 ndx); lra. }
    unfold mvec. apply rsum_ext. intros j Hj. rewrite Hs, Z by exact Hj. f_equal.
    rewrite (mirror_plain ndx (ndx + nd) delta M M1 rhs ltac:(lia) QM Sy PD Lr i j Hi Hj). rewrite E. unfold mirror. pose proof (Sy i j Hi Hj) as S. change (entries M i j = entries M j i) in S. destruct (Nat.leb j i), (Nat.eqb i j && Nat.ltb i ndx); lra.
  - pose proof (refined_slope ndx nd (entries M1) (fun i => nth i rhs 0) (fun m i => nth i (c m) 0) (fun i => nth i (d_mg _ _ d) 0) (fun k => nth k (d_md _ _ d) 0) (mu s) w delta k Hmu Dp Rg Cx C0 C1 Hm Hw) as Sl. cbv zeta beta in Sl.
    assert (Es : slope p d (fun i => nth i st 0) = slope p d (fun i => rsum (k + 1) (fun m => nth i (c m) 0))).
    { unfold slope. fold ndx nd. f_equal; apply rsum_ext; intros i Hi; rewrite Hs by lia; reflexivity. }
    rewrite Es. change (slope p d (fun i => rsum (k + 1) (fun m => nth i (c m) 0)) <= slope p d (fun i => nth i (c 0%nat) 0)) in Sl.
    destruct (step_slope O P p s d dd delta M1 (fun i => nth i (c 0%nat) 0) Co Hb Hd Ag Hdd PD C0) as [_ St]. specialize (St Cx). fold ndx nd in St.
    destruct St as [L|(Z1 & Z2 & Z3)]; [left; lra|]. right. split; [exact Z1|]. split; [exact Z2|].
    intros i Hi. rewrite Hs by exact Hi.
    assert (Z : forall m i, (i < ndx + nd)%nat -> nth i (c m) 0 = 0).
    { induction m as [|m IH]; intros j Hj; [exact (Z3 j Hj)|].
      apply (convex_kernel ndx nd (entries M1) (fun i => nth i (c (S m)) 0) Rg Cx); [|exact Hj]. intros i0 Hi0. replace (S m) with (m + 1)%nat by lia. rewrite C1 by exact Hi0. rewrite IH by exact Hi0. destruct (Nat.ltb i0 ndx); lra. }
    apply rsum_zero. intros m _. apply Z, Hi.
Qed.

Lemma step_parts (O : oracles RSc) fls fin (P : @params RSc) p d dl r : run_step O fls fin P p d dl = Ret r ->
  let s := d_state _ _ d in let ndx := p_ndx p in
  exists dd M F delta dl' lr, let pd := iterative_refinement (o_fac O) (o_solve O) P F M (step_rhs (o_fac O) (o_bfgs O) P p d) in
    kkt_dual_diag P p (s_mu _ _ s) (s_sets _ _ s) (m_shift_pd (d_m _ _ d)) = Ret dd /\
    run_inertia O fin P ndx (rows_of (p_cons p)) (step_matrix (o_fac O) (o_bfgs O) P p d dd) (w_fac _ _ (s_ws _ _ s)) (delta_init P) dl = Ret (M, F, delta, dl') /\
    run (o_qr O) (fun _ a => phi_opt (o_integrate O) (o_px_val O) (o_fac O) (o_bfgs O) P p s (firstn ndx pd) (skipn ndx pd) a) fls (lsopt P) (r_merit (s_res _ _ s))
      (vdot (K := RSc) (d_mg _ _ d) (firstn ndx pd) + vdot (K := RSc) (d_md _ _ d) (skipn ndx pd)) = Some lr /\
    r_merit (res (state_of r)) = r_phi lr /\ w_alpha _ _ (wsp (state_of r)) = r_alpha lr /\
    (r_x (res (state_of r)), r_lams (res (state_of r))) = try_step (o_integrate O) (r_x (s_res _ _ s)) (r_lams (s_res _ _ s)) (firstn ndx pd) (skipn ndx pd) (r_alpha lr).
Proof.
  unfold run_step, Solver_model.step. cbv zeta. intros H. crack H.
  rewrite <- numdual_rows.
  match type of H with Ret (if ?b then _ else _) = _ => destruct b end; injection H as <-; cbn [state_of];
    do 6 eexists; (split; [eassumption|]); (split; [eassumption|]); (split; [eassumption|]); (split; [reflexivity|]); (split; [reflexivity|]); symmetry; eassumption.
Qed.

Lemma scaled_vscale a (v : list R) : scaled a v = vscale (K := RSc) a v.
Proof. reflexivity. Qed.
Lemma slope_split (O : oracles RSc) (p : @problem RSc) (d : diag (K := RSc) (o_fac O) (o_bfgs O)) (x : list R) : length (d_mg _ _ d) = p_ndx p -> length (d_md _ _ d) = rows_of (p_cons p) -> length x = (p_ndx p + rows_of (p_cons p))%nat ->
  vdot (K := RSc) (d_mg _ _ d) (firstn (p_ndx p) x) + vdot (K := RSc) (d_md _ _ d) (skipn (p_ndx p) x) = slope p d (fun i => nth i x 0).
Proof.
  intros L1 L2 Lx. unfold slope. set (n := p_ndx p) in *. set (m := rows_of (p_cons p)) in *. f_equal.
  - rewrite (vdot_sumn _ _ n); [|exact L1|rewrite firstn_length; cbn [car RSc] in *; lia]. rewrite sumn_rsum. apply rsum_ext. intros i Hi. rewrite nth_firstn_lt by exact Hi. reflexivity.
  - rewrite (vdot_sumn _ _ m); [|exact L2|rewrite skipn_length; cbn [car RSc] in *; lia]. rewrite sumn_rsum. apply rsum_ext. intros i Hi. rewrite nth_skipn_add. reflexivity.
Qed.
Lemma plus_diag_sym ndx delta N M B : square N M -> sym N M -> plus_diag ndx delta M B -> square N B /\ sym N B.
Proof.
  intros [L F] S (P1 & P2 & P3). rewrite Forall_forall in F.
  assert (R : forall i, (i < N)%nat -> length (nth i M []) = N) by (intros i Hi; apply F, nth_In; lia).
  split; [split; [lia|]|].
  - apply Forall_forall. intros row H. apply (In_nth _ _ []) in H. destruct H as (i & Hi & <-). rewrite P2. apply R. lia.
  - intros i j Hi Hj. rewrite (P3 i j), (P3 j i); rewrite ?R by assumption; try lia. rewrite (S i j Hi Hj). f_equal. destruct (Nat.eqb_spec i j) as [->|Ne]; [rewrite Nat.eqb_refl; reflexivity|].
    rewrite (proj2 (Nat.eqb_neq j i)) by congruence. reflexivity.
Qed.
Lemma smax_R_l a b : b <= a -> smax (K := RSc) a b = a.
Proof. intros H. unfold smax. cbn [sltb RSc]. rewrite (proj2 (Rltb_false _ _)) by lra. reflexivity. Qed.
Lemma smax_R_r a b : a <= b -> smax (K := RSc) a b = b.
Proof. intros H. unfold smax. cbn [sltb RSc]. destruct (Rltb a b) eqn:E; [reflexivity|]. rhyp. lra. Qed.
Lemma enough_of c1 sl m a v : Rleb (v - m) (c1 * a * sl) = true -> enough c1 sl m a v.
Proof. intros H. rhyp. unfold enough. lra. Qed.
Lemma pass_decrease_on (O : oracles RSc) (good : o_fac O -> Prop) fls fin (P : @params RSc) (p : @problem RSc) (s : solver_state O) d dl r :
  let ndx := p_ndx p in let nd := rows_of (p_cons p) in let N := (ndx + nd)%nat in let s0 := d_state _ _ d in let M := step_matrix (o_fac O) (o_bfgs O) P p d in
  consistent p s -> pdal_beta P = 1 / 2 -> (0 < fls)%nat ->
  0 <= delta_init P -> 0 < delta_nz_init P -> 0 < delta_min P -> 0 <= del_inc_k P -> 0 <= del_inc_big P ->
  faithful_on O good ndx nd -> run_diagnose O P p s = Ret d -> agrees P p s (d_m _ _ d) ->
  (forall dd, kkt_dual_diag P p (mu s) (sets s) (m_shift_pd (d_m _ _ d)) = Ret dd -> sym N (M dd) /\
     forall M' F delta dl', run_inertia O fin P ndx nd (M dd) (w_fac _ _ (wsp s0)) (delta_init P) dl = Ret (M', F, delta, dl') -> delta <= delta_max P /\ good F) ->
  (forall dx dl a, length dx = ndx -> length dl = nd -> exists v m, run_phi O P p s0 dx dl a = Ret (v, m)) ->
  run_step O fls fin P p d dl = Ret r ->
  exists pd lr, let dx := firstn ndx pd in let dlam := skipn ndx pd in let sl := slope p d (fun i => nth i pd 0) in
    let alpha := w_alpha _ _ (wsp (state_of r)) in
    length pd = N /\
    (sl < 0 \/ ((forall i, (i < ndx)%nat -> nth i (d_mg _ _ d) 0 = 0) /\ (forall k, (k < nd)%nat -> nth k (d_md _ _ d) 0 = 0) /\ forall i, (i < N)%nat -> nth i pd 0 = 0)) /\
    r_x (res (state_of r)) = o_integrate O (r_x (res s0)) (scaled alpha dx) /\
    r_lams (res (state_of r)) = vadd (K := RSc) (r_lams (res s0)) (scaled alpha dlam) /\
    run (o_qr O) (fun _ a => phi_opt (o_integrate O) (o_px_val O) (o_fac O) (o_bfgs O) P p s0 dx dlam a) fls (lsopt P) (r_merit (res s0)) sl = Some lr /\
    r_merit (res (state_of r)) = r_phi lr /\ alpha = r_alpha lr /\
    (enough (armijo_c1 (lsopt P)) sl (r_merit (res s0)) alpha (r_merit (res (state_of r))) \/
     alpha = alpha_min (lsopt P) \/ Rabs sl < dphi_thresh (lsopt P) \/ length (r_trace lr) = S (max_num_steps (lsopt P))).
Proof.
  intros ndx nd N s0 M Co Hb Hf D0 D1 D2 D3 D4 Fa Hd Ag HM Ph Hr.
  destruct (step_parts O fls fin P p d dl r Hr) as (dd & M' & F & delta & dl' & lr & Edd & Ei & Er & Em & Ea & Et). cbv zeta in Edd, Ei, Er, Et. fold ndx nd s0 in Edd, Ei, Er, Em, Ea, Et.
  assert (Es : s_mu _ _ s0 = mu s /\ s_sets _ _ s0 = sets s).
  { destruct (diagnose_inv _ _ _ _ _ _ P p s d Hd) as (? & ? & ? & ? & ? & ? & ? & ? & ? & ? & ? & ? & _ & _ & _ & _ & _ & _ & _ & E). unfold s0. rewrite E. split; reflexivity. }
  destruct Es as [Es1 Es2]. rewrite Es1, Es2 in Edd. destruct (HM dd Edd) as [Sy Dm]. fold (M dd) in Ei. destruct (Dm _ _ _ _ Ei) as [Dm' Gf]. clear Dm. rename Dm' into Dm.
  destruct (inertia_exact _ _ _ _ _ _ _ _ _ _ _ _ _ _ _ D0 D1 D2 D3 D4 Ei) as [-> [(F0 & B & EF & PD & Dp & _ & C)|[X _]]]; [|lra].
  destruct (system_facts O P p s d dd delta B Co Hb Hd Ag Edd PD) as (L1 & L2 & _ & Rg & _). fold ndx nd in L1, L2, Rg.
  pose proof (step_matrix_square (o_fac O) (o_bfgs O) P p d dd) as QM. fold ndx nd (M dd) N in QM.
  destruct (plus_diag_sym ndx delta N (M dd) B QM Sy PD) as [QB SB].
  subst F. destruct (Fa F0 B QB SB Rg Gf C) as [Cx Ex]. fold N in Cx, Ex.
  destruct (refined_step O P p s d dd delta B (o_compute O F0 B) Co Hb Hd Ag Edd (proj1 Dp) Sy PD Ex) as (Lp & R). destruct (R Cx) as [_ Sl]. clear R. fold ndx nd (M dd) N in Lp, Sl.
  exists (iterative_refinement (o_fac O) (o_solve O) P (o_compute O F0 B) (M dd) (step_rhs (o_fac O) (o_bfgs O) P p d)), lr. cbv zeta.
  set (pd := iterative_refinement (o_fac O) (o_solve O) P (o_compute O F0 B) (M dd) (step_rhs (o_fac O) (o_bfgs O) P p d)) in *.
  pose proof (slope_split O p d pd L1 L2 Lp) as Ss. fold ndx in Ss. match type of Er with run _ _ _ _ _ ?x = _ => assert (Q : x = slope p d (fun i => nth i pd 0)) by exact Ss; rewrite Q in Er; clear Q end. unfold try_step in Et. injection Et as Ex1 Ex2.
  split; [exact Lp|]. split; [exact Sl|]. split; [rewrite Ea; exact Ex1|]. split; [rewrite Ea; exact Ex2|]. split; [exact Er|]. split; [exact Em|]. split; [exact Ea|].
  rewrite Em, Ea.
  assert (Nt : forall (tr : list R) a, phi_opt (K := RSc) (o_integrate O) (o_px_val O) (o_fac O) (o_bfgs O) P p s0 (firstn ndx pd) (skipn ndx pd) a <> None).
  { intros tr a. unfold phi_opt. destruct (Ph (firstn ndx pd) (skipn ndx pd) a) as (v & m & E); [rewrite firstn_length; cbn [car RSc] in *; lia|rewrite skipn_length; cbn [car RSc] in *; lia|]. unfold run_phi in E. rewrite E. discriminate. }
  destruct (run_nothrow (K := RSc) (o_qr O) (fun _ a => phi_opt (K := RSc) (o_integrate O) (o_px_val O) (o_fac O) (o_bfgs O) P p s0 (firstn ndx pd) (skipn ndx pd) a) (lsopt P) Nt fls (r_merit (res s0)) (slope p d (fun i => nth i pd 0)) Hf) as (a & rest & v & E & _ & A1 & A2).
  change (s_res (o_fac O) (o_bfgs O) s0) with (res s0) in Er. rewrite E in Er. injection Er as <-. cbn [r_phi r_alpha r_trace].
  cbn [sltb sabs sleb ssub smul RSc car] in A1 |- *. set (sl := slope p d (fun i => nth i pd 0)) in *.
  match goal with |- context [if ?b then a else _] => destruct b eqn:Et end.
  - right. right. left. apply Rltb_true. exact Et.
  - destruct (A1 eq_refl) as [H|[H|H]]; [|right; left|right; right; right; exact H].
    + destruct (Rle_dec (alpha_min (lsopt P)) a) as [L|L].
      * left. rewrite smax_R_l by exact L. exact (enough_of _ _ _ _ _ H).
      * right. left. apply smax_R_r. lra.
    + rhyp. apply smax_R_r. exact H.
Qed.
Lemma pass_decrease (O : oracles RSc) fls fin (P : @params RSc) (p : @problem RSc) (s : solver_state O) d dl r :
  let ndx := p_ndx p in let nd := rows_of (p_cons p) in let N := (ndx + nd)%nat in let s0 := d_state _ _ d in let M := step_matrix (o_fac O) (o_bfgs O) P p d in
  consistent p s -> pdal_beta P = 1 / 2 -> (0 < fls)%nat ->
  0 <= delta_init P -> 0 < delta_nz_init P -> 0 < delta_min P -> 0 <= del_inc_k P -> 0 <= del_inc_big P ->
  faithful O ndx nd -> run_diagnose O P p s = Ret d -> agrees P p s (d_m _ _ d) ->
  (forall dd, kkt_dual_diag P p (mu s) (sets s) (m_shift_pd (d_m _ _ d)) = Ret dd -> sym N (M dd) /\
     forall M' F delta dl', run_inertia O fin P ndx nd (M dd) (w_fac _ _ (wsp s0)) (delta_init P) dl = Ret (M', F, delta, dl') -> delta <= delta_max P) ->
  (forall dx dl a, length dx = ndx -> length dl = nd -> exists v m, run_phi O P p s0 dx dl a = Ret (v, m)) ->
  run_step O fls fin P p d dl = Ret r ->
  exists pd lr, let dx := firstn ndx pd in let dlam := skipn ndx pd in let sl := slope p d (fun i => nth i pd 0) in
    let alpha := w_alpha _ _ (wsp (state_of r)) in
    length pd = N /\
    (sl < 0 \/ ((forall i, (i < ndx)%nat -> nth i (d_mg _ _ d) 0 = 0) /\ (forall k, (k < nd)%nat -> nth k (d_md _ _ d) 0 = 0) /\ forall i, (i < N)%nat -> nth i pd 0 = 0)) /\
    r_x (res (state_of r)) = o_integrate O (r_x (res s0)) (scaled alpha dx) /\
    r_lams (res (state_of r)) = vadd (K := RSc) (r_lams (res s0)) (scaled alpha dlam) /\
    run (o_qr O) (fun _ a => phi_opt (o_integrate O) (o_px_val O) (o_fac O) (o_bfgs O) P p s0 dx dlam a) fls (lsopt P) (r_merit (res s0)) sl = Some lr /\
    r_merit (res (state_of r)) = r_phi lr /\ alpha = r_alpha lr /\
    (enough (armijo_c1 (lsopt P)) sl (r_merit (res s0)) alpha (r_merit (res (state_of r))) \/
     alpha = alpha_min (lsopt P) \/ Rabs sl < dphi_thresh (lsopt P) \/ length (r_trace lr) = S (max_num_steps (lsopt P))).
Proof.
  intros ndx nd N s0 M Co Hb Hf D0 D1 D2 D3 D4 Fa Hd Ag HM Ph Hr.
  apply (pass_decrease_on O (fun _ => True) fls fin P p s d dl r Co Hb Hf D0 D1 D2 D3 D4); try assumption.
  - intros F M0 N0 H1 H2 H3 _ H4. exact (Fa F M0 H1 H2 H3 H4).
  - intros dd E. destruct (HM dd E) as [S H]. split; [exact S|]. intros M' F delta dl' R. split; [exact (H M' F delta dl' R)|exact I].
Qed.
