(** The inner loop with the primal-dual system: algebra of the step, and the line search. *)
From Coq Require Import Reals List Bool Arith ZArith Lia Lra Psatz.
From Verif Require Import Scalar Cset_model Cset_spec Cset_proofs Armijo_model Problem_model Solver_model Solver_spec SolverR_proofs SolverS_proofs Merit_spec Merit_proofs
  Lin_spec Lin_proofs Ldlt_spec Ldlt_proofs Bk_spec Descent_spec Descent_proofs DescentX_proofs Refine_proofs Qp_spec Qp_proofs QpD_proofs QpT_proofs QpN_proofs Act_spec Act_proofs Glob_spec.
Import ListNotations.
Local Open Scope R_scope.

(** ** Inequalities *)
Lemma quad_disc a b c : 0 <= c -> (forall t, 0 <= a - 2 * t * b + t * t * c) -> b * b <= c * a.
Proof.
  intros Hc H. destruct (Req_dec c 0) as [->|N].
  - assert (b = 0); [|subst; lra]. destruct (Req_dec b 0) as [|Nb]; [assumption|exfalso].
    specialize (H ((a + 1) / (2 * b))). replace (a - 2 * ((a + 1) / (2 * b)) * b + (a + 1) / (2 * b) * ((a + 1) / (2 * b)) * 0) with (-1) in H by (field; exact Nb). lra.
  - assert (0 < c) by lra. specialize (H (b / c)). replace (a - 2 * (b / c) * b + b / c * (b / c) * c) with ((c * a - b * b) / c) in H by (field; lra).
    assert (0 <= (c * a - b * b) / c * c) by (apply Rmult_le_pos; lra). replace ((c * a - b * b) / c * c) with (c * a - b * b) in H1 by (field; lra). lra.
Qed.
Lemma sum_product n (f g : nat -> R) : rsum n (fun i => f i * g i) * rsum n (fun i => f i * g i) <= rsum n (fun i => g i * g i) * rsum n (fun i => f i * f i).
Proof.
  apply quad_disc; [apply rsum_nonneg; intros; apply Rle_0_sqr|]. intros t.
  assert (E : rsum n (fun i => f i * f i) - 2 * t * rsum n (fun i => f i * g i) + t * t * rsum n (fun i => g i * g i) = rsum n (fun i => (f i - t * g i) * (f i - t * g i))).
  { rewrite <- !rsum_scale, <- rsum_minus, <- rsum_plus. apply rsum_ext. intros. ring. }
  rewrite E. apply rsum_nonneg. intros. apply Rle_0_sqr.
Qed.
Definition unit_at (i j : nat) : R := if Nat.eqb i j then 1 else 0.
Lemma rsum_unit n f i : (i < n)%nat -> rsum n (fun j => f j * unit_at i j) = f i.
Proof. intros Hi. rewrite (rsum_one n _ i Hi); [unfold unit_at; rewrite Nat.eqb_refl; ring|]. intros j Hj N. unfold unit_at. destruct (Nat.eqb_spec i j); [congruence|ring]. Qed.
Lemma form_shift n Q d i t : (forall i j, (i < n)%nat -> (j < n)%nat -> Q i j = Q j i) -> (i < n)%nat ->
  form n Q (fun j => d j - t * unit_at i j) = form n Q d - 2 * t * rsum n (fun j => Q i j * d j) + t * t * Q i i.
Proof.
  intros Sy Hi. unfold form.
  transitivity (rsum n (fun j => d j * rsum n (fun h => Q j h * d h) - t * (d j * Q j i) - t * (rsum n (fun h => Q j h * d h) * unit_at i j) + t * t * (Q j i * unit_at i j))).
  - apply rsum_ext. intros j Hj.
    assert (E : rsum n (fun h => (d j - t * unit_at i j) * Q j h * (d h - t * unit_at i h)) = (d j - t * unit_at i j) * (rsum n (fun h => Q j h * d h) - t * rsum n (fun h => Q j h * unit_at i h))).
    { rewrite <- (rsum_scale n t), <- rsum_minus, <- rsum_scale. apply rsum_ext. intros. ring. }
    rewrite E, rsum_unit by exact Hi. ring.
  - rewrite rsum_plus, !rsum_minus, !rsum_scale. rewrite (rsum_unit n (fun j => rsum n (fun h => Q j h * d h)) i Hi), (rsum_unit n (fun j => Q j i) i Hi).
    assert (E1 : rsum n (fun j => d j * Q j i) = rsum n (fun j => Q i j * d j)) by (apply rsum_ext; intros j Hj; rewrite (Sy j i) by assumption; ring).
    assert (E2 : rsum n (fun j => d j * rsum n (fun h => Q j h * d h)) = rsum n (fun i0 => rsum n (fun j => d i0 * Q i0 j * d j))) by (apply rsum_ext; intros j Hj; rewrite <- rsum_scale; apply rsum_ext; intros; ring).
    rewrite E1, E2. ring.
Qed.
Lemma row_form n Q d i : (forall i j, (i < n)%nat -> (j < n)%nat -> Q i j = Q j i) -> (forall x, 0 <= form n Q x) -> (i < n)%nat ->
  rsum n (fun j => Q i j * d j) * rsum n (fun j => Q i j * d j) <= Q i i * form n Q d.
Proof.
  intros Sy Ps Hi. assert (E : form n Q (unit_at i) = Q i i).
  { pose proof (form_shift n Q (fun _ => 0) i (-1) Sy Hi) as F. assert (Z : rsum n (fun j => Q i j * 0) = 0) by (apply rsum_zero; intros; ring).
    assert (Z2 : form n Q (fun _ => 0) = 0) by (unfold form; apply rsum_zero; intros; apply rsum_zero; intros; ring). cbv beta in F. rewrite Z2 in F; rewrite Z in F.
    transitivity (form n Q (fun j => 0 - -1 * unit_at i j)); [|lra]. unfold form. apply rsum_ext. intros. apply rsum_ext. intros. ring. }
  apply quad_disc; [rewrite <- E; apply Ps|]. intros t. rewrite <- (form_shift n Q d i t Sy Hi). apply Ps.
Qed.

Lemma rsum_ge_term n (f : nat -> R) k : (forall i, (i < n)%nat -> 0 <= f i) -> (k < n)%nat -> f k <= rsum n f.
Proof.
  intros P Hk. assert (E : rsum n (fun i => if Nat.eqb i k then f k else 0) = f k).
  { rewrite (rsum_one n _ k Hk); [rewrite Nat.eqb_refl; reflexivity|]. intros j _ N. destruct (Nat.eqb_spec j k); [contradiction|reflexivity]. }
  rewrite <- E at 1. apply rsum_le. intros i Hi. destruct (Nat.eqb_spec i k); [subst; lra|apply P; exact Hi].
Qed.

Section Algebra.
  Variables (n m : nat) (Q : nat -> nat -> R) (q : nat -> R) (A : nat -> nat -> R) (b : nat -> R).
  Hypothesis Sy : forall i j, (i < n)%nat -> (j < n)%nat -> Q i j = Q j i.
  Hypothesis Ps : forall x, 0 <= form n Q x.
  Variables (K : nat -> coord) (mu : R) (le x l : nat -> R).
  Hypothesis Hm : 0 < mu.
  Hypothesis Ok : forall k, (k < m)%nat -> cok (K k) /\ cmu mu (K k).
  Notation sh := (shift_at n A b mu le).
  Notation spd := (shift_pd_at n A b mu le).
  Notation pdal := (act_pdal n A b K mu le x l).
  Variable sel : nat -> bool.
  Notation B := (chosen A sel).
  (** Half of mu times the difference of the multipliers and their estimate: the gradient of the merit function with respect to the multipliers. *)
  Definition gmd (k : nat) : R := 1 / 2 * mu * (l k - pdal k).
  Definition gw (k : nat) : R := if sel k then mu else mu / 2.
  (** The step. *)
  Variables d e : nat -> R.
  Hypothesis K1 : forall i, (i < n)%nat -> rsum n (fun j => Q i j * d j) + rsum m (fun k => B k i * e k) =
    - (qp_grad n Q q x i + rsum m (fun k => l k * B k i) + rsum m (fun k => (if sel k then 0 else pdal k) * A k i)).
  Hypothesis K2 : forall k, (k < m)%nat -> rsum n (fun j => B k j * d j) - gw k * e k = gmd k.
  Let ax (k : nat) : R := rsum n (fun j => A k j * d j).
  Notation slp := (act_slope n m Q q A b K mu le x l d e).
  Notation mer := (act_merit n m Q q A b K mu le).

  Lemma e_row k : (k < m)%nat -> e k = if sel k then (ax k - gmd k) / mu else - (2 / mu * gmd k).
  Proof.
    intros Hk. specialize (K2 k Hk). unfold chosen, gw in K2. destruct (sel k).
    - fold (ax k) in K2. apply (Rmult_eq_reg_l mu); [|lra]. replace (mu * ((ax k - gmd k) / mu)) with (ax k - gmd k) by (field; lra). lra.
    - rewrite rsum_zero in K2 by (intros; ring). apply (Rmult_eq_reg_l (mu / 2)); [|lra]. replace (mu / 2 * - (2 / mu * gmd k)) with (- gmd k) by (field; lra). lra.
  Qed.
  Lemma rows_dotd (g : nat -> R) : rsum n (fun i => rsum m (fun k => g k * A k i) * d i) = rsum m (fun k => g k * ax k).
  Proof.
    transitivity (rsum n (fun i => rsum m (fun k => g k * A k i * d i))); [apply rsum_ext; intros; rewrite <- rsum_scale_r; apply rsum_ext; intros; ring|].
    rewrite rsum_swap. apply rsum_ext. intros k _. unfold ax. rewrite <- rsum_scale. apply rsum_ext. intros. ring.
  Qed.
  (** The decrease that the slope predicts, row by row. *)
  Definition gdec (k : nat) : R := if sel k then (ax k * ax k + gmd k * gmd k) / mu else 2 * (gmd k * gmd k) / mu.
  Lemma slope_exact : slp = - (form n Q d + rsum m gdec).
  Proof.
    assert (H0 : rsum n (fun i => qp_grad n Q q x i * d i) = - form n Q d - rsum m (fun k => (if sel k then e k + l k else pdal k) * ax k)).
    { rewrite <- rows_dotd.
      assert (E : rsum n (fun i => qp_grad n Q q x i * d i) = rsum n (fun i => - (rsum n (fun j => d i * Q i j * d j)) - rsum m (fun k => (if sel k then e k + l k else pdal k) * A k i) * d i)).
      { apply rsum_ext. intros i Hi. specialize (K1 i Hi).
        assert (E1 : rsum n (fun j => d i * Q i j * d j) = d i * rsum n (fun j => Q i j * d j)) by (rewrite <- rsum_scale; apply rsum_ext; intros; ring).
        assert (E2 : rsum m (fun k => (if sel k then e k + l k else pdal k) * A k i) = rsum m (fun k => B k i * e k) + rsum m (fun k => l k * B k i) + rsum m (fun k => (if sel k then 0 else pdal k) * A k i)).
        { rewrite <- !rsum_plus. apply rsum_ext. intros k _. unfold chosen. destruct (sel k); ring. }
        rewrite E1, E2. replace (qp_grad n Q q x i) with (- rsum n (fun j => Q i j * d j) - (rsum m (fun k => B k i * e k) + rsum m (fun k => l k * B k i) + rsum m (fun k => (if sel k then 0 else pdal k) * A k i))) by lra. ring. }
      rewrite E, rsum_minus. f_equal. unfold form. rewrite <- (Rmult_1_l (rsum n (fun i => rsum n (fun j => d i * Q i j * d j)))), Ropp_mult_distr_l, <- rsum_scale. apply rsum_ext. intros. ring. }
    unfold act_slope. assert (E : rsum n (fun i => (qp_grad n Q q x i + rsum m (fun k => pdal k * A k i)) * d i) = rsum n (fun i => qp_grad n Q q x i * d i) + rsum m (fun k => pdal k * ax k)).
    { rewrite <- rows_dotd, <- rsum_plus. apply rsum_ext. intros. ring. }
    rewrite E, H0. assert (R : rsum m (fun k => 1 / 2 * mu * (l k - pdal k) * e k) + rsum m (fun k => pdal k * ax k) - rsum m (fun k => (if sel k then e k + l k else pdal k) * ax k) = - rsum m gdec).
    { rewrite <- rsum_plus, <- rsum_minus. rewrite <- (Rmult_1_l (rsum m gdec)), Ropp_mult_distr_l, <- rsum_scale. apply rsum_ext. intros k Hk.
      assert (Ep : pdal k = l k - 2 / mu * gmd k) by (unfold gmd; field; lra).
      change (1 / 2 * mu * (l k - pdal k)) with (gmd k). rewrite (e_row k Hk). unfold gdec. rewrite Ep. destruct (sel k); field; lra. }
    lra.
  Qed.
  Lemma gdec_nonneg k : 0 <= gdec k.
  Proof.
    unfold gdec. pose proof (Rinv_0_lt_compat mu Hm). pose proof (Rle_0_sqr (ax k)) as S1. pose proof (Rle_0_sqr (gmd k)) as S2. unfold Rsqr in *. destruct (sel k); apply Rmult_le_pos; lra.
  Qed.
  Lemma slope_neg : slp <= 0.
  Proof. rewrite slope_exact. pose proof (Ps d). pose proof (rsum_nonneg m gdec (fun k _ => gdec_nonneg k)). lra. Qed.

  (** ** Second-order bound on the merit function along the step *)
  Variable theta : R.
  Hypothesis Th : forall y, rsum m (fun k => rsum n (fun j => A k j * y j) * rsum n (fun j => A k j * y j)) <= theta * form n Q y.
  Let kap : R := 3 / 2 + 2 * theta / mu.
  Definition gcur (k : nat) : R := (ax k - 1 / 2 * mu * e k) * (ax k - 1 / 2 * mu * e k) / mu + mu / 4 * (e k * e k).
  Lemma gcur_bound k : (k < m)%nat -> gcur k <= 3 / 2 * gdec k + 2 / mu * (ax k * ax k).
  Proof.
    intros Hk. unfold gcur, gdec. rewrite (e_row k Hk). set (a := ax k). set (g := gmd k). pose proof (Rinv_0_lt_compat mu Hm) as V. pose proof (Rle_0_sqr a) as S1. pose proof (Rle_0_sqr g) as S2. pose proof (Rle_0_sqr (a - g)) as S3. unfold Rsqr in *.
    assert (P1 : 0 <= a * a * / mu) by (apply Rmult_le_pos; lra). assert (P2 : 0 <= g * g * / mu) by (apply Rmult_le_pos; lra). assert (P3 : 0 <= (a - g) * (a - g) * / mu) by (apply Rmult_le_pos; lra).
    destruct (sel k).
    - replace ((a - 1 / 2 * mu * ((a - g) / mu)) * (a - 1 / 2 * mu * ((a - g) / mu)) / mu + mu / 4 * ((a - g) / mu * ((a - g) / mu))) with (1 / 2 * (a * a * / mu + g * g * / mu)) by (field; lra).
      replace (3 / 2 * ((a * a + g * g) / mu) + 2 / mu * (a * a)) with (3 / 2 * (a * a * / mu + g * g * / mu) + 2 * (a * a * / mu)) by (field; lra). lra.
    - replace ((a - 1 / 2 * mu * - (2 / mu * g)) * (a - 1 / 2 * mu * - (2 / mu * g)) / mu + mu / 4 * (- (2 / mu * g) * - (2 / mu * g))) with (2 * (a * a * / mu) + 3 * (g * g * / mu) - (a - g) * (a - g) * / mu) by (field; lra).
      replace (3 / 2 * (2 * (g * g) / mu) + 2 / mu * (a * a)) with (3 * (g * g * / mu) + 2 * (a * a * / mu)) by (field; lra). lra.
  Qed.
  Lemma theta_sum : rsum m (fun k => ax k * ax k) <= theta * form n Q d. Proof. exact (Th d). Qed.
  Lemma curve_bound t : mer (fun i => x i + t * d i) (fun k => l k + t * e k) <= mer x l + t * slp + t * t * (1 / 2 * form n Q d + rsum m gcur).
  Proof.
    unfold act_merit at 1. rewrite (obj_expand n Q q x (fun i => t * d i) Sy).
    assert (F : form n Q (fun i => t * d i) = t * t * form n Q d).
    { unfold form. rewrite <- rsum_scale. apply rsum_ext. intros i _. rewrite <- rsum_scale. apply rsum_ext. intros. ring. }
    rewrite F. assert (G : rsum n (fun i => qp_grad n Q q x i * (t * d i)) = t * rsum n (fun i => qp_grad n Q q x i * d i)) by (rewrite <- rsum_scale; apply rsum_ext; intros; ring). rewrite G.
    assert (R : 2 * rsum m (fun k => env1 mu (K k) (spd (fun i => x i + t * d i) (fun k => l k + t * e k) k)) + mu * rsum m (fun k => (l k + t * e k) * (l k + t * e k)) / 4 <=
      2 * rsum m (fun k => env1 mu (K k) (spd x l k)) + mu * rsum m (fun k => l k * l k) / 4 + t * rsum m (fun k => pdal k * ax k) + t * rsum m (fun k => gmd k * e k) + t * t * rsum m gcur).
    { assert (Z : forall f, mu * rsum m f / 4 = rsum m (fun k => mu * f k / 4)) by (intros f; unfold Rdiv; rewrite rsum_scale_r, rsum_scale; reflexivity).
      rewrite !Z, <- !rsum_scale, <- !rsum_plus. apply rsum_le. intros k Hk. destruct (Ok k Hk) as [O1 O2].
      pose proof (env1_upper mu (K k) (spd x l k) (spd (fun i => x i + t * d i) (fun k => l k + t * e k) k) O1 O2 Hm) as U.
      assert (D : spd (fun i => x i + t * d i) (fun k => l k + t * e k) k - spd x l k = t * (ax k - 1 / 2 * mu * e k)).
      { unfold shift_pd_at, shift_at. rewrite (con_expand n A b x (fun i => t * d i) k). assert (E : rsum n (fun j => A k j * (t * d j)) = t * ax k) by (unfold ax; rewrite <- rsum_scale; apply rsum_ext; intros; ring). rewrite E. ring. }
      rewrite D in U. unfold gcur, gmd, act_pdal. set (c := ccone (K k) (spd x l k)) in *. set (h := ax k - 1 / 2 * mu * e k) in *.
      assert (T : mu * ((l k + t * e k) * (l k + t * e k)) / 4 = mu * (l k * l k) / 4 + t * (1 / 2 * mu * l k * e k) + t * t * (mu / 4 * (e k * e k))) by field. rewrite T.
      assert (S : 2 * (t * h * c / mu + t * h * (t * h) / (2 * mu)) = t * (c * (1 / mu / (1 / 2)) * h) + t * t * (h * h / mu)) by (field; lra).
      assert (V : t * (c * (1 / mu / (1 / 2)) * ax k) + t * (1 / 2 * mu * (l k - c * (1 / mu / (1 / 2))) * e k) = t * (c * (1 / mu / (1 / 2)) * h) + t * (1 / 2 * mu * l k * e k)) by (unfold h; field; lra).
      rewrite Rmult_plus_distr_l. lra. }
    assert (E : slp = rsum n (fun i => qp_grad n Q q x i * d i) + rsum m (fun k => pdal k * ax k) + rsum m (fun k => gmd k * e k)).
    { unfold act_slope, gmd. rewrite <- rows_dotd, <- rsum_plus. f_equal. apply rsum_ext. intros. ring. }
    rewrite E. unfold act_merit. lra.
  Qed.
  Lemma theta_nonneg_form : 0 <= theta * form n Q d.
  Proof. eapply Rle_trans; [|apply theta_sum]. apply rsum_nonneg. intros. apply Rle_0_sqr. Qed.
  Lemma merit_along t : 0 <= theta -> mer (fun i => x i + t * d i) (fun k => l k + t * e k) <= mer x l + t * slp + t * t * kap * - slp.
  Proof.
    intros T0. eapply Rle_trans; [apply curve_bound|]. apply Rplus_le_compat_l. rewrite (Rmult_assoc (t * t)). apply Rmult_le_compat_l; [apply Rle_0_sqr|]. rewrite slope_exact, Ropp_involutive.
    assert (G : rsum m gcur <= 3 / 2 * rsum m gdec + 2 / mu * rsum m (fun k => ax k * ax k)) by (rewrite <- !rsum_scale, <- rsum_plus; apply rsum_le; intros; apply gcur_bound; assumption).
    pose proof theta_sum as T. pose proof (Ps d) as F. pose proof (rsum_nonneg m gdec (fun k _ => gdec_nonneg k)) as D. pose proof (Rinv_0_lt_compat mu Hm) as V.
    assert (T2 : 2 / mu * rsum m (fun k => ax k * ax k) <= 2 / mu * (theta * form n Q d)) by (apply Rmult_le_compat_l; [unfold Rdiv; lra|exact T]).
    assert (Tm : 0 <= theta * / mu) by (apply Rmult_le_pos; lra). unfold kap.
    assert (0 <= theta * / mu * rsum m gdec) by (apply Rmult_le_pos; assumption).
    replace ((3 / 2 + 2 * theta / mu) * (form n Q d + rsum m gdec)) with (3 / 2 * form n Q d + 3 / 2 * rsum m gdec + 2 / mu * (theta * form n Q d) + 2 * (theta * / mu * rsum m gdec)) by (field; lra).
    lra.
  Qed.
  (** Sufficient decrease for all small steps. *)
  Lemma merit_enough t c1 : 0 <= theta -> 0 <= t <= (1 - c1) / kap -> mer (fun i => x i + t * d i) (fun k => l k + t * e k) <= mer x l + c1 * t * slp.
  Proof.
    intros T0 [H1 H2]. eapply Rle_trans; [apply (merit_along t T0)|]. pose proof slope_neg as S. pose proof (Rinv_0_lt_compat mu Hm).
    assert (Kp : 0 < kap) by (unfold kap; assert (0 <= 2 * theta / mu) by (apply Rmult_le_pos; lra); lra).
    assert (H3 : t * kap <= 1 - c1) by (replace (1 - c1) with ((1 - c1) / kap * kap) by (field; lra); apply Rmult_le_compat_r; lra).
    assert (0 <= t * - slp * (1 - c1 - t * kap)) by (apply Rmult_le_pos; [apply Rmult_le_pos; lra|lra]). nra.
  Qed.

  (** ** The stopping test against the slope *)
  Lemma tail_small k : (k < m)%nat -> gmd k * gmd k <= mu * - slp.
  Proof.
    intros Hk. rewrite slope_exact, Ropp_involutive. pose proof (Ps d) as F. pose proof (rsum_ge_term m gdec k (fun j _ => gdec_nonneg j) Hk) as G.
    assert (X : gmd k * gmd k <= mu * gdec k).
    { unfold gdec. pose proof (Rle_0_sqr (ax k)). pose proof (Rle_0_sqr (gmd k)). unfold Rsqr in *. destruct (sel k).
      - replace (mu * ((ax k * ax k + gmd k * gmd k) / mu)) with (ax k * ax k + gmd k * gmd k) by (field; lra). lra.
      - replace (mu * (2 * (gmd k * gmd k) / mu)) with (2 * (gmd k * gmd k)) by (field; lra). lra. }
    eapply Rle_trans; [exact X|]. apply Rmult_le_compat_l; lra.
  Qed.
  Let u (k : nat) : R := if sel k then - (ax k - gmd k) / mu else 2 / mu * gmd k.
  Lemma lag_row i : (i < n)%nat -> qp_lag n m Q q A x l i = - rsum n (fun j => Q i j * d j) + rsum m (fun k => u k * A k i).
  Proof.
    intros Hi. specialize (K1 i Hi). unfold qp_lag.
    assert (E : rsum m (fun k => u k * A k i) = rsum m (fun k => l k * A k i) - (rsum m (fun k => B k i * e k) + rsum m (fun k => l k * B k i) + rsum m (fun k => (if sel k then 0 else pdal k) * A k i))).
    { rewrite <- !rsum_plus, <- rsum_minus. apply rsum_ext. intros k Hk. unfold u, chosen. rewrite (e_row k Hk). unfold gmd. destruct (sel k); field; lra. }
    lra.
  Qed.
  Lemma u_sum : rsum m (fun k => u k * u k) <= 2 / mu * rsum m gdec.
  Proof.
    rewrite <- rsum_scale. apply rsum_le. intros k _. unfold u, gdec. set (a := ax k). set (g := gmd k). pose proof (Rinv_0_lt_compat mu Hm) as V. destruct (sel k).
    - assert (P : 0 <= (a + g) * (a + g) * (/ mu * / mu)) by (apply Rmult_le_pos; [apply Rle_0_sqr|apply Rmult_le_pos; lra]).
      replace (2 / mu * ((a * a + g * g) / mu)) with (- (a - g) / mu * (- (a - g) / mu) + (a + g) * (a + g) * (/ mu * / mu)) by (field; lra). lra.
    - right. field. lra.
  Qed.
  Lemma lag_small i : (i < n)%nat -> qp_lag n m Q q A x l i * qp_lag n m Q q A x l i <= (2 * Q i i + 4 / mu * rsum m (fun k => A k i * A k i)) * - slp.
  Proof.
    intros Hi. rewrite (lag_row i Hi), slope_exact, Ropp_involutive. set (a := rsum n (fun j => Q i j * d j)). set (c := rsum m (fun k => u k * A k i)). set (S := rsum m (fun k => A k i * A k i)).
    pose proof (row_form n Q d i Sy Ps Hi) as R1. fold a in R1. pose proof (sum_product m u (fun k => A k i)) as R2. cbv beta in R2. fold c S in R2. pose proof u_sum as R3.
    assert (S0 : 0 <= S) by (apply rsum_nonneg; intros; apply Rle_0_sqr). assert (Q0 : 0 <= Q i i). { pose proof (row_form n Q (unit_at i) i Sy Ps Hi) as E. rewrite rsum_unit in E by exact Hi. pose proof (Ps (unit_at i)). destruct (Rle_lt_dec 0 (Q i i)); [assumption|nra]. }
    pose proof (Ps d) as F. pose proof (rsum_nonneg m gdec (fun k _ => gdec_nonneg k)) as D. pose proof (Rinv_0_lt_compat mu Hm) as V.
    assert (R4 : S * rsum m (fun k => u k * u k) <= S * (2 / mu * rsum m gdec)) by (apply Rmult_le_compat_l; assumption).
    pose proof (Rle_0_sqr (a + c)) as Z. unfold Rsqr in Z.
    assert (P1 : 0 <= Q i i * rsum m gdec) by (apply Rmult_le_pos; assumption). assert (P2 : 0 <= S * / mu * form n Q d) by (apply Rmult_le_pos; [apply Rmult_le_pos; lra|assumption]).
    replace ((2 * Q i i + 4 / mu * S) * (form n Q d + rsum m gdec)) with (2 * (Q i i * form n Q d) + 2 * (Q i i * rsum m gdec) + 4 * (S * / mu * form n Q d) + 2 * (S * (2 / mu * rsum m gdec))) by (field; lra).
    lra.
  Qed.
End Algebra.

(** ** The line search *)
Lemma clip_range poly an (a b : R) : a <= b -> a <= clip (K := RSc) poly an a b <= b.
Proof.
  intros H. unfold clip. cbn [sltb RSc]. destruct (Rltb b an || Rltb an a)%bool eqn:E.
  - destruct (Rltb (poly_eval (K := RSc) poly a) (poly_eval (K := RSc) poly b)); split; (exact H || apply Rle_refl).
  - apply orb_false_iff in E. destruct E as [E1 E2]. apply Rltb_false in E1, E2. split; assumption.
Qed.
Lemma next_range qr (o : ls_options RSc) lb la pr (al : R) : 0 < contraction_min o <= contraction_max o -> 0 < al ->
  Rmin (contraction_min o) (1 / 2) * al <= next_alpha (K := RSc) qr o lb la pr al <= Rmax (contraction_max o) (1 / 2) * al.
Proof.
  intros [C1 C2] Ha. pose proof (Rmin_l (contraction_min o) (1 / 2)). pose proof (Rmin_r (contraction_min o) (1 / 2)). pose proof (Rmax_l (contraction_max o) (1 / 2)). pose proof (Rmax_r (contraction_max o) (1 / 2)).
  assert (G : forall z, contraction_min o * al <= z <= contraction_max o * al -> Rmin (contraction_min o) (1 / 2) * al <= z <= Rmax (contraction_max o) (1 / 2) * al) by (intros z [Z1 Z2]; split; [eapply Rle_trans; [|exact Z1]|eapply Rle_trans; [exact Z2|]]; apply Rmult_le_compat_r; lra).
  assert (L : contraction_min o * al <= contraction_max o * al) by (apply Rmult_le_compat_r; lra).
  unfold next_alpha. destruct (interp o).
  - assert (E : @smul RSc al shalf = 1 / 2 * al) by (unfold shalf, slit; cbn; lra). rewrite E. split; apply Rmult_le_compat_r; lra.
  - apply G. unfold minimize_interpolant. destruct (quad_interp lb la) as [po an]. apply clip_range. exact L.
  - apply G. unfold minimize_interpolant. destruct (match _ with Some _ => _ | None => _ end) as [po an]. apply clip_range. exact L.
Qed.
Section Search.
  Variables (qr : R -> R -> R -> R -> R -> R -> R * R) (ph : list R -> R -> option R) (f : R -> R) (o : ls_options RSc) (phi0 sl abar : R).
  Hypothesis Se : searches o abar.
  Hypothesis Ha1 : abar <= 1.
  Hypothesis Ph : forall tr a, ph tr a = Some (f a).
  Hypothesis En : forall t, 0 <= t <= abar -> f t <= phi0 + armijo_c1 o * t * sl.
  Let low := Rmin (contraction_min o) (1 / 2).
  Let up := Rmax (contraction_max o) (1 / 2).
  Lemma low_pos : 0 < low <= 1 / 2.
  Proof. unfold low. destruct Se as [_ _ [[C _] _] _ _]. split; [apply Rmin_pos; lra|apply Rmin_r]. Qed.
  Lemma main_enough : forall k al pr tr, 0 < al <= 1 -> low * abar <= al -> al * up ^ k <= abar ->
    exists a tr', main_loop (K := RSc) qr ph k o phi0 sl al (sample2 al (f al)) pr (al :: tr) = (a, sample2 a (f a), a :: tr') /\
      0 < a <= 1 /\ low * abar <= a /\ f a <= phi0 + armijo_c1 o * a * sl.
  Proof.
    pose proof low_pos as Lp. destruct Se as [Sc1 Sab [[Cm CM] Cl] Sn Sm]. fold low in Sm.
    assert (Up : 0 < up < 1) by (unfold up; split; [eapply Rlt_le_trans; [|apply Rmax_r]; lra|apply Rmax_lub_lt; lra]).
    induction k as [|k IH]; intros al pr tr Hal Hl Hu.
    - exists al, tr. split; [reflexivity|]. split; [exact Hal|]. split; [exact Hl|]. apply En. cbn in Hu. lra.
    - cbn [main_loop]. destruct (sleb (sphi (sample2 al (f al)) - phi0)%S (armijo_c1 o * al * sl)%S) eqn:Ea.
      + exists al, tr. split; [reflexivity|]. split; [exact Hal|]. split; [exact Hl|]. apply Rleb_true in Ea. cbn in Ea. lra.
      + assert (Hgt : abar < al). { destruct (Rlt_le_dec abar al) as [|L]; [assumption|exfalso]. pose proof (En al ltac:(lra)) as E. assert (T : Rleb (f al - phi0) (armijo_c1 o * al * sl) = true) by (apply rleb_t; lra). cbn in Ea. congruence. }
        set (z := next_alpha _ _ _ _ _ _). assert (Hz : low * al <= z <= up * al) by (apply next_range; [split; assumption|lra]).
        assert (Lz : low * abar < z) by (eapply Rlt_le_trans; [|apply Hz]; apply Rmult_lt_compat_l; lra).
        assert (Eg : guard_alpha (K := RSc) o pr z = z) by (unfold guard_alpha; cbn [snan RSc]; unfold smax; cbn [sltb RSc]; rewrite rltb_f by lra; reflexivity).
        rewrite Eg. rewrite Ph. assert (Em : sleb (s := RSc) z (alpha_min o) = false). { cbn [sleb RSc]. destruct (Rleb z (alpha_min o)) eqn:E; [apply Rleb_true in E; lra|reflexivity]. }
        rewrite Em. destruct (IH z (sample2 al (f al)) (al :: tr)) as (a & tr' & E & R); [|lra| |].
        * split; [eapply Rlt_trans; [|exact Lz]; apply Rmult_lt_0_compat; lra|]. eapply Rle_trans; [apply Hz|]. nra.
        * cbn in Hu. eapply Rle_trans; [|exact Hu]. replace (al * (up * up ^ k)) with (up * al * up ^ k) by ring. apply Rmult_le_compat_r; [apply pow_le; lra|apply Hz].
        * exists a, tr'. split; [exact E|exact R].
  Qed.
  Lemma search_enough fls : (0 < fls)%nat -> dphi_thresh o <= Rabs sl ->
    exists a tr', run (K := RSc) qr ph fls o phi0 sl = Some (mkRes (K := RSc) (f a) a (a :: tr')) /\ 0 < a <= 1 /\ low * abar <= a /\ f a <= phi0 + armijo_c1 o * a * sl.
  Proof.
    intros Hf Ht. pose proof low_pos as Lp. destruct fls as [|k]; [lia|]. unfold run. cbn [first_loop]. rewrite Ph.
    assert (Eb : sltb (s := RSc) (sabs sl) (dphi_thresh o) = false) by (cbn; apply rltb_f; exact Ht). rewrite Eb.
    pose proof Se as [_ _ _ Sn Sm]. destruct (main_enough (max_num_steps o) 1 (sample0 (K := RSc)) []) as (a & tr' & E & R1 & R2 & R3); [lra|nra|rewrite Rmult_1_l; exact Sn|].
    cbn [car RSc] in *. change (s1 (s := RSc)) with 1. rewrite E. exists a, tr'. split; [|auto]. f_equal. f_equal. unfold smax. cbn [sltb RSc]. rewrite rltb_f; [reflexivity|]. fold low in Sm. lra.
  Qed.
End Search.
