(** Quadratic problems with inequality constraints: one outer iteration with the primal-dual system brings the multipliers closer, up to the inner tolerance. *)
From Coq Require Import Reals List Bool Arith ZArith Lia Lra Psatz.
From Verif Require Import Scalar Cset_model Cset_spec Lin_spec Lin_proofs Ldlt_spec Solver_spec Descent_spec DescentX_proofs Qp_spec Qp_proofs QpT_proofs QpN_proofs Fac_spec Act_spec Glob_spec Pdc_spec.
Import ListNotations.
Local Open Scope R_scope.

Lemma sq_nonneg m f : 0 <= rsum m (fun k => f k * f k). Proof. apply Qp_proofs.rsum_nonneg. intros. apply Rle_0_sqr. Qed.
(** The Cauchy-Schwarz inequality. *)
Lemma cs_bound m u v a c : 0 <= a -> 0 <= c -> rsum m (fun k => u k * u k) <= a * a -> rsum m (fun k => v k * v k) <= c * c -> Rabs (rsum m (fun k => u k * v k)) <= a * c.
Proof.
  intros Ha Hc Hu Hv. set (U := rsum m (fun k => u k * u k)) in *. set (V := rsum m (fun k => v k * v k)) in *. set (W := rsum m (fun k => u k * v k)).
  assert (H : forall t, 0 <= t * t * U + 2 * t * W + V).
  { intros t. pose proof (sq_nonneg m (fun k => t * u k + v k)) as S. cbv beta in S.
    replace (rsum m (fun k => (t * u k + v k) * (t * u k + v k))) with (t * t * U + 2 * t * W + V) in S; [exact S|]. unfold U, V, W. rewrite <- !rsum_scale, <- !rsum_plus. apply rsum_ext. intros. ring. }
  assert (U0 : 0 <= U) by apply sq_nonneg. assert (V0 : 0 <= V) by apply sq_nonneg.
  assert (D : W * W <= U * V).
  { destruct (Rle_lt_or_eq_dec 0 U U0) as [Up|Uz].
    - specialize (H (- W / U)). replace (- W / U * (- W / U) * U + 2 * (- W / U) * W + V) with (V - W * W / U) in H by (field; lra).
      apply (Rmult_le_compat_l U) in H; [|lra]. replace (U * (V - W * W / U)) with (U * V - W * W) in H by (field; lra). lra.
    - rewrite <- Uz in *. destruct (Req_dec W 0) as [->|Nz]; [lra|]. specialize (H (- (V + 1) / W)). replace (- (V + 1) / W * (- (V + 1) / W) * 0 + 2 * (- (V + 1) / W) * W + V) with (- V - 2) in H by (field; exact Nz). lra. }
  apply Rabs_le. assert (U * V <= (a * c) * (a * c)) by (replace (a * c * (a * c)) with (a * a * (c * c)) by ring; apply Rmult_le_compat; assumption).
  assert (0 <= a * c) by (apply Rmult_le_pos; assumption). split; nra.
Qed.
Definition nm (m : nat) (f : nat -> R) : R := sqrt (rsum m (fun k => f k * f k)).
Lemma nm_pos m f : 0 <= nm m f. Proof. apply sqrt_pos. Qed.
Lemma nm_sq m f : nm m f * nm m f = rsum m (fun k => f k * f k). Proof. apply sqrt_sqrt, sq_nonneg. Qed.
Lemma nm_le m f a : 0 <= a -> rsum m (fun k => f k * f k) <= a * a -> nm m f <= a.
Proof. intros Ha H. unfold nm. rewrite <- (sqrt_square a Ha). apply sqrt_le_1_alt, H. Qed.
Lemma nm_cs m u v : Rabs (rsum m (fun k => u k * v k)) <= nm m u * nm m v.
Proof. apply cs_bound; try apply nm_pos; rewrite nm_sq; apply Rle_refl. Qed.
Lemma nm_tri m u v w : (forall k, (k < m)%nat -> w k = u k + v k) -> nm m w <= nm m u + nm m v.
Proof.
  intros E. pose proof (nm_pos m u). pose proof (nm_pos m v). apply nm_le; [lra|].
  rewrite (rsum_ext m _ (fun k => u k * u k + 2 * (u k * v k) + v k * v k)) by (intros k Hk; rewrite E by exact Hk; ring). rewrite !rsum_plus, rsum_scale, <- !nm_sq.
  pose proof (nm_cs m u v) as C. pose proof (Rle_abs (rsum m (fun k => u k * v k))). lra.
Qed.
Lemma nm_scale m a u : 0 <= a -> nm m (fun k => a * u k) = a * nm m u.
Proof.
  intros Ha. unfold nm. rewrite (rsum_ext m _ (fun k => (a * a) * (u k * u k))) by (intros; ring). rewrite rsum_scale, sqrt_mult_alt by nra. rewrite sqrt_square by exact Ha. reflexivity.
Qed.
Lemma nm_coord m f k : (k < m)%nat -> Rabs (f k) <= nm m f.
Proof.
  intros Hk. pose proof (nm_pos m f). rewrite <- (Rabs_pos_eq (nm m f)) by assumption. apply Rsqr_le_abs_0. unfold Rsqr. rewrite nm_sq.
  clear - Hk. induction m as [|m IH]; [lia|]. cbn. destruct (Nat.eq_dec k m) as [->|]; [pose proof (sq_nonneg m f); lra|]. pose proof (IH ltac:(lia)). pose proof (Rle_0_sqr (f m)) as S. unfold Rsqr in S. lra.
Qed.
Lemma nm_ext m u v : (forall k, (k < m)%nat -> u k = v k) -> nm m u = nm m v.
Proof. intros H. unfold nm. f_equal. apply rsum_ext. intros k Hk. rewrite H by exact Hk. reflexivity. Qed.
Lemma nm_sup m f w : 0 <= w -> (forall k, (k < m)%nat -> Rabs (f k) <= w) -> nm m f <= sqrt (INR m) * w.
Proof.
  intros Hw H. apply nm_le; [apply Rmult_le_pos; [apply sqrt_pos|exact Hw]|]. replace (sqrt (INR m) * w * (sqrt (INR m) * w)) with (sqrt (INR m) * sqrt (INR m) * (w * w)) by ring.
  rewrite sqrt_sqrt by apply pos_INR. rewrite <- rsum_const. apply rsum_le. intros k Hk. specialize (H k Hk). pose proof (Rabs_pos (f k)). rewrite <- (Rabs_pos_eq (f k * f k)) by apply Rle_0_sqr. rewrite Rabs_mult. apply Rmult_le_compat; assumption.
Qed.

Section Near.
  Variables (n m : nat) (Q : nat -> nat -> R) (q : nat -> R) (A : nat -> nat -> R) (b : nat -> R) (C : rset).
  Variables (c theta : R) (xs ls : nat -> R).
  Hypothesis Cp : 0 < c.
  Hypothesis Sc : strongly_convex n Q c.
  Hypothesis Th0 : 0 <= theta.
  Hypothesis Th : forall y, rsum m (fun k => rsum n (fun j => A k j * y j) * rsum n (fun j => A k j * y j)) <= theta * form n Q y.
  Hypothesis Opt : kkt_pair n m Q q A b C xs ls.
  Hypothesis Flat : forall z, penalty C z = 0.
  Notation con := (qp_con n A b).
  Notation lag := (qp_lag n m Q q A).
  Let dx (x : nat -> R) (i : nat) : R := x i - xs i.
  Let e (x : nat -> R) (k : nat) : R := con x k - con xs k.
  Notation F x := (form n Q (fun i => x i - xs i)).

  Lemma e_lin x k : e x k = rsum n (fun j => A k j * (x j - xs j)).
  Proof. unfold e, qp_con. rewrite (rsum_ext n (fun j => A k j * (x j - xs j)) (fun j => A k j * x j - A k j * xs j)) by (intros; ring). rewrite rsum_minus. ring. Qed.
  Lemma F_pos x : 0 <= F x.
  Proof. destruct Sc as [_ H]. eapply Rle_trans; [|apply H]. apply Rmult_le_pos; [lra|apply sq_nonneg]. Qed.
  Lemma e_sq x : nm m (e x) <= sqrt theta * sqrt (F x).
  Proof.
    apply nm_le; [apply Rmult_le_pos; apply sqrt_pos|]. replace (sqrt theta * sqrt (F x) * (sqrt theta * sqrt (F x))) with (sqrt theta * sqrt theta * (sqrt (F x) * sqrt (F x))) by ring.
    rewrite !sqrt_sqrt by (first [exact Th0|apply F_pos]). refine (Rle_trans _ _ _ (Req_le _ _ _) (Th (fun i => x i - xs i))). apply rsum_ext. intros k Hk. rewrite e_lin. reflexivity.
  Qed.
  (** The gradient of the Lagrangian, tested with x - xs. *)
  Lemma lag_test x l : rsum n (fun i => lag x l i * (x i - xs i)) = F x + rsum m (fun k => (l k - ls k) * e x k).
  Proof.
    destruct Opt as [O1 _].
    rewrite (rsum_ext m (fun k => (l k - ls k) * e x k) (fun k => rsum n (fun j => (l k - ls k) * A k j * (x j - xs j)))) by (intros k Hk; rewrite e_lin, <- rsum_scale; apply rsum_ext; intros; ring).
    rewrite rsum_swap. unfold form. rewrite <- rsum_plus. apply rsum_ext. intros i Hi. specialize (O1 i Hi).
    rewrite (rsum_ext n (fun j => (x i - xs i) * Q i j * (x j - xs j)) (fun j => (x i - xs i) * (Q i j * x j) - (x i - xs i) * (Q i j * xs j))) by (intros; ring). rewrite rsum_minus, !rsum_scale.
    rewrite (rsum_ext m (fun k => (l k - ls k) * A k i * (x i - xs i)) (fun k => (l k * A k i) * (x i - xs i) - (ls k * A k i) * (x i - xs i))) by (intros; ring). rewrite rsum_minus, !rsum_scale_r.
    unfold qp_lag, qp_grad in *. replace (rsum n (fun j => Q i j * x j) + q i + rsum m (fun k => l k * A k i)) with (rsum n (fun j => Q i j * x j) - rsum n (fun j => Q i j * xs j) + (rsum m (fun k => l k * A k i) - rsum m (fun k => ls k * A k i))) by lra. ring.
  Qed.
  Lemma lag_small x l w : 0 <= w -> (forall i, (i < n)%nat -> Rabs (lag x l i) <= w) -> rsum n (fun i => lag x l i * (x i - xs i)) <= INR n * (w * w) / (2 * c) + F x / 2.
  Proof.
    intros Hw H. destruct Sc as [_ S]. specialize (S (fun i => x i - xs i)). cbv beta in S.
    apply Rle_trans with (rsum n (fun i => w * w / (2 * c) + c / 2 * ((x i - xs i) * (x i - xs i)))).
    - apply rsum_le. intros i Hi. specialize (H i Hi). set (r := lag x l i) in *. set (d := x i - xs i).
      assert (R2 : r * r <= w * w) by (rewrite <- (Rabs_pos_eq (r * r)) by apply Rle_0_sqr; rewrite Rabs_mult; pose proof (Rabs_pos r); apply Rmult_le_compat; assumption).
      apply (Rmult_le_reg_l (2 * c)); [lra|]. replace (2 * c * (w * w / (2 * c) + c / 2 * (d * d))) with (w * w + c * d * (c * d)) by (field; lra).
      pose proof (Rle_0_sqr (r - c * d)) as Z. unfold Rsqr in Z. nra.
    - rewrite rsum_plus, rsum_const, rsum_scale. unfold Rdiv in *. rewrite <- Rmult_assoc. lra.
  Qed.

  (** x, l where the inner loop stopped, with the estimates le and the penalty parameter mu. *)
  Variables (mu w : R) (le x l z : nat -> R).
  Hypothesis Hm : 0 < mu.
  Hypothesis Hw : 0 <= w.
  Hypothesis Lg : forall i, (i < n)%nat -> Rabs (lag x l i) <= w.
  Hypothesis Nz : nearest C m mu (shift_pd_at n A b mu le x l) z.
  Let s (k : nat) : R := con x k + mu * (le k - l k) - z k.
  Hypothesis Sm : forall k, (k < m)%nat -> Rabs (s k) <= w.
  Let a (k : nat) : R := l k - ls k.
  Let d (k : nat) : R := le k - l k.
  Let sg := sqrt (INR m) * w.

  Lemma sg_pos : 0 <= sg. Proof. apply Rmult_le_pos; [apply sqrt_pos|exact Hw]. Qed.
  Lemma s_small : nm m s <= sg. Proof. apply nm_sup; assumption. Qed.
  Lemma monotone : 0 <= rsum m (fun k => (mu / 2 * a k + s k) * (e x k + mu * d k - s k)).
  Proof.
    destruct Opt as (_ & O2 & O3). destruct Nz as [N1 N2]. specialize (O3 _ (tab_length m z) N1). specialize (N2 _ (tab_length m (con xs)) O2). rewrite !Flat in N2.
    assert (E : rsum m (fun k => (mu / 2 * a k + s k) * (e x k + mu * d k - s k)) =
      - (mu / 2) * rsum m (fun k => ls k * (nth k (tab m z) 0 - con xs k)) - rsum m (fun k => (shift_pd_at n A b mu le x l k - z k) * (nth k (tab m (con xs)) 0 - z k))).
    { rewrite <- rsum_scale, <- rsum_minus. apply rsum_ext. intros k Hk. rewrite !tab_nth by exact Hk. unfold a, d, s, e, shift_pd_at, shift_at. lra. }
    rewrite E. nra.
  Qed.
  Lemma dist_le m' u v : sqdist m' u v = nm m' (fun k => u k - v k) * nm m' (fun k => u k - v k). Proof. rewrite nm_sq. reflexivity. Qed.

  Lemma fejer : nm m a * nm m a + nm m d * nm m d <= sqdist m le ls + INR n * (w * w) / (c * mu) + 4 * theta * (sg * sg) / (mu * mu * mu) + 2 * (sg / mu) * nm m a + 4 * (sg / mu) * nm m d.
  Proof.
    pose proof monotone as M. pose proof (lag_test x l) as T. pose proof (lag_small x l w Hw Lg) as R0. pose proof s_small as S0. pose proof sg_pos as Sp.
    change (rsum m (fun k => (l k - ls k) * e x k)) with (rsum m (fun k => a k * e x k)) in T.
    assert (M' : rsum m (fun k => (mu / 2 * a k + s k) * (e x k + mu * d k - s k)) =
      mu / 2 * rsum m (fun k => a k * e x k) + mu * mu / 2 * rsum m (fun k => a k * d k) - mu / 2 * rsum m (fun k => s k * a k) + rsum m (fun k => s k * e x k) + mu * rsum m (fun k => s k * d k) - rsum m (fun k => s k * s k)).
    { rewrite <- !rsum_scale, <- !rsum_plus, <- !rsum_minus, <- !rsum_plus, <- !rsum_minus. apply rsum_ext. intros. lra. }
    rewrite M' in M. clear M'. pose proof (sq_nonneg m s) as Ss.
    assert (Dd : sqdist m le ls = nm m a * nm m a + nm m d * nm m d + 2 * rsum m (fun k => a k * d k)).
    { unfold sqdist. rewrite !nm_sq, <- rsum_scale, <- !rsum_plus. apply rsum_ext. intros. unfold a, d. ring. }
    assert (Ba : - (sg * nm m a) <= rsum m (fun k => s k * a k)).
    { pose proof (nm_cs m s a) as H. pose proof (nm_pos m a). pose proof (nm_pos m s). assert (nm m s * nm m a <= sg * nm m a) by (apply Rmult_le_compat_r; assumption). pose proof (Rle_abs (- rsum m (fun k => s k * a k))) as G. rewrite Rabs_Ropp in G. lra. }
    assert (Bd : rsum m (fun k => s k * d k) <= sg * nm m d).
    { pose proof (nm_cs m s d) as H. pose proof (nm_pos m d). assert (nm m s * nm m d <= sg * nm m d) by (apply Rmult_le_compat_r; assumption). pose proof (Rle_abs (rsum m (fun k => s k * d k))). lra. }
    assert (Be : 2 / mu * rsum m (fun k => s k * e x k) <= F x / 2 + 2 * theta * (sg * sg) / (mu * mu)).
    { pose proof (nm_cs m s (e x)) as H. pose proof (e_sq x) as H2. pose proof (nm_pos m (e x)). pose proof (Rle_abs (rsum m (fun k => s k * e x k))).
      assert (H3 : rsum m (fun k => s k * e x k) <= sg * (sqrt theta * sqrt (F x))).
      { assert (nm m s * nm m (e x) <= sg * nm m (e x)) by (apply Rmult_le_compat_r; assumption). assert (sg * nm m (e x) <= sg * (sqrt theta * sqrt (F x))) by (apply Rmult_le_compat_l; assumption). lra. }
      pose proof (sqrt_sqrt theta Th0) as Q1. pose proof (sqrt_sqrt (F x) (F_pos x)) as Q2. set (h := sqrt (F x)) in *. set (t := sqrt theta) in *. rewrite <- Q1, <- Q2.
      assert (I : 0 < / mu) by (apply Rinv_0_lt_compat, Hm). pose proof (Rle_0_sqr (h - 2 * / mu * sg * t)) as Z. unfold Rsqr in Z.
      assert (2 / mu * rsum m (fun k => s k * e x k) <= 2 / mu * (sg * (t * h))) by (apply Rmult_le_compat_l; [unfold Rdiv; lra|exact H3]).
      replace (2 * (t * t) * (sg * sg) / (mu * mu)) with (2 * (/ mu * sg * t) * (/ mu * sg * t)) by (field; lra). unfold Rdiv in *. nra. }
    assert (Ia : 0 < / mu) by (apply Rinv_0_lt_compat, Hm).
    (* everything times 4 / mu^2 *)
    apply (Rmult_le_compat_l (4 * / mu * / mu)) in M; [|nra]. rewrite Rmult_0_r in M.
    replace (4 * / mu * / mu * (mu / 2 * rsum m (fun k => a k * e x k) + mu * mu / 2 * rsum m (fun k => a k * d k) - mu / 2 * rsum m (fun k => s k * a k) + rsum m (fun k => s k * e x k) + mu * rsum m (fun k => s k * d k) - rsum m (fun k => s k * s k)))
      with (2 * / mu * rsum m (fun k => a k * e x k) + 2 * rsum m (fun k => a k * d k) - 2 * / mu * rsum m (fun k => s k * a k) + 2 * / mu * (2 / mu * rsum m (fun k => s k * e x k)) + 4 * / mu * rsum m (fun k => s k * d k) - 4 * / mu * / mu * rsum m (fun k => s k * s k)) in M by (field; lra).
    assert (P1 : 2 * / mu * (rsum m (fun k => a k * e x k) + 2 / mu * rsum m (fun k => s k * e x k)) <= 2 * / mu * (INR n * (w * w) / (2 * c) + 2 * theta * (sg * sg) / (mu * mu))) by (apply Rmult_le_compat_l; [lra|lra]).
    assert (P2 : 2 * / mu * - (sg * nm m a) <= 2 * / mu * rsum m (fun k => s k * a k)) by (apply Rmult_le_compat_l; [lra|exact Ba]).
    assert (P3 : 4 * / mu * rsum m (fun k => s k * d k) <= 4 * / mu * (sg * nm m d)) by (apply Rmult_le_compat_l; [lra|exact Bd]).
    assert (P4 : 0 <= 4 * / mu * / mu * rsum m (fun k => s k * s k)) by (apply Rmult_le_pos; [nra|exact Ss]).
    replace (2 * / mu * (INR n * (w * w) / (2 * c) + 2 * theta * (sg * sg) / (mu * mu))) with (INR n * (w * w) / (c * mu) + 4 * theta * (sg * sg) / (mu * mu * mu)) in P1 by (field; split; lra).
    unfold Rdiv in *. rewrite Dd. lra.
  Qed.
  Lemma fejer_drift Dl : 0 <= Dl -> sqdist m le ls <= Dl * Dl -> nm m a <= Dl + drift n m c theta mu w /\ nm m d <= Dl + drift n m c theta mu w.
  Proof.
    intros HD H. pose proof fejer as Fj. pose proof sg_pos as Sp. unfold drift. cbv zeta. fold sg. set (g := INR n * (w * w) / (c * mu) + 4 * theta * (sg * sg) / (mu * mu * mu) + 5 * (sg * sg) / (mu * mu)).
    assert (Ip : 0 < / mu) by (apply Rinv_0_lt_compat, Hm). set (t := sg / mu) in *. assert (T0 : 0 <= t) by (unfold t, Rdiv; apply Rmult_le_pos; lra).
    assert (Tt : 5 * (sg * sg) / (mu * mu) = 5 * (t * t)) by (unfold t; field; lra).
    assert (G0 : 0 <= g).
    { unfold g. assert (0 <= INR n * (w * w) / (c * mu)) by (apply Rmult_le_pos; [apply Rmult_le_pos; [apply pos_INR|nra]|left; apply Rinv_0_lt_compat; nra]).
      assert (0 <= 4 * theta * (sg * sg) / (mu * mu * mu)) by (apply Rmult_le_pos; [apply Rmult_le_pos; nra|left; apply Rinv_0_lt_compat; assert (0 < mu * mu) by nra; nra]). rewrite Tt. nra. }
    pose proof (sqrt_sqrt g G0) as Sg. pose proof (sqrt_pos g) as Sg0. set (h := sqrt g) in *.
    assert (K : (nm m a - t) * (nm m a - t) + (nm m d - 2 * t) * (nm m d - 2 * t) <= (Dl + h) * (Dl + h)).
    { assert (0 <= Dl * h) by (apply Rmult_le_pos; assumption). assert (Gt : g = INR n * (w * w) / (c * mu) + 4 * theta * (sg * sg) / (mu * mu * mu) + 5 * (t * t)) by (unfold g; rewrite Tt; reflexivity). rewrite Gt in Sg. lra. }
    assert (0 <= (Dl + h) * (Dl + h)) by nra. split.
    - assert (Z : (nm m a - t) * (nm m a - t) <= (Dl + h) * (Dl + h)) by (pose proof (Rle_0_sqr (nm m d - 2 * t)) as Z; unfold Rsqr in Z; lra). assert (nm m a - t <= Dl + h) by nra. lra.
    - assert (Z : (nm m d - 2 * t) * (nm m d - 2 * t) <= (Dl + h) * (Dl + h)) by (pose proof (Rle_0_sqr (nm m a - t)) as Z; unfold Rsqr in Z; lra). assert (nm m d - 2 * t <= Dl + h) by nra. lra.
  Qed.
  (** The point stays near the solution. *)
  Lemma point_near Bl : 0 <= Bl -> nm m a <= Bl -> F x <= 2 * INR n * (w * w) / c + 4 * theta * (Bl * Bl).
  Proof.
    intros HB Ha. pose proof (lag_test x l) as T. pose proof (lag_small x l w Hw Lg) as R0. change (rsum m (fun k => (l k - ls k) * e x k)) with (rsum m (fun k => a k * e x k)) in T.
    pose proof (nm_cs m a (e x)) as H. pose proof (e_sq x) as H2. pose proof (nm_pos m (e x)). pose proof (nm_pos m a). pose proof (Rle_abs (- rsum m (fun k => a k * e x k))) as G. rewrite Rabs_Ropp in G.
    assert (H3 : nm m a * nm m (e x) <= Bl * (sqrt theta * sqrt (F x))) by (apply Rmult_le_compat; assumption).
    pose proof (sqrt_sqrt theta Th0) as Q1. pose proof (sqrt_sqrt (F x) (F_pos x)) as Q2. set (h := sqrt (F x)) in *. set (t := sqrt theta) in *. rewrite <- Q1.
    pose proof (Rle_0_sqr (h - 2 * Bl * t)) as Z. unfold Rsqr in Z. replace (INR n * (w * w) / (2 * c)) with (INR n * (w * w) / c / 2) in R0 by (field; lra).
    replace (2 * INR n * (w * w) / c) with (2 * (INR n * (w * w) / c)) by (unfold Rdiv; ring). assert (2 * (Bl * (t * h)) <= h * h / 2 + 2 * (t * t) * (Bl * Bl)) by nra. lra.
  Qed.
  (** The primal residual that the solver reports. *)
  Lemma prim_bound z' k : nearest C m mu (fun k => con x k + mu * l k) z' -> (k < m)%nat -> Rabs (con x k - z' k) <= w + sg + 2 * (mu * nm m d).
  Proof.
    intros [N1' N2'] Hk. destruct Nz as [N1 N2]. specialize (N2 _ (tab_length m z') N1'). specialize (N2' _ (tab_length m z) N1). rewrite !Flat in *.
    set (u := fun k => z' k - z k). set (v := fun k => s k + mu * d k).
    assert (E : rsum m (fun k => u k * u k) + rsum m (fun k => v k * u k) = 2 * rsum m (fun k => (shift_pd_at n A b mu le x l k - z k) * (nth k (tab m z') 0 - z k)) + rsum m (fun k => (con x k + mu * l k - z' k) * (nth k (tab m z) 0 - z' k))).
    { rewrite <- rsum_scale, <- !rsum_plus. apply rsum_ext. intros j Hj. rewrite !tab_nth by exact Hj. unfold u, v, d, s, shift_pd_at, shift_at. lra. }
    pose proof (nm_cs m v u) as H. pose proof (Rle_abs (- rsum m (fun k => v k * u k))) as G. rewrite Rabs_Ropp in G. rewrite <- nm_sq in E. pose proof (nm_pos m u) as U0. pose proof (nm_pos m v) as V0.
    assert (Uv : nm m u <= nm m v).
    { destruct (Rle_lt_dec (nm m u) (nm m v)) as [L|L]; [exact L|]. assert (nm m v * nm m u < nm m u * nm m u) by (apply Rmult_lt_compat_r; lra). lra. }
    pose proof (nm_tri m s (fun k => mu * d k) v (fun k _ => eq_refl)) as T. rewrite nm_scale in T by lra. pose proof s_small as S0.
    pose proof (nm_coord m u k Hk) as Cu. pose proof (nm_coord m d k Hk) as Cd. specialize (Sm k Hk).
    replace (con x k - z' k) with (s k + - (mu * d k) + - u k) by (unfold u, d, s; ring).
    eapply Rle_trans; [apply Rabs_triang|]. rewrite Rabs_Ropp. assert (Rabs (s k + - (mu * d k)) <= w + mu * nm m d).
    { eapply Rle_trans; [apply Rabs_triang|]. rewrite Rabs_Ropp, Rabs_mult, (Rabs_pos_eq mu) by lra. assert (mu * Rabs (d k) <= mu * nm m d) by (apply Rmult_le_compat_l; lra). lra. }
    lra.
  Qed.
End Near.

Lemma drift_mono n m c theta mu w w' : 0 < c -> 0 <= theta -> 0 < mu -> 0 <= w -> w <= w' -> drift n m c theta mu w <= drift n m c theta mu w'.
Proof.
  intros Cp T M W0 W. unfold drift. cbv zeta. set (r := sqrt (INR m)). pose proof (sqrt_pos (INR m)) as R0. fold r in R0.
  assert (S : r * w <= r * w') by (apply Rmult_le_compat_l; assumption). assert (S0 : 0 <= r * w) by (apply Rmult_le_pos; assumption).
  assert (Sq : r * w * (r * w) <= r * w' * (r * w')) by (apply Rmult_le_compat; assumption). assert (Wq : w * w <= w' * w') by (apply Rmult_le_compat; assumption).
  assert (I : 0 < / mu) by (apply Rinv_0_lt_compat, M). assert (I2 : 0 < / (c * mu)) by (apply Rinv_0_lt_compat; nra). assert (0 < mu * mu) by nra. assert (I3 : 0 < / (mu * mu * mu)) by (apply Rinv_0_lt_compat; nra). assert (I4 : 0 < / (mu * mu)) by (apply Rinv_0_lt_compat; nra).
  apply Rplus_le_compat; [unfold Rdiv; apply Rmult_le_compat_l; [lra|]; apply Rmult_le_compat_r; lra|]. apply sqrt_le_1_alt. unfold Rdiv. pose proof (pos_INR n).
  repeat apply Rplus_le_compat; apply Rmult_le_compat_r; try lra; apply Rmult_le_compat_l; try lra; nra.
Qed.

(** The merit function at the start of an inner loop. *)
Lemma merit_top_ok n m Q q A b C theta xs ls X B mu le x l v : (forall i j, (i < n)%nat -> (j < n)%nat -> Q i j = Q j i) -> 0 <= theta ->
  (forall y, rsum m (fun k => rsum n (fun j => A k j * y j) * rsum n (fun j => A k j * y j)) <= theta * form n Q y) -> kkt_pair n m Q q A b C xs ls -> (forall z, penalty C z = 0) -> 0 < mu ->
  form n Q (fun i => x i - xs i) <= X -> sqdist m l ls <= B * B -> sqdist m le ls <= B * B -> merit_at n m Q q A b C mu le x l v -> v <= merit_top n m Q q theta X B xs ls mu.
Proof.
  intros Sy T0 Th [O1 [O2 O3]] Fl Hm HX Hl Hle (z & [N1 N2] & ->). rewrite !Fl. specialize (N2 _ (tab_length m (qp_con n A b xs)) O2). rewrite !Fl in N2.
  set (vv := shift_pd_at n A b mu le x l) in *. set (zs := qp_con n A b xs) in *. set (F := form n Q (fun i => x i - xs i)) in *. set (e := fun k => qp_con n A b x k - zs k).
  assert (Ee : forall k, e k = rsum n (fun j => A k j * (x j - xs j))).
  { intros k. unfold e, zs, qp_con. rewrite (rsum_ext n (fun j => A k j * (x j - xs j)) (fun j => A k j * x j - A k j * xs j)) by (intros; ring). rewrite rsum_minus. ring. }
  assert (E2 : rsum m (fun k => e k * e k) <= theta * X).
  { apply Rle_trans with (theta * F); [|apply Rmult_le_compat_l; assumption]. refine (Rle_trans _ _ _ (Req_le _ _ _) (Th (fun i => x i - xs i))). apply rsum_ext. intros k Hk. rewrite Ee. reflexivity. }
  assert (Pz : rsum m (fun k => (vv k - z k) * (vv k - z k)) <= rsum m (fun k => (vv k - zs k) * (vv k - zs k))).
  { assert (E : rsum m (fun k => (vv k - zs k) * (vv k - zs k)) = rsum m (fun k => (vv k - z k) * (vv k - z k)) - 2 * rsum m (fun k => (vv k - z k) * (nth k (tab m zs) 0 - z k)) + rsum m (fun k => (zs k - z k) * (zs k - z k))).
    { rewrite <- rsum_scale, <- rsum_minus, <- rsum_plus. apply rsum_ext. intros k Hk. rewrite tab_nth by exact Hk. ring. }
    rewrite E. pose proof (sq_nonneg m (fun k => zs k - z k)) as Z. cbv beta in Z. lra. }
  set (L := rsum m (fun k => ls k * ls k)). unfold sqdist in Hl, Hle. set (a2 := rsum m (fun k => (l k - ls k) * (l k - ls k))) in *. set (d2 := rsum m (fun k => (le k - ls k) * (le k - ls k))) in *.
  assert (Obj : qp_obj n Q q x <= qp_obj n Q q xs + X / 2 + (L + theta * X) / 2).
  { assert (Eo : qp_obj n Q q x = qp_obj n Q q xs + F / 2 - rsum m (fun k => ls k * e k)).
    { assert (G : rsum m (fun k => ls k * e k) = - rsum n (fun i => qp_grad n Q q xs i * (x i - xs i))).
      { rewrite (rsum_ext m _ (fun k => rsum n (fun j => ls k * A k j * (x j - xs j)))) by (intros k Hk; rewrite Ee, <- rsum_scale; apply rsum_ext; intros; ring). rewrite rsum_swap.
        replace (- rsum n (fun i => qp_grad n Q q xs i * (x i - xs i))) with (-1 * rsum n (fun i => qp_grad n Q q xs i * (x i - xs i))) by ring. rewrite <- rsum_scale. apply rsum_ext. intros i Hi. rewrite rsum_scale_r. specialize (O1 i Hi). unfold qp_lag in O1. replace (rsum m (fun k => ls k * A k i)) with (- qp_grad n Q q xs i) by lra. ring. }
      rewrite G. unfold qp_obj, F, form, qp_grad.
      assert (S1 : rsum n (fun i => rsum n (fun j => (x i - xs i) * Q i j * (x j - xs j))) = rsum n (fun i => rsum n (fun j => x i * Q i j * x j)) - 2 * rsum n (fun i => rsum n (fun j => Q i j * xs j) * x i) + rsum n (fun i => rsum n (fun j => xs i * Q i j * xs j))).
      { assert (Sw : rsum n (fun i => rsum n (fun j => xs i * Q i j * x j)) = rsum n (fun i => rsum n (fun j => Q i j * xs j) * x i)).
        { rewrite rsum_swap. apply rsum_ext. intros j Hj. rewrite <- rsum_scale_r. apply rsum_ext. intros i Hi. rewrite (Sy i j) by assumption. ring. }
        replace (2 * rsum n (fun i => rsum n (fun j => Q i j * xs j) * x i)) with (rsum n (fun i => rsum n (fun j => Q i j * xs j) * x i) + rsum n (fun i => rsum n (fun j => xs i * Q i j * x j))) by (rewrite Sw; ring).
        rewrite <- rsum_plus, <- rsum_minus, <- rsum_plus. apply rsum_ext. intros i Hi. rewrite <- rsum_scale_r, <- rsum_plus, <- rsum_minus, <- rsum_plus. apply rsum_ext. intros. ring. }
      rewrite S1. rewrite (rsum_ext n (fun i => (rsum n (fun j => Q i j * xs j) + q i) * (x i - xs i)) (fun i => rsum n (fun j => Q i j * xs j) * x i - rsum n (fun j => Q i j * xs j) * xs i + (q i * x i - q i * xs i))) by (intros; ring).
      rewrite rsum_plus, !rsum_minus. replace (rsum n (fun i => rsum n (fun j => Q i j * xs j) * xs i)) with (rsum n (fun i => rsum n (fun j => xs i * Q i j * xs j))) by (apply rsum_ext; intros i Hi; rewrite <- rsum_scale_r; apply rsum_ext; intros; ring). lra. }
    assert (Cr : - rsum m (fun k => ls k * e k) <= (L + theta * X) / 2).
    { pose proof (sq_nonneg m (fun k => ls k + e k)) as Z. cbv beta in Z. rewrite (rsum_ext m _ (fun k => ls k * ls k + 2 * (ls k * e k) + e k * e k)) in Z by (intros; ring). rewrite !rsum_plus, rsum_scale in Z. fold L in Z. lra. }
    rewrite Eo. lra. }
  assert (Sh : rsum m (fun k => (vv k - zs k) * (vv k - zs k)) <= 2 * (theta * X) + 2 * (mu * mu) * (3 * (B * B + B * B / 4 + L / 4))).
  { apply Rle_trans with (2 * rsum m (fun k => e k * e k) + 2 * (mu * mu) * (3 * (d2 + a2 / 4 + L / 4))).
    - unfold d2, a2, L, Rdiv. rewrite <- !rsum_scale_r, <- !rsum_plus, <- !rsum_scale, <- rsum_plus. apply rsum_le. intros k Hk.
      assert (Ev : vv k - zs k = e k + mu * (le k - l k / 2)) by (unfold vv, shift_pd_at, shift_at, e; lra). rewrite Ev.
      set (p1 := le k - ls k). set (p2 := l k - ls k). replace (le k - l k / 2) with (p1 - p2 / 2 + ls k / 2) by (unfold p1, p2; lra). set (y := p1 - p2 / 2 + ls k / 2).
      assert (Y : y * y <= 3 * (p1 * p1 + p2 * p2 * / 4 + ls k * ls k * / 4)).
      { pose proof (Rle_0_sqr (p1 + p2 / 2)) as Z1. pose proof (Rle_0_sqr (p1 - ls k / 2)) as Z2. pose proof (Rle_0_sqr (p2 / 2 + ls k / 2)) as Z3. unfold Rsqr in *. unfold y. nra. }
      pose proof (Rle_0_sqr (e k - mu * y)) as Z. unfold Rsqr in Z. assert (mu * mu * (y * y) <= mu * mu * (3 * (p1 * p1 + p2 * p2 * / 4 + ls k * ls k * / 4))) by (apply Rmult_le_compat_l; [nra|exact Y]). nra.
    - assert (2 * (mu * mu) * (3 * (d2 + a2 / 4 + L / 4)) <= 2 * (mu * mu) * (3 * (B * B + B * B / 4 + L / 4))) by (apply Rmult_le_compat_l; [nra|lra]). lra. }
  assert (Ll : rsum m (fun k => l k * l k) <= 2 * (B * B + L)).
  { apply Rle_trans with (2 * (a2 + L)); [|lra]. unfold a2, L. rewrite <- rsum_plus, <- rsum_scale. apply rsum_le. intros k Hk. pose proof (Rle_0_sqr (l k - 2 * ls k)) as Z. unfold Rsqr in Z. nra. }
  unfold merit_top. cbv zeta. fold L.
  assert (I : 0 < / mu) by (apply Rinv_0_lt_compat, Hm).
  assert (K1 : rsum m (fun k => (vv k - z k) * (vv k - z k)) / mu <= (2 * (theta * X) + 2 * (mu * mu) * (3 * (B * B + B * B / 4 + L / 4))) / mu) by (unfold Rdiv; apply Rmult_le_compat_r; lra).
  replace ((2 * (theta * X) + 2 * (mu * mu) * (3 * (B * B + B * B / 4 + L / 4))) / mu) with (2 * theta * X / mu + 6 * mu * (B * B + B * B / 4 + L / 4)) in K1 by (field; lra).
  assert (K2 : mu * rsum m (fun k => l k * l k) / 4 <= mu * (B * B + L) / 2) by (assert (mu * rsum m (fun k => l k * l k) <= mu * (2 * (B * B + L))) by (apply Rmult_le_compat_l; lra); lra).
  lra.
Qed.
