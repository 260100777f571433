(** Quadratic problems with equality constraints: what one pass of the inner loop computes. *)
From Coq Require Import Reals List Bool Arith ZArith Lia Lra Psatz.
From Verif Require Import Scalar Cset_model Cset_spec Cset_proofs Armijo_model Problem_model Solver_model Solver_spec SolverR_proofs SolverS_proofs Merit_spec Merit_proofs
  Lin_spec Lin_proofs Ldlt_spec Ldlt_proofs Bk_spec Descent_spec Descent_proofs Qp_spec.
Import ListNotations.
Local Open Scope R_scope.

(** ** Lists given by their entries *)
Lemma tab_length {A} n (f : nat -> A) : length (tab n f) = n.
Proof. unfold tab. rewrite map_length, seq_length. reflexivity. Qed.
Lemma tab_nth {A} n (f : nat -> A) d i : (i < n)%nat -> nth i (tab n f) d = f i.
Proof. intros H. unfold tab. rewrite nth_indep with (d' := f 0%nat) by (rewrite map_length, seq_length; exact H). rewrite map_nth, seq_nth by exact H. reflexivity. Qed.
Lemma tab_ext {A} n (f g : nat -> A) : (forall i, (i < n)%nat -> f i = g i) -> tab n f = tab n g.
Proof. intros H. unfold tab. apply map_ext_in. intros i Hi. apply in_seq in Hi. apply H. lia. Qed.
Lemma tab_self n (v : list R) : length v = n -> v = tab n (fun i => nth i v 0).
Proof.
  intros H. apply (nth_ext _ _ 0 0); [rewrite tab_length; exact H|]. intros i Hi. rewrite tab_nth by lia. reflexivity.
Qed.
Lemma map2_tab {A B C} (h : A -> B -> C) n f g : map2 h (tab n f) (tab n g) = tab n (fun i => h (f i) (g i)).
Proof. unfold tab. induction (seq 0 n) as [|a l IH]; cbn; [reflexivity|]. rewrite IH. reflexivity. Qed.
Lemma map_tab {A B} (h : A -> B) n f : map h (tab n f) = tab n (fun i => h (f i)).
Proof. unfold tab. rewrite map_map. reflexivity. Qed.
Lemma tab_S {A} n (f : nat -> A) : tab (S n) f = tab n f ++ [f n].
Proof. unfold tab. rewrite seq_S, map_app. reflexivity. Qed.
Lemma tab_app {A} n m (f g : nat -> A) : tab n f ++ tab m g = tab (n + m) (fun i => if (i <? n)%nat then f i else g (i - n)%nat).
Proof.
  unfold tab. rewrite seq_app, map_app. f_equal.
  - apply map_ext_in. intros i Hi. apply in_seq in Hi. destruct (Nat.ltb_spec i n); [reflexivity|lia].
  - cbn [Nat.add]. clear. assert (G : forall j, map g (seq j m) = map (fun i => if (i <? n)%nat then f i else g (i - n)%nat) (seq (n + j) m)).
    { induction m as [|m IH]; intros j; cbn [seq map]; [reflexivity|]. destruct (Nat.ltb_spec (n + j) n); [lia|]. replace (n + j - n)%nat with j by lia.
      apply f_equal. rewrite (IH (S j)), Nat.add_succ_r. reflexivity. }
    rewrite G. replace (n + 0)%nat with n by lia. reflexivity.
Qed.
Lemma vadd_tab n f g : vadd (K := RSc) (tab n f) (tab n g) = tab n (fun i => f i + g i).
Proof. apply (map2_tab (A := R) (B := R)). Qed.
Lemma vsub_tab n f g : vsub (K := RSc) (tab n f) (tab n g) = tab n (fun i => f i - g i).
Proof. apply (map2_tab (A := R) (B := R)). Qed.
Lemma vscale_tab n a f : vscale (K := RSc) a (tab n f) = tab n (fun i => a * f i).
Proof. apply map_tab. Qed.
Lemma vneg_tab n f : vneg (K := RSc) (tab n f) = tab n (fun i => - f i).
Proof. apply map_tab. Qed.
Lemma vzero_tab n : vzero (K := RSc) n = tab n (fun _ => 0).
Proof. unfold vzero. induction n as [|n IH]; [reflexivity|]. rewrite tab_S, <- IH. cbn. apply repeat_cons. Qed.
Lemma vsum_tab n f : vsum (K := RSc) (tab n f) = rsum n f.
Proof. unfold vsum. induction n as [|n IH]; [reflexivity|]. rewrite tab_S, fold_left_app. cbn [fold_left]. cbn [rsum]. cbn in *. rewrite IH. reflexivity. Qed.
Lemma vdot_tab n f g : vdot (K := RSc) (tab n f) (tab n g) = rsum n (fun i => f i * g i).
Proof. unfold vdot. rewrite (map2_tab (A := R) (B := R) (C := R)). apply vsum_tab. Qed.
Lemma mtv_tab n m (A : nat -> nat -> R) v : mtv (K := RSc) n (tab m (fun k => tab n (A k))) (tab m v) = tab n (fun i => rsum m (fun k => v k * A k i)).
Proof.
  unfold mtv. rewrite (map2_tab (A := list R) (B := R) (C := list R)).
  rewrite (tab_ext m _ (fun k => tab n (fun i => v k * A k i))) by (intros; apply vscale_tab).
  rewrite vzero_tab. induction m as [|m IH]; [apply tab_ext; reflexivity|].
  rewrite tab_S, fold_left_app. cbn [fold_left]. cbn [car RSc] in *. rewrite IH, vadd_tab. reflexivity.
Qed.
Lemma mv_tab N M (A : nat -> nat -> R) v : mv (K := RSc) (tab N (fun i => tab M (A i))) (tab M v) = tab N (fun i => rsum M (fun j => A i j * v j)).
Proof. unfold mv. rewrite map_tab. apply tab_ext. intros i _. apply vdot_tab. Qed.
Lemma firstn_tab {A} n m (f : nat -> A) : firstn n (tab (n + m) f) = tab n f.
Proof. unfold tab. rewrite seq_app, map_app, firstn_app, map_length, seq_length, Nat.sub_diag. cbn. rewrite app_nil_r. apply firstn_all2. rewrite map_length, seq_length. lia. Qed.
Lemma skipn_tab {A} n m (f : nat -> A) : skipn n (tab (n + m) f) = tab m (fun i => f (n + i)%nat).
Proof.
  unfold tab. rewrite seq_app, map_app, skipn_app, map_length, seq_length, Nat.sub_diag. cbn [skipn]. rewrite skipn_all2 by (rewrite map_length, seq_length; lia).
  cbn [app Nat.add]. clear. assert (G : forall j, map f (seq (n + j) m) = map (fun i => f (n + i)%nat) (seq j m)).
  { induction m as [|m IH]; intros j; cbn; [reflexivity|]. apply f_equal. rewrite <- (IH (S j)), Nat.add_succ_r. reflexivity. }
  rewrite <- (G 0%nat). do 2 f_equal. lia.
Qed.

(** ** Values of the problem *)
Lemma qp_eval n A b x : forall ms off, eval_cons (K := RSc) (qp_cons n A b off ms) x = Ret (map (qp_con n A b (fun i => nth i x 0)) (seq off (total ms))).
Proof.
  induction ms as [|m r IH]; intros off; [reflexivity|]. cbn [qp_cons eval_cons]. cbn [f_val f_nr user bind]. unfold sized at 1.
  cbn [car RSc]. rewrite map_length, seq_length, Nat.eqb_refl. cbn [bind]. rewrite IH. cbn [bind total]. rewrite seq_app, map_app. reflexivity.
Qed.
Lemma qp_jac n A b x : forall ms off, jac_cons (K := RSc) n (qp_cons n A b off ms) x = Ret (map (fun k => tab n (A k)) (seq off (total ms))).
Proof.
  induction ms as [|m r IH]; intros off; [reflexivity|]. cbn [qp_cons jac_cons]. cbn [f_jac f_nr user bind]. unfold sized2 at 1.
  cbn [car RSc]. rewrite map_length, seq_length, Nat.eqb_refl.
  replace (forallb _ _) with true by (symmetry; apply forallb_forall; intros row Hr; apply in_map_iff in Hr as (k & <- & _); rewrite tab_length; apply Nat.eqb_refl).
  cbn [andb bind]. rewrite IH. cbn [bind total]. rewrite seq_app, map_app. reflexivity.
Qed.
Lemma qp_rows n A b : forall ms off, rows_of (qp_cons n A b off ms) = total ms.
Proof. induction ms as [|m r IH]; intros off; cbn; [reflexivity|]. rewrite IH. reflexivity. Qed.
Lemma qp_dims n A b : forall ms off, map f_nr (qp_cons n A b off ms) = ms.
Proof. induction ms as [|m r IH]; intros off; cbn; [reflexivity|]. rewrite IH. reflexivity. Qed.
Lemma qp_count n A b : forall ms off, length (qp_cons n A b off ms) = length ms.
Proof. induction ms as [|m r IH]; intros off; cbn; [reflexivity|]. rewrite IH. reflexivity. Qed.

(** ** The sets *)
Definition eqs (mu : R) (ms : list nat) : list rset := map (fun _ => CEq (K := RSc) mu) ms.
Lemma eqs_fit mu n (A : nat -> nat -> R) (b : nat -> R) : forall ms off, sets_fit (eqs mu ms) (qp_cons n A b off ms).
Proof.
  induction ms as [|m r IH]; intros off; split; cbn; constructor; try exact I; try apply (IH (off + m)%nat).
Qed.
Lemma eqs_mu mu ms : Forall (fun c => mu_of c = mu) (eqs mu ms).
Proof. induction ms; cbn; constructor; auto. Qed.
Lemma eqs_coords mu ms : coords (product_of (eqs mu ms) ms) (total ms) = repeat KEq (total ms).
Proof.
  unfold product_of. cbn [coords]. induction ms as [|m r IH]; cbn; [reflexivity|]. unfold eqs in IH. rewrite IH. symmetry. apply repeat_app.
Qed.
Lemma eqs_shape mu ms : shape (product_of (eqs mu ms) ms) (total ms).
Proof. pose proof (fit_shape _ _ (eqs_fit mu 0 (fun _ _ => 0) (fun _ => 0) ms 0)) as H. rewrite qp_dims, qp_rows in H. exact H. Qed.
Lemma map3_eq {A B C} (h : coord -> A -> B -> C) (g : A -> B -> C) n (z : list A) (o : list B) : (forall a b, h KEq a b = g a b) -> length z = n -> map3 h (repeat KEq n) z o = map2 g z o.
Proof. intros H <-. revert o. induction z as [|a z IH]; intros [|b o]; cbn; auto. rewrite H, IH. reflexivity. Qed.
Lemma map2_fst {A B} (z : list A) (o : list B) : length z = length o -> map2 (fun a _ => a) z o = z.
Proof. revert o. induction z as [|a z IH]; intros [|b o] H; cbn in *; try lia; auto. rewrite IH by lia. reflexivity. Qed.
Lemma map2_snd {A B C} (f : B -> C) (z : list A) (o : list B) : length z = length o -> map2 (fun _ a => f a) z o = map f o.
Proof. revert o. induction z as [|a z IH]; intros [|b o] H; cbn in *; try lia; auto. rewrite IH by lia. reflexivity. Qed.

(** ** Algebra of the step *)
Lemma obj_expand n Q q x d : (forall i j, (i < n)%nat -> (j < n)%nat -> Q i j = Q j i) ->
  qp_obj n Q q (fun i => x i + d i) = qp_obj n Q q x + rsum n (fun i => qp_grad n Q q x i * d i) + 1 / 2 * form n Q d.
Proof.
  intros Sy. unfold qp_obj, qp_grad, form.
  assert (E1 : rsum n (fun i => rsum n (fun j => (x i + d i) * Q i j * (x j + d j))) =
    rsum n (fun i => rsum n (fun j => x i * Q i j * x j)) + rsum n (fun i => rsum n (fun j => x i * Q i j * d j)) +
    rsum n (fun i => rsum n (fun j => d i * Q i j * x j)) + rsum n (fun i => rsum n (fun j => d i * Q i j * d j))).
  { rewrite <- !rsum_plus. apply rsum_ext. intros i _. rewrite <- !rsum_plus. apply rsum_ext. intros j _. ring. }
  assert (E2 : rsum n (fun i => rsum n (fun j => x i * Q i j * d j)) = rsum n (fun i => rsum n (fun j => d i * Q i j * x j))).
  { rewrite rsum_swap. apply rsum_ext. intros i Hi. apply rsum_ext. intros j Hj. rewrite (Sy j i) by assumption. ring. }
  assert (E3 : rsum n (fun i => (rsum n (fun j => Q i j * x j) + q i) * d i) = rsum n (fun i => rsum n (fun j => d i * Q i j * x j)) + rsum n (fun i => q i * d i)).
  { rewrite <- rsum_plus. apply rsum_ext. intros i _. rewrite Rmult_plus_distr_r, <- rsum_scale_r. f_equal. apply rsum_ext. intros j _. ring. }
  assert (E4 : rsum n (fun i => q i * (x i + d i)) = rsum n (fun i => q i * x i) + rsum n (fun i => q i * d i)).
  { rewrite <- rsum_plus. apply rsum_ext. intros i _. ring. }
  rewrite E1, E2, E3, E4. lra.
Qed.
Lemma con_expand n A b x d k : qp_con n A b (fun i => x i + d i) k = qp_con n A b x k + rsum n (fun j => A k j * d j).
Proof. unfold qp_con. assert (E : rsum n (fun j => A k j * (x j + d j)) = rsum n (fun j => A k j * x j) + rsum n (fun j => A k j * d j)) by (rewrite <- rsum_plus; apply rsum_ext; intros; ring). lra. Qed.
Lemma lag_expand n m Q q A x l d e i : qp_lag n m Q q A (fun i => x i + d i) (fun k => l k + e k) i =
  qp_lag n m Q q A x l i + rsum n (fun j => Q i j * d j) + rsum m (fun k => A k i * e k).
Proof.
  unfold qp_lag, qp_grad. assert (E : rsum n (fun j => Q i j * (x j + d j)) = rsum n (fun j => Q i j * x j) + rsum n (fun j => Q i j * d j)) by (rewrite <- rsum_plus; apply rsum_ext; intros; ring).
  assert (E2 : rsum m (fun k => (l k + e k) * A k i) = rsum m (fun k => l k * A k i) + rsum m (fun k => A k i * e k)) by (rewrite <- rsum_plus; apply rsum_ext; intros; ring). lra.
Qed.

(** The merit value of the problem. *)
Definition qp_merit n m Q q A b (mu : R) (le x l : nat -> R) : R :=
  qp_obj n Q q x + rsum m (fun k => (qp_con n A b x k + mu * le k) * (qp_con n A b x k + mu * le k)) / (2 * mu)
   + rsum m (fun k => (qp_con n A b x k + mu * (le k - l k)) * (qp_con n A b x k + mu * (le k - l k))) / (2 * mu).
Definition qp_pdal n A b (mu : R) (le x l : nat -> R) k : R := (qp_con n A b x k + mu * le k - 1 / 2 * mu * l k) * (1 / mu / (1 / 2)).
Definition qp_rp n A b (mu : R) (le x l : nat -> R) k : R := qp_con n A b x k + mu * le k - mu * l k.
(** Its slope along d, e from the gradients the solver stores. *)
Definition qp_slope n m Q q A b mu le x l (d e : nat -> R) : R :=
  rsum n (fun i => (qp_grad n Q q x i + rsum m (fun k => qp_pdal n A b mu le x l k * A k i)) * d i) +
  rsum m (fun k => 1 / 2 * mu * (l k - qp_pdal n A b mu le x l k) * e k).

Lemma slope_facts n m Q q A b mu le x l d e : 0 < mu -> (forall i j, (i < n)%nat -> (j < n)%nat -> Q i j = Q j i) -> (forall x, 0 <= form n Q x) ->
  (forall i, (i < n)%nat -> rsum n (fun j => Q i j * d j) + rsum m (fun k => A k i * e k) = - qp_lag n m Q q A x l i) ->
  (forall k, (k < m)%nat -> rsum n (fun j => A k j * d j) - mu * e k = - qp_rp n A b mu le x l k) ->
  qp_slope n m Q q A b mu le x l d e <= 0 /\
  qp_merit n m Q q A b mu le (fun i => x i + d i) (fun k => l k + e k) - qp_merit n m Q q A b mu le x l = 1 / 2 * qp_slope n m Q q A b mu le x l d e.
Proof.
  intros Hmu Sy Ps E1 E2.
  set (a := fun k => rsum n (fun j => A k j * d j)). set (rp := qp_rp n A b mu le x l). set (c := qp_con n A b x).
  assert (Ea : forall k, (k < m)%nat -> e k = (a k + rp k) / mu).
  { intros k Hk. specialize (E2 k Hk). fold (a k) (rp k) in E2. assert (a k + rp k = mu * e k) as -> by lra. field. lra. }
  assert (Sw : forall v : nat -> R, rsum n (fun i => rsum m (fun k => v k * A k i) * d i) = rsum m (fun k => v k * a k)).
  { intros v. transitivity (rsum n (fun i => rsum m (fun k => v k * A k i * d i))).
    - apply rsum_ext. intros i _. rewrite <- rsum_scale_r. reflexivity.
    - rewrite rsum_swap. apply rsum_ext. intros k _. unfold a. rewrite <- rsum_scale. apply rsum_ext. intros. ring. }
  set (G := rsum n (fun i => qp_grad n Q q x i * d i)).
  assert (Eq : form n Q d = - G - rsum m (fun k => l k * a k) - rsum m (fun k => e k * a k)).
  { assert (H : rsum n (fun i => (rsum n (fun j => Q i j * d j) + rsum m (fun k => A k i * e k)) * d i) = rsum n (fun i => - qp_lag n m Q q A x l i * d i)) by (apply rsum_ext; intros i Hi; rewrite E1 by exact Hi; reflexivity).
    assert (H1 : rsum n (fun i => (rsum n (fun j => Q i j * d j) + rsum m (fun k => A k i * e k)) * d i) = form n Q d + rsum m (fun k => e k * a k)).
    { rewrite <- Sw. unfold form. rewrite <- rsum_plus. apply rsum_ext. intros i _. rewrite Rmult_plus_distr_r. f_equal.
      - rewrite <- rsum_scale_r. apply rsum_ext. intros. ring.
      - f_equal. apply rsum_ext. intros. ring. }
    assert (H2 : rsum n (fun i => - qp_lag n m Q q A x l i * d i) = - G - rsum m (fun k => l k * a k)).
    { rewrite <- Sw. unfold G. replace (- rsum n (fun i => qp_grad n Q q x i * d i)) with (-1 * rsum n (fun i => qp_grad n Q q x i * d i)) by ring.
      rewrite <- rsum_scale, <- rsum_minus. apply rsum_ext. intros i _. unfold qp_lag. ring. }
    lra. }
  assert (Es : qp_slope n m Q q A b mu le x l d e = G + rsum m (fun k => qp_pdal n A b mu le x l k * a k) + rsum m (fun k => - rp k * e k)).
  { unfold qp_slope. f_equal.
    - unfold G. rewrite <- Sw, <- rsum_plus. apply rsum_ext. intros. ring.
    - apply rsum_ext. intros k _. f_equal. unfold qp_pdal, rp, qp_rp. fold (c k). field. lra. }
  assert (Ed : qp_slope n m Q q A b mu le x l d e = - form n Q d + rsum m (fun k => - ((a k * a k + rp k * rp k) / mu))).
  { rewrite Es, Eq.
    assert (H : rsum m (fun k => qp_pdal n A b mu le x l k * a k) + rsum m (fun k => - rp k * e k) =
      rsum m (fun k => l k * a k) + rsum m (fun k => e k * a k) + rsum m (fun k => - ((a k * a k + rp k * rp k) / mu))).
    { rewrite <- !rsum_plus. apply rsum_ext. intros k Hk. rewrite Ea by exact Hk. unfold qp_pdal. fold (c k).
      assert (C : c k + mu * le k = rp k + mu * l k) by (unfold rp, qp_rp; fold (c k); ring). rewrite C. field. lra. }
    lra. }
  split.
  - rewrite Ed. pose proof (Ps d) as P. assert (N : 0 <= rsum m (fun k => (a k * a k + rp k * rp k) / mu)).
    { clear - Hmu. induction m as [|m IH]; cbn; [lra|]. apply Rplus_le_le_0_compat; [exact IH|]. apply Rmult_le_pos; [nra|]. left. apply Rinv_0_lt_compat, Hmu. }
    assert (rsum m (fun k => - ((a k * a k + rp k * rp k) / mu)) = - rsum m (fun k => (a k * a k + rp k * rp k) / mu)).
    { replace (- rsum m (fun k => (a k * a k + rp k * rp k) / mu)) with (-1 * rsum m (fun k => (a k * a k + rp k * rp k) / mu)) by ring. rewrite <- rsum_scale. apply rsum_ext. intros. ring. }
    lra.
  - unfold qp_merit. rewrite obj_expand by exact Sy. fold G.
    set (S1 := rsum m (fun k => (qp_con n A b x k + mu * le k) * (qp_con n A b x k + mu * le k))).
    set (S2 := rsum m (fun k => (qp_con n A b x k + mu * (le k - l k)) * (qp_con n A b x k + mu * (le k - l k)))).
    assert (H1 : rsum m (fun k => (qp_con n A b (fun i => x i + d i) k + mu * le k) * (qp_con n A b (fun i => x i + d i) k + mu * le k)) / (2 * mu) - S1 / (2 * mu)
      + (rsum m (fun k => (qp_con n A b (fun i => x i + d i) k + mu * (le k - (l k + e k))) * (qp_con n A b (fun i => x i + d i) k + mu * (le k - (l k + e k)))) / (2 * mu) - S2 / (2 * mu))
      = rsum m (fun k => ((2 * (rp k + mu * l k) * a k + a k * a k) - rp k * rp k) / (2 * mu))).
    { unfold S1, S2, Rdiv. rewrite <- !rsum_scale_r. rewrite <- !rsum_minus, <- rsum_plus. apply rsum_ext. intros k Hk. rewrite con_expand. fold (a k) (c k).
      assert (C : c k = rp k + mu * l k - mu * le k) by (unfold rp, qp_rp; fold (c k); ring).
      rewrite Ea by exact Hk. rewrite C. field. lra. }
    assert (H2 : rsum m (fun k => ((2 * (rp k + mu * l k) * a k + a k * a k) - rp k * rp k) / (2 * mu)) =
      1 / 2 * (rsum m (fun k => qp_pdal n A b mu le x l k * a k) + rsum m (fun k => - rp k * e k) + rsum m (fun k => l k * a k) + rsum m (fun k => e k * a k))).
    { rewrite <- !rsum_plus, <- rsum_scale. apply rsum_ext. intros k Hk. rewrite Ea by exact Hk. unfold qp_pdal. fold (c k).
      assert (C : c k + mu * le k = rp k + mu * l k) by (unfold rp, qp_rp; fold (c k); ring). rewrite C. field. lra. }
    rewrite Es. lra.
Qed.

(** Along the multiplier updates the distance to the solution decreases. *)
Definition d2 (m : nat) (u v : nat -> R) : R := rsum m (fun k => (u k - v k) * (u k - v k)).
Lemma rsum_nonneg m f : (forall k, (k < m)%nat -> 0 <= f k) -> 0 <= rsum m f.
Proof. induction m as [|m IH]; cbn; intros H; [lra|]. pose proof (H m ltac:(lia)). assert (0 <= rsum m f) by (apply IH; intros; apply H; lia). lra. Qed.
Lemma closer n m Q q A b xs ls nu x l le : (forall x, 0 <= form n Q x) -> 0 < nu -> qp_optimal n m Q q A b xs ls ->
  (forall i, (i < n)%nat -> qp_lag n m Q q A x l i = 0) -> (forall k, (k < m)%nat -> qp_con n A b x k = nu * (l k - le k)) ->
  nu * nu * d2 m l ls + rsum m (fun k => qp_con n A b x k * qp_con n A b x k) <= nu * nu * d2 m le ls.
Proof.
  intros Ps Hn [O1 O2] H1 H2. set (d := fun i => x i - xs i).
  assert (Ex : forall k, (k < m)%nat -> rsum n (fun j => A k j * d j) = qp_con n A b x k).
  { intros k Hk. specialize (O2 k Hk). unfold qp_con in *. unfold d. assert (rsum n (fun j => A k j * (x j - xs j)) = rsum n (fun j => A k j * x j) - rsum n (fun j => A k j * xs j)) as -> by (rewrite <- rsum_minus; apply rsum_ext; intros; ring). lra. }
  assert (El : forall i, (i < n)%nat -> rsum n (fun j => Q i j * d j) + rsum m (fun k => (l k - ls k) * A k i) = 0).
  { intros i Hi. specialize (O1 i Hi). specialize (H1 i Hi). unfold qp_lag, qp_grad in *.
    assert (E1 : rsum n (fun j => Q i j * d j) = rsum n (fun j => Q i j * x j) - rsum n (fun j => Q i j * xs j)) by (rewrite <- rsum_minus; apply rsum_ext; intros; unfold d; ring).
    assert (E2 : rsum m (fun k => (l k - ls k) * A k i) = rsum m (fun k => l k * A k i) - rsum m (fun k => ls k * A k i)) by (rewrite <- rsum_minus; apply rsum_ext; intros; ring).
    lra. }
  assert (In : form n Q d + rsum m (fun k => (l k - ls k) * qp_con n A b x k) = 0).
  { transitivity (rsum n (fun i => d i * (rsum n (fun j => Q i j * d j) + rsum m (fun k => (l k - ls k) * A k i)))).
    - transitivity (form n Q d + rsum n (fun i => d i * rsum m (fun k => (l k - ls k) * A k i))).
      + f_equal. transitivity (rsum m (fun k => rsum n (fun i => d i * ((l k - ls k) * A k i)))).
        * apply rsum_ext. intros k Hk. rewrite <- Ex by exact Hk. rewrite <- rsum_scale. apply rsum_ext. intros. ring.
        * rewrite rsum_swap. apply rsum_ext. intros i _. apply rsum_scale.
      + unfold form. rewrite <- rsum_plus. apply rsum_ext. intros i _. rewrite Rmult_plus_distr_l. f_equal. rewrite <- rsum_scale. apply rsum_ext. intros. ring.
    - apply rsum_zero. intros i Hi. rewrite El by exact Hi. ring. }
  pose proof (Ps d) as P.
  assert (E : nu * nu * d2 m le ls = nu * nu * d2 m l ls - 2 * nu * rsum m (fun k => (l k - ls k) * qp_con n A b x k) + rsum m (fun k => qp_con n A b x k * qp_con n A b x k)).
  { unfold d2. rewrite <- !rsum_scale, <- rsum_minus, <- rsum_plus. apply rsum_ext. intros k Hk. rewrite H2 by exact Hk. ring. }
  assert (0 <= nu * form n Q d) by (apply Rmult_le_pos; lra). nra.
Qed.
