(** Quadratic problems with inequality constraints: coordinates of the sets, and algebra of the step. *)
From Coq Require Import Reals List Bool Arith ZArith Lia Lra Psatz.
From Verif Require Import Scalar Cset_model Cset_spec Cset_proofs Armijo_model Problem_model Solver_model Solver_spec SolverR_proofs SolverS_proofs Merit_spec Merit_proofs
  Lin_spec Lin_proofs Ldlt_spec Ldlt_proofs Bk_spec Descent_spec Descent_proofs DescentX_proofs Refine_proofs Qp_spec Qp_proofs QpD_proofs QpT_proofs QpN_proofs Act_spec.
Import ListNotations.
Local Open Scope R_scope.

(** ** One coordinate *)
(** The projection of z + l is z when l is normal at z. *)
Lemma cproj_normal k z l : cok k -> cnol1 k -> cin k z -> (forall y, cin k y -> l * (y - z) <= 0) -> cproj k (z + l) = z.
Proof.
  intros Ho Hn Hz Hl. assert (V := cvar k 0 (z + l) z Ho). assert (M : cmu 0 k) by (destruct k; cbn in *; tauto).
  specialize (V M (Rle_refl 0) Hz). specialize (Hl _ (cproj_cin k (z + l) Ho)).
  assert (E : cpen k z - cpen k (cproj k (z + l)) = 0) by (destruct k; cbn in *; try lra; tauto).
  pose proof (cone_sum k (z + l)) as S. set (c := cproj k (z + l)) in *. replace (ccone k (z + l)) with (z + l - c) in V by lra.
  assert ((z - c) * (z - c) <= 0) by lra. assert (z - c = 0) by (destruct (Req_dec (z - c) 0) as [|N]; [assumption|]; pose proof (Rsqr_pos_lt _ N); unfold Rsqr in *; lra). lra.
Qed.
Lemma ccone_normal k z l : cok k -> cnol1 k -> cin k z -> (forall y, cin k y -> l * (y - z) <= 0) -> ccone k (z + l) = l.
Proof. intros H1 H2 H3 H4. pose proof (cone_sum k (z + l)). rewrite (cproj_normal k z l H1 H2 H3 H4) in H. lra. Qed.
Lemma env1_cone mu k x : cnol1 k -> env1 mu k x = ccone k x * ccone k x / (2 * mu).
Proof. intros H. unfold env1. assert (E : x - cproj k x = ccone k x) by (pose proof (cone_sum k x); lra). rewrite E. destruct k; cbn in *; try lra; tauto. Qed.

(** ** The solution of the subproblem, row by row *)
Lemma in_set_nth c m z : shape c m -> length z = m -> (in_set c z <-> forall k, (k < m)%nat -> cin (nth k (coords c m) KEq) (nth k z 0)).
Proof.
  intros Sh L. rewrite (in_set_coords c m z Sh L). pose proof (coords_length c m Sh) as Lk. split.
  - intros F k Hk. apply (Forall2_nth cin _ _ k KEq 0 F). rewrite Lk. exact Hk.
  - intros H. revert H. cbn [car RSc] in *. rewrite <- Lk in L. clear Sh. assert (Hm : forall k, (k < length (coords c m))%nat -> (k < m)%nat) by (intros; lia). clear Lk.
    intros H. assert (H' : forall k, (k < length (coords c m))%nat -> cin (nth k (coords c m) KEq) (nth k z 0)) by (intros k Hk; apply H, Hm, Hk). clear H Hm.
    revert z L H'. induction (coords c m) as [|a ks IH]; intros [|x z] L H; try discriminate; constructor.
    + apply (H 0%nat). cbn. lia.
    + apply IH; [cbn in L; lia|]. intros k Hk. apply (H (S k)). cbn. lia.
Qed.
Lemma sub_rows n m Q q A b C mu le x l : shape C m -> subproblem n m Q q A b C mu le x l -> forall k, (k < m)%nat ->
  cin (nth k (coords C m) KEq) (qp_con n A b x k + mu * (le k - l k)) /\
  forall y, cin (nth k (coords C m) KEq) y -> l k * (y - (qp_con n A b x k + mu * (le k - l k))) <= 0.
Proof.
  intros Sh (_ & Hin & Hn) k Hk. set (z := fun k => qp_con n A b x k + mu * (le k - l k)) in *.
  rewrite in_set_nth in Hin by (try exact Sh; apply tab_length). split.
  - specialize (Hin k Hk). rewrite tab_nth in Hin by exact Hk. exact Hin.
  - intros y Hy. set (w := fun j => if (j =? k)%nat then y else z j).
    specialize (Hn (tab m w) (tab_length m w)). eapply Rle_trans; [|apply Hn].
    + rewrite (rsum_one m _ k Hk).
      * rewrite tab_nth by exact Hk. unfold w. rewrite Nat.eqb_refl. apply Rle_refl.
      * intros j Hj Hne. rewrite tab_nth by exact Hj. unfold w. destruct (Nat.eqb_spec j k); [lia|]. unfold z. ring.
    + rewrite in_set_nth by (try exact Sh; apply tab_length). intros j Hj. rewrite tab_nth by exact Hj. unfold w. destruct (Nat.eqb_spec j k) as [->|]; [exact Hy|].
      specialize (Hin j Hj). rewrite tab_nth in Hin by exact Hj. exact Hin.
Qed.

(** ** Algebra of the step *)
Lemma row_change mu ls l a c0 c1 (act : bool) : 0 < mu -> c1 = 1 / 2 * mu * ls -> (if act then c1 - c0 = a - 1 / 2 * mu * (ls - l) else c1 = 0 /\ c0 = 0) ->
  2 * (c1 * c1 / (2 * mu)) + mu * (ls * ls) / 4 - (2 * (c0 * c0 / (2 * mu)) + mu * (l * l) / 4) - 1 / 2 * (ls * a) =
  1 / 2 * (c0 * (1 / mu / (1 / 2)) * a + 1 / 2 * mu * (l - c0 * (1 / mu / (1 / 2))) * (ls - l)) /\
  - (ls * a) + c0 * (1 / mu / (1 / 2)) * a + 1 / 2 * mu * (l - c0 * (1 / mu / (1 / 2))) * (ls - l) <= 0.
Proof.
  intros Hm E H. destruct act.
  - assert (E0 : c0 = 1 / 2 * mu * ls - (a - 1 / 2 * mu * (ls - l))) by lra. subst c0 c1. split; [field; lra|].
    set (u := a - 1 / 2 * mu * (ls - l)).
    assert (E : - (ls * a) + (1 / 2 * mu * ls - u) * (1 / mu / (1 / 2)) * a + 1 / 2 * mu * (l - (1 / 2 * mu * ls - u) * (1 / mu / (1 / 2))) * (ls - l) = - (2 / mu * (u * u)) - mu / 2 * ((ls - l) * (ls - l)))
      by (unfold u; field; lra).
    rewrite E. assert (0 <= 2 / mu) by (apply Rlt_le, Rdiv_lt_0_compat; lra). pose proof (Rle_0_sqr u). pose proof (Rle_0_sqr (ls - l)). unfold Rsqr in *. nra.
  - destruct H as [H1 ->]. assert (ls = 0) by nra. subst ls. subst c1. split; [field; lra|]. pose proof (Rle_0_sqr l). unfold Rsqr in *.
    replace (- (0 * a) + 0 * (1 / mu / (1 / 2)) * a + 1 / 2 * mu * (l - 0 * (1 / mu / (1 / 2))) * (0 - l)) with (- (1 / 2 * mu * (l * l))) by ring. nra.
Qed.
Section Algebra.
  Variables (n m : nat) (Q : nat -> nat -> R) (q : nat -> R) (A : nat -> nat -> R) (b : nat -> R).
  Hypothesis Def : definite n Q.
  Variables (K : nat -> coord) (mu : R) (le x l xs ls : nat -> R).
  Hypothesis Hm : 0 < mu.
  Notation sh := (shift_at n A b mu le).
  Notation spd := (shift_pd_at n A b mu le).
  (** The solution, in the rows. *)
  Hypothesis Lag : forall i, (i < n)%nat -> qp_lag n m Q q A xs ls i = 0.
  Hypothesis Cs : forall k, (k < m)%nat -> ccone (K k) (sh xs k) = mu * ls k /\ ccone (K k) (spd xs ls k) = 1 / 2 * mu * ls k.
  Hypothesis Ok : forall k, (k < m)%nat -> cok (K k).
  Hypothesis Same : forall k, (k < m)%nat -> csame (K k) (sh x k) (sh xs k) /\ csame (K k) (spd x l k) (spd xs ls k).
  Let sel (k : nat) : bool := cact (K k) (sh x k).
  Let d (i : nat) : R := xs i - x i.
  Let e (k : nat) : R := ls k - l k.
  Let ax (k : nat) : R := rsum n (fun j => A k j * d j).

  Lemma xs_move : forall i, (fun i => x i + d i) i = xs i. Proof. intros i. unfold d. ring. Qed.
  Lemma sh_move k : sh xs k - sh x k = ax k.
  Proof.
    unfold shift_at. pose proof (con_expand n A b x d k) as E. rewrite (con_ext n A b (fun i => x i + d i) xs) in E by (intros; apply xs_move). fold (ax k) in E. lra.
  Qed.
  Lemma spd_move k : spd xs ls k - spd x l k = ax k - 1 / 2 * mu * e k.
  Proof. unfold shift_pd_at. pose proof (sh_move k). unfold e. lra. Qed.
  (** A row that is not active has no multiplier. *)
  Lemma inactive_row k : (k < m)%nat -> sel k = false -> ls k = 0 /\ ccone (K k) (sh x k) = 0.
  Proof.
    intros Hk E. destruct (csame_act _ _ _ (Ok k Hk) (proj1 (Same k Hk))) as [_ F]. unfold sel in E. rewrite E in F. destruct F as [F1 F2].
    split; [|exact F1]. destruct (Cs k Hk) as [C1 _]. rewrite C1 in F2. nra.
  Qed.
  (** The step to the solution solves the Newton system of the active rows. *)
  Lemma newton_head i : (i < n)%nat ->
    rsum n (fun j => Q i j * d j) + rsum m (fun k => chosen A sel k i * e k) = - (qp_grad n Q q x i + rsum m (fun k => l k * chosen A sel k i)).
  Proof.
    intros Hi. pose proof (Lag i Hi) as L. unfold qp_lag, qp_grad in *.
    assert (E1 : rsum n (fun j => Q i j * d j) = rsum n (fun j => Q i j * xs j) - rsum n (fun j => Q i j * x j)) by (rewrite <- rsum_minus; apply rsum_ext; intros; unfold d; ring).
    assert (E2 : rsum m (fun k => chosen A sel k i * e k) = rsum m (fun k => ls k * A k i) - rsum m (fun k => l k * chosen A sel k i)).
    { rewrite <- rsum_minus. apply rsum_ext. intros k Hk. unfold chosen, e. destruct (sel k) eqn:E; [ring|]. rewrite (proj1 (inactive_row k Hk E)). ring. }
    lra.
  Qed.
  Lemma newton_tail k : (k < m)%nat -> rsum n (fun j => chosen A sel k j * d j) - mu * e k = - (ccone (K k) (sh x k) - mu * l k).
  Proof.
    intros Hk. unfold chosen. destruct (sel k) eqn:E.
    - fold (ax k). destruct (csame_act _ _ _ (Ok k Hk) (proj1 (Same k Hk))) as [_ F]. unfold sel in E. rewrite E in F. rewrite (proj1 (Cs k Hk)) in F. pose proof (sh_move k). unfold e. lra.
    - destruct (inactive_row k Hk E) as [E1 E2]. rewrite E2. unfold e. rewrite E1, rsum_zero by (intros; ring). ring.
  Qed.
  (** It is the only solution. *)
  Lemma newton_unique (u v : nat -> R) :
    (forall i, (i < n)%nat -> rsum n (fun j => Q i j * u j) + rsum m (fun k => chosen A sel k i * v k) = - (qp_grad n Q q x i + rsum m (fun k => l k * chosen A sel k i))) ->
    (forall k, (k < m)%nat -> rsum n (fun j => chosen A sel k j * u j) - mu * v k = - (ccone (K k) (sh x k) - mu * l k)) ->
    (forall i, (i < n)%nat -> u i = d i) /\ (forall k, (k < m)%nat -> v k = e k).
  Proof.
    intros H1 H2. set (y := fun i => u i - d i). set (w := fun k => v k - e k).
    assert (Y1 : forall i, (i < n)%nat -> rsum n (fun j => Q i j * y j) + rsum m (fun k => chosen A sel k i * w k) = 0).
    { intros i Hi. pose proof (H1 i Hi) as a1. pose proof (newton_head i Hi) as a2.
      assert (E1 : rsum n (fun j => Q i j * y j) = rsum n (fun j => Q i j * u j) - rsum n (fun j => Q i j * d j)) by (rewrite <- rsum_minus; apply rsum_ext; intros; unfold y; ring).
      assert (E2 : rsum m (fun k => chosen A sel k i * w k) = rsum m (fun k => chosen A sel k i * v k) - rsum m (fun k => chosen A sel k i * e k)) by (rewrite <- rsum_minus; apply rsum_ext; intros; unfold w; ring).
      lra. }
    assert (Y2 : forall k, (k < m)%nat -> rsum n (fun j => chosen A sel k j * y j) = mu * w k).
    { intros k Hk. pose proof (H2 k Hk) as a1. pose proof (newton_tail k Hk) as a2.
      assert (E1 : rsum n (fun j => chosen A sel k j * y j) = rsum n (fun j => chosen A sel k j * u j) - rsum n (fun j => chosen A sel k j * d j)) by (rewrite <- rsum_minus; apply rsum_ext; intros; unfold y; ring).
      unfold w. lra. }
    assert (F : form n Q y + mu * rsum m (fun k => w k * w k) = 0).
    { unfold form. transitivity (rsum n (fun i => y i * (rsum n (fun j => Q i j * y j) + rsum m (fun k => chosen A sel k i * w k)))).
      - transitivity (rsum n (fun i => y i * rsum n (fun j => Q i j * y j)) + rsum n (fun i => y i * rsum m (fun k => chosen A sel k i * w k))).
        + f_equal; [apply rsum_ext; intros i _; rewrite <- rsum_scale; apply rsum_ext; intros; ring|].
          transitivity (rsum m (fun k => w k * rsum n (fun j => chosen A sel k j * y j))).
          * rewrite <- rsum_scale. apply rsum_ext. intros k Hk. rewrite Y2 by exact Hk. ring.
          * transitivity (rsum m (fun k => rsum n (fun j => w k * (chosen A sel k j * y j)))); [apply rsum_ext; intros; symmetry; apply rsum_scale|]. rewrite rsum_swap. apply rsum_ext. intros i _. rewrite <- rsum_scale. apply rsum_ext. intros. ring.
        + rewrite <- rsum_plus. apply rsum_ext. intros. ring.
      - apply rsum_zero. intros i Hi. rewrite Y1 by exact Hi. ring. }
    destruct Def as (Sy & Ps & Df). pose proof (Ps y) as P1. assert (P2 : 0 <= rsum m (fun k => w k * w k)) by (apply rsum_nonneg; intros; apply Rle_0_sqr).
    assert (F1 : form n Q y = 0) by nra. pose proof (Df y F1) as Z. split; [intros i Hi; specialize (Z i Hi); unfold y in Z; lra|].
    intros k Hk. specialize (Y2 k Hk). rewrite rsum_zero in Y2 by (intros j Hj; rewrite Z by exact Hj; ring). assert (w k = 0) by nra. unfold w in *. lra.
  Qed.

  (** The merit function and its slope. *)
  Definition act_merit (y z : nat -> R) : R := qp_obj n Q q y + 2 * rsum m (fun k => env1 mu (K k) (spd y z k)) + mu * rsum m (fun k => z k * z k) / 4.
  Definition act_pdal (y z : nat -> R) (k : nat) : R := ccone (K k) (spd y z k) * (1 / mu / (1 / 2)).
  Definition act_slope (y z u v : nat -> R) : R :=
    rsum n (fun i => (qp_grad n Q q y i + rsum m (fun k => act_pdal y z k * A k i)) * u i) + rsum m (fun k => 1 / 2 * mu * (z k - act_pdal y z k) * v k).
  Lemma rows_dot (g : nat -> R) : rsum n (fun i => rsum m (fun k => g k * A k i) * d i) = rsum m (fun k => g k * ax k).
  Proof.
    transitivity (rsum n (fun i => rsum m (fun k => g k * A k i * d i))); [apply rsum_ext; intros; rewrite <- rsum_scale_r; apply rsum_ext; intros; ring|].
    rewrite rsum_swap. apply rsum_ext. intros k _. unfold ax. rewrite <- rsum_scale. apply rsum_ext. intros. ring.
  Qed.
  Lemma act_change : act_slope x l d e <= 0 /\ act_merit xs ls - act_merit x l = 1 / 2 * act_slope x l d e.
  Proof.
    destruct Def as (Sy & Ps & _).
    set (G0 := rsum n (fun i => qp_grad n Q q x i * d i)).
    assert (Ob : qp_obj n Q q xs = qp_obj n Q q x + G0 + 1 / 2 * form n Q d).
    { unfold G0. rewrite <- (obj_expand n Q q x d Sy). apply obj_ext. intros. symmetry. apply xs_move. }
    assert (G1 : G0 + form n Q d = - rsum m (fun k => ls k * ax k)).
    { rewrite <- rows_dot. assert (E : rsum n (fun i => qp_lag n m Q q A xs ls i * d i) = 0) by (apply rsum_zero; intros i Hi; rewrite Lag by exact Hi; ring).
      assert (E2 : rsum n (fun i => qp_lag n m Q q A xs ls i * d i) = G0 + form n Q d + rsum n (fun i => rsum m (fun k => ls k * A k i) * d i)).
      { unfold G0, form. rewrite <- !rsum_plus. apply rsum_ext. intros i Hi. unfold qp_lag, qp_grad.
        assert (E1 : rsum n (fun j => d i * Q i j * d j) = d i * (rsum n (fun j => Q i j * xs j) - rsum n (fun j => Q i j * x j))) by (rewrite <- rsum_minus, <- rsum_scale; apply rsum_ext; intros; unfold d; ring).
        rewrite E1. ring. }
      lra. }
    pose proof (Ps d) as Pd.
    set (c0 := fun k => ccone (K k) (spd x l k)). set (c1 := fun k => ccone (K k) (spd xs ls k)).
    assert (Sl : act_slope x l d e = G0 + rsum m (fun k => c0 k * (1 / mu / (1 / 2)) * ax k + 1 / 2 * mu * (l k - c0 k * (1 / mu / (1 / 2))) * e k)).
    { unfold act_slope. assert (E : rsum n (fun i => (qp_grad n Q q x i + rsum m (fun k => act_pdal x l k * A k i)) * d i) = G0 + rsum m (fun k => act_pdal x l k * ax k)).
      { rewrite <- rows_dot. unfold G0. rewrite <- rsum_plus. apply rsum_ext. intros. ring. }
      rewrite E, rsum_plus. unfold act_pdal, c0. ring. }
    assert (Rows : forall k, (k < m)%nat ->
      2 * env1 mu (K k) (spd xs ls k) + mu * (ls k * ls k) / 4 - (2 * env1 mu (K k) (spd x l k) + mu * (l k * l k) / 4) - 1 / 2 * (ls k * ax k) =
        1 / 2 * (c0 k * (1 / mu / (1 / 2)) * ax k + 1 / 2 * mu * (l k - c0 k * (1 / mu / (1 / 2))) * e k) /\
      - (ls k * ax k) + c0 k * (1 / mu / (1 / 2)) * ax k + 1 / 2 * mu * (l k - c0 k * (1 / mu / (1 / 2))) * e k <= 0).
    { intros k Hk. destruct (Same k Hk) as [_ S2]. assert (N : cnol1 (K k)) by (destruct (K k); cbn in *; tauto). rewrite !env1_cone by exact N.
      destruct (csame_act _ _ _ (Ok k Hk) S2) as [_ F]. apply (row_change mu (ls k) (l k) (ax k) (c0 k) (c1 k) (cact (K k) (spd x l k)) Hm).
      - apply (Cs k Hk).
      - unfold c0, c1. pose proof (spd_move k). unfold e in *. destruct (cact (K k) (spd x l k)); [lra|tauto]. }
    split.
    - rewrite Sl. assert (L : rsum m (fun k => c0 k * (1 / mu / (1 / 2)) * ax k + 1 / 2 * mu * (l k - c0 k * (1 / mu / (1 / 2))) * e k) - rsum m (fun k => ls k * ax k) <= 0).
      { rewrite <- rsum_minus. rewrite <- (rsum_zero m (fun _ => 0)) by reflexivity. apply rsum_le. intros k Hk. destruct (Rows k Hk) as [_ R2]. lra. }
      lra.
    - rewrite Sl. unfold act_merit.
      assert (E : (2 * rsum m (fun k => env1 mu (K k) (spd xs ls k)) + mu * rsum m (fun k => ls k * ls k) / 4) - (2 * rsum m (fun k => env1 mu (K k) (spd x l k)) + mu * rsum m (fun k => l k * l k) / 4) - 1 / 2 * rsum m (fun k => ls k * ax k) =
        1 / 2 * rsum m (fun k => c0 k * (1 / mu / (1 / 2)) * ax k + 1 / 2 * mu * (l k - c0 k * (1 / mu / (1 / 2))) * e k)).
      { etransitivity; [|apply rsum_scale]. etransitivity; [|exact (rsum_ext m _ _ (fun k Hk => proj1 (Rows k Hk)))].
        assert (Z : forall f, mu * rsum m f / 4 = rsum m (fun k => mu * f k / 4)) by (intros f; unfold Rdiv; rewrite rsum_scale_r, rsum_scale; reflexivity).
        rewrite !Z. rewrite <- !rsum_scale, <- !rsum_plus, <- !rsum_minus. reflexivity. }
      lra.
  Qed.
End Algebra.
