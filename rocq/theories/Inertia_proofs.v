(** Sylvester's law and the meaning of the inertia check. *)
From Coq Require Import Reals ZArith List Bool Arith Lia Lra.
From Verif Require Import Scalar Problem_model Cset_model Solver_model Solver_spec SolverR_proofs Lin_spec Lin_proofs Ldlt_model Ldlt_spec Ldlt_proofs Bk_spec.
Import ListNotations.
Local Open Scope R_scope.
Local Notation mx := (nat -> nat -> R).

(** ** More unknowns than equations *)
Definition skip (j c : nat) : nat := if Nat.ltb c j then c else S c.
Lemma rsum_skip j f : forall n, (j <= n)%nat -> rsum (S n) f = f j + rsum n (fun c => f (skip j c)).
Proof.
  induction n as [|n IH]; intros H.
  - replace j with 0%nat by lia. cbn. lra.
  - destruct (Nat.eq_dec j (S n)) as [->|N].
    + cbn [rsum]. rewrite (rsum_ext n (fun c => f (skip (S n) c)) f) by (intros c Hc; unfold skip; bd; reflexivity). unfold skip. bd. lra.
    + change (rsum (S (S n)) f) with (rsum (S n) f + f (S n)). rewrite IH by lia. cbn [rsum]. unfold skip at 3. bd. lra.
Qed.
Lemma row_or_zero q (f : nat -> R) : (forall c, (c < q)%nat -> f c = 0) \/ exists j, (j < q)%nat /\ f j <> 0.
Proof.
  induction q as [|q [IH|[i [H1 H2]]]]; [left; intros; lia| |right; exists i; split; [lia|exact H2]].
  destruct (Req_dec (f q) 0) as [E|E]; [left|right; exists q; split; [lia|exact E]]. intros i Hi. destruct (Nat.eq_dec i q) as [->|]; [exact E|apply IH; lia].
Qed.
Lemma kernel p : forall q (M : mx), (p < q)%nat -> exists x, (exists i, (i < q)%nat /\ x i <> 0) /\ forall r, (r < p)%nat -> rsum q (fun c => M r c * x c) = 0.
Proof.
  induction p as [|p IH]; intros q M H.
  - exists (fun _ => 1). split; [exists 0%nat; split; [lia|lra]|intros; lia].
  - destruct (row_or_zero q (M p)) as [Z|[j [Hj Nz]]].
    + destruct (IH q M ltac:(lia)) as (x & X1 & X2). exists x. split; [exact X1|]. intros r Hr. destruct (Nat.eq_dec r p) as [->|]; [|apply X2; lia]. apply rsum_zero. intros c Hc. rewrite Z by exact Hc. ring.
    + destruct q as [|q]; [lia|]. set (M' := fun r c => M r (skip j c) - M r j / M p j * M p (skip j c)).
      destruct (IH q M' ltac:(lia)) as (y & [i [Hi Yi]] & Y). set (t := - rsum q (fun c => M p (skip j c) * y c) / M p j).
      set (x := fun c => if Nat.ltb c j then y c else if Nat.eqb c j then t else y (c - 1)%nat).
      assert (X : forall c, x (skip j c) = y c).
      { intros c. unfold x, skip. destruct (Nat.ltb_spec c j); [bd; reflexivity|]. destruct (Nat.ltb_spec (S c) j); [lia|]. destruct (Nat.eqb_spec (S c) j); [lia|]. f_equal. lia. }
      assert (Xj : x j = t) by (unfold x; bd; reflexivity).
      assert (Q : forall r, rsum (S q) (fun c => M r c * x c) = M r j * t + rsum q (fun c => M r (skip j c) * y c)).
      { intros r. rewrite (rsum_skip j) by lia. rewrite Xj. f_equal. apply rsum_ext. intros c Hc. rewrite X. reflexivity. }
      exists x. split.
      * exists (skip j i). split; [unfold skip; bd; lia|]. rewrite X. exact Yi.
      * intros r Hr. rewrite Q. destruct (Nat.eq_dec r p) as [->|]; [unfold t; field; exact Nz|]. specialize (Y r ltac:(lia)). unfold M' in Y.
        rewrite (rsum_ext q _ (fun c => M r (skip j c) * y c - M r j / M p j * (M p (skip j c) * y c))) in Y by (intros; ring). rewrite rsum_minus, rsum_scale in Y. unfold t.
        replace (M r j * (- rsum q (fun c => M p (skip j c) * y c) / M p j)) with (- (M r j / M p j * rsum q (fun c => M p (skip j c) * y c))) by (field; exact Nz). lra.
Qed.

(** ** Diagonal forms *)
Lemma pow2_pos x : x <> 0 -> 0 < x ^ 2.
Proof. intros H. replace (x ^ 2) with (Rsqr x) by (unfold Rsqr; ring). apply Rlt_0_sqr, H. Qed.
Lemma form_diag n A sig T w : (forall i j, (i < n)%nat -> (j < n)%nat -> mirror A i j = rsum n (fun c => T i c * IZR (nth c sig 0%Z) * T j c)) ->
  form n (mirror A) w = rsum n (fun c => IZR (nth c sig 0%Z) * (rsum n (fun i => T i c * w i)) ^ 2).
Proof.
  intros H. unfold form.
  rewrite (rsum_ext n _ (fun i => rsum n (fun c => T i c * w i * (IZR (nth c sig 0%Z) * rsum n (fun j => T j c * w j))))).
  - rewrite rsum_swap. apply rsum_ext. intros c Hc. rewrite rsum_scale_r. ring.
  - intros i Hi. rewrite (rsum_ext n _ (fun j => rsum n (fun c => T i c * w i * IZR (nth c sig 0%Z) * (T j c * w j)))).
    + rewrite rsum_swap. apply rsum_ext. intros c Hc. rewrite rsum_scale. ring.
    + intros j Hj. rewrite H by assumption. rewrite <- rsum_scale, <- rsum_scale_r. apply rsum_ext. intros c Hc. ring.
Qed.
Definition where_ (a : Z) (sig : list Z) : list nat := filter (fun c => Z.eqb (nth c sig 0%Z) a) (seq 0 (length sig)).
Lemma where_count a sig : length (where_ a sig) = count a sig.
Proof.
  unfold where_. assert (H : forall l k, (forall i, nth (k + i) sig 0%Z = nth i l 0%Z) -> length (filter (fun c => Z.eqb (nth c sig 0%Z) a) (seq k (length l))) = count a l).
  { induction l as [|z l IH]; intros k Hk; [reflexivity|]. cbn [length seq filter count]. pose proof (Hk 0%nat) as H0. rewrite Nat.add_0_r in H0. cbn [nth] in H0. rewrite H0.
    assert (I : length (filter (fun c => Z.eqb (nth c sig 0%Z) a) (seq (S k) (length l))) = count a l) by (apply IH; intros i; specialize (Hk (S i)); cbn [nth] in Hk; rewrite <- Hk; f_equal; lia).
    destruct (Z.eqb_spec z a) as [E1|E1], (Z.eq_dec a z) as [E2|E2]; try congruence; cbn [length]; rewrite I; reflexivity. }
  apply H. reflexivity.
Qed.
Lemma where_in a sig c : (c < length sig)%nat -> nth c sig 0%Z = a -> exists r, (r < length (where_ a sig))%nat /\ nth r (where_ a sig) 0%nat = c.
Proof.
  intros H1 H2. assert (I : In c (where_ a sig)) by (apply filter_In; split; [apply in_seq; lia|apply Z.eqb_eq; exact H2]). destruct (In_nth _ _ 0%nat I) as (r & R1 & R2). eauto.
Qed.
Lemma rsum_nonneg n f : (forall i, (i < n)%nat -> 0 <= f i) -> 0 <= rsum n f.
Proof. induction n as [|n IH]; intros H; cbn [rsum]; [lra|]. pose proof (H n ltac:(lia)). pose proof (IH ltac:(intros; apply H; lia)). lra. Qed.
Lemma rsum_nonneg_zero n f : (forall i, (i < n)%nat -> 0 <= f i) -> rsum n f <= 0 -> forall i, (i < n)%nat -> f i = 0.
Proof.
  induction n as [|n IH]; intros H Z i Hi; [lia|]. cbn [rsum] in Z. pose proof (H n ltac:(lia)). pose proof (rsum_nonneg n f ltac:(intros; apply H; lia)).
  destruct (Nat.eq_dec i n) as [->|]; [lra|]. apply IH; [intros; apply H; lia|lra|lia].
Qed.
(** A subspace of dimension k (columns of V) has a vector whose coordinates of sign a vanish if there are fewer than k of them. *)
Lemma avoid n k a sig (T V : mx) : length sig = n -> (count a sig < k)%nat ->
  exists y, (exists i, (i < k)%nat /\ y i <> 0) /\ forall c, (c < n)%nat -> nth c sig 0%Z = a -> rsum n (fun i => T i c * rsum k (fun e => V i e * y e)) = 0.
Proof.
  intros Hn Hk. rewrite <- where_count in Hk. destruct (kernel _ k (fun r e => rsum n (fun i => T i (nth r (where_ a sig) 0%nat) * V i e)) Hk) as (y & Y1 & Y2).
  exists y. split; [exact Y1|]. intros c Hc Ha. destruct (where_in a sig c ltac:(lia) Ha) as (r & R1 & R2). specialize (Y2 r R1). cbn beta in Y2. rewrite R2 in Y2. rewrite <- Y2.
  rewrite (rsum_ext n _ (fun i => rsum k (fun e => T i c * V i e * y e))) by (intros; rewrite <- rsum_scale; apply rsum_ext; intros; ring).
  rewrite rsum_swap. apply rsum_ext. intros e He. rewrite rsum_scale_r. reflexivity.
Qed.
Lemma sig_cases sig c : Forall (fun z => z = 1 \/ z = -1 \/ z = 0)%Z sig -> (nth c sig 0 = 1 \/ nth c sig 0 = -1 \/ nth c sig 0 = 0)%Z.
Proof. intros H. destruct (Nat.lt_ge_cases c (length sig)); [|rewrite nth_overflow by assumption; auto]. rewrite Forall_forall in H. apply H, nth_In. assumption. Qed.
Lemma positive_bound n A sig k (V : mx) : congruent n A sig -> (forall y, (exists i, (i < k)%nat /\ y i <> 0) -> 0 < form n (mirror A) (fun i => rsum k (fun e => V i e * y e))) -> (k <= count 1 sig)%nat.
Proof.
  intros (Hn & R & T & _ & E) P. destruct (Nat.le_gt_cases k (count 1 sig)) as [|H]; [assumption|]. destruct (avoid n k 1%Z sig T V Hn H) as (y & Y1 & Y2). specialize (P y Y1). rewrite (form_diag n A sig T _ E) in P.
  assert (Q : 0 <= rsum n (fun c => - (IZR (nth c sig 0%Z) * (rsum n (fun i => T i c * rsum k (fun e => V i e * y e))) ^ 2))).
  { apply rsum_nonneg. intros c Hc. destruct (sig_cases sig c R) as [S|S]; [rewrite (Y2 c Hc S); lra|]. pose proof (pow2_ge_0 (rsum n (fun i => T i c * rsum k (fun e => V i e * y e)))). destruct S as [-> | ->]; lra. }
  rewrite (rsum_ext n (fun c => - _) (fun c => -1 * (IZR (nth c sig 0%Z) * (rsum n (fun i => T i c * rsum k (fun e => V i e * y e))) ^ 2))) in Q by (intros; ring). rewrite rsum_scale in Q. lra.
Qed.
Lemma negative_bound n A sig k (V : mx) : congruent n A sig -> (forall y, (exists i, (i < k)%nat /\ y i <> 0) -> form n (mirror A) (fun i => rsum k (fun e => V i e * y e)) < 0) -> (k <= count (-1) sig)%nat.
Proof.
  intros (Hn & R & T & _ & E) P. destruct (Nat.le_gt_cases k (count (-1) sig)) as [|H]; [assumption|]. destruct (avoid n k (-1)%Z sig T V Hn H) as (y & Y1 & Y2). specialize (P y Y1). rewrite (form_diag n A sig T _ E) in P.
  assert (Q : 0 <= rsum n (fun c => IZR (nth c sig 0%Z) * (rsum n (fun i => T i c * rsum k (fun e => V i e * y e))) ^ 2)); [|lra].
  apply rsum_nonneg. intros c Hc. destruct (sig_cases sig c R) as [S|[S|S]]; [|rewrite (Y2 c Hc S); lra|]; pose proof (pow2_ge_0 (rsum n (fun i => T i c * rsum k (fun e => V i e * y e)))); rewrite S; lra.
Qed.
Lemma onto_injective n T w : onto n T -> (forall c, (c < n)%nat -> rsum n (fun i => T i c * w i) = 0) -> forall i, (i < n)%nat -> w i = 0.
Proof.
  intros O H i Hi. destruct (O (fun j => if Nat.eqb j i then 1 else 0)) as [z Hz].
  assert (Q : rsum n (fun j => w j * mvec n T z j) = 0).
  { unfold mvec. rewrite (rsum_ext n _ (fun j => rsum n (fun c => T j c * w j * z c))) by (intros; rewrite <- rsum_scale; apply rsum_ext; intros; ring).
    rewrite rsum_swap. apply rsum_zero. intros c Hc. rewrite rsum_scale_r, H by exact Hc. ring. }
  rewrite (rsum_one n _ i Hi) in Q; [|intros j Hj N; rewrite Hz by exact Hj; bd; ring]. cbn beta in Q. rewrite Hz in Q by exact Hi. rewrite Nat.eqb_refl in Q. lra.
Qed.
(** If there are fewer than k coordinates of sign -1 and none of sign 0, a subspace of dimension k (V injective) has a vector with positive form. *)
Lemma positive_vector n A sig k (V : mx) : congruent n A sig -> (count (-1) sig < k)%nat -> ~ In 0%Z sig ->
  exists y, (exists i, (i < k)%nat /\ y i <> 0) /\ let w := fun i => rsum k (fun e => V i e * y e) in form n (mirror A) w <= 0 -> forall i, (i < n)%nat -> w i = 0.
Proof.
  intros (Hn & R & T & O & E) H NZ. destruct (avoid n k (-1)%Z sig T V Hn H) as (y & Y1 & Y2). exists y. split; [exact Y1|]. intros w P. rewrite (form_diag n A sig T _ E) in P.
  apply (onto_injective n T w O). intros c Hc.
  assert (P0 : forall d, (d < n)%nat -> 0 <= IZR (nth d sig 0%Z) * (rsum n (fun i => T i d * w i)) ^ 2).
  { intros d Hd. destruct (sig_cases sig d R) as [S|[S|S]]; [|unfold w; rewrite (Y2 d Hd S); lra|]; pose proof (pow2_ge_0 (rsum n (fun i => T i d * w i))); rewrite S; lra. }
  pose proof (rsum_nonneg_zero n _ P0 P c Hc) as Z. cbn beta in Z. destruct (sig_cases sig c R) as [S|[S|S]].
  - rewrite S in Z. destruct (Req_dec (rsum n (fun i => T i c * w i)) 0) as [E0|E0]; [exact E0|]. pose proof (pow2_pos _ E0). lra.
  - apply (Y2 c Hc S).
  - exfalso. apply NZ. rewrite <- S. apply nth_In. lia.
Qed.

(** ** Completing the square *)
Lemma form_square np m A w : regularised np (np + m) A ->
  form (np + m) (mirror A) w = al_form np (np + m) A w + rsum m (fun i => A (np + i)%nat (np + i)%nat * (w (np + i)%nat + rsum np (fun j => A (np + i)%nat j * w j) / A (np + i)%nat (np + i)%nat) ^ 2).
Proof.
  intros [R1 R2]. unfold form at 1. rewrite rsum_split. unfold al_form. rewrite Nat.add_sub_swap, Nat.sub_diag by lia. cbn [Nat.add]. set (J := fun i => rsum np (fun j => A (np + i)%nat j * w j)).
  rewrite (rsum_ext np _ (fun i => rsum np (fun j => w i * mirror A i j * w j) + rsum m (fun e => A (np + e)%nat i * w i * w (np + e)%nat))).
  2:{ intros i Hi. rewrite rsum_split. f_equal. apply rsum_ext. intros e He. unfold mirror. bd. ring. }
  rewrite rsum_plus. fold (form np (mirror A) w).
  rewrite (rsum_swap np m). rewrite (rsum_ext m (fun j => rsum np _) (fun e => J e * w (np + e)%nat)) by (intros e He; unfold J; rewrite <- rsum_scale_r; reflexivity).
  rewrite (rsum_ext m (fun i => rsum (np + m) _) (fun e => J e * w (np + e)%nat + A (np + e)%nat (np + e)%nat * w (np + e)%nat ^ 2)).
  2:{ intros e He. rewrite rsum_split. f_equal.
      - unfold J. rewrite <- rsum_scale_r. apply rsum_ext. intros j Hj. unfold mirror. bd. ring.
      - rewrite (rsum_one m _ e He); [unfold mirror; bd; ring|]. intros j Hj N. unfold mirror. bd; [rewrite R2 by lia; ring|rewrite R2 by lia; ring]. }
  rewrite !Rplus_assoc. f_equal. rewrite <- !rsum_plus. apply rsum_ext. intros e He. fold (J e). pose proof (R1 (np + e)%nat ltac:(lia) ltac:(lia)). field. lra.
Qed.
Lemma form_ext n A x y : (forall i, (i < n)%nat -> x i = y i) -> form n A x = form n A y.
Proof. intros H. unfold form. apply rsum_ext. intros i Hi. apply rsum_ext. intros j Hj. rewrite !H by assumption. reflexivity. Qed.
Lemma al_form_ext np N A x y : (forall i, (i < np)%nat -> x i = y i) -> al_form np N A x = al_form np N A y.
Proof. intros H. unfold al_form. rewrite (form_ext np _ x y H). f_equal. apply rsum_ext. intros i Hi. rewrite (rsum_ext np (fun j => A (np + i)%nat j * x j) (fun j => A (np + i)%nat j * y j)) by (intros; rewrite H by assumption; reflexivity). reflexivity. Qed.
Lemma al_form_scale np N A t x : al_form np N A (fun i => t * x i) = t ^ 2 * al_form np N A x.
Proof.
  unfold al_form, form. rewrite Rmult_plus_distr_l. f_equal.
  - rewrite <- rsum_scale. apply rsum_ext. intros i Hi. rewrite <- rsum_scale. apply rsum_ext. intros j Hj. ring.
  - rewrite <- rsum_scale. apply rsum_ext. intros i Hi. rewrite (rsum_ext np _ (fun j => t * (A (np + i)%nat j * x j))) by (intros; ring). rewrite rsum_scale. unfold Rdiv. ring.
Qed.
Lemma count_total sig : Forall (fun z => z = 1 \/ z = -1 \/ z = 0)%Z sig -> (count 1 sig + count (-1) sig + count 0 sig = length sig)%nat.
Proof. induction 1 as [|z l H _ IH]; [reflexivity|]. cbn [count length]. destruct H as [-> |[-> | ->]]; cbn; lia. Qed.
Lemma count_in a sig : count a sig = 0%nat -> ~ In a sig.
Proof. induction sig as [|z l IH]; intros H; cbn in *; [tauto|]. destruct (Z.eq_dec a z); [lia|]. intros [E|E]; [congruence|]. exact (IH H E). Qed.

Lemma inertia_iff np N A sig : (np <= N)%nat -> regularised np N A -> congruent N A sig -> (check_inertia np (N - np) sig = Some INERTIA_OK <-> al_convex np N A).
Proof.
  intros Hn Rg C. pose proof C as (Ln & R & _). destruct (check_inertia_spec np (N - np) sig) as [CI _]. specialize (CI R). pose proof (count_total sig R) as Ct. set (m := (N - np)%nat) in *. assert (EN : N = (np + m)%nat) by lia. rewrite EN in Rg, C, Ln |- *. split.
  - intros OK x [i0 [Hi0 Xi0]]. rewrite OK in CI. destruct (Nat.eqb_spec (count 0 sig) 0) as [C0|]; [|discriminate CI]. destruct (Nat.eqb_spec (count 1 sig) np) as [C1|]; [|discriminate CI]. destruct (Nat.eqb_spec (count (-1) sig) m) as [C2|]; [|discriminate CI]. clear CI OK.
    destruct (Rlt_le_dec 0 (al_form np (np + m) A x)) as [|Le]; [assumption|exfalso].
    set (V := fun i e => if Nat.ltb i np then (if Nat.eqb e m then x i else 0) else (if Nat.eqb (i - np) e then 1 else if Nat.eqb e m then - (rsum np (fun j => A i j * x j) / A i i) else 0)).
    destruct (positive_vector (np + m) A sig (m + 1) V C ltac:(lia) (count_in _ _ C0)) as (y & [e [He Ye]] & P). cbn zeta in P. set (w := fun i => rsum (m + 1) (fun e => V i e * y e)) in *.
    assert (W1 : forall i, (i < np)%nat -> w i = y m * x i).
    { intros i Hi. unfold w. rewrite (rsum_one (m + 1) _ m ltac:(lia)); [unfold V; bd; ring|]. intros j Hj N'. unfold V. bd; ring. }
    assert (W2 : forall i, (i < m)%nat -> w (np + i)%nat = y i - y m * (rsum np (fun j => A (np + i)%nat j * x j) / A (np + i)%nat (np + i)%nat)).
    { intros i Hi. unfold w. rewrite Nat.add_1_r. cbn [rsum]. rewrite (rsum_one m _ i Hi).
      - unfold V. replace (np + i - np)%nat with i by lia. bd. ring.
      - intros j Hj N'. unfold V. replace (np + i - np)%nat with i by lia. bd; ring. }
    assert (Z : forall i, (i < np + m)%nat -> w i = 0).
    { apply P. rewrite (form_square np m A w Rg). rewrite (al_form_ext np (np + m) A w (fun i => y m * x i) W1), al_form_scale.
      rewrite (rsum_ext m _ (fun i => A (np + i)%nat (np + i)%nat * y i ^ 2)).
      - pose proof (pow2_ge_0 (y m)). assert (0 <= rsum m (fun i => - A (np + i)%nat (np + i)%nat * y i ^ 2)).
        { apply rsum_nonneg. intros i Hi. destruct Rg as [R1 _]. pose proof (R1 (np + i)%nat ltac:(lia) ltac:(lia)). apply Rmult_le_pos; [lra|apply pow2_ge_0]. }
        rewrite (rsum_ext m _ (fun i => -1 * (A (np + i)%nat (np + i)%nat * y i ^ 2))) in H0 by (intros; ring). rewrite rsum_scale in H0.
        assert (0 <= y m ^ 2 * - al_form np (np + m) A x) by (apply Rmult_le_pos; lra). lra.
      - intros i Hi. rewrite (W2 i Hi). rewrite (rsum_ext np (fun j => A (np + i)%nat j * w j) (fun j => y m * (A (np + i)%nat j * x j))) by (intros j Hj; rewrite W1 by exact Hj; ring). rewrite rsum_scale.
        destruct Rg as [R1 _]. pose proof (R1 (np + i)%nat ltac:(lia) ltac:(lia)). f_equal. f_equal. field. lra. }
    assert (Y : y m = 0). { pose proof (W1 i0 Hi0) as Q. rewrite Z in Q by lia. symmetry in Q. apply Rmult_integral in Q. tauto. }
    apply Ye. destruct (Nat.eq_dec e m) as [->|Ne]; [exact Y|]. pose proof (W2 e ltac:(lia)) as Q. rewrite Z, Y in Q by lia. lra.
  - intros Cx.
    assert (B1 : (np <= count 1 sig)%nat).
    { set (V := fun i e => if Nat.ltb i np then (if Nat.eqb i e then 1 else 0) else - (A i e / A i i)). apply (positive_bound (np + m) A sig np V C). intros y Hy. set (w := fun i => rsum np (fun e => V i e * y e)).
      assert (W1 : forall i, (i < np)%nat -> w i = y i). { intros i Hi. unfold w. rewrite (rsum_one _ _ i Hi); [unfold V; bd; ring|]. intros j Hj N'. unfold V. bd; ring. }
      rewrite (form_square np m A w Rg). rewrite (al_form_ext np (np + m) A w y W1). rewrite rsum_zero; [specialize (Cx y Hy); lra|]. intros i Hi.
      assert (W2 : w (np + i)%nat = - (rsum np (fun j => A (np + i)%nat j * w j) / A (np + i)%nat (np + i)%nat)).
      { unfold w at 1. rewrite (rsum_ext np (fun j => A (np + i)%nat j * w j) (fun j => A (np + i)%nat j * y j)) by (intros j Hj; rewrite W1 by exact Hj; reflexivity).
        rewrite (rsum_ext np _ (fun e => - / A (np + i)%nat (np + i)%nat * (A (np + i)%nat e * y e))). { rewrite rsum_scale. unfold Rdiv. ring. } intros e He. unfold V. bd. unfold Rdiv. ring. }
      rewrite W2. ring. }
    assert (B2 : (m <= count (-1) sig)%nat).
    { set (V := fun i e => if Nat.eqb i (np + e) then 1 else 0). apply (negative_bound (np + m) A sig m V C). intros y [e [He Ye]]. set (w := fun i => rsum m (fun e => V i e * y e)).
      assert (W1 : forall i, (i < np)%nat -> w i = 0). { intros i Hi. unfold w. apply rsum_zero. intros j Hj. unfold V. bd. ring. }
      assert (W2 : forall i, (i < m)%nat -> w (np + i)%nat = y i). { intros i Hi. unfold w. rewrite (rsum_one _ _ i Hi); [unfold V; bd; ring|]. intros j Hj N'. unfold V. bd. ring. }
      rewrite (form_square np m A w Rg). rewrite (al_form_ext np (np + m) A w (fun i => 0 * y i)) by (intros i Hi; rewrite W1 by exact Hi; ring). rewrite al_form_scale.
      rewrite (rsum_ext m _ (fun i => A (np + i)%nat (np + i)%nat * y i ^ 2)).
      - destruct Rg as [R1 _]. assert (N0 : forall i, (i < m)%nat -> 0 <= - (A (np + i)%nat (np + i)%nat * y i ^ 2)).
        { intros i Hi. pose proof (R1 (np + i)%nat ltac:(lia) ltac:(lia)). rewrite Ropp_mult_distr_l. apply Rmult_le_pos; [lra|apply pow2_ge_0]. }
        pose proof (rsum_nonneg m _ N0) as Q. destruct (Rle_lt_dec (rsum m (fun i => - (A (np + i)%nat (np + i)%nat * y i ^ 2))) 0) as [L|L].
        + pose proof (rsum_nonneg_zero m _ N0 L e He) as Q'. cbn beta in Q'. pose proof (R1 (np + e)%nat ltac:(lia) ltac:(lia)). pose proof (pow2_pos _ Ye). exfalso.
          assert (0 < - A (np + e)%nat (np + e)%nat * y e ^ 2) by (apply Rmult_lt_0_compat; lra). lra.
        + rewrite (rsum_ext m _ (fun i => -1 * (A (np + i)%nat (np + i)%nat * y i ^ 2))) in L by (intros; ring). rewrite rsum_scale in L. lra.
      - intros i Hi. rewrite (W2 i Hi). rewrite (rsum_zero np) by (intros j Hj; rewrite W1 by exact Hj; ring). destruct Rg as [R1 _]. pose proof (R1 (np + i)%nat ltac:(lia) ltac:(lia)). f_equal. f_equal. field. lra. }
    rewrite CI. rewrite Ln in Ct. replace (count 0 sig) with 0%nat by lia. replace (count 1 sig) with np by lia. replace (count (-1) sig) with m by lia. rewrite !Nat.eqb_refl. reflexivity.
Qed.

(** The signature of an LDL' factorisation. *)
Lemma ldl_congruent n A L D a : factor_of n A L D -> (forall i, (i < n)%nat -> a i i = D i) -> congruent n A (d_signature (K := RSc) n a).
Proof.
  intros [U F] Ha. unfold d_signature. split; [rewrite map_length, seq_length; reflexivity|]. split.
  { apply Forall_map, Forall_forall. intros c _. destruct (sltb s0 (a c c)); [auto|]. destruct (sltb (a c c) s0); auto. }
  set (sg := map _ _). assert (S : forall c, exists g, g <> 0 /\ ((c < n)%nat -> D c = g * IZR (nth c sg 0%Z) * g)).
  { intros c. destruct (Nat.lt_ge_cases c n) as [Hc|Hc]; [|exists 1; split; [lra|lia]]. unfold sg. match goal with |- context[map ?f _] => set (sf := f) end. rewrite (nth_indep _ 0%Z (sf 0%nat)) by (rewrite map_length, seq_length; exact Hc). rewrite map_nth. rewrite seq_nth by exact Hc. unfold sf. cbn [Nat.add]. rewrite Ha by exact Hc. cbn [sltb s0 RSc].
    destruct (Rtotal_order (D c) 0) as [X|[X|X]].
    - exists (sqrt (- D c)). assert (P : 0 < - D c) by lra. pose proof (sqrt_lt_R0 _ P). pose proof (sqrt_sqrt _ (Rlt_le _ _ P)) as Q. split; [lra|]. intros _.
      rewrite (proj2 (Rltb_false 0 (D c))) by lra. rewrite (proj2 (Rltb_true (D c) 0)) by lra. lra.
    - exists 1. split; [lra|]. intros _. rewrite X. rewrite (proj2 (Rltb_false 0 0)) by lra. lra.
    - exists (sqrt (D c)). pose proof (sqrt_lt_R0 _ X). pose proof (sqrt_sqrt _ (Rlt_le _ _ X)) as Q. split; [lra|]. intros _. rewrite (proj2 (Rltb_true 0 (D c))) by lra. lra. }
  assert (S' : forall m, exists g : nat -> R, (forall c, g c <> 0) /\ forall c, (c < m)%nat -> (c < n)%nat -> D c = g c * IZR (nth c sg 0%Z) * g c).
  { induction m as [|m [g [G1 G2]]]; [exists (fun _ => 1); split; [intros; lra|intros; lia]|]. destruct (S m) as (h & H1 & H2). exists (fun c => if Nat.eqb c m then h else g c). split.
    - intros c. destruct (Nat.eqb c m); auto.
    - intros c Hc Hn. destruct (Nat.eqb_spec c m) as [->|]; [auto|apply G2; lia]. }
  destruct (S' n) as (g & G1 & G2). exists (fun i c => L i c * g c). split.
  - intros b. destruct (lower_solution n L b U) as [y Hy]. exists (fun c => y c / g c). intros i Hi. rewrite (Hy i Hi). unfold mvec. apply rsum_ext. intros c Hc. field. apply G1.
  - assert (E : forall i j, ldl n L D i j = rsum n (fun c => L i c * g c * IZR (nth c sg 0%Z) * (L j c * g c))).
    { intros i j. unfold ldl. apply rsum_ext. intros c Hc. rewrite (G2 c Hc Hc) at 1. ring. }
    intros i j Hi Hj. rewrite <- E. unfold mirror. destruct (Nat.leb_spec j i); [apply F; lia|]. rewrite ldl_sym. apply F; lia.
Qed.
