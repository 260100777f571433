From Coq Require Import Reals List Bool Arith Lia Lra.
From Verif Require Import Scalar Problem_model Symb_model Lin_spec Lin_proofs Symb_spec Symb_proofs Ldlt_model Ldlt_spec Ldlt_proofs.
Import ListNotations.
Local Open Scope R_scope.

(** ** gemmt *)
Lemma each_inv {S : Type} (P : nat -> S -> Prop) (f : nat -> S -> outcome S) m : forall k s, P k s -> (forall j s', (k <= j)%nat -> (j < k + m)%nat -> P j s' -> exists s'', f j s' = Ret s'' /\ P (Datatypes.S j) s'') ->
  exists s', for_each (seq k m) f s = Ret s' /\ P (k + m)%nat s'.
Proof.
  induction m as [|m IH]; intros k s H G; [exists s; rewrite Nat.add_0_r; auto|]. cbn [seq for_each]. destruct (G k s ltac:(lia) ltac:(lia) H) as (s1 & E & H1). rewrite E. cbn [bind].
  replace (k + Datatypes.S m)%nat with (Datatypes.S k + m)%nat by lia. apply IH; [exact H1|]. intros j s' H2 H3. apply G; lia.
Qed.
Definition gemm_right (r m c : nat) (dst lhs : nat -> nat -> R) (rhs' : nat -> nat -> R) (al : R) (d : nat -> nat -> R) : Prop :=
  (forall p q, (p < r)%nat -> (q < m)%nat -> d p q = dst p q + al * rsum c (fun t => lhs p t * rhs' q t)) /\
  (forall p q, ~ ((p < r)%nat /\ (q < m)%nat) -> d p q = dst p q).
Lemma mask_may k M p q : ~ may k p q -> mask k M p q = 0.
Proof. intros H. unfold mask, mayb. destruct k; cbn in H; bd; try reflexivity; try tauto; exfalso; apply H; lia. Qed.
Lemma mask_in k M p q : may k p q -> mask k M p q = M p q.
Proof. intros H. unfold mask, mayb. destruct k; cbn in H; bd; try reflexivity; tauto. Qed.
Lemma mask_fits k r c M p q : fits k r c M -> (p < r)%nat -> (q < c)%nat -> mask k M p q = M p q.
Proof. intros H Hp Hq. destruct (may_dec k p q) as [G|G]; [apply mask_in; exact G|]. rewrite mask_may by exact G. symmetry. apply H; assumption. Qed.
(** Loops that change one column of dst at a time. *)
Lemma columns_ok r m c dst lhs rhs' al (f : nat -> nat) (k : nat -> nat) (v : nat -> nat -> R) (b : nat -> bool) :
  (forall j, (j < m)%nat -> b j = true /\ (f j + k j <= r)%nat) ->
  (forall p j, (p < r)%nat -> (j < m)%nat -> (if Nat.leb (f j) p && Nat.ltb p (f j + k j) then v j p else 0) = al * rsum c (fun t => lhs p t * rhs' j t)) ->
  exists d, for_each (seq 0 m) (fun j d => if b j then Ret (add_col (K := RSc) j (f j) (k j) (v j) d) else UB) dst = Ret d /\ gemm_right r m c dst lhs rhs' al d.
Proof.
  intros Hb Hv. destruct (each_inv (fun j d => (forall p q, (p < r)%nat -> (q < j)%nat -> d p q = dst p q + al * rsum c (fun t => lhs p t * rhs' q t)) /\ (forall p q, ~ ((p < r)%nat /\ (q < j)%nat) -> d p q = dst p q))
    (fun j d => if b j then Ret (add_col (K := RSc) j (f j) (k j) (v j) d) else UB) m 0 dst) as (d & E & H1 & H2).
  - split; [intros; lia|reflexivity].
  - intros j d _ Hj [I1 I2]. cbn [Nat.add] in Hj. destruct (Hb j Hj) as [B1 B2]. rewrite B1. eexists. split; [reflexivity|]. split.
    + intros p q Hp Hq. unfold add_col. destruct (Nat.eq_dec q j) as [->|].
      * rewrite Nat.eqb_refl. cbn [andb]. rewrite <- (Hv p j Hp Hj). rewrite I2 by lia. rs. destruct (Nat.leb (f j) p && Nat.ltb p (f j + k j)); lra.
      * bd; apply I1; lia.
    + intros p q H. unfold add_col. bd; apply I2; lia.
  - exists d. split; [exact E|]. split; [exact H1|exact H2].
Qed.
Lemma term_zero k kr r c (lhs rhs : nat -> nat -> R) p q t : fits k r c lhs -> (p < r)%nat -> (t < c)%nat -> ~ (may k p t /\ may kr q t) -> lhs p t * mask kr rhs q t = 0.
Proof.
  intros H Hp Ht X. destruct (may_dec k p t) as [A|A]; [|rewrite (H p t Hp Ht A); lra]. rewrite mask_may by tauto. lra.
Qed.
(** Only one term: a diagonal factor. *)
Lemma term_one k kr r c lhs rhs p q u : fits k r c lhs -> (p < r)%nat -> (forall t, (t < c)%nat -> t <> u -> ~ (may k p t /\ may kr q t)) ->
  rsum c (fun t => lhs p t * mask kr rhs q t) = if Nat.ltb u c then lhs p u * mask kr rhs q u else 0.
Proof.
  intros H Hp X. bd.
  - apply (rsum_one c (fun t => lhs p t * mask kr rhs q t) u); [assumption|]. intros t Ht Nt. apply (term_zero k kr r c); auto.
  - apply rsum_zero. intros t Ht. apply (term_zero k kr r c); auto. apply X; lia.
Qed.
Lemma sum_ok r m c dst lhs rhs' al w f :
  (forall p q, (p < r)%nat -> (q < m)%nat -> w p q = true -> rsum c (f p q) = rsum c (fun t => lhs p t * rhs' q t)) ->
  (forall p q, (p < r)%nat -> (q < m)%nat -> w p q = false -> rsum c (fun t => lhs p t * rhs' q t) = 0) ->
  exists d, gemm_sum (K := RSc) r m c w f dst al = Ret d /\ gemm_right r m c dst lhs rhs' al d.
Proof.
  intros H1 H2. eexists. split; [reflexivity|]. split; intros p q.
  - intros Hp Hq. bd. rs. rewrite ssum_rsum. destruct (w p q) eqn:E; [rewrite H1 by assumption; reflexivity|]. rewrite H2 by assumption. lra.
  - intros X. bd; reflexivity.
Qed.
Lemma low_mask M q t : low_part (K := RSc) M q t = mask TriL M q t.
Proof. reflexivity. Qed.
Lemma up_mask M q t : up_part (K := RSc) M q t = mask TriU M q t.
Proof. reflexivity. Qed.
Lemma gemmt_ok kl kr r m c dst lhs rhs al : fits kl r c lhs -> sizes kl kr r m c ->
  exists d, gemmt (K := RSc) r m c dst lhs rhs kl kr al = Ret d /\ gemm_right r m c dst lhs (mask kr rhs) al d.
Proof.
  intros H Z.
  assert (NOP : kl = Zero \/ kr = Zero -> exists d, Ret dst = Ret d /\ gemm_right r m c dst lhs (mask kr rhs) al d).
  { intros X. exists dst. split; [reflexivity|]. split; [|reflexivity]. intros p q Hp Hq. rewrite rsum_zero; [lra|]. intros t Ht. apply (term_zero kl kr r c); auto. destruct X; subst; cbn; tauto. }
  assert (DN : mask Dense rhs = rhs) by reflexivity.
  destruct kl, kr; cbn [sizes] in Z; cbn [gemmt]; try (apply NOP; auto; fail); clear NOP.
  - (* Diag Diag *) unfold gemm_dd. bd. eexists. split; [reflexivity|]. split; intros p q.
    + intros Hp Hq. rewrite (term_one Diag Diag r c lhs rhs p q p H Hp) by (cbn; lia). rs. destruct (Nat.eqb_spec p q) as [->|]; cbn [andb].
      * bd; try lra. rewrite mask_in by reflexivity. reflexivity.
      * bd; try lra; rewrite mask_may by (cbn; lia); lra.
    + intros X. bd; reflexivity.
  - (* Diag TriL *) unfold gemm_dl. apply (columns_ok r m c dst lhs (mask TriL rhs) al (fun _ => 0%nat) (fun j => (j + 1)%nat) (fun j p => al * (lhs p p * rhs j p)) (fun j => Nat.leb (j + 1) r && Nat.leb (j + 1) c && Nat.eqb (Nat.min r c) (j + 1))).
    + intros j Hj. split; [|lia]. bd; reflexivity.
    + intros p j Hp Hj. assert (j = 0)%nat by lia. subst j. rewrite (term_one Diag TriL r c lhs rhs p 0 p H Hp) by (cbn; lia). bd; try lra. rewrite mask_in by (cbn; lia). lra.
  - (* Diag TriU *) unfold gemm_du. apply (columns_ok r m c dst lhs (mask TriU rhs) al (fun j => j) (fun j => (r - j)%nat) (fun j p => al * (lhs (p - j)%nat (p - j)%nat * rhs j (c - (r - j) + (p - j))%nat)) (fun j => Nat.leb j r && Nat.leb (r - j) c && Nat.eqb (Nat.min r c) (r - j))).
    + intros j Hj. split; [|lia]. bd; reflexivity.
    + intros p j Hp Hj. assert (j = 0)%nat by lia. subst j. rewrite (term_one Diag TriU r c lhs rhs p 0 p H Hp) by (cbn; lia). bd; try lra. rewrite mask_in by (cbn; lia). rewrite !Nat.sub_0_r. replace (c - r + p)%nat with p by lia. lra.
  - (* Diag Dense *) unfold gemm_dx. bd. eexists. split; [reflexivity|]. split; intros p q.
    + intros Hp Hq. rewrite (term_one Diag Dense r c lhs rhs p q p H Hp) by (cbn; lia). rs. bd. rewrite mask_in by exact I. lra.
    + intros X. bd; reflexivity.
  - (* TriL Diag *) unfold gemm_ld. apply (columns_ok r m c dst lhs (mask Diag rhs) al (fun j => j) (fun j => (r - j)%nat) (fun j p => al * rhs j j * lhs p j) (fun j => Nat.leb j r && Nat.ltb j c)).
    + intros j Hj. split; [|lia]. bd; reflexivity.
    + intros p j Hp Hj. rewrite (term_one TriL Diag r c lhs rhs p j j H Hp) by (cbn; lia). rewrite mask_in by reflexivity. bd; try lra. rewrite (H p j) by (try assumption; cbn; lia). lra.
  - (* TriL TriL *) apply sum_ok; [|discriminate]. intros p q Hp Hq _. reflexivity.
  - (* TriL TriU *) apply sum_ok; [intros; reflexivity|]. intros p q Hp Hq E. apply Nat.leb_gt in E. apply rsum_zero. intros t Ht. apply (term_zero TriL TriU r c); auto. cbn. lia.
  - (* TriL Dense *) apply sum_ok; [|discriminate]. intros p q Hp Hq _. apply rsum_ext. intros t Ht. rewrite low_mask, (mask_fits TriL r c lhs) by assumption. reflexivity.
  - (* TriU Diag *) unfold gemm_ud. apply (columns_ok r m c dst lhs (mask Diag rhs) al (fun _ => 0%nat) (fun j => (j + 1)%nat) (fun j p => al * rhs j j * lhs p j) (fun j => Nat.leb (j + 1) r && Nat.ltb j c)).
    + intros j Hj. split; [|lia]. bd; reflexivity.
    + intros p j Hp Hj. rewrite (term_one TriU Diag r c lhs rhs p j j H Hp) by (cbn; lia). rewrite mask_in by reflexivity. bd; try lra. rewrite (H p j) by (try assumption; cbn; lia). lra.
  - (* TriU TriL *) apply sum_ok; [intros; reflexivity|]. intros p q Hp Hq E. apply Nat.leb_gt in E. apply rsum_zero. intros t Ht. apply (term_zero TriU TriL r c); auto. cbn. lia.
  - apply sum_ok; [|discriminate]. intros p q Hp Hq _. reflexivity.
  - (* TriU Dense *) apply sum_ok; [|discriminate]. intros p q Hp Hq _. apply rsum_ext. intros t Ht. rewrite up_mask, (mask_fits TriU r c lhs) by assumption. reflexivity.
  - (* Dense Diag *) unfold gemm_xd. bd. eexists. split; [reflexivity|]. split; intros p q.
    + intros Hp Hq. rewrite (term_one Dense Diag r c lhs rhs p q q H Hp) by (cbn; lia). rs. bd. rewrite mask_in by reflexivity. lra.
    + intros X. bd; reflexivity.
  - apply sum_ok; [|discriminate]. intros p q Hp Hq _. reflexivity.
  - apply sum_ok; [|discriminate]. intros p q Hp Hq _. reflexivity.
  - apply sum_ok; [|discriminate]. intros p q Hp Hq _. reflexivity.
Qed.
