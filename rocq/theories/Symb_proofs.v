From Coq Require Import Reals List Bool Arith Lia Lra Permutation.
From Verif Require Import Scalar Problem_model Symb_model Lin_spec Lin_proofs Symb_spec.
Import ListNotations.

(** ** Kinds *)
Lemma may_dec k p q : may k p q \/ ~ may k p q.
Proof. destruct k; cbn; try tauto; destruct (Nat.lt_trichotomy p q) as [H|[H|H]]; lia. Qed.
Lemma may_trans a p q : may (trans a) p q <-> may a q p.
Proof. destruct a; cbn; lia. Qed.
Lemma trans_trans a : trans (trans a) = a.
Proof. destruct a; reflexivity. Qed.
Lemma may_add a b p q : may a p q \/ may b p q -> may (kadd a b) p q.
Proof. destruct a, b; cbn; lia. Qed.
Lemma may_mul a b p t q : may a p t -> may b t q -> may (kmul a b) p q.
Proof. destruct a, b; cbn; lia. Qed.
Lemma trans_sound k r c M : fits k r c M -> fits (trans k) c r (fun p q => M q p).
Proof. intros F p q Hp Hq N. apply F; auto. intros H. apply N. apply may_trans. exact H. Qed.
Lemma add_sound a b r c M N : fits a r c M -> fits b r c N -> fits (kadd a b) r c (fun p q => M p q + N p q)%R.
Proof. intros F G p q Hp Hq H. rewrite (F p q), (G p q); auto; [lra| |]; intros X; apply H, may_add; auto. Qed.
Lemma mul_sound a b r m c M N : fits a r m M -> fits b m c N -> fits (kmul a b) r c (fun p q => rsum m (fun t => M p t * N t q))%R.
Proof.
  intros F G p q Hp Hq H. apply rsum_zero. intros t Ht. destruct (may_dec a p t) as [Ha|Ha]; [|rewrite (F p t); auto; lra].
  destruct (may_dec b t q) as [Hb|Hb]; [|rewrite (G t q); auto; lra]. exfalso. apply H. eapply may_mul; eassumption.
Qed.
(** The results are the best kinds. *)
Definition unit_at (p0 q0 : nat) (p q : nat) : R := if Nat.eqb p p0 && Nat.eqb q q0 then 1%R else 0%R.
Lemma unit_fits k p0 q0 r c : may k p0 q0 -> fits k r c (unit_at p0 q0).
Proof.
  intros H p q _ _ N. unfold unit_at. destruct (Nat.eqb_spec p p0) as [->|]; [|reflexivity]. destruct (Nat.eqb_spec q q0) as [->|]; [|reflexivity]. exfalso. auto.
Qed.
Lemma fits_unit k p0 q0 r c : (p0 < r -> q0 < c -> fits k r c (unit_at p0 q0) -> may k p0 q0)%nat.
Proof.
  intros H1 H2 F. destruct (may_dec k p0 q0) as [H|H]; [exact H|]. specialize (F p0 q0 H1 H2 H). unfold unit_at in F. rewrite !Nat.eqb_refl in F. cbn in F. lra.
Qed.
(** two square entries suffice to tell kinds apart *)
Lemma finer_small a b : (forall p q, p < 2 -> q < 2 -> may a p q -> may b p q) -> finer a b.
Proof.
  intros H p q. pose proof (H 0 0) as H00. pose proof (H 0 1) as H01. pose proof (H 1 0) as H10. clear H.
  destruct a, b; cbn in *; try lia; intros X; exfalso; try (apply H00; lia); try (cut (1 <= 0); [lia|]; apply H10; lia); try (cut (1 = 0); [lia|]; auto with arith; fail).
  all: try (specialize (H00 ltac:(lia) ltac:(lia)); specialize (H01 ltac:(lia) ltac:(lia)); specialize (H10 ltac:(lia) ltac:(lia)); cbn in *; lia).
Qed.
Lemma trans_best k k' : (forall M, fits k 2 2 M -> fits k' 2 2 (fun p q => M q p)) -> finer (trans k) k'.
Proof.
  intros H. apply finer_small. intros p q Hp Hq X. apply (proj1 (may_trans _ _ _)) in X. specialize (H _ (unit_fits k q p 2 2 X)).
  apply (fits_unit k' p q 2 2 Hp Hq). intros p' q' Hp' Hq' N. specialize (H p' q' Hp' Hq' N). cbn in H. unfold unit_at in *. rewrite andb_comm. exact H.
Qed.
Lemma add_best a b k' : (forall M N, fits a 2 2 M -> fits b 2 2 N -> fits k' 2 2 (fun p q => M p q + N p q)%R) -> finer (kadd a b) k'.
Proof.
  intros H.
  assert (Ha : forall p q, p < 2 -> q < 2 -> may a p q -> may k' p q).
  { intros p q Hp Hq X. apply (fits_unit k' p q 2 2 Hp Hq). intros p' q' Hp' Hq' N. rewrite <- (H (unit_at p q) (fun _ _ => 0%R) (unit_fits _ _ _ _ _ X) ltac:(intros ? ? ? ? ?; reflexivity) p' q' Hp' Hq' N). lra. }
  assert (Hb : forall p q, p < 2 -> q < 2 -> may b p q -> may k' p q).
  { intros p q Hp Hq X. apply (fits_unit k' p q 2 2 Hp Hq). intros p' q' Hp' Hq' N. rewrite <- (H (fun _ _ => 0%R) (unit_at p q) ltac:(intros ? ? ? ? ?; reflexivity) (unit_fits _ _ _ _ _ X) p' q' Hp' Hq' N). lra. }
  apply finer_small in Ha. apply finer_small in Hb. clear H.
  pose proof (Ha 0 0) as A0. pose proof (Ha 0 1) as A1. pose proof (Ha 1 0) as A2. pose proof (Hb 0 0) as B0. pose proof (Hb 0 1) as B1. pose proof (Hb 1 0) as B2. clear Ha Hb.
  intros p q. destruct a, b, k'; cbn in *; try lia.
Qed.
Lemma mul_best a b k' : (forall M N, fits a 2 2 M -> fits b 2 2 N -> fits k' 2 2 (fun p q => rsum 2 (fun t => M p t * N t q))%R) -> finer (kmul a b) k'.
Proof.
  intros H.
  assert (Ha : forall p t q, p < 2 -> t < 2 -> q < 2 -> may a p t -> may b t q -> may k' p q).
  { intros p t q Hp Ht Hq X Y. apply (fits_unit k' p q 2 2 Hp Hq). intros p' q' Hp' Hq' N.
    rewrite <- (H (unit_at p t) (unit_at t q) (unit_fits _ _ _ _ _ X) (unit_fits _ _ _ _ _ Y) p' q' Hp' Hq' N).
    rewrite (rsum_one 2 _ t Ht).
    - unfold unit_at. rewrite Nat.eqb_refl. cbn. rewrite andb_true_r. destruct (Nat.eqb p' p), (Nat.eqb q' q); cbn; lra.
    - intros i _ Hi. unfold unit_at. rewrite (proj2 (Nat.eqb_neq i t) Hi), andb_false_r. cbn. lra. }
  clear H. apply finer_small. pose proof (Ha 0 0 0) as H000. pose proof (Ha 0 0 1) as H001. pose proof (Ha 0 1 1) as H011. pose proof (Ha 1 0 0) as H100. pose proof (Ha 1 1 0) as H110.
  pose proof (Ha 0 1 0) as H010. clear Ha.
  intros p q Hp Hq. destruct a, b, k'; cbn in *; lia.
Qed.
