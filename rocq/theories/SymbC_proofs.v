From Coq Require Import Reals List Bool Arith Lia Lra Permutation.
From Verif Require Import Scalar Problem_model Symb_model Lin_spec Lin_proofs Symb_spec Symb_proofs SymbL_proofs.
Import ListNotations.

Lemma start_S lens k : k < length lens -> start lens (S k) = start lens k + nth k lens 0.
Proof.
  revert k. induction lens as [|l r IH]; intros [|k] H; cbn [length] in H; try lia.
  - cbn. lia.
  - cbn [nth]. specialize (IH k ltac:(lia)). change (l + start r (S k) = l + start r k + nth k r 0). lia.
Qed.
Lemma start_mono lens i j : i <= j -> j <= length lens -> start lens i <= start lens j.
Proof.
  intros H. induction H as [|j H IH]; intros Hj; [lia|]. rewrite start_S by lia. specialize (IH ltac:(lia)). lia.
Qed.
Lemma start_next lens i j : i < j -> j <= length lens -> start lens i + nth i lens 0 <= start lens j.
Proof. intros H Hj. rewrite <- start_S by lia. apply start_mono; lia. Qed.
Lemma block_in lens i p : i < length lens -> p < nth i lens 0 -> start lens i + p < total lens.
Proof. intros Hi Hp. unfold total. pose proof (start_next lens i (length lens) Hi (le_n _)). lia. Qed.

Section Cover.
  Variables (lens : list nat) (A L : nat -> nat -> R) (D : nat -> R).
  Let n := length lens.
  Let len i := nth i lens 0.
  Let s i := start lens i.
  Let N := total lens.
  Hypothesis U : unit_lower N L.
  Hypothesis DN : forall i, (i < N)%nat -> (D i <> 0)%R.
  Hypothesis F : forall i j, (i < N)%nat -> (j < N)%nat -> A i j = ldl N L D i j.
  Let schur (m i j : nat) : R := (A i j - rsum m (fun t => L i t * D t * L j t))%R.
  Let bfits (k : kind) (M : nat -> nat -> R) (I J : nat) : Prop := fits k (len I) (len J) (fun p q => M (s I + p) (s J + q)).
  Definition inv (k : nat) (B : nat -> nat -> kind) : Prop :=
    (forall I J, k <= I -> I < n -> k <= J -> J < n -> bfits (B I J) (schur (s k)) I J) /\
    (forall I J, k <= I -> I < n -> k <= J -> J < n -> I <> J -> B J I = trans (B I J)).

  Lemma s_next k : k < n -> s (S k) = s k + len k.
  Proof. intros H. apply start_S. exact H. Qed.
  Lemma s_in I p : I < n -> p < len I -> s I + p < N.
  Proof. intros H1 H2. apply block_in; assumption. Qed.
  Lemma s_above k I : k < I -> I < n -> s k + len k <= s I.
  Proof. intros H1 H2. unfold s, len. apply start_next; [exact H1|unfold n in H2; lia]. Qed.
  (** scalar elimination inside block column k *)
  Lemma schur_entry k i q : k < n -> q < len k -> s k + q <= i -> i < N ->
    (schur (s k) i (s k + q) = rsum q (fun t => L i (s k + t)%nat * D (s k + t)%nat * L (s k + q)%nat (s k + t)%nat) + L i (s k + q)%nat * D (s k + q)%nat)%R.
  Proof.
    intros Hk Hq Hi HN. unfold schur. rewrite F by (auto; apply s_in; auto). rewrite (ldl_entry N L D i (s k + q) U Hi HN). rewrite rsum_split. lra.
  Qed.
  Lemma schur_next k i j : k < n -> (schur (s (S k)) i j = schur (s k) i j - rsum (len k) (fun t => L i (s k + t)%nat * D (s k + t)%nat * L j (s k + t)%nat))%R.
  Proof. intros Hk. unfold schur. rewrite s_next by exact Hk. rewrite rsum_split. lra. Qed.
  (** diagonal pivot: the block of L is the identity, the column keeps its kind *)
  Lemma diag_pivot k : k < n -> bfits Diag (schur (s k)) k k -> forall p q, q < p -> p < len k -> L (s k + p) (s k + q) = 0%R.
  Proof.
    intros Hk Hf p q. revert p. induction q as [q IH] using lt_wf_ind. intros p Hq Hp.
    pose proof (schur_entry k (s k + p) q Hk ltac:(lia) ltac:(lia) ltac:(apply s_in; auto)) as E.
    rewrite (Hf p q) in E; [|lia|lia|cbn; lia].
    rewrite rsum_zero in E.
    - assert (HD : (D (s k + q)%nat <> 0)%R) by (apply DN, s_in; auto; lia).
      symmetry in E. rewrite Rplus_0_l in E. apply Rmult_integral in E. tauto.
    - intros t Ht. rewrite (IH t Ht q Ht ltac:(lia)). lra.
  Qed.
  Lemma diag_column k I c : k < I -> I < n -> bfits Diag (schur (s k)) k k -> bfits c (schur (s k)) I k -> bfits c L I k.
  Proof.
    intros HI HIn Hd Hc p q Hp Hq Hm. pose proof (s_above k I HI HIn).
    pose proof (schur_entry k (s I + p) q ltac:(lia) Hq ltac:(lia) ltac:(apply s_in; auto)) as E.
    rewrite (Hc p q Hp Hq Hm) in E. rewrite rsum_zero in E.
    - assert (HD : (D (s k + q)%nat <> 0)%R) by (apply DN, s_in; auto; lia).
      symmetry in E. rewrite Rplus_0_l in E. apply Rmult_integral in E. tauto.
    - intros t Ht. rewrite (diag_pivot k ltac:(lia) Hd q t Ht Hq). lra.
  Qed.
  (** dense pivot *)
  Lemma upper_column k I : k < I -> I < n -> bfits TriU (schur (s k)) I k -> bfits TriU L I k.
  Proof.
    intros HI HIn Hc p q Hp. pose proof (s_above k I HI HIn). induction q as [q IH] using lt_wf_ind. intros Hq Hm. cbn in Hm.
    pose proof (schur_entry k (s I + p) q ltac:(lia) Hq ltac:(lia) ltac:(apply s_in; auto)) as E.
    rewrite (Hc p q Hp Hq) in E by (cbn; lia). rewrite rsum_zero in E.
    - assert (HD : (D (s k + q)%nat <> 0)%R) by (apply DN, s_in; auto; lia).
      symmetry in E. rewrite Rplus_0_l in E. apply Rmult_integral in E. tauto.
    - intros t Ht. rewrite (IH t Ht ltac:(lia)) by (cbn; lia). lra.
  Qed.
  Lemma finer_fits a b M I J : finer a b -> bfits a M I J -> bfits b M I J.
  Proof. intros H G p q Hp Hq X. apply G; auto. Qed.
  Lemma dense_column k I c : k < I -> I < n -> bfits c (schur (s k)) I k -> bfits (fillk c) L I k.
  Proof.
    intros HI HIn Hc. destruct c; cbn [fillk].
    - apply upper_column; auto. apply (finer_fits Zero); auto. intros p q [].
    - apply upper_column; auto. apply (finer_fits Diag); auto. intros p q E. cbn in *. lia.
    - intros p q _ _ X. exfalso. apply X. exact Logic.I.
    - apply upper_column; auto.
    - intros p q _ _ X. exfalso. apply X. exact Logic.I.
  Qed.
  Lemma column_fits k B B' : inv k B -> elim k n B B' -> k < n -> pivot (B k k) -> forall I, k <= I -> I < n -> bfits (B' I k) L I k.
  Proof.
    intros [Hf _] (_ & E2 & E3 & _) Hk P I HI HIn. destruct (Nat.eq_dec I k) as [->|NE].
    - rewrite E2. destruct P as [P|P]; rewrite P; cbn [topk].
      + intros p q Hp Hq X. cbn in X. destruct (Nat.lt_ge_cases q p) as [H|H].
        * apply (diag_pivot k Hk); auto. rewrite <- P. apply Hf; auto.
        * destruct U as [_ U2]. apply U2; [|apply s_in; auto]. lia.
      + intros p q Hp Hq X. cbn in X. destruct U as [_ U2]. apply U2; [|apply s_in; auto]. lia.
    - rewrite E3 by lia. assert (HI' : k < I) by lia. pose proof (Hf I k HI HIn (le_n k) Hk) as Hc. destruct P as [P|P]; rewrite P; cbn [colk].
      + apply diag_column; auto. rewrite <- P. apply Hf; auto.
      + apply dense_column; auto.
  Qed.
  Lemma inv_next k B B' : inv k B -> elim k n B B' -> k < n -> pivot (B k k) -> inv (S k) B'.
  Proof.
    intros Hi He Hk P. pose proof (column_fits k B B' Hi He Hk P) as C. destruct Hi as [Hf Hs]. destruct He as (_ & _ & _ & E4 & E5 & _).
    assert (G : forall I J, k < I -> I <= J -> J < n -> bfits (B' I J) (schur (s (S k))) I J).
    { intros I J HI HIJ HJ p q Hp Hq X. rewrite schur_next by exact Hk. rewrite E4 in X by assumption.
      rewrite (Hf I J ltac:(lia) ltac:(lia) ltac:(lia) HJ p q Hp Hq) by (intros Y; apply X, may_add; auto).
      rewrite rsum_zero; [lra|]. intros t Ht.
      destruct (may_dec (B' I k) p t) as [Ha|Ha]; [|rewrite (C I ltac:(lia) ltac:(lia) p t Hp Ht Ha); lra].
      destruct (may_dec (B' J k) q t) as [Hb|Hb]; [|rewrite (C J ltac:(lia) HJ q t Hq Ht Hb); lra].
      exfalso. apply X, may_add. right. apply (may_mul _ _ p t q Ha). apply may_trans. exact Hb. }
    split.
    - intros I J HI HIn HJ HJn. destruct (Nat.le_gt_cases I J) as [H|H]; [apply G; auto; lia|].
      intros p q Hp Hq X. rewrite (E5 J I) in X by lia.
      assert (SY : forall m i j, i < N -> j < N -> schur m i j = schur m j i).
      { intros m i j H1 H2. unfold schur. rewrite (F i j H1 H2), (F j i H2 H1), ldl_sym. f_equal. apply rsum_ext. intros; lra. }
      rewrite SY by (apply s_in; auto). apply (G J I); auto; try lia. intros Y. apply X, may_trans. exact Y.
    - intros I J HI HIn HJ HJn NE. destruct (Nat.lt_ge_cases I J) as [H|H]; [apply E5; lia|].
      rewrite (E5 J I) by lia. rewrite trans_trans. reflexivity.
  Qed.
  Lemma cover_from : forall m k B Bf, k + m = n -> inv k B -> pllt m k B = (Bf, true) ->
    (forall I J, I < k \/ J < k -> Bf I J = B I J) /\
    (forall I J, k <= J -> J <= I -> I < n -> bfits (Bf I J) L I J) /\
    (forall I J, k <= I -> I < J -> J < n -> Bf I J = Zero).
  Proof.
    induction m as [|m IH]; intros k B Bf Hn Hi E.
    - cbn in E. injection E as <-. split; [reflexivity|]. split; intros; lia.
    - assert (P : pivot (B k k)).
      { destruct (B k k) eqn:Q; try (left; reflexivity); try (right; reflexivity);
        exfalso; pose proof (pllt_refuse m k B) as R; rewrite E, Q in R; cbn in R; (enough (true = false) by discriminate); apply R; intros [X|X]; discriminate. }
      destruct (pllt_step m k B P) as (B' & He & E'). rewrite E' in E. replace (k + S m) with n in He by lia.
      pose proof (inv_next k B B' Hi He ltac:(lia) P) as Hi'. pose proof (column_fits k B B' Hi He ltac:(lia) P) as C.
      destruct (IH (S k) B' Bf ltac:(lia) Hi' E) as (G1 & G2 & G3). destruct He as (E1 & _ & _ & _ & _ & E6). repeat split.
      + intros I J H. rewrite G1 by lia. apply E6. exact H.
      + intros I J H1 H2 H3. destruct (Nat.eq_dec J k) as [->|]; [|apply G2; lia]. rewrite G1 by lia. apply C; lia.
      + intros I J H1 H2 H3. destruct (Nat.eq_dec I k) as [->|]; [|apply G3; lia]. rewrite G1 by lia. apply E1. lia.
  Qed.
End Cover.

Lemma well_holds s : well s -> holds (sy_n s) (sy_stride s) (sy_data s) (blk s).
Proof.
  intros (W1 & W2 & W3). split; [exact W3|]. split; [exact W1|]. intros i j Hi Hj. unfold blk. apply nth_error_nth'. rewrite W1. apply index_in; auto.
Qed.
Lemma holds_blk n stride d B lens f i j : holds n stride d B -> i < n -> j < n -> blk (mkSymb d lens n stride f) i j = B i j.
Proof. intros (_ & _ & H) Hi Hj. unfold blk. cbn. apply nth_error_nth. apply H; auto. Qed.
Lemma holds_well n stride d B lens f : holds n stride d B -> length lens = n -> well (mkSymb d lens n stride f).
Proof. intros (H1 & H2 & H3) L. repeat split; auto. Qed.
(** The array program is total and does what [pllt] does. *)
Lemma llt_runs s : well s -> exists s', llt_in_place s = Ret (s', snd (pllt (sy_n s) 0 (blk s))) /\ well s' /\ sy_n s' = sy_n s /\ sy_lens s' = sy_lens s /\ sy_stride s' = sy_stride s /\
  (forall i j, i < sy_n s -> j < sy_n s -> blk s' i j = fst (pllt (sy_n s) 0 (blk s)) i j) /\
  (snd (pllt (sy_n s) 0 (blk s)) = true -> sy_llt s' = true).
Proof.
  intros W. pose proof (well_holds s W) as H. unfold llt_in_place. destruct (sim_llt (sy_n s) (sy_stride s) (sy_n s) 0 _ _ H eq_refl) as (d' & E & H').
  cbn [Nat.mul] in E. rewrite E. cbn [bind]. eexists. split; [reflexivity|]. split; [eapply holds_well; [exact H'|apply W]|]. cbn [sy_n sy_lens sy_stride sy_llt].
  split; [reflexivity|]. split; [reflexivity|]. split; [reflexivity|]. split.
  - intros i j Hi Hj. eapply holds_blk; eassumption.
  - intros T. rewrite T. destruct (sy_n s) as [|m] eqn:En; [reflexivity|].
    assert (P : pivot (blk s 0 0)).
    { destruct (blk s 0 0) eqn:Q; try (left; reflexivity); try (right; reflexivity); exfalso; pose proof (pllt_refuse m 0 (blk s)) as R0; rewrite Q in R0; rewrite R0 in T; try discriminate; intros [X|X]; discriminate. }
    assert (Q : nth_error (sy_data s) 0 = Some (blk s 0 0)). { destruct H as (_ & _ & H). apply (H 0 0); lia. }
    rewrite Q. destruct P as [P|P]; rewrite P; reflexivity.
Qed.
Lemma llt_covers s s' A L D : well s -> sym_structure (sy_n s) (blk s) -> llt_in_place s = Ret (s', true) ->
  let N := total (sy_lens s) in
  unit_lower N L -> (forall i, i < N -> D i <> 0%R) -> (forall i j, i < N -> j < N -> A i j = ldl N L D i j) ->
  has_structure (sy_n s) (sy_lens s) (blk s) A -> has_structure (sy_n s) (sy_lens s) (blk s') L.
Proof.
  intros W SY E N U DN F HA. destruct (llt_runs s W) as (s1 & E1 & _ & En & El & Es & Eb & _). rewrite E1 in E. injection E as -> T.
  destruct W as (W1 & W2 & W3).
  destruct (pllt (sy_n s) 0 (blk s)) as [Bf b] eqn:PE. cbn in T. subst b. cbn [fst] in Eb.
  destruct (cover_from (sy_lens s) A L D U DN F (sy_n s) 0 (blk s) Bf) as (_ & G2 & G3).
  - symmetry. exact W2.
  - split.
    + intros I J _ HI _ HJ p q Hp Hq X. cbn [start rsum]. rewrite (HA I J) by (try assumption; rewrite W2 in *; assumption). lra.
    + intros I J _ HI _ HJ _. rewrite W2 in *. apply SY; assumption.
  - exact PE.
  - intros i j Hi Hj. rewrite Eb by assumption. destruct (Nat.le_gt_cases j i) as [H|H].
    + apply G2; [lia|exact H|rewrite W2; exact Hi].
    + intros p q Hp Hq _. destruct U as [_ U2]. apply U2.
      * pose proof (start_next (sy_lens s) i j H ltac:(lia)). lia.
      * apply block_in; [rewrite W2; exact Hj|exact Hq].
Qed.

(** ** Structures whose diagonal blocks are diagonal or dense are always factorisable. *)
Lemma pllt_ok N : forall m k B, k + m = N -> (forall i, k <= i -> i < N -> pivot (B i i)) -> snd (pllt m k B) = true.
Proof.
  induction m as [|m IH]; intros k B Hn P; [reflexivity|].
  destruct (pllt_step m k B (P k (le_n k) ltac:(lia))) as (B' & He & E). rewrite E. apply IH; [lia|]. intros i Hi HN.
  destruct He as (_ & _ & _ & E4 & _). rewrite E4 by lia.
  destruct (P i ltac:(lia) HN) as [Q|Q]; rewrite Q; destruct (B' i k); cbn; unfold pivot; auto.
Qed.
