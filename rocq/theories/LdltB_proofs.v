From Coq Require Import Reals List Bool Arith Lia Lra.
From Verif Require Import Scalar Problem_model Symb_model Lin_spec Lin_proofs Symb_spec Symb_proofs SymbL_proofs SymbC_proofs SymbP_proofs SymbQ_proofs Ldlt_model Ldlt_spec Ldlt_proofs LdltG_proofs.
Import ListNotations.
Local Open Scope R_scope.

Lemma map_shift (f : nat -> R) o m : forall z, map (fun i => f (o + i)%nat) (seq z m) = map f (seq (o + z) m).
Proof. induction m as [|m IH]; intros z; [reflexivity|]. cbn [seq map]. rewrite IH, Nat.add_succ_r. reflexivity. Qed.
Lemma load_nth {A} (l : list A) i d : (i < length l)%nat -> load l i = Ret (nth i l d).
Proof. intros H. apply nth_error_load. apply nth_error_nth'. exact H. Qed.

Section Block.
  Variables (s : symb) (A L : nat -> nat -> R) (D : nat -> R).
  Let lens := sy_lens s.
  Let n := sy_n s.
  Let len i := nth i lens 0%nat.
  Let st i := start lens i.
  Let N := total lens.
  Let B := blk s.
  Hypothesis W : well s.
  Hypothesis LL : sy_llt s = true.
  Hypothesis F : factor_of N A L D.
  Hypothesis DN : forall i, (S i < N)%nat -> D i <> 0.
  Hypothesis HS : forall I J, (J <= I)%nat -> (I < n)%nat -> fits (B I J) (len I) (len J) (fun p q => L (st I + p)%nat (st J + q)%nat).
  Hypothesis SU : supported n lens B.
  Definition sch (m i j : nat) : R := A i j - rsum m (fun t => L i t * D t * L j t).

  Lemma n_len : n = length lens.
  Proof. destruct W as (_ & H & _). symmetry. exact H. Qed.
  Lemma st_next k : (k < n)%nat -> st (S k) = (st k + len k)%nat.
  Proof. intros H. apply start_S. rewrite <- n_len. exact H. Qed.
  Lemma st_above i j : (i < j)%nat -> (j <= n)%nat -> (st i + len i <= st j)%nat.
  Proof. intros H1 H2. apply start_next; [exact H1|rewrite <- n_len; exact H2]. Qed.
  Lemma st_end : st n = N.
  Proof. unfold st, N, total. rewrite n_len. reflexivity. Qed.
  Lemma st_le i : (i <= n)%nat -> (st i <= N)%nat.
  Proof. intros H. rewrite <- st_end. apply start_mono; [exact H|rewrite <- n_len; lia]. Qed.
  Lemma len_load i : (i < n)%nat -> load (sy_lens s) i = Ret (len i).
  Proof. intros H. apply load_nth. fold lens. rewrite <- n_len. exact H. Qed.
  Lemma kind_load i j : (i < n)%nat -> (j < n)%nat -> kind_at s i j = Ret (B i j).
  Proof. intros Hi Hj. apply blk_load; assumption. Qed.
  Lemma sch_entry k q i : (k < n)%nat -> (q < len k)%nat -> (st k + q <= i)%nat -> (i < N)%nat ->
    sch (st k) i (st k + q)%nat = rsum q (fun t => L i (st k + t)%nat * D (st k + t)%nat * L (st k + q)%nat (st k + t)%nat) + L i (st k + q)%nat * D (st k + q)%nat.
  Proof.
    intros Hk Hq Hi HN. unfold sch. destruct F as [U E]. rewrite E by assumption. rewrite (ldl_entry N L D i (st k + q) U Hi HN). rewrite rsum_split. lra.
  Qed.
  Lemma sch_next k i j : (k < n)%nat -> sch (st (S k)) i j = sch (st k) i j - rsum (len k) (fun t => L i (st k + t)%nat * D (st k + t)%nat * L j (st k + t)%nat).
  Proof. intros Hk. unfold sch. rewrite st_next by exact Hk. rewrite rsum_split. lra. Qed.

  (** Final value of an entry in the lower triangle. *)
  Definition fin (r c : nat) : R := if Nat.eqb r c then D c else L r c.
  Definition ninv (k : nat) (a : nat -> nat -> R) : Prop :=
    forall r c, (c <= r)%nat -> (r < N)%nat -> a r c = if Nat.ltb c (st k) then fin r c else sch (st k) r c.

  Section Column.
    Variable k : nat.
    Hypothesis Hk : (k < n)%nat.
    Let o := st k.
    Let bs := len k.
    Lemma below i : (k < i)%nat -> (i <= n)%nat -> (o + bs <= st i)%nat.
    Proof. intros H1 H2. apply st_above; assumption. Qed.
    (** During the loop over the blocks of the column, before block i. *)
    Definition cinv (i : nat) (a : nat -> nat -> R) : Prop :=
      (forall r c, (c <= r)%nat -> (r < N)%nat -> a r c = if Nat.ltb c (o + bs) then (if Nat.ltb c o || Nat.ltb r (st i) then fin r c else sch o r c) else sch o r c) /\
      (forall J p t, (k < J)%nat -> (J < i)%nat -> (p < len J)%nat -> (t < bs)%nat -> may (B J k) p t -> a (o + t)%nat (st J + p)%nat = L (st J + p)%nat (o + t)%nat * D (o + t)%nat).
    (** What one iteration has to do. *)
    Definition body_ok (i : nat) (a a' : nat -> nat -> R) : Prop :=
      (forall p q, (p < len i)%nat -> (q < bs)%nat -> a' (st i + p)%nat (o + q)%nat = L (st i + p)%nat (o + q)%nat) /\
      (forall p q, (p < len i)%nat -> (q < bs)%nat -> may (B i k) p q -> a' (o + q)%nat (st i + p)%nat = L (st i + p)%nat (o + q)%nat * D (o + q)%nat) /\
      (forall r c, ~ ((st i <= r < st i + len i)%nat /\ (o <= c < o + bs)%nat) -> ~ ((o <= r < o + bs)%nat /\ (st i <= c < st i + len i)%nat) -> a' r c = a r c).
    Lemma cinv_next i a a' : (k < i)%nat -> (i < n)%nat -> cinv i a -> body_ok i a a' -> cinv (S i) a'.
    Proof.
      intros Hki Hi [C1 C2] (B1 & B2 & B3). pose proof (below i Hki ltac:(lia)) as Hb. pose proof (st_next i Hi) as Hn. split.
      - intros r c Hc Hr. destruct (Nat.lt_ge_cases c (o + bs)) as [X|X].
        + rewrite (proj2 (Nat.ltb_lt _ _) X). destruct (Nat.lt_ge_cases c o) as [Y|Y].
          * rewrite (proj2 (Nat.ltb_lt _ _) Y). cbn [orb]. rewrite B3 by lia. rewrite C1 by assumption. bd; reflexivity.
          * rewrite (proj2 (Nat.ltb_ge _ _) Y). cbn [orb]. destruct (Nat.lt_ge_cases r (st i)) as [Z|Z]; [|destruct (Nat.lt_ge_cases r (st i + len i)) as [Z'|Z']].
            { rewrite B3 by lia. rewrite C1 by assumption. bd; reflexivity. }
            { bd. replace r with (st i + (r - st i))%nat by lia. replace c with (o + (c - o))%nat by lia. rewrite B1 by lia. unfold fin. bd. reflexivity. }
            { rewrite B3 by lia. rewrite C1 by assumption. bd; reflexivity. }
        + rewrite (proj2 (Nat.ltb_ge _ _) X). rewrite B3 by lia. rewrite C1 by assumption. bd; reflexivity.
      - intros J p t HkJ HJ Hp Ht Hm. destruct (Nat.eq_dec J i) as [->|].
        + apply B2; assumption.
        + pose proof (st_above J i ltac:(lia) ltac:(lia)). pose proof (below J HkJ ltac:(lia)). rewrite B3 by lia. apply C2; auto. lia.
    Qed.
    Lemma loop_ok (body : nat -> nat -> kind -> mat RSc -> outcome (mat RSc * bool)) :
      (forall i a, (k < i)%nat -> (i < n)%nat -> cinv i a -> exists a', body (st i) (len i) (B i k) a = Ret (a', true) /\ body_ok i a a') ->
      forall m i a, (i + m = n)%nat -> (k < i)%nat -> cinv i a -> exists a', col_loop (K := RSc) N s k (seq i m) (st i) body a = Ret (a', true) /\ cinv n a'.
    Proof.
      intros Hb. induction m as [|m IH]; intros i a Hn Hi C; [exists a; replace n with i by lia; auto|].
      cbn [seq col_loop]. rewrite len_load by lia. cbn [bind]. rewrite kind_load by lia. cbn [bind]. rewrite (proj2 (Nat.leb_le (st i + len i) N)) by (rewrite <- st_end; apply st_above; lia).
      destruct (Hb i (freeze N N a) Hi ltac:(lia)) as (a' & E & O).
      { destruct C as [C1 C2]. split; intros; rewrite freeze_id; [apply C1|apply C2]; assumption. }
      rewrite E. cbn [bind]. rewrite <- st_next by lia. apply IH; [lia|lia|]. apply (cinv_next i (freeze N N a)); try lia; [|exact O].
      destruct C as [C1 C2]. split; intros; rewrite freeze_id; [apply C1|apply C2]; assumption.
    Qed.
    (** Copy and division. *)
    Lemma scale_copy_ok i w a (X : nat -> nat -> R) : (k < i)%nat -> (i < n)%nat ->
      (forall q, (q < bs)%nat -> a (o + q)%nat (o + q)%nat = D (o + q)%nat) ->
      (forall p q, (p < len i)%nat -> (q < bs)%nat -> a (st i + p)%nat (o + q)%nat = L (st i + p)%nat (o + q)%nat * D (o + q)%nat) ->
      (forall p q, (p < len i)%nat -> (q < bs)%nat -> may (B i k) p q -> w p q = true) ->
      body_ok i a (col_scale (K := RSc) o bs (st i) (len i) w (col_copy (K := RSc) o bs (st i) (len i) w a)).
    Proof.
      intros Hki Hi HD HX Hw. pose proof (below i Hki ltac:(lia)) as Hb. pose proof (st_above i n Hi ltac:(lia)) as Hn. rewrite st_end in Hn. split; [|split].
      - intros p q Hp Hq. unfold col_scale. bd. replace (st i + p - st i)%nat with p by lia. replace (o + q - o)%nat with q by lia.
        assert (E : col_copy (K := RSc) o bs (st i) (len i) w a (st i + p)%nat (o + q)%nat = L (st i + p)%nat (o + q)%nat * D (o + q)%nat) by (unfold col_copy; bd; apply HX; assumption).
        assert (E' : col_copy (K := RSc) o bs (st i) (len i) w a (o + q)%nat (o + q)%nat = D (o + q)%nat) by (unfold col_copy; bd; apply HD; assumption).
        rewrite E, E'. destruct (w p q) eqn:Ew; rs.
        + field. apply DN. lia.
        + assert (Z : L (st i + p)%nat (o + q)%nat = 0). { apply (HS i k ltac:(lia) Hi p q Hp Hq). intros M. rewrite (Hw p q Hp Hq M) in Ew. discriminate. } rewrite Z. lra.
      - intros p q Hp Hq M. unfold col_scale. bd. unfold col_copy. bd. replace (st i + p - st i)%nat with p by lia. replace (o + q - o)%nat with q by lia. rewrite (Hw p q Hp Hq M). apply HX; assumption.
      - intros r c X1 X2. unfold col_scale. bd; try reflexivity; unfold col_copy; bd; reflexivity.
    Qed.
    Lemma zero_ok i a : (k < i)%nat -> (i < n)%nat -> B i k = Zero -> cinv i a -> body_ok i a a.
    Proof.
      intros Hki Hi HB [C1 _]. pose proof (below i Hki ltac:(lia)) as Hb. pose proof (st_above i n Hi ltac:(lia)) as Hn. rewrite st_end in Hn. split; [|split].
      - assert (Z : forall p q, (p < len i)%nat -> (q < bs)%nat -> L (st i + p)%nat (o + q)%nat = 0). { intros p q Hp Hq. apply (HS i k ltac:(lia) Hi p q Hp Hq). unfold B in *. rewrite HB. cbn. tauto. }
        intros p q Hp Hq. rewrite C1 by lia. bd. unfold o. rewrite sch_entry by (try assumption; fold o; lia). fold o. rewrite (Z p q Hp Hq). rewrite rsum_zero; [lra|]. intros t Ht. rewrite (Z p t) by lia. lra.
      - intros p q _ _ M. unfold B in *. rewrite HB in M. destruct M.
      - reflexivity.
    Qed.
    (** A dense pivot: the column is solved against it. *)
    Lemma dense_body i a : (k < i)%nat -> (i < n)%nat -> cinv i a -> exists a', col_dense (K := RSc) o bs (st i) (len i) (B i k) a = Ret (a', true) /\ body_ok i a a'.
    Proof.
      intros Hki Hi C. pose proof (below i Hki ltac:(lia)) as Hb. pose proof (st_above i n Hi ltac:(lia)) as Hn. rewrite st_end in Hn.
      destruct (solve_right_ok o bs (st i) (len i) a (fun r q => L r (o + q)%nat * D (o + q)%nat) Hb) as [R1 R2].
      { destruct C as [C1 _]. intros r q Hr Hr' Hq. rewrite C1 by lia. bd. unfold o. rewrite sch_entry by (try assumption; fold o; lia). fold o. f_equal. apply rsum_ext. intros t Ht. rewrite C1 by lia. unfold fin. bd. cbn [orb]. lra. }
      set (a1 := solve_right (K := RSc) o bs (st i) (len i) a) in *.
      assert (G : forall w, (forall p q, (p < len i)%nat -> (q < bs)%nat -> may (B i k) p q -> w p q = true) -> body_ok i a (col_scale (K := RSc) o bs (st i) (len i) w (col_copy (K := RSc) o bs (st i) (len i) w a1))).
      { intros w Hw. destruct (scale_copy_ok i w a1 (fun _ _ => 0) Hki Hi) as (O1 & O2 & O3).
        - intros q Hq. rewrite R2 by lia. destruct C as [C1 _]. rewrite C1 by lia. unfold fin. bd; reflexivity.
        - intros p q Hp Hq. apply R1; lia.
        - exact Hw.
        - split; [exact O1|]. split; [exact O2|]. intros r c X1 X2. rewrite O3 by assumption. apply R2. exact X1. }
      destruct SU as (_ & _ & S3 & _). pose proof (S3 k i Hki Hi) as NT. unfold col_dense. destruct (B i k) eqn:EB; try (exfalso; apply NT; reflexivity); eexists; (split; [reflexivity|]).
      - apply zero_ok; assumption.
      - apply G. reflexivity.
      - apply G. intros p q Hp Hq M. apply Nat.leb_le. exact M.
      - apply G. reflexivity.
    Qed.
    (** A diagonal pivot. *)
    Lemma diag_body i a : B k k = Diag -> (k < i)%nat -> (i < n)%nat -> cinv i a -> exists a', col_diag (K := RSc) o bs (st i) (len i) (B i k) a = Ret (a', true) /\ body_ok i a a'.
    Proof.
      intros PK Hki Hi C. pose proof (below i Hki ltac:(lia)) as Hb. pose proof (st_above i n Hi ltac:(lia)) as Hn. rewrite st_end in Hn.
      assert (X : forall p q, (p < len i)%nat -> (q < bs)%nat -> a (st i + p)%nat (o + q)%nat = L (st i + p)%nat (o + q)%nat * D (o + q)%nat).
      { intros p q Hp Hq. destruct C as [C1 _]. rewrite C1 by lia. bd. unfold o. rewrite sch_entry by (try assumption; fold o; lia). fold o. rewrite rsum_zero; [lra|]. intros t Ht.
        assert (Z : L (o + q)%nat (o + t)%nat = 0). { apply (HS k k ltac:(lia) Hk q t); [exact Hq|unfold bs, len in *; lia|]. rewrite PK. cbn. lia. } rewrite Z. lra. }
      assert (DD : forall q, (q < bs)%nat -> a (o + q)%nat (o + q)%nat = D (o + q)%nat). { intros q Hq. destruct C as [C1 _]. rewrite C1 by lia. unfold fin. bd; reflexivity. }
      assert (G : forall w, (forall p q, (p < len i)%nat -> (q < bs)%nat -> may (B i k) p q -> w p q = true) -> body_ok i a (col_scale (K := RSc) o bs (st i) (len i) w (col_copy (K := RSc) o bs (st i) (len i) w a))).
      { intros w Hw. apply (scale_copy_ok i w a (fun _ _ => 0)); assumption. }
      destruct SU as (_ & S2 & S3 & _). pose proof (S3 k i Hki Hi) as NT. pose proof (S2 k i Hki Hi) as SQ. unfold col_diag. destruct (B i k) eqn:EB; try (exfalso; apply NT; reflexivity).
      - eexists; (split; [reflexivity|]). apply zero_ok; assumption.
      - specialize (SQ eq_refl). fold (len i) (len k) in SQ. fold bs in SQ. rewrite SQ, Nat.min_id, Nat.eqb_refl. eexists; (split; [reflexivity|]).
        destruct (G Nat.eqb) as (O1 & O2 & O3). { intros p q _ _ M. apply Nat.eqb_eq. exact M. }
        set (a1 := col_copy (K := RSc) o bs (st i) bs Nat.eqb a) in *. set (a2 := col_scale (K := RSc) o bs (st i) (len i) Nat.eqb (col_copy (K := RSc) o bs (st i) (len i) Nat.eqb a)) in *.
        assert (E2 : forall r c, (if Nat.leb o c && Nat.ltb c (o + bs) && Nat.eqb (r - st i) (c - o) && Nat.leb (st i) r then a1 r c / a1 c c else a1 r c) = a2 r c).
        { intros r c. unfold a2, col_scale. rewrite SQ. fold a1. bd; rs; try reflexivity. unfold Rdiv. rewrite Rmult_1_l. reflexivity. }
        unfold body_ok. rs. split; [|split].
        + intros p q Hp Hq. rewrite E2. apply O1; assumption.
        + intros p q Hp Hq M. rewrite E2. apply O2; assumption.
        + intros r c X1 X2. rewrite E2. apply O3; assumption.
      - eexists; (split; [reflexivity|]). apply G. intros p q Hp Hq M. apply Nat.leb_le. exact M.
      - eexists; (split; [reflexivity|]). apply G. reflexivity.
    Qed.
    (** ** The update of the remaining matrix *)
    Definition work_ok (a : nat -> nat -> R) : Prop :=
      forall J p t, (k < J)%nat -> (J < n)%nat -> (p < len J)%nat -> (t < bs)%nat -> may (B J k) p t -> a (o + t)%nat (st J + p)%nat = L (st J + p)%nat (o + t)%nat * D (o + t)%nat.
    (** columns before block i are updated; in the columns of block i the rows before block j *)
    Definition upd (i j r c : nat) : bool := Nat.ltb c (st i) || (Nat.ltb c (st i + len i) && Nat.ltb r (st j)).
    Definition dinv (i j : nat) (a : nat -> nat -> R) : Prop :=
      (forall r c, (c <= r)%nat -> (r < N)%nat -> a r c = if Nat.ltb c (o + bs) then fin r c else if upd i j r c then sch (o + bs) r c else sch o r c) /\ work_ok a.
    Lemma sizes_ok i j : (k < i)%nat -> (i <= j)%nat -> (j < n)%nat -> sizes (B j k) (B i k) (len j) (len i) bs.
    Proof.
      intros Hi Hij Hj. destruct SU as (S1 & S2 & S3 & S4 & S5). pose proof (S2 k i Hi ltac:(lia)) as Q1. pose proof (S2 k j ltac:(lia) Hj) as Q2. pose proof (S3 k i Hi ltac:(lia)) as T1. pose proof (S3 k j ltac:(lia) Hj) as T2.
      fold (len i) (len k) in Q1. fold (len j) (len k) in Q2. fold bs in Q1, Q2.
      destruct (Nat.eq_dec i j) as [<-|NE].
      - destruct (B i k); cbn [sizes]; auto; try lia.
      - pose proof (S4 k i j Hi ltac:(lia) Hj) as P4. pose proof (S5 k i j Hi ltac:(lia) Hj) as P5. fold (len i) (len j) in P5.
        destruct (B j k), (B i k); cbn [sizes]; auto; try (exfalso; apply T1; reflexivity); try (exfalso; apply T2; reflexivity).
        + rewrite Q1, Q2 by reflexivity. reflexivity.
        + exfalso. apply P4; reflexivity.
        + rewrite Q1 by reflexivity. split; [lia|]. rewrite <- Q1 by reflexivity. apply P5; reflexivity.
    Qed.
    Lemma block_gemm_ok i j a : (k < i)%nat -> (i <= j)%nat -> (j < n)%nat -> dinv i j a -> exists a', block_gemm (K := RSc) o bs (st j) (len j) (st i) (len i) (B j k) (B i k) a = Ret a' /\ dinv i (S j) a'.
    Proof.
      intros Hi Hij Hj [C1 C2]. pose proof (below i Hi ltac:(lia)) as Hb. pose proof (below j ltac:(lia) ltac:(lia)) as Hb2. pose proof (st_above j n Hj ltac:(lia)) as Hn. rewrite st_end in Hn. pose proof (st_next j Hj) as Sj.
      assert (Hst : (st i <= st j)%nat). { destruct (Nat.eq_dec i j) as [->|]; [lia|]. pose proof (st_above i j ltac:(lia) ltac:(lia)). lia. }
      assert (HL : forall J p t, (i <= J)%nat -> (J < n)%nat -> (p < len J)%nat -> (t < bs)%nat -> a (st J + p)%nat (o + t)%nat = L (st J + p)%nat (o + t)%nat).
      { intros J p t H1 H2 Hp Ht. pose proof (below J ltac:(lia) ltac:(lia)). pose proof (st_above J n H2 ltac:(lia)) as HJ. rewrite st_end in HJ. rewrite C1 by lia. unfold fin. bd. reflexivity. }
      destruct (gemmt_ok (B j k) (B i k) (len j) (len i) bs (fun p q => a (st j + p)%nat (st i + q)%nat) (fun p t => a (st j + p)%nat (o + t)%nat) (fun q t => a (o + t)%nat (st i + q)%nat) (-1)) as (d & E & G1 & _).
      { intros p q Hp Hq X. rewrite HL by (try assumption; lia). apply (HS j k ltac:(lia) Hj p q Hp Hq X). }
      { apply sizes_ok; assumption. }
      unfold block_gemm. rs. replace (- (1)) with (-1) by lra. rewrite E. cbn [bind]. eexists. split; [reflexivity|].
      assert (V : forall p q, (p < len j)%nat -> (q < len i)%nat -> d p q = a (st j + p)%nat (st i + q)%nat - rsum bs (fun t => L (st j + p)%nat (o + t)%nat * D (o + t)%nat * L (st i + q)%nat (o + t)%nat)).
      { intros p q Hp Hq. rewrite G1 by assumption. rewrite (rsum_ext bs _ (fun t => L (st j + p)%nat (o + t)%nat * D (o + t)%nat * L (st i + q)%nat (o + t)%nat)); [lra|]. intros t Ht. rewrite HL by (try assumption; lia).
        destruct (may_dec (B i k) q t) as [M|M].
        - rewrite mask_in by exact M. rewrite C2 by (try assumption; lia). lra.
        - rewrite mask_may by exact M. pose proof (HS i k ltac:(lia) ltac:(lia) q t Hq Ht M) as Z. cbv beta in Z. fold o in Z. rewrite Z. lra. }
      split.
      - intros r c Hc Hr. destruct (Nat.leb_spec (st j) r); cbn [andb]; [destruct (Nat.ltb_spec r (st j + len j)); cbn [andb]; [destruct (Nat.leb_spec (st i) c); cbn [andb]; [destruct (Nat.ltb_spec c (st i + len i)); cbn [andb]|]|]|].
        + rewrite V by lia. replace (st j + (r - st j))%nat with r by lia. replace (st i + (c - st i))%nat with c by lia. rewrite C1 by assumption. unfold upd. bd. cbn [orb andb].
          unfold o, bs. rewrite <- st_next by exact Hk. rewrite sch_next by exact Hk. reflexivity.
        + rewrite C1 by assumption. unfold upd. bd; reflexivity.
        + rewrite C1 by assumption. unfold upd. bd; reflexivity.
        + rewrite C1 by assumption. unfold upd. bd; reflexivity.
        + rewrite C1 by assumption. unfold upd. bd; reflexivity.
      - intros J p t HkJ HJ Hp Ht M. bd; apply C2; assumption.
    Qed.
    Lemma dinv_freeze i j a : dinv i j a -> dinv i j (freeze (K := RSc) N N a).
    Proof. intros [C1 C2]. split; [intros r c Hc Hr; rewrite freeze_id; apply C1; assumption|]. intros J p t H1 H2 H3 H4 H5. rewrite freeze_id. apply C2; assumption. Qed.
    Lemma inner_ok i : (k < i)%nat -> (i < n)%nat -> forall m j a, (j + m = n)%nat -> (i < j)%nat -> dinv i j a ->
      exists a', upd_inner (K := RSc) N s k o bs (st i) (len i) (B i k) (seq j m) (st j) a = Ret a' /\ dinv i n a'.
    Proof.
      intros Hi Hin. induction m as [|m IH]; intros j a Hn Hj C; [exists a; replace n with j by lia; auto|].
      cbn [seq upd_inner]. rewrite len_load by lia. cbn [bind]. rewrite kind_load by lia. cbn [bind]. rewrite (proj2 (Nat.leb_le (st j + len j) N)) by (rewrite <- st_end; apply st_above; lia).
      destruct (block_gemm_ok i j a Hi ltac:(lia) ltac:(lia) C) as (a' & E & C'). rewrite E. cbn [bind]. rewrite <- st_next by lia. apply IH; [lia|lia|]. apply dinv_freeze. exact C'.
    Qed.
    Lemma outer_ok : forall m i a, (i + m = n)%nat -> (k < i)%nat -> dinv i i a -> exists a', upd_outer (K := RSc) N s k o bs (seq i m) (st i) a = Ret a' /\ dinv n n a'.
    Proof.
      induction m as [|m IH]; intros i a Hn Hi C; [exists a; replace n with i by lia; auto|].
      cbn [seq upd_outer]. rewrite len_load by lia. cbn [bind]. rewrite kind_load by lia. cbn [bind]. rewrite (proj2 (Nat.leb_le (st i + len i) N)) by (rewrite <- st_end; apply st_above; lia).
      destruct (block_gemm_ok i i a Hi ltac:(lia) ltac:(lia) C) as (a1 & E & C1). rewrite E. cbn [bind].
      rewrite <- st_next by lia. destruct (inner_ok i Hi ltac:(lia) m (S i) (freeze N N a1) ltac:(lia) ltac:(lia) (dinv_freeze _ _ _ C1)) as (a2 & E2 & [C2 C3]). rewrite E2. cbn [bind].
      apply IH; [lia|lia|]. split; [|exact C3]. intros r c Hc Hr. rewrite C2 by assumption. unfold upd. pose proof st_end. rewrite (st_next i) by lia. bd; reflexivity.
    Qed.
  End Column.

  Lemma diag_start k a : (k < n)%nat -> B k k = Diag -> ninv k a -> cinv k (S k) a.
  Proof.
    intros Hk PK I. pose proof (st_above k n Hk ltac:(lia)) as Hn. rewrite st_end in Hn. split; [|intros; lia]. intros r c Hc Hr. rewrite I by assumption. rewrite st_next by exact Hk. destruct (Nat.ltb_spec c (st k)); [bd; reflexivity|]. destruct (Nat.ltb_spec c (st k + len k)); [|reflexivity]. cbn [orb]. bd; [|reflexivity].
    replace c with (st k + (c - st k))%nat by lia. rewrite sch_entry by lia.
    assert (Z : forall p q, (p < len k)%nat -> (q < p)%nat -> L (st k + p)%nat (st k + q)%nat = 0). { intros p q Hp Hq. apply (HS k k ltac:(lia) Hk p q); [exact Hp|unfold len in *; lia|]. rewrite PK. cbn. lia. }
    rewrite rsum_zero; [|intros t Ht; rewrite (Z (c - st k)%nat t) by lia; lra]. unfold fin. bd.
    - subst r. replace (st k + (c - st k))%nat with c by lia. destruct F as [[U1 _] _]. rewrite U1 by lia. lra.
    - replace r with (st k + (r - st k))%nat by lia. rewrite Z by lia. lra.
  Qed.
  Definition signs (o m : nat) (sg : sign) : sign := fold_left (update_sign (K := RSc)) (map D (seq o m)) sg.
  Lemma signs_cat o m m' sg : signs o (m + m') sg = signs (o + m) m' (signs o m sg).
  Proof. unfold signs. rewrite seq_app, map_app, fold_left_app. reflexivity. Qed.
  Lemma dense_start k a sg : (k < n)%nat -> ninv k a -> exists l00 sg', dense_in_place (K := RSc) (len k + 1) (len k) (view (K := RSc) (st k) a) sg = Ret (l00, sg') /\ cinv k (S k) (paste (K := RSc) (st k) (len k) l00 a) /\ ((2 <= len k)%nat -> sg' = signs (st k) (len k) sg).
  Proof.
    intros Hk I. pose proof (st_above k n Hk ltac:(lia)) as Hn. rewrite st_end in Hn.
    destruct (dense_ok (len k + 1) (len k) (view (K := RSc) (st k) a) sg (fun i j => L (st k + i)%nat (st k + j)%nat) (fun i => D (st k + i)%nat) ltac:(lia)) as (l00 & sg' & E & [S1 S2] & SG).
    - destruct F as [[U1 U2] _]. assert (U' : unit_lower (len k) (fun i j => L (st k + i)%nat (st k + j)%nat)) by (split; intros; [apply U1; lia|apply U2; lia]). split; [exact U'|].
      intros i j Hj Hi. unfold view. rewrite I by lia. bd. rewrite sch_entry by lia. rewrite (ldl_entry (len k) _ _ i j U') by lia. reflexivity.
    - intros i Hi. apply DN. lia.
    - exists l00, sg'. split; [exact E|]. split; [|intros H2; rewrite SG; destruct (Nat.leb_spec (len k) 1); [lia|]; unfold signs; rewrite (map_shift D (st k) (len k) 0), Nat.add_0_r; reflexivity].
      split; [|intros; lia]. intros r c Hc Hr. rewrite st_next by exact Hk. unfold paste. destruct (Nat.leb_spec (st k) c); [destruct (Nat.ltb_spec r (st k + len k)); cbn [andb]|].
      + bd. cbn [orb]. unfold fin. bd.
        * subst r. rewrite S2 by lia. f_equal. lia.
        * rewrite S1 by lia. f_equal; lia.
      + rewrite Bool.andb_false_r. cbn [andb]. rewrite I by assumption. bd; reflexivity.
      + rewrite Bool.andb_false_r. cbn [andb]. rewrite I by assumption. bd; reflexivity.
  Qed.
  Lemma ninv_done k a : ninv k a -> (k <= n)%nat -> (N - st k <= 1)%nat -> stores N a L D.
  Proof.
    intros I Hkn Hk. split.
    - intros i j Hj Hi. rewrite I by lia. unfold fin. bd. reflexivity.
    - intros i Hi. rewrite I by lia. unfold fin. bd; [reflexivity|]. destruct F as [U F']. unfold sch. rewrite F' by lia. rewrite (ldl_entry N L D i i U) by lia. destruct U as [U1 _]. rewrite U1 by lia. replace i with (st k) by lia. lra.
  Qed.
  Lemma diag_signs_ok k a sg : (k < n)%nat -> B k k = Diag -> ninv k a -> diag_signs (K := RSc) (st k) (len k) a sg = signs (st k) (len k) sg.
  Proof.
    intros Hk PK I. destruct (diag_start k a Hk PK I) as [C _]. pose proof (st_above k n Hk ltac:(lia)) as Hn. rewrite st_end in Hn. unfold diag_signs, signs.
    assert (V : forall q, (q < len k)%nat -> a (st k + q)%nat (st k + q)%nat = D (st k + q)%nat). { intros q Hq. rewrite C by lia. rewrite st_next by exact Hk. bd. cbn [orb]. unfold fin. bd. reflexivity. }
    assert (G : forall m z sg, (z + m <= len k)%nat -> fold_left (fun g q => update_sign (K := RSc) g (a (st k + q)%nat (st k + q)%nat)) (seq z m) sg = fold_left (update_sign (K := RSc)) (map D (seq (st k + z) m)) sg).
    { induction m as [|m IH]; intros z g Hz; [reflexivity|]. cbn [seq map fold_left]. rewrite V by lia. rewrite IH by lia. rewrite Nat.add_succ_r. reflexivity. }
    rewrite G by lia. rewrite Nat.add_0_r. reflexivity.
  Qed.
  Lemma block_ok : forall nb k a sg, (k + nb = n)%nat -> ninv k a -> exists a' sg', block_in_place (K := RSc) nb N s (st k) a sg = Ret (a', sg', true) /\ stores N a' L D /\
    ((forall j, (k <= j)%nat -> (j < n)%nat -> (2 <= len j)%nat) -> sg' = signs (st k) (N - st k) sg).
  Proof.
    induction nb as [|nb IH]; intros k a sg Hn I; cbn [block_in_place]; rewrite LL; cbn [negb].
    - exists a, sg. split; [reflexivity|]. replace k with n by lia. rewrite st_end, Nat.sub_diag. split; [|reflexivity]. apply (ninv_done n); auto; [|rewrite st_end; lia]. replace n with k by lia. exact I.
    - destruct (Nat.leb_spec (N - st k) 1) as [H1|H1].
      { exists a, sg. split; [reflexivity|]. split; [apply (ninv_done k); auto; lia|]. intros H2. exfalso. specialize (H2 k ltac:(lia) ltac:(lia)). pose proof (st_above k n ltac:(lia) ltac:(lia)) as H3. rewrite st_end in H3. lia. }
      assert (Hk : (k < n)%nat) by lia. fold n. replace (n - S nb)%nat with k by lia. rewrite len_load by exact Hk. cbn [bind].
      pose proof (st_above k n Hk ltac:(lia)) as Hkn. rewrite st_end in Hkn. rewrite (proj2 (Nat.ltb_ge N (st k + len k))) by exact Hkn. rewrite kind_load by exact Hk. cbn [bind]. rewrite Nat.add_1_r.
      assert (CO : forall a1 sg1, cinv k n a1 -> ((2 <= len k)%nat -> sg1 = signs (st k) (len k) sg) -> exists a' sg', (do a2 <- upd_outer (K := RSc) N s k (st k) (len k) (seq (S k) nb) (st k + len k) a1; block_in_place (K := RSc) nb N s (st k + len k) (freeze N N a2) sg1)%out = Ret (a', sg', true) /\ stores N a' L D /\
        ((forall j, (k <= j)%nat -> (j < n)%nat -> (2 <= len j)%nat) -> sg' = signs (st k) (N - st k) sg)).
      { intros a1 sg1 [C1 C2] SG. rewrite <- st_next by exact Hk. destruct (outer_ok k Hk nb (S k) a1 ltac:(lia) ltac:(lia)) as (a2 & E2 & [D1 _]).
        - split.
          + intros r c Hc Hr. rewrite C1 by assumption. rewrite st_end. unfold upd. rewrite st_next by exact Hk. bd; reflexivity.
          + intros J p t H2 H3 H4 H5 H6. apply C2; auto.
        - rewrite E2. cbn [bind]. destruct (IH (S k) (freeze (K := RSc) N N a2) sg1 ltac:(lia)) as (a' & sg' & E & ST & S').
          + intros r c Hc Hr. rewrite freeze_id. rewrite D1 by assumption. unfold upd. rewrite st_end. rewrite st_next by exact Hk. bd; reflexivity.
          + exists a', sg'. split; [exact E|]. split; [exact ST|]. intros H2. rewrite S' by (intros; apply H2; lia). rewrite SG by (apply H2; lia). rewrite st_next by exact Hk. replace (N - st k)%nat with (len k + (N - (st k + len k)))%nat by lia. rewrite signs_cat. reflexivity. }
      destruct SU as (S1 & _). destruct (S1 k Hk) as [PK|PK]; fold B in PK; rewrite PK; cbn [bind].
      + destruct (loop_ok k Hk (col_diag (K := RSc) (st k) (len k)) ltac:(intros; apply diag_body; assumption) nb (S k) a ltac:(lia) ltac:(lia) (diag_start k a Hk PK I)) as (a1 & E1 & C1).
        rewrite <- st_next by exact Hk. rewrite E1. cbn [bind fst snd]. rewrite st_next by exact Hk. apply CO; [exact C1|]. intros _. apply diag_signs_ok; assumption.
      + destruct (dense_start k a sg Hk I) as (l00 & sg1 & E0 & C0 & SG). rewrite E0. cbn [bind fst snd].
        destruct (loop_ok k Hk (col_dense (K := RSc) (st k) (len k)) ltac:(intros; apply dense_body; assumption) nb (S k) _ ltac:(lia) ltac:(lia) C0) as (a1 & E1 & C1).
        rewrite <- st_next by exact Hk. rewrite E1. cbn [bind fst snd]. rewrite st_next by exact Hk. apply CO; [exact C1|exact SG].
  Qed.
End Block.
