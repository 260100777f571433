From Coq Require Import Reals List Bool Arith Lia Lra Permutation.
From Verif Require Import Scalar Problem_model Symb_model Lin_spec Lin_proofs Symb_spec Symb_proofs SymbL_proofs SymbC_proofs SymbP_proofs SymbQ_proofs Ldlt_model Ldlt_spec Ldlt_proofs LdltG_proofs LdltB_proofs.
Import ListNotations.
Local Open Scope R_scope.

(** ** Block triangular solves *)
Section Update.
  Variables (s : symb) (T : nat -> nat -> R) (i : nat).
  Let n := sy_n s.
  Let len j := nth j (sy_lens s) 0%nat.
  Let st j := start (sy_lens s) j.
  Hypothesis W : well s.
  Hypothesis Hi : (i < n)%nat.
  Lemma tri_update_ok hi : (hi <= n)%nat -> (hi <= i)%nat \/ (st i + len i <= st hi)%nat ->
    forall m p b, (p + m = hi)%nat -> (hi <= i \/ i < p)%nat ->
    (forall j, (p <= j)%nat -> (j < hi)%nat -> fits (blk s j i) (len j) (len i) (fun r t => T (st j + r)%nat (st i + t)%nat) /\ (blk s j i = Diag -> len j = len i)) ->
    exists b', tri_update (K := RSc) s T i (st i) (len i) (seq p m) (st p) b = Ret b' /\
      (forall r, (st p <= r)%nat -> (r < st hi)%nat -> b' r = b r - rsum (len i) (fun t => T r (st i + t)%nat * b (st i + t)%nat)) /\
      (forall r, ~ (st p <= r < st hi)%nat -> b' r = b r).
  Proof.
    intros Hh Hs. induction m as [|m IH]; intros p b Hp Hd HF.
    - exists b. replace hi with p in * by lia. split; [reflexivity|]. split; [intros; lia|reflexivity].
    - cbn [seq tri_update]. assert (Hpn : (p < n)%nat) by lia. rewrite (load_nth _ _ 0%nat) by (destruct W as (_ & -> & _); exact Hpn). cbn [bind]. fold (len p).
      unfold kind_at. rewrite blk_load by assumption. cbn [bind]. destruct (HF p ltac:(lia) ltac:(lia)) as [FP SQ].
      destruct (gemmt_ok (blk s p i) Dense (len p) 1 (len i) (fun r _ => b (st p + r)%nat) (fun r t => T (st p + r)%nat (st i + t)%nat) (fun _ t => b (st i + t)%nat) (-1) FP) as (d & E & G & _).
      { destruct (blk s p i); cbn; auto. }
      rs. replace (- (1)) with (-1) by lra. rewrite E. cbn [bind].
      match goal with |- context[tri_update s T i (st i) (len i) (seq (S p) m) _ ?x] => set (b1 := x) end.
      assert (NX : st (S p) = (st p + len p)%nat). { apply start_S. destruct W as (_ & -> & _). exact Hpn. }
      assert (HH : (st (S p) <= st hi)%nat). { apply start_mono; [lia|]. destruct W as (_ & -> & _). lia. }
      assert (DJ : forall t, (t < len i)%nat -> ~ (st p <= st i + t < st hi)%nat).
      { intros t Ht. destruct Hd as [Hd|Hd].
        - assert (st hi <= st i)%nat. { apply start_mono; [lia|]. destruct W as (_ & -> & _). lia. } lia.
        - assert (st i + len i <= st p)%nat. { apply start_next; [lia|]. destruct W as (_ & -> & _). lia. } lia. }
      assert (V : forall r, b1 r = if Nat.leb (st p) r && Nat.ltb r (st p + len p) then b r - rsum (len i) (fun t => T r (st i + t)%nat * b (st i + t)%nat) else b r).
      { intros r. unfold b1. rewrite freezev_id. bd; try reflexivity. rewrite G by lia. replace (st p + (r - st p))%nat with r by lia. unfold mask. cbn [mayb]. lra. }
      destruct (IH (S p) b1 ltac:(lia) ltac:(lia)) as (b' & E' & G1 & G2). { intros j H1 H2. apply HF; lia. }
      rewrite <- NX. exists b'. split; [exact E'|]. split.
      + intros r H1 H2. destruct (Nat.lt_ge_cases r (st (S p))) as [X|X].
        * rewrite G2 by lia. rewrite V. bd. reflexivity.
        * rewrite G1 by lia. rewrite V. bd. f_equal. apply rsum_ext. intros t Ht. rewrite V. specialize (DJ t Ht). bd; reflexivity.
      + intros r Hr. rewrite G2 by lia. rewrite V. bd; reflexivity.
  Qed.
End Update.

Section Lower.
  Variables (s : symb) (L T : nat -> nat -> R) (y : nat -> R).
  Let n := sy_n s.
  Let len j := nth j (sy_lens s) 0%nat.
  Let st j := start (sy_lens s) j.
  Let N := total (sy_lens s).
  Let B := blk s.
  Hypothesis W : well s.
  Hypothesis U : unit_lower N L.
  Hypothesis HT : forall r c, (c < r)%nat -> (r < N)%nat -> T r c = L r c.
  Hypothesis HS : forall I J, (J <= I)%nat -> (I < n)%nat -> fits (B I J) (len I) (len J) (fun p q => L (st I + p)%nat (st J + q)%nat).
  Hypothesis DG : forall k, (k < n)%nat -> B k k = Diag \/ B k k = TriL.
  Hypothesis SQ : forall k i, (k < i)%nat -> (i < n)%nat -> B i k = Diag -> len i = len k.
  Variable beta : nat -> R.
  Hypothesis HB : forall i, (i < N)%nat -> beta i = rsum N (fun t => L i t * y t).
  Definition linv (o : nat) (b : nat -> R) : Prop :=
    (forall i, (i < o)%nat -> b i = y i) /\ (forall i, (o <= i)%nat -> (i < N)%nat -> b i = beta i - rsum o (fun t => L i t * y t)).
  Lemma len_n : length (sy_lens s) = n. Proof. destruct W as (_ & H & _). exact H. Qed.
  Lemma beta_rows o q : (o + q < N)%nat -> beta (o + q)%nat - rsum o (fun t => L (o + q)%nat t * y t) = rsum q (fun t => L (o + q)%nat (o + t)%nat * y (o + t)%nat) + y (o + q)%nat.
  Proof. intros H. rewrite HB by exact H. rewrite (lower_rows N L y (o + q) U H). rewrite rsum_split. lra. Qed.
  Lemma tri_lower_ok : forall m k b, (k + m = n)%nat -> linv (st k) b -> exists b', tri_lower (K := RSc) N s T (seq k m) (st k) b = Ret (b', true) /\ forall i, (i < N)%nat -> b' i = y i.
  Proof.
    induction m as [|m IH]; intros k b Hn [I1 I2].
    - exists b. split; [reflexivity|]. intros i Hi. apply I1. replace k with n by lia. unfold st. rewrite <- len_n. exact Hi.
    - assert (Hk : (k < n)%nat) by lia. cbn [seq tri_lower]. rewrite (load_nth _ _ 0%nat) by (rewrite len_n; exact Hk). cbn [bind]. fold (len k).
      assert (NX : st (S k) = (st k + len k)%nat) by (apply start_S; rewrite len_n; exact Hk).
      assert (HN : (st k + len k <= N)%nat) by (apply start_next; rewrite len_n; lia).
      rewrite (proj2 (Nat.ltb_ge N (st k + len k))) by exact HN. unfold kind_at. rewrite blk_load by assumption. cbn [bind].
      assert (SUB : exists b1, subsolve (K := RSc) true (st k) (len k) T (blk s k k) (freezev N b) = (b1, true) /\ (forall q, (q < len k)%nat -> b1 (st k + q)%nat = y (st k + q)%nat) /\ (forall i, ~ (st k <= i < st k + len k)%nat -> b1 i = b i)).
      { destruct (DG k Hk) as [E|E]; fold B; rewrite E; cbn [subsolve].
        - eexists; (split; [reflexivity|]). split; [|intros; apply freezev_id]. intros q Hq. rewrite freezev_id. rewrite I2 by lia. rewrite beta_rows by lia. rewrite rsum_zero; [lra|]. intros t Ht.
          pose proof (HS k k ltac:(lia) Hk q t Hq ltac:(unfold len in *; lia)) as Z. cbv beta in Z. rewrite Z; [lra|]. rewrite E. cbn. lia.
        - eexists; (split; [reflexivity|]). destruct (fwd_ok (st k) (len k) T (freezev (K := RSc) N b) (fun q => y (st k + q)%nat)) as [G1 G2].
          + intros q Hq. rewrite freezev_id. rewrite I2 by lia. rewrite beta_rows by lia. f_equal. apply rsum_ext. intros t Ht. rewrite HT by lia. reflexivity.
          + split; [exact G1|]. intros i Hi. rewrite G2 by exact Hi. apply freezev_id. }
      destruct SUB as (b1 & E1 & S1 & S2). rewrite E1.
      destruct (tri_update_ok s T k W Hk n ltac:(lia) ltac:(right; apply start_next; [lia|rewrite len_n; lia]) m (S k) b1 ltac:(lia) ltac:(lia)) as (b2 & E2 & G1 & G2).
      { intros j H1 H2. split; [|intros; apply SQ; auto; lia]. intros p q Hp Hq X. assert (st k + len k <= st j)%nat by (apply start_next; [lia|rewrite len_n; lia]). assert (st j + len j <= N)%nat by (apply start_next; rewrite len_n; lia).
        fold (st j) (st k). fold (len j) in Hp. fold (len k) in Hq. rewrite HT by lia. apply (HS j k ltac:(lia) H2 p q Hp Hq X). }
      fold (st k) (len k) (st (S k)) in E2. rewrite <- NX. rewrite E2. cbn [bind]. fold (st (S k)) (st n) in G1, G2. fold (st k) (len k) in G1.
      assert (EN : st n = N) by (unfold st; rewrite <- len_n; reflexivity). rewrite EN in *. apply IH; [lia|]. rewrite NX. rewrite NX in G1, G2. split.
      + intros i Hi. rewrite G2 by lia. destruct (Nat.lt_ge_cases i (st k)) as [X|X]; [rewrite S2 by lia; apply I1; lia|]. replace i with (st k + (i - st k))%nat by lia. apply S1. lia.
      + intros i Hi1 Hi2. rewrite G1 by lia. rewrite S2 by lia. rewrite I2 by lia. rewrite rsum_split. rewrite (rsum_ext (len k) (fun t => T i (st k + t)%nat * b1 (st k + t)%nat) (fun t => L i (st k + t)%nat * y (st k + t)%nat)); [lra|].
        intros t Ht. rewrite S1 by exact Ht. rewrite HT by lia. reflexivity.
  Qed.
End Lower.

Section Upper.
  (** s is the transposed structure, T the transposed factor. *)
  Variables (s : symb) (L T : nat -> nat -> R) (x : nat -> R).
  Let n := sy_n s.
  Let len j := nth j (sy_lens s) 0%nat.
  Let st j := start (sy_lens s) j.
  Let N := total (sy_lens s).
  Let B := blk s.
  Hypothesis W : well s.
  Hypothesis U : unit_lower N L.
  Hypothesis HT : forall r c, (r < c)%nat -> (c < N)%nat -> T r c = L c r.
  Hypothesis HS : forall I J, (J <= I)%nat -> (I < n)%nat -> fits (B J I) (len J) (len I) (fun p q => L (st I + q)%nat (st J + p)%nat).
  Hypothesis DG : forall k, (k < n)%nat -> B k k = Diag \/ B k k = TriU.
  Hypothesis SQ : forall k i, (k < i)%nat -> (i < n)%nat -> B k i = Diag -> len k = len i.
  Variable beta : nat -> R.
  Hypothesis HB : forall i, (i < N)%nat -> beta i = rsum N (fun t => L t i * x t).
  (** rows from o on are solved *)
  Definition rinv (o : nat) (b : nat -> R) : Prop :=
    (forall i, (o <= i)%nat -> (i < N)%nat -> b i = x i) /\ (forall i, (i < o)%nat -> b i = beta i - rsum (N - o) (fun t => L (o + t)%nat i * x (o + t)%nat)).
  Lemma len_n' : length (sy_lens s) = n. Proof. destruct W as (_ & H & _). exact H. Qed.
  Lemma rinv_rows o i m : (i < o)%nat -> (o + m <= N)%nat -> rsum (N - o) (fun t => L (o + t)%nat i * x (o + t)%nat) = rsum m (fun t => L (o + t)%nat i * x (o + t)%nat) + rsum (N - (o + m)) (fun t => L (o + m + t)%nat i * x (o + m + t)%nat).
  Proof. intros H1 H2. replace (N - o)%nat with (m + (N - (o + m)))%nat by lia. rewrite rsum_split. f_equal. apply rsum_ext. intros t Ht. rewrite Nat.add_assoc. reflexivity. Qed.
  Lemma tri_upper_ok : forall m b, (m <= n)%nat -> rinv (st m) b -> exists b', tri_upper (K := RSc) m s T (st m) b = Ret (b', true) /\ forall i, (i < N)%nat -> b' i = x i.
  Proof.
    induction m as [|k IH]; intros b Hn [I1 I2].
    - exists b. split; [reflexivity|]. intros i Hi. apply I1; [cbn; lia|exact Hi].
    - assert (Hk : (k < n)%nat) by lia. cbn [tri_upper]. rewrite (load_nth _ _ 0%nat) by (rewrite len_n'; exact Hk). cbn [bind]. fold (len k).
      assert (NX : st (S k) = (st k + len k)%nat) by (apply start_S; rewrite len_n'; exact Hk).
      assert (HN : (st k + len k <= N)%nat) by (apply start_next; rewrite len_n'; lia).
      rewrite NX. rewrite NX in I1, I2. rewrite (proj2 (Nat.ltb_ge (st k + len k) (len k))) by lia. replace (st k + len k - len k)%nat with (st k) by lia. unfold kind_at. rewrite blk_load by assumption. cbn [bind].
      assert (ROW : forall q, (q < len k)%nat -> b (st k + q)%nat = x (st k + q)%nat + rsum (len k - 1 - q) (fun t => L (st k + (q + 1 + t))%nat (st k + q)%nat * x (st k + (q + 1 + t))%nat)).
      { intros q Hq. rewrite I2 by lia. rewrite HB by lia. rewrite (upper_rows N L x (st k + q) U) by lia.
        replace (N - 1 - (st k + q))%nat with ((len k - 1 - q) + (N - (st k + len k)))%nat by lia. rewrite rsum_split.
        rewrite (rsum_ext (N - (st k + len k)) (fun i => L (st k + q + 1 + (len k - 1 - q + i))%nat (st k + q)%nat * x (st k + q + 1 + (len k - 1 - q + i))%nat) (fun t => L (st k + len k + t)%nat (st k + q)%nat * x (st k + len k + t)%nat)).
        - rewrite (rsum_ext (len k - 1 - q) (fun i => L (st k + q + 1 + i)%nat (st k + q)%nat * x (st k + q + 1 + i)%nat) (fun t => L (st k + (q + 1 + t))%nat (st k + q)%nat * x (st k + (q + 1 + t))%nat)); [lra|].
          intros t Ht. replace (st k + q + 1 + t)%nat with (st k + (q + 1 + t))%nat by lia. reflexivity.
        - intros t Ht. replace (st k + q + 1 + (len k - 1 - q + t))%nat with (st k + len k + t)%nat by lia. reflexivity. }
      assert (SUB : exists b1, subsolve (K := RSc) false (st k) (len k) T (blk s k k) (freezev (st k + len k) b) = (b1, true) /\ (forall q, (q < len k)%nat -> b1 (st k + q)%nat = x (st k + q)%nat) /\ (forall i, ~ (st k <= i < st k + len k)%nat -> b1 i = b i)).
      { destruct (DG k Hk) as [E|E]; fold B; rewrite E; cbn [subsolve].
        - eexists; (split; [reflexivity|]). split; [|intros; apply freezev_id]. intros q Hq. rewrite freezev_id. rewrite ROW by exact Hq. rewrite rsum_zero; [lra|]. intros t Ht.
          pose proof (HS k k ltac:(lia) Hk q (q + 1 + t)%nat Hq ltac:(unfold len in *; lia)) as Z. cbv beta in Z. rewrite Z; [lra|]. rewrite E. cbn. lia.
        - eexists; (split; [reflexivity|]). destruct (bwd_ok (st k) (len k) T (freezev (K := RSc) (st k + len k) b) (fun q => x (st k + q)%nat)) as [G1 G2].
          + intros q Hq. rewrite freezev_id. rewrite ROW by exact Hq. f_equal. apply rsum_ext. intros t Ht. rewrite HT by lia. reflexivity.
          + split; [exact G1|]. intros i Hi. rewrite G2 by exact Hi. apply freezev_id. }
      destruct SUB as (b1 & E1 & S1 & S2). rewrite E1.
      destruct (tri_update_ok s T k W Hk k ltac:(lia) ltac:(left; lia) k 0 b1 ltac:(lia) ltac:(lia)) as (b2 & E2 & G1 & G2).
      { intros j H1 H2. split; [|intros; apply SQ; auto; lia]. intros p q Hp Hq X. assert (st j + len j <= st k)%nat by (apply start_next; [lia|rewrite len_n'; lia]).
        fold (st j) (st k). fold (len j) in Hp. fold (len k) in Hq. rewrite HT by lia. apply (HS k j ltac:(lia) Hk p q Hp Hq X). }
      fold (st k) (len k) in E2. change (start (sy_lens s) 0) with 0%nat in E2. rewrite E2. cbn [bind]. fold (st k) (len k) in G1, G2. change (start (sy_lens s) 0) with 0%nat in G1, G2.
      apply IH; [lia|]. split.
      + intros i Hi1 Hi2. rewrite G2 by lia. destruct (Nat.lt_ge_cases i (st k + len k)) as [X|X]; [|rewrite S2 by lia; apply I1; lia]. replace i with (st k + (i - st k))%nat by lia. apply S1. lia.
      + intros i Hi. rewrite G1 by lia. rewrite S2 by lia. rewrite I2 by lia. rewrite (rinv_rows (st k) i (len k)) by lia.
        rewrite (rsum_ext (len k) (fun t => T i (st k + t)%nat * b1 (st k + t)%nat) (fun t => L (st k + t)%nat i * x (st k + t)%nat)); [lra|]. intros t Ht. rewrite S1 by exact Ht. rewrite HT by lia. reflexivity.
  Qed.
End Upper.
