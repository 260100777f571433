From Coq Require Import Reals List Bool Arith Lia Lra Permutation Sorted.
From Verif Require Import Scalar Problem_model Symb_model Lin_spec Lin_proofs Symb_spec Symb_proofs SymbL_proofs SymbC_proofs.
Import ListNotations.

(** ** std::next_permutation *)
Fixpoint lexlt (l m : list nat) : Prop :=
  match l, m with a :: r, b :: q => a < b \/ (a = b /\ lexlt r q) | _, _ => False end.
Lemma lexlt_trans l : forall m k, lexlt l m -> lexlt m k -> lexlt l k.
Proof.
  induction l as [|a l IH]; intros [|b m] [|c k] H1 H2; cbn in *; try tauto. destruct H1 as [H1|[-> H1]], H2 as [H2|[-> H2]]; auto; [left; lia|]. right. split; [reflexivity|]. eapply IH; eassumption.
Qed.
Lemma lexlt_irr l : ~ lexlt l l.
Proof. induction l as [|a l IH]; cbn; [tauto|]. intros [H|[_ H]]; [lia|tauto]. Qed.
Lemma lex_total l : forall m, length l = length m -> lexlt l m \/ l = m \/ lexlt m l.
Proof.
  induction l as [|a l IH]; intros [|b m] H; cbn in *; try discriminate; auto. destruct (Nat.lt_trichotomy a b) as [X|[->|X]]; auto.
  destruct (IH m ltac:(lia)) as [Y|[->|Y]]; auto.
Qed.
Definition asc (l : list nat) : Prop := StronglySorted le l.
Lemma asc_app p q : asc (p ++ q) <-> asc p /\ asc q /\ (forall x y, In x p -> In y q -> x <= y).
Proof.
  unfold asc. induction p as [|a p IH]; cbn.
  - split; [intros H; repeat split; auto; try constructor; tauto|tauto].
  - split.
    + intros H. inversion H as [|? ? H1 H2]; subst. apply IH in H1. destruct H1 as (H3 & H4 & H5). rewrite Forall_app in H2. destruct H2 as [H2 H6]. repeat split; auto.
      * constructor; auto.
      * intros x y [->|X] Y; [|auto]. rewrite Forall_forall in H6. auto.
    + intros (H1 & H2 & H3). inversion H1 as [|? ? H4 H5]; subst. constructor; [apply IH; repeat split; auto|]. apply Forall_app. split; auto. apply Forall_forall. intros y Y. apply H3; auto.
Qed.
(** an ascending list comes first, its reverse last *)
Lemma asc_first s : asc s -> forall m, Permutation s m -> m = s \/ lexlt s m.
Proof.
  induction s as [|a s IH]; intros H m P; [apply Permutation_nil in P; auto|].
  inversion H as [|? ? H1 H2]; subst. destruct m as [|b m]; [symmetry in P; apply Permutation_nil_cons in P; tauto|].
  assert (Hb : In b (a :: s)) by (eapply Permutation_in; [symmetry; exact P|left; reflexivity]).
  destruct Hb as [->|Hb].
  - apply Permutation_cons_inv in P. destruct (IH H1 m P) as [->|X]; [left; reflexivity|right; cbn; auto].
  - rewrite Forall_forall in H2. specialize (H2 b Hb). destruct (Nat.eq_dec a b) as [->|]; [|right; cbn; lia].
    apply Permutation_cons_inv in P. destruct (IH H1 m P) as [->|X]; [left; reflexivity|right; cbn; auto].
Qed.
Lemma desc_last r : asc (rev r) -> forall m, Permutation r m -> m = r \/ lexlt m r.
Proof.
  induction r as [|a r IH]; intros H m P; [apply Permutation_nil in P; auto|].
  cbn in H. apply asc_app in H. destruct H as (H1 & _ & H2). destruct m as [|b m]; [symmetry in P; apply Permutation_nil_cons in P; tauto|].
  assert (Hb : In b (a :: r)) by (eapply Permutation_in; [symmetry; exact P|left; reflexivity]).
  assert (b <= a). { destruct Hb as [->|Hb]; [lia|]. apply H2; [apply in_rev in Hb; exact Hb|left; reflexivity]. }
  destruct (Nat.eq_dec b a) as [->|]; [|right; cbn; lia]. apply Permutation_cons_inv in P. destruct (IH H1 m P) as [->|X]; [left; reflexivity|right; cbn; auto].
Qed.
Lemma np_swap_some a : forall s x s', np_swap a s = Some (x, s') -> exists p q, s = p ++ x :: q /\ s' = p ++ a :: q /\ a < x /\ (forall y, In y p -> y <= a).
Proof.
  induction s as [|y s IH]; intros x s' E; cbn [np_swap] in E; [discriminate|]. destruct (Nat.ltb_spec a y) as [H|H].
  - injection E as <- <-. exists [], s. repeat split; auto. intros y' [].
  - destruct (np_swap a s) as [[z r']|] eqn:E'; [|discriminate]. injection E as <- <-. destruct (IH z r' eq_refl) as (p & q & -> & -> & H1 & H2).
    exists (y :: p), q. repeat split; auto. intros y' [->|Y]; auto.
Qed.
Lemma np_swap_none a : forall s, np_swap a s = None -> forall y, In y s -> y <= a.
Proof.
  induction s as [|y s IH]; intros E z Z; [destruct Z|]. cbn [np_swap] in E. destruct (Nat.ltb_spec a y) as [H|H]; [discriminate|].
  destruct (np_swap a s) as [[? ?]|] eqn:E'; [discriminate|]. destruct Z as [->|Z]; auto.
Qed.
Lemma next_none l : next_perm l = None -> asc (rev l).
Proof.
  induction l as [|a r IH]; intros E; cbn [rev]; [constructor|]. cbn [next_perm] in E. destruct (next_perm r) eqn:Er; [discriminate|]. specialize (IH eq_refl).
  destruct (np_swap a (rev r)) as [[? ?]|] eqn:Es; [discriminate|]. apply asc_app. repeat split; auto; [repeat constructor|].
  intros x y X [<-|[]]. apply (np_swap_none a (rev r) Es x X).
Qed.
Lemma next_some l : forall l', next_perm l = Some l' -> Permutation l l' /\ lexlt l l' /\ forall m, Permutation l m -> lexlt l m -> m = l' \/ lexlt l' m.
Proof.
  induction l as [|a r IH]; intros l' E; [discriminate|]. cbn [next_perm] in E. destruct (next_perm r) as [r'|] eqn:Er.
  - injection E as <-. destruct (IH r' eq_refl) as (P & X & Y). repeat split; [constructor; exact P|cbn; auto|].
    intros [|b m] Pm Lm; [symmetry in Pm; apply Permutation_nil_cons in Pm; tauto|]. cbn in Lm. destruct Lm as [Lm|[-> Lm]]; [right; cbn; auto|].
    apply Permutation_cons_inv in Pm. destruct (Y m Pm Lm) as [->|Z]; [left; reflexivity|right; cbn; auto].
  - pose proof (next_none r Er) as Ar. destruct (np_swap a (rev r)) as [[x s]|] eqn:Es; [|discriminate]. injection E as <-.
    destruct (np_swap_some a _ _ _ Es) as (p & q & E1 & -> & Hax & Hp).
    assert (P1 : Permutation r (p ++ x :: q)) by (rewrite <- E1; apply Permutation_rev).
    assert (PP : Permutation (a :: r) (x :: p ++ a :: q)).
    { transitivity (a :: x :: p ++ q); [constructor; rewrite P1; symmetry; apply Permutation_middle|]. rewrite perm_swap. constructor. apply Permutation_middle. }
    rewrite E1 in Ar. pose proof Ar as Ar'. apply asc_app in Ar. destruct Ar as (A1 & A2 & A3). inversion A2 as [|? ? A4 A5]; subst. rewrite Forall_forall in A5.
    assert (S1 : asc (p ++ a :: q)).
    { apply asc_app. repeat split; auto.
      - constructor; auto. apply Forall_forall. intros y Y. specialize (A5 y Y). lia.
      - intros y z Y [<-|Z]; [auto|]. apply A3; [exact Y|right; exact Z]. }
    repeat split; [exact PP|cbn; auto|].
    intros [|b m] Pm Lm; [symmetry in Pm; apply Permutation_nil_cons in Pm; tauto|]. cbn in Lm. destruct Lm as [Lm|[-> Lm]].
    + assert (Hb : In b (a :: r)) by (eapply Permutation_in; [symmetry; exact Pm|left; reflexivity]). destruct Hb as [->|Hb]; [lia|].
      assert (x <= b).
      { rewrite P1 in Hb. apply in_app_or in Hb. destruct Hb as [Hb|[->|Hb]]; [specialize (Hp b Hb); lia|lia|apply A5; exact Hb]. }
      destruct (Nat.eq_dec x b) as [->|]; [|right; cbn; lia].
      assert (Pm' : Permutation (p ++ a :: q) m). { apply (Permutation_cons_inv (a := b)). rewrite <- PP. exact Pm. }
      destruct (asc_first _ S1 m Pm') as [->|X]; [left; reflexivity|right; cbn; auto].
    + apply Permutation_cons_inv in Pm. rewrite <- E1 in Ar'. destruct (desc_last r Ar' m Pm) as [->|X].
      * exfalso. apply (lexlt_irr r Lm).
      * exfalso. apply (lexlt_irr r). eapply lexlt_trans; eassumption.
Qed.
Lemma seq_asc n : forall a, asc (seq a n).
Proof. induction n as [|n IH]; intros a; cbn; constructor; [apply IH|]. apply Forall_forall. intros y Y. apply in_seq in Y. lia. Qed.
(** A measure: the list read as a number in base n. *)
Fixpoint num (n : nat) (l : list nat) : nat := match l with [] => 0 | a :: r => a * n ^ length r + num n r end.
Lemma num_bound n l : (forall x, In x l -> x < n) -> num n l < n ^ length l.
Proof.
  induction l as [|a r IH]; intros H; cbn; [lia|]. specialize (IH ltac:(intros; apply H; right; assumption)). pose proof (H a (or_introl eq_refl)). nia.
Qed.
Lemma num_lex n l : forall m, length l = length m -> (forall x, In x l -> x < n) -> (forall x, In x m -> x < n) -> lexlt l m -> num n l < num n m.
Proof.
  induction l as [|a l IH]; intros [|b m] HL Hl Hm X; cbn in X; try tauto. cbn in HL. cbn [num]. assert (E : length l = length m) by lia. rewrite E.
  pose proof (num_bound n l ltac:(intros; apply Hl; right; assumption)) as B. rewrite E in B. destruct X as [X|[-> X]]; [nia|].
  specialize (IH m E ltac:(intros; apply Hl; right; assumption) ltac:(intros; apply Hm; right; assumption) X). lia.
Qed.

(** ** Copies *)
Lemma for_each_inv {S : Type} (Inv : nat -> S -> Prop) a b f s0 : a <= b -> Inv a s0 ->
  (forall i s, a <= i < b -> Inv i s -> exists s', f i s = Ret s' /\ Inv (1 + i) s') -> exists s', for_each (range a b) f s0 = Ret s' /\ Inv b s'.
Proof.
  intros Hab. unfold range. remember (b - a) as m eqn:Em. revert a s0 Hab Em. induction m as [|m IH]; intros a s0 Hab Em H0 HS.
  - exists s0. split; [reflexivity|]. replace b with a by lia. exact H0.
  - cbn [seq for_each]. destruct (HS a s0 ltac:(lia) H0) as (s1 & E & H1). rewrite E. cbn [bind]. apply IH; [lia|lia|exact H1|]. intros i s Hi. apply HS. lia.
Qed.
Lemma nth_error_load {A} (l : list A) i v : nth_error l i = Some v -> load l i = Ret v.
Proof. intros E. unfold load. rewrite E. reflexivity. Qed.
Lemma store_ok {A} (l : list A) i v : i < length l -> store l i v = Ret (put l i v).
Proof. intros H. unfold store. rewrite (proj2 (Nat.ltb_lt _ _) H). reflexivity. Qed.
Lemma list_ext {A} (l m : list A) : length l = length m -> (forall i, i < length l -> nth_error l i = nth_error m i) -> l = m.
Proof.
  revert m. induction l as [|a l IH]; intros [|b m] H1 H2; cbn in *; try discriminate; auto. f_equal.
  - specialize (H2 0 ltac:(lia)). cbn in H2. congruence.
  - apply IH; [lia|]. intros i Hi. apply (H2 (S i)). lia.
Qed.
Lemma for_each_ext {S : Type} l (f g : nat -> S -> outcome S) s : (forall i s, In i l -> f i s = g i s) -> for_each l f s = for_each l g s.
Proof.
  revert s. induction l as [|i l IH]; intros s H; [reflexivity|]. cbn. rewrite H by (left; reflexivity). destruct (g i s); try reflexivity. cbn. apply IH. intros; apply H; right; assumption.
Qed.
(** every element of a list of size n is written *)
Lemma for_fill {A} (n : nat) (f : nat -> outcome A) (g : nat -> A) l : length l = n -> (forall i, i < n -> f i = Ret (g i)) ->
  for_each (range 0 n) (fun i l' => do v <- f i; store l' i v)%out l = Ret (map g (seq 0 n)).
Proof.
  intros HL Hf.
  destruct (for_each_inv (fun k l' => length l' = n /\ forall i, i < k -> i < n -> nth_error l' i = Some (g i)) 0 n (fun i l' => do v <- f i; store l' i v)%out l) as (l' & E & H1 & H2).
  - lia.
  - split; [exact HL|]. intros; lia.
  - intros i s Hi [H1 H2]. rewrite Hf by lia. cbn [bind]. rewrite store_ok by lia. eexists. split; [reflexivity|]. split; [rewrite put_length; exact H1|].
    intros j Hj Hjn. rewrite nth_put by lia. destruct (Nat.eqb_spec j i) as [->|]; [reflexivity|]. apply H2; lia.
  - rewrite E. f_equal. apply list_ext; [rewrite map_length, seq_length; exact H1|]. intros i Hi. rewrite H2 by lia. rewrite nth_error_map_seq. rewrite (proj2 (Nat.ltb_lt i n)) by lia. reflexivity.
Qed.
(** an n x n window is filled *)
Lemma fill_matrix n stride (f : nat -> nat -> outcome kind) (g : nat -> nat -> kind) d : n <= stride -> length d = n * stride -> (forall i j, i < n -> j < n -> f i j = Ret (g i j)) ->
  exists d', for_each (range 0 n) (fun i d' => for_each (range 0 n) (fun j d'' => do v <- f i j; store d'' (at_ 0 stride i j) v)%out d') d = Ret d' /\ holds n stride d' g.
Proof.
  intros Hn HL Hf.
  assert (IN : forall i s (P : nat -> nat -> Prop), i < n -> length s = n * stride -> (forall a b, a < n -> b < n -> P a b -> a <> i /\ nth_error s (a + b * stride) = Some (g a b)) ->
     exists s', for_each (range 0 n) (fun j d'' => do v <- f i j; store d'' (at_ 0 stride i j) v)%out s = Ret s' /\ length s' = n * stride /\
       forall a b, a < n -> b < n -> P a b \/ a = i -> nth_error s' (a + b * stride) = Some (g a b)).
  { intros i s P Hi Ls HP.
    destruct (for_each_inv (fun k s' => length s' = n * stride /\ forall a b, a < n -> b < n -> P a b \/ (a = i /\ b < k) -> nth_error s' (a + b * stride) = Some (g a b)) 0 n
      (fun j d'' => do v <- f i j; store d'' (at_ 0 stride i j) v)%out s) as (s' & E & H1 & H2); [lia| | |].
    - split; [exact Ls|]. intros a b Ha Hb [X|X]; [|lia]. apply HP; auto.
    - intros j s1 Hj [H1 H2]. rewrite Hf by lia. cbn [bind]. unfold at_. cbn [Nat.add]. pose proof (index_in n stride i j Hi ltac:(lia) Hn) as Hin.
      rewrite store_ok by lia. eexists. split; [reflexivity|]. split; [rewrite put_length; exact H1|]. intros a b Ha Hb X. rewrite nth_put by lia.
      destruct (Nat.eqb_spec (a + b * stride) (i + j * stride)) as [Q|Q].
      + apply index_inj in Q; [|lia|lia]. destruct Q as [-> ->]. reflexivity.
      + apply H2; auto. destruct X as [X|[-> X]]; auto. right. split; [reflexivity|]. assert (b <> j) by (intros ->; apply Q; reflexivity). lia.
    - exists s'. split; [exact E|]. split; [exact H1|]. intros a b Ha Hb X. apply H2; auto. destruct X as [X|X]; auto. }
  destruct (for_each_inv (fun k d' => length d' = n * stride /\ forall a b, a < n -> b < n -> a < k -> nth_error d' (a + b * stride) = Some (g a b)) 0 n
     (fun i d' => for_each (range 0 n) (fun j d'' => do v <- f i j; store d'' (at_ 0 stride i j) v)%out d') d) as (d' & E & H1 & H2); [lia| | |].
  - split; [exact HL|]. intros; lia.
  - intros i s Hi [H1 H2]. destruct (IN i s (fun a b => a < i) ltac:(lia) H1) as (s' & E & H3 & H4).
    + intros a b Ha Hb X. split; [lia|]. apply H2; auto.
    + exists s'. split; [exact E|]. split; [exact H3|]. intros a b Ha Hb X. apply H4; auto. lia.
  - exists d'. split; [exact E|]. split; [exact Hn|]. split; [exact H1|]. intros a b Ha Hb. apply H2; auto.
Qed.
Lemma perm_in n p i : is_perm n p -> i < n -> nth_error p i = Some (nth i p 0) /\ nth i p 0 < n.
Proof.
  intros P Hi. assert (HL : length p = n) by (rewrite <- (Permutation_length P), seq_length; reflexivity). split; [apply nth_error_nth'; lia|].
  assert (In (nth i p 0) p) by (apply nth_In; lia). eapply Permutation_in in H; [|symmetry; exact P]. apply in_seq in H. lia.
Qed.
Lemma deep_copy_perm src dst p : well src -> well dst -> sy_n dst = sy_n src -> is_perm (sy_n src) p ->
  exists s', deep_copy src dst (Some p) = Ret s' /\ same s' (sy_n src) (reorder_lens p (sy_lens src)) (reorder p (blk src)) /\ sy_stride s' = sy_stride dst /\ sy_llt s' = sy_llt src.
Proof.
  intros (W1 & W2 & W3) (V1 & V2 & V3) En P. unfold deep_copy. rewrite En in *. set (n := sy_n src) in *.
  assert (HL : length p = n) by (rewrite <- (Permutation_length P), seq_length; reflexivity).
  rewrite (for_each_ext (range 0 n) _ (fun i l' => (do v <- (do pi <- load p i; load (sy_lens src) pi); store l' i v)%out)).
  2:{ intros i l' _. destruct (load p i); reflexivity. }
  rewrite (for_fill n _ (fun i => nth (nth i p 0) (sy_lens src) 0)).
  2:{ exact V2. }
  2:{ intros i Hi. destruct (perm_in n p i P Hi) as [E1 E2]. rewrite (nth_error_load p i _ E1). cbn [bind]. apply nth_error_load, nth_error_nth'. rewrite W2. exact E2. }
  cbn [bind].
  rewrite (for_each_ext (range 0 n) _ (fun i d' => for_each (range 0 n) (fun j d'' => do v <- (do pi <- load p i; do pj <- load p j; load (sy_data src) (at_ 0 (sy_stride src) pi pj)); store d'' (at_ 0 (sy_stride dst) i j) v)%out d')).
  2:{ intros i d' _. apply for_each_ext. intros j d'' _. destruct (load p i); try reflexivity. cbn [bind]. destruct (load p j); reflexivity. }
  destruct (fill_matrix n (sy_stride dst) (fun i j => (do pi <- load p i; do pj <- load p j; load (sy_data src) (at_ 0 (sy_stride src) pi pj))%out) (reorder p (blk src)) (sy_data dst) V3 V1) as (d' & E & H).
  { intros i j Hi Hj. destruct (perm_in n p i P Hi) as [E1 E2]. destruct (perm_in n p j P Hj) as [E3 E4]. rewrite (nth_error_load p i _ E1). cbn [bind]. rewrite (nth_error_load p j _ E3). cbn [bind].
    apply nth_error_load. unfold at_, reorder, blk. cbn [Nat.add]. apply nth_error_nth'. rewrite W1. apply index_in; auto. }
  rewrite E. cbn [bind]. eexists. split; [reflexivity|]. split; [|split; reflexivity]. split; [|split; [|split]].
  - eapply holds_well; [exact H|]. rewrite map_length, seq_length. reflexivity.
  - reflexivity.
  - cbn [sy_lens]. unfold reorder_lens. apply list_ext; [rewrite !map_length, seq_length; lia|]. rewrite map_length, seq_length. intros i Hi. rewrite nth_error_map_seq, (proj2 (Nat.ltb_lt i n) Hi).
    rewrite nth_error_map. destruct (perm_in n p i P Hi) as [-> _]. reflexivity.
  - intros i j Hi Hj. eapply holds_blk; eassumption.
Qed.
Lemma id_perm n : is_perm n (seq 0 n).
Proof. apply Permutation_refl. Qed.
Lemma copy_ok s : well s -> exists s', symb_copy s = Ret s' /\ same s' (sy_n s) (sy_lens s) (blk s) /\ sy_stride s' = sy_stride s /\ sy_llt s' = sy_llt s.
Proof.
  intros (W1 & W2 & W3). unfold symb_copy, deep_copy. cbn [symb_alloc sy_n sy_lens sy_data sy_stride]. set (n := sy_n s) in *. cbn [bind].
  rewrite (for_fill n _ (fun i => nth i (sy_lens s) 0)); [|apply repeat_length|intros i Hi; apply nth_error_load, nth_error_nth'; lia].
  cbn [bind].
  destruct (fill_matrix n (sy_stride s) (fun i j => load (sy_data s) (at_ 0 (sy_stride s) i j)) (blk s) (repeat Dense (n * sy_stride s)) W3) as (d' & E & H).
  { apply repeat_length. }
  { intros i j Hi Hj. apply nth_error_load. unfold at_, blk. cbn [Nat.add]. apply nth_error_nth'. rewrite W1. apply index_in; auto. }
  rewrite E. cbn [bind]. eexists. split; [reflexivity|]. split; [|split; reflexivity]. split; [|split; [|split]].
  - eapply holds_well; [exact H|]. rewrite map_length, seq_length. reflexivity.
  - reflexivity.
  - cbn [sy_lens]. apply list_ext; [rewrite map_length, seq_length; lia|]. rewrite map_length, seq_length. intros i Hi. rewrite nth_error_map_seq, (proj2 (Nat.ltb_lt i n) Hi). symmetry. apply nth_error_nth'. lia.
  - intros i j Hi Hj. eapply holds_blk; eassumption.
Qed.
Lemma transpose_ok s : well s -> exists s', symb_transpose s = Ret s' /\ same s' (sy_n s) (sy_lens s) (fun i j => trans (blk s j i)) /\ sy_llt s' = sy_llt s.
Proof.
  intros W. destruct (copy_ok s W) as (o & E & ((O1 & O2 & O3) & On & Ol & _) & Os & Of). unfold symb_transpose. rewrite E. cbn [bind]. destruct W as (W1 & W2 & W3). set (n := sy_n s) in *. rewrite On in *.
  destruct (fill_matrix n (sy_stride o) (fun i j => do v <- load (sy_data s) (at_ 0 (sy_stride s) j i); Ret (trans v))%out (fun i j => trans (blk s j i)) (sy_data o) O3 O1) as (d' & E' & H).
  { intros i j Hi Hj. rewrite (nth_error_load _ _ (blk s j i)); [reflexivity|]. unfold at_, blk. cbn [Nat.add]. apply nth_error_nth'. rewrite W1. apply index_in; auto. }
  rewrite (for_each_ext (range 0 n) _ (fun i d' => for_each (range 0 n) (fun j d'' => do v <- (do v <- load (sy_data s) (at_ 0 (sy_stride s) j i); Ret (trans v)); store d'' (at_ 0 (sy_stride o) i j) v)%out d')).
  2:{ intros i d1 _. apply for_each_ext. intros j d2 _. destruct (load (sy_data s) (at_ 0 (sy_stride s) j i)); reflexivity. }
  rewrite E'. cbn [bind]. eexists. split; [reflexivity|]. split; [|exact Of]. split; [|split; [|split]].
  - eapply holds_well; [exact H|]. lia.
  - reflexivity.
  - exact Ol.
  - intros i j Hi Hj. exact (holds_blk _ _ _ (fun i j => trans (blk s j i)) _ _ i j H Hi Hj).
Qed.

(** ** Counting *)
Definition cnt (n : nat) (lens : list nat) (B : nat -> nat -> kind) : nat :=
  list_sum (map (fun i => list_sum (map (fun j => block_nnz (B i j) (nth i lens 0) (nth j lens 0)) (seq 0 n))) (seq 0 n)).
Lemma for_sum n (f : nat -> nat -> outcome nat) (g : nat -> nat) a : (forall i acc, i < n -> f i acc = Ret (acc + g i)) ->
  for_each (range 0 n) f a = Ret (a + list_sum (map g (seq 0 n))).
Proof.
  intros H. destruct (for_each_inv (fun k acc => acc = a + list_sum (map g (seq 0 k))) 0 n f a) as (s' & E & ->); [lia|cbn; lia| |exact E].
  intros i s Hi ->. rewrite H by lia. eexists. split; [reflexivity|]. change (1 + i) with (S i). rewrite seq_S, map_app, list_sum_app. cbn. lia.
Qed.
Lemma count_ok s : well s -> count_nnz s = Ret (cnt (sy_n s) (sy_lens s) (blk s)).
Proof.
  intros (W1 & W2 & W3). unfold count_nnz, cnt. rewrite (for_sum (sy_n s) _ (fun i => list_sum (map (fun j => block_nnz (blk s i j) (nth i (sy_lens s) 0) (nth j (sy_lens s) 0)) (seq 0 (sy_n s))))); [reflexivity|].
  intros i acc Hi. apply for_sum. intros j acc' Hj. rewrite (nth_error_load _ _ (blk s i j)), (nth_error_load _ i (nth i (sy_lens s) 0)), (nth_error_load _ j (nth j (sy_lens s) 0)); [reflexivity| | |].
  - apply nth_error_nth'. lia.
  - apply nth_error_nth'. lia.
  - unfold at_, blk. cbn [Nat.add]. apply nth_error_nth'. rewrite W1. apply index_in; auto.
Qed.
Lemma cnt_ext n lens B B' : (forall i j, i < n -> j < n -> B i j = B' i j) -> cnt n lens B = cnt n lens B'.
Proof.
  intros H. unfold cnt. f_equal. apply map_ext_in. intros i Hi. apply in_seq in Hi. f_equal. apply map_ext_in. intros j Hj. apply in_seq in Hj. rewrite H by lia. reflexivity.
Qed.
Lemma length_filter_prod {A B} (f : A * B -> bool) (l : list A) (m : list B) : length (filter f (list_prod l m)) = list_sum (map (fun p => length (filter (fun q => f (p, q)) m)) l).
Proof.
  induction l as [|a l IH]; [reflexivity|]. cbn [list_prod map list_sum fold_right]. rewrite filter_app, app_length, IH. f_equal.
  clear. induction m as [|b m IH]; [reflexivity|]. cbn. destruct (f (a, b)); cbn; rewrite IH; reflexivity.
Qed.
Lemma count_eq p : forall c a, length (filter (fun q => Nat.eqb p q) (seq a c)) = if (Nat.leb a p && Nat.ltb p (a + c))%bool then 1 else 0.
Proof.
  induction c as [|c IH]; intros a.
  - cbn [seq filter length]. destruct (Nat.leb_spec a p), (Nat.ltb_spec p (a + 0)); cbn; lia.
  - cbn [seq filter]. destruct (Nat.eqb_spec p a) as [->|NE]; cbn [length]; rewrite IH.
    + destruct (Nat.leb_spec (S a) a), (Nat.leb_spec a a), (Nat.ltb_spec a (a + S c)); cbn; lia.
    + destruct (Nat.leb_spec (S a) p), (Nat.leb_spec a p), (Nat.ltb_spec p (a + S c)), (Nat.ltb_spec p (S a + c)); cbn; lia.
Qed.
Lemma count_le p : forall c a, length (filter (fun q => Nat.leb q p) (seq a c)) = Nat.min c (S p - a).
Proof. induction c as [|c IH]; intros a; [reflexivity|]. cbn [seq filter]. destruct (Nat.leb_spec a p); cbn [length]; rewrite IH; lia. Qed.
Lemma count_ge p : forall c a, length (filter (fun q => Nat.leb p q) (seq a c)) = c - (p - a).
Proof. induction c as [|c IH]; intros a; [reflexivity|]. cbn [seq filter]. destruct (Nat.leb_spec p a); cbn [length]; rewrite IH; lia. Qed.
Lemma sum_map_seq (g h : nat -> nat) n : (forall i, i < n -> g i = h i) -> list_sum (map g (seq 0 n)) = list_sum (map h (seq 0 n)).
Proof. intros H. f_equal. apply map_ext_in. intros i Hi. apply in_seq in Hi. apply H. lia. Qed.
Lemma sum_S g n : list_sum (map g (seq 0 (S n))) = list_sum (map g (seq 0 n)) + g n.
Proof. rewrite seq_S, map_app, list_sum_app. cbn. lia. Qed.
Lemma places_nnz k r c : (k = Zero \/ k = Dense \/ r = c) -> places k r c = block_nnz k r c.
Proof.
  intros H. unfold places. rewrite length_filter_prod. cbn [fst snd].
  destruct k; cbn [mayb block_nnz].
  - assert (G : forall c a, length (filter (fun _ : nat => false) (seq a c)) = 0) by (induction c0; cbn; auto). induction r as [|r IH]; [reflexivity|]. rewrite sum_S, IH, G; tauto.
  - destruct H as [H|[H|H]]; try discriminate. subst c. rewrite (sum_map_seq _ (fun _ => 1)).
    + clear. induction r as [|r IH]; [reflexivity|]. rewrite sum_S, IH. lia.
    + intros i Hi. rewrite count_eq. rewrite (proj2 (Nat.ltb_lt i (0 + r))) by lia. reflexivity.
  - destruct H as [H|[H|H]]; try discriminate. subst c. rewrite (sum_map_seq _ (fun i => S i)).
    + enough (list_sum (map (fun i => S i) (seq 0 r)) * 2 = r * (r + 1)) as E by (rewrite <- E, Nat.div_mul; lia). clear. induction r as [|r IH]; [reflexivity|]. rewrite sum_S. lia.
    + intros i Hi. rewrite count_le. lia.
  - destruct H as [H|[H|H]]; try discriminate. subst c. rewrite (sum_map_seq _ (fun i => r - i)) by (intros i Hi; rewrite count_ge; lia).
    enough (forall m, m <= r -> list_sum (map (fun i => r - i) (seq 0 m)) * 2 = m * (2 * r + 1 - m)) as E.
    { replace (r * (r + 1)) with (list_sum (map (fun i => r - i) (seq 0 r)) * 2) by (rewrite E by lia; f_equal; lia). rewrite Nat.div_mul; lia. }
    induction m as [|m IH]; intros Hm; [reflexivity|]. rewrite sum_S. specialize (IH ltac:(lia)). nia.
  - assert (G : forall c a, length (filter (fun _ : nat => true) (seq a c)) = c) by (induction c0; cbn; auto). clear H. induction r as [|r IH]; [reflexivity|]. rewrite sum_S, IH, G. lia.
Qed.
Lemma count_places s : well s -> (forall i j, i < sy_n s -> j < sy_n s -> blk s i j = Zero \/ blk s i j = Dense \/ nth i (sy_lens s) 0 = nth j (sy_lens s) 0) ->
  count_nnz s = Ret (all_places (sy_n s) (sy_lens s) (blk s)).
Proof.
  intros W H. rewrite (count_ok s W). f_equal. unfold cnt, all_places. apply sum_map_seq. intros i Hi. apply sum_map_seq. intros j Hj. symmetry. apply places_nnz. apply H; auto.
Qed.

(** ** The search *)
Definition fac (src : symb) (p : list nat) := pllt (sy_n src) 0 (reorder p (blk src)).
Definition facn (src : symb) (p : list nat) : nat := cnt (sy_n src) (reorder_lens p (sy_lens src)) (fst (fac src p)).
Definition agree n (B B' : nat -> nat -> kind) : Prop := forall i j, i < n -> j < n -> B i j = B' i j.
Lemma fold_agree n l (g : nat -> (nat -> nat -> kind) -> (nat -> nat -> kind)) : (forall i B B', In i l -> agree n B B' -> agree n (g i B) (g i B')) -> forall B B', agree n B B' ->
  agree n (fold_left (fun B i => g i B) l B) (fold_left (fun B i => g i B) l B').
Proof. induction l as [|i l IH]; intros H B B' E; [exact E|]. cbn. apply IH; [intros; apply H; [right|]; assumption|]. apply H; [left; reflexivity|exact E]. Qed.
Lemma upd_agree n B B' i j v v' : agree n B B' -> v = v' -> agree n (upd B i j v) (upd B' i j v').
Proof. intros E -> a b Ha Hb. unfold upd. destruct (Nat.eqb a i && Nat.eqb b j); auto. Qed.
Lemma gpair_agree N k i j B B' : k + i < N -> k + j < N -> agree N B B' -> agree N (gpair k i j B) (gpair k i j B').
Proof. intros Hi Hj E. unfold gpair. cbn zeta. rewrite !(E _ _) by lia. apply upd_agree; [|reflexivity]. apply upd_agree; [exact E|reflexivity]. Qed.
Lemma grow_agree N k n i B B' : k + n = N -> i < n -> agree N B B' -> agree N (grow k n i B) (grow k n i B').
Proof.
  intros Hn Hi E. unfold grow. rewrite !(E _ _) by lia. apply (fold_agree N (range (S i) n) (fun j B => gpair k i j B)).
  - intros j C C' Hj EC. apply in_range in Hj. apply gpair_agree; auto; lia.
  - apply upd_agree; [exact E|reflexivity].
Qed.
Lemma pllt_agree N : forall n k B B', k + n = N -> agree N B B' -> snd (pllt n k B) = snd (pllt n k B') /\ agree N (fst (pllt n k B)) (fst (pllt n k B')).
Proof.
  induction n as [|m IH]; intros k B B' Hn E; [split; [reflexivity|exact E]|]. cbn [pllt].
  assert (E1 : agree N (fold_left (fun B j => gzero k j B) (range 1 (S m)) B) (fold_left (fun B j => gzero k j B) (range 1 (S m)) B')).
  { apply (fold_agree N (range 1 (S m)) (fun j B => gzero k j B)); [|exact E]. intros j C C' _ EC. apply upd_agree; [exact EC|reflexivity]. }
  set (B1 := fold_left (fun B j => gzero k j B) (range 1 (S m)) B) in *. set (B1' := fold_left (fun B j => gzero k j B) (range 1 (S m)) B') in *.
  rewrite <- (E1 k k) by lia.
  assert (ST : forall C C', agree N C C' -> snd (pllt m (S k) (fold_left (fun B i => grow k (S m) i B) (range 1 (S m)) C)) = snd (pllt m (S k) (fold_left (fun B i => grow k (S m) i B) (range 1 (S m)) C')) /\
     agree N (fst (pllt m (S k) (fold_left (fun B i => grow k (S m) i B) (range 1 (S m)) C))) (fst (pllt m (S k) (fold_left (fun B i => grow k (S m) i B) (range 1 (S m)) C')))).
  { intros C C' EC. apply IH; [lia|]. apply (fold_agree N (range 1 (S m)) (fun i B => grow k (S m) i B)); [|exact EC]. intros i G G' Hi EG. apply in_range in Hi. apply grow_agree; auto; lia. }
  destruct (B1 k k); try (split; [reflexivity|exact E1]).
  - apply ST. exact E1.
  - apply ST. apply (fold_agree N (range 1 (S m)) (fun i B => gfill k i B)).
    + intros i C C' Hi EC. apply in_range in Hi. unfold gfill. rewrite (EC _ _) by lia. apply upd_agree; [exact EC|reflexivity].
    + apply upd_agree; [exact E1|reflexivity].
Qed.
Lemma llt_same s n lens B : same s n lens B -> exists s', llt_in_place s = Ret (s', snd (pllt n 0 B)) /\ same s' n lens (fst (pllt n 0 B)) /\ sy_stride s' = sy_stride s /\ (snd (pllt n 0 B) = true -> sy_llt s' = true).
Proof.
  intros (W & <- & <- & E). destruct (llt_runs s W) as (s' & E1 & W' & N' & L' & S' & B' & F'). destruct (pllt_agree (sy_n s) (sy_n s) 0 (blk s) B eq_refl E) as [A1 A2].
  exists s'. rewrite <- A1. split; [exact E1|]. split; [|split; auto]. split; [exact W'|]. split; [exact N'|]. split; [exact L'|]. intros i j Hi Hj. rewrite B' by auto. apply A2; auto.
Qed.
Lemma fill_iff src p c : fill src p c -> snd (fac src p) = true /\ c = facn src p.
Proof.
  intros (s1 & s2 & H & E & C). destruct (llt_same _ _ _ _ H) as (s' & E' & (W' & N' & L' & B') & _). rewrite E' in E. injection E as -> T. split; [exact T|].
  rewrite (count_ok s2 W') in C. injection C as <-. rewrite N', L'. apply cnt_ext. exact B'.
Qed.
Lemma fill_intro src p : well src -> is_perm (sy_n src) p -> snd (fac src p) = true -> fill src p (facn src p).
Proof.
  intros W P T. destruct (deep_copy_perm src src p W W eq_refl P) as (s1 & _ & H & _). destruct (llt_same _ _ _ _ H) as (s2 & E & (W' & N' & L' & B') & _). fold (fac src p) in E. rewrite T in E.
  exists s1, s2. split; [exact H|]. split; [exact E|]. rewrite (count_ok s2 W'). f_equal. rewrite N', L'. apply cnt_ext. exact B'.
Qed.
Lemma perm_len n p : is_perm n p -> length p = n.
Proof. intros P. rewrite <- (Permutation_length P), seq_length. reflexivity. Qed.
(** Invariant of the loop: the best so far among the permutations before [work]. *)
Definition best_so_far (src : symb) (work perm : list nat) (best : option nat) : Prop :=
  match best with
  | None => work = seq 0 (sy_n src)
  | Some b => is_perm (sy_n src) perm /\ snd (fac src perm) = true /\ b = facn src perm /\
      forall q, is_perm (sy_n src) q -> lexlt q work -> snd (fac src q) = true /\ b <= facn src q
  end.
Lemma brute_loop_ok src : well src -> forall fuel dst work perm best, well dst -> sy_n dst = sy_n src -> sy_stride dst = sy_stride dst -> is_perm (sy_n src) work -> length perm = sy_n src ->
  best_so_far src work perm best -> (sy_n src) ^ (sy_n src) < fuel + num (sy_n src) work ->
  exists dst' perm' ok, brute_loop fuel src dst work perm best = Ret (dst', perm', ok) /\ well dst' /\ sy_n dst' = sy_n src /\ sy_stride dst' = sy_stride dst /\ length perm' = sy_n src /\
    (ok = true -> is_perm (sy_n src) perm' /\ snd (fac src perm') = true /\ forall q, is_perm (sy_n src) q -> snd (fac src q) = true /\ facn src perm' <= facn src q) /\
    (ok = false -> exists q, is_perm (sy_n src) q /\ snd (fac src q) = false) /\ (perm' = perm \/ is_perm (sy_n src) perm').
Proof.
  intros W. induction fuel as [|f IH]; intros dst work perm best Wd Nd _ P Lp Inv Fu.
  - exfalso. pose proof (num_bound (sy_n src) work) as H. rewrite (perm_len _ _ P) in H. specialize (H ltac:(intros x X; eapply Permutation_in in X; [|symmetry; exact P]; apply in_seq in X; lia)). lia.
  - cbn [brute_loop]. destruct (deep_copy_perm src dst work W Wd Nd P) as (c & E & Sc & Str & _). rewrite E. cbn [bind].
    assert (Sc' : same (mkSymb (sy_data c) (sy_lens c) (sy_n c) (sy_stride c) false) (sy_n src) (reorder_lens work (sy_lens src)) (reorder work (blk src))).
    { destruct Sc as (X1 & X2 & X3 & X4). split; [exact X1|]. split; [exact X2|]. split; [exact X3|exact X4]. }
    destruct (llt_same _ _ _ _ Sc') as (c' & E' & (W' & N' & L' & B') & Str' & _). fold (fac src work) in *. rewrite E'. cbn [bind]. cbn [sy_stride] in Str'.
    destruct (snd (fac src work)) eqn:T; cbn [negb].
    + rewrite (count_ok c' W'). cbn [bind]. assert (CE : cnt (sy_n c') (sy_lens c') (blk c') = facn src work). { rewrite N', L'. apply cnt_ext. exact B'. } rewrite CE. clear CE.
      set (better := match best with None => true | Some b => Nat.ltb (facn src work) b end).
      assert (Inv' : is_perm (sy_n src) (if better then work else perm) /\ snd (fac src (if better then work else perm)) = true /\ (if better then Some (facn src work) else best) = Some (facn src (if better then work else perm)) /\
         forall q, is_perm (sy_n src) q -> q = work \/ lexlt q work -> snd (fac src q) = true /\ facn src (if better then work else perm) <= facn src q).
      { unfold better. destruct best as [b|]; cbn in Inv.
        - destruct Inv as (I1 & I2 & I3 & I4). destruct (Nat.ltb_spec (facn src work) b) as [Hb|Hb].
          + repeat split; auto; destruct H0 as [->|H0]; auto; destruct (I4 q H H0); auto; lia.
          + subst b. repeat split; auto; destruct H0 as [->|H0]; auto; destruct (I4 q H H0); auto; lia.
        - subst work. repeat split; auto; destruct H0 as [->|H0]; auto; exfalso; destruct (asc_first (seq 0 (sy_n src)) (seq_asc _ _) q H) as [->|Y]; try (apply (lexlt_irr _ H0)); apply (lexlt_irr q); eapply lexlt_trans; eassumption. }
      destruct Inv' as (J1 & J2 & J3 & J4). rewrite J3. set (perm' := if better then work else perm) in *.
      destruct (next_perm work) as [w|] eqn:NP.
      * destruct (next_some work w NP) as (Q1 & Q2 & Q3).
        assert (Pw : is_perm (sy_n src) w) by (unfold is_perm in *; rewrite P; exact Q1).
        destruct (IH c' w perm' (Some (facn src perm')) W' N' eq_refl Pw (perm_len _ _ J1)) as (d2 & p2 & ok & R1 & R2 & R3 & R4 & R5 & R6 & R7 & R8).
        -- cbn. repeat split; auto; destruct (lex_total q work) as [X|[X|X]]; try (rewrite (perm_len _ _ H), (perm_len _ _ P); reflexivity); try (apply J4; auto; fail);
           exfalso; (destruct (Q3 q) as [Y|Y]; [unfold is_perm in *; rewrite <- P; exact H|exact X|subst q; apply (lexlt_irr w H0)|apply (lexlt_irr w); eapply lexlt_trans; eassumption]).
        -- assert (num (sy_n src) work < num (sy_n src) w); [|lia]. apply num_lex; auto.
           ++ rewrite (perm_len _ _ P), (perm_len _ _ Pw). reflexivity.
           ++ intros x X. eapply Permutation_in in X; [|symmetry; exact P]. apply in_seq in X. lia.
           ++ intros x X. eapply Permutation_in in X; [|symmetry; exact Pw]. apply in_seq in X. lia.
        -- exists d2, p2, ok. split; [exact R1|]. split; [exact R2|]. split; [exact R3|]. split; [rewrite R4, Str', Str; reflexivity|]. split; [exact R5|]. split; [exact R6|]. split; [exact R7|]. right. destruct R8 as [->|R8]; auto.
      * exists c', perm', true. split; [reflexivity|]. split; [exact W'|]. split; [exact N'|]. split; [rewrite Str', Str; reflexivity|]. split; [apply perm_len; exact J1|]. split; [|split; [discriminate|right; exact J1]].
        intros _. split; [exact J1|]. split; [exact J2|]. intros q Pq. apply J4; [exact Pq|].
        destruct (desc_last work (next_none work NP) q) as [->|X]; auto. unfold is_perm in *. rewrite <- P. exact Pq.
    + exists c', perm, false. split; [reflexivity|]. split; [exact W'|]. split; [exact N'|]. split; [rewrite Str', Str; reflexivity|]. split; [exact Lp|]. split; [discriminate|]. split; [|left; reflexivity].
      intros _. exists work. auto.
Qed.
