From Coq Require Import Reals List Bool Arith Lia Lra Permutation.
From Verif Require Import Scalar Problem_model Symb_model Lin_spec Lin_proofs Symb_spec Symb_proofs SymbL_proofs SymbC_proofs SymbP_proofs SymbQ_proofs Ldlt_model Ldlt_spec Ldlt_proofs LdltG_proofs LdltB_proofs LdltS_proofs.
Import ListNotations.
Local Open Scope R_scope.

(** ** Structures without triangular blocks stay supported *)
Section Simple.
  Variables (n : nat) (lens : list nat).
  Let len i := nth i lens 0%nat.
  Definition okk (k : kind) (i j : nat) : Prop := k = Zero \/ k = Dense \/ (k = Diag /\ len i = len j).
  Definition easy (k : nat) (B : nat -> nat -> kind) : Prop :=
    (forall i j, (k <= i)%nat -> (i < n)%nat -> (k <= j)%nat -> (j < n)%nat -> okk (B i j) i j) /\ (forall i, (k <= i)%nat -> (i < n)%nat -> pivot (B i i)).
  Definition goodcol (j : nat) (B : nat -> nat -> kind) : Prop :=
    (B j j = Diag /\ forall i, (j < i)%nat -> (i < n)%nat -> okk (B i j) i j) \/ (B j j = TriL /\ forall i, (j < i)%nat -> (i < n)%nat -> B i j = TriU \/ B i j = Dense).
  Lemma easy_next k B B' : (k < n)%nat -> easy k B -> elim k n B B' -> easy (S k) B' /\ goodcol k B'.
  Proof.
    intros Hk [H1 H2] (E1 & E2 & E3 & E4 & E5 & E6).
    assert (G : goodcol k B').
    { destruct (H2 k ltac:(lia) Hk) as [P|P]; rewrite P in *; cbn [topk colk] in *.
      - left. split; [exact E2|]. intros i Hi Hn. rewrite E3 by lia. apply H1; lia.
      - right. split; [exact E2|]. intros i Hi Hn. rewrite E3 by lia. destruct (H1 i k ltac:(lia) Hn ltac:(lia) Hk) as [Q|[Q|[Q _]]]; rewrite Q; cbn; auto. }
    assert (UP : forall i j, (k < i)%nat -> (i <= j)%nat -> (j < n)%nat -> okk (B' i j) i j).
    { intros i j Hi Hij Hj. rewrite E4 by assumption. pose proof (H1 i j ltac:(lia) ltac:(lia) ltac:(lia) Hj) as X. destruct G as [[_ G]|[_ G]].
      - pose proof (G i Hi ltac:(lia)) as Y. pose proof (G j ltac:(lia) Hj) as Z. destruct X as [X|[X|[X X']]], Y as [Y|[Y|[Y Y']]], Z as [Z|[Z|[Z Z']]]; rewrite X, Y, Z; cbn; unfold okk; auto; right; right; (split; [reflexivity|congruence]).
      - pose proof (G i Hi ltac:(lia)) as Y. pose proof (G j ltac:(lia) Hj) as Z. destruct X as [X|[X|[X X']]], Y as [Y|Y], Z as [Z|Z]; rewrite X, Y, Z; cbn; unfold okk; auto. }
    split; [|exact G]. split.
    - intros i j Hi Hin Hj Hjn. destruct (Nat.le_gt_cases i j); [apply UP; lia|]. rewrite (E5 j i) by lia. destruct (UP j i ltac:(lia) ltac:(lia) ltac:(lia)) as [Q|[Q|[Q Q']]]; rewrite Q; unfold okk; cbn; auto.
    - intros i Hi Hn. rewrite E4 by lia. destruct (H2 i ltac:(lia) Hn) as [Q|Q]; rewrite Q; destruct (B' i k); cbn; unfold pivot; auto.
  Qed.
  Lemma pllt_outside : forall m k B, (forall i j, (i < k)%nat \/ (j < k)%nat -> fst (pllt m k B) i j = B i j) \/ snd (pllt m k B) = false.
  Proof.
    induction m as [|m IH]; intros k B; [left; reflexivity|].
    assert (PD : pivot (B k k) \/ ~ pivot (B k k)). { unfold pivot. destruct (B k k); try (left; tauto); right; intros [X|X]; discriminate. }
    destruct PD as [P|P]; [|right; apply pllt_refuse; exact P].
    destruct (pllt_step m k B P) as (B' & (_ & _ & _ & _ & _ & E6) & E). rewrite E. destruct (IH (S k) B') as [H|H]; [|right; exact H]. left. intros i j X. rewrite H by lia. apply E6. exact X.
  Qed.
  Lemma easy_pllt : forall m k B, (k + m = n)%nat -> easy k B -> forall j, (k <= j)%nat -> (j < n)%nat -> goodcol j (fst (pllt m k B)).
  Proof.
    induction m as [|m IH]; intros k B Hn E j Hj Hjn; [lia|]. destruct E as [E1 E2]. pose proof (E2 k ltac:(lia) ltac:(lia)) as P.
    destruct (pllt_step m k B P) as (B' & El & EQ). replace (k + S m)%nat with n in El by lia. rewrite EQ. destruct (easy_next k B B' ltac:(lia) (conj E1 E2) El) as [N1 N2].
    destruct (Nat.eq_dec j k) as [->|]; [|apply IH; auto; lia].
    destruct (pllt_outside m (S k) B') as [O|O].
    - unfold goodcol in *. rewrite (O k k) by lia. destruct N2 as [[Q N2]|[Q N2]]; [left|right]; (split; [exact Q|]); intros i Hi Hin; rewrite (O i k) by lia; apply N2; auto.
    - destruct N1 as [_ N1]. rewrite (pllt_ok n m (S k) B' ltac:(lia) N1) in O. discriminate.
  Qed.
  Lemma good_supported B : (forall j, (j < n)%nat -> goodcol j B) -> supported n lens B.
  Proof.
    intros G. split; [|split; [|split; [|split]]].
    - intros k Hk. destruct (G k Hk) as [[Q _]|[Q _]]; auto.
    - intros k i Hk Hi E. destruct (G k ltac:(lia)) as [[_ Q]|[_ Q]]; destruct (Q i Hk Hi) as [X|X]; rewrite ?E in X; try discriminate; try (destruct X as [X|[_ X]]; [discriminate|exact X]).
    - intros k i Hk Hi E. destruct (G k ltac:(lia)) as [[_ Q]|[_ Q]]; destruct (Q i Hk Hi) as [X|X]; rewrite ?E in X; try discriminate; destruct X as [X|[X _]]; discriminate.
    - intros k i j Hk Hi Hj E E'. destruct (G k ltac:(lia)) as [[_ Q]|[_ Q]].
      + destruct (Q i Hk ltac:(lia)) as [X|[X|[X _]]]; congruence.
      + destruct (Q j ltac:(lia) Hj) as [X|X]; congruence.
    - intros k i j Hk Hi Hj E E'. destruct (G k ltac:(lia)) as [[_ Q]|[_ Q]].
      + destruct (Q j ltac:(lia) Hj) as [X|[X|[X _]]]; congruence.
      + destruct (Q i Hk ltac:(lia)) as [X|X]; congruence.
  Qed.
End Simple.
Lemma supported_ext n lens B B' : (forall i j, (i < n)%nat -> (j < n)%nat -> B i j = B' i j) -> supported n lens B -> supported n lens B'.
Proof.
  intros E (H1 & H2 & H3 & H4 & H5). split; [|split; [|split; [|split]]].
  - intros k Hk. rewrite <- E by lia. auto.
  - intros k i Hk Hi. rewrite <- E by lia. auto.
  - intros k i Hk Hi. rewrite <- E by lia. auto.
  - intros k i j Hk Hi Hj. rewrite <- !E by lia. apply H4; assumption.
  - intros k i j Hk Hi Hj. rewrite <- !E by lia. apply H5; assumption.
Qed.
Lemma nth_reorder p lens i : (i < length p)%nat -> nth i (reorder_lens p lens) 0%nat = nth (nth i p 0%nat) lens 0%nat.
Proof. intros H. unfold reorder_lens. rewrite (nth_indep _ 0%nat (nth 0%nat lens 0%nat)) by (rewrite map_length; exact H). apply (map_nth (fun j => nth j lens 0%nat)). Qed.
Lemma simple_reorder n lens B p : is_perm n p -> simple n lens B -> simple n (reorder_lens p lens) (reorder p B).
Proof.
  intros P [H1 H2]. pose proof (perm_len n p P) as Lp. split.
  - intros k Hk. unfold reorder. apply H1. apply (perm_in n p k P Hk).
  - intros i j Hi Hj. unfold reorder. rewrite !nth_reorder by lia. apply H2; [apply (perm_in n p i P Hi)|apply (perm_in n p j P Hj)].
Qed.
Lemma simple_supported s s' : well s -> simple (sy_n s) (sy_lens s) (blk s) -> llt_in_place s = Ret (s', true) -> supported (sy_n s) (sy_lens s) (blk s').
Proof.
  intros W [H1 H2] E. destruct (llt_runs s W) as (s1 & E1 & _ & _ & _ & _ & Eb & _). rewrite E1 in E. injection E as -> _.
  apply (supported_ext _ _ (fst (pllt (sy_n s) 0 (blk s)))); [intros i j Hi Hj; symmetry; apply Eb; assumption|]. apply good_supported. intros j Hj. apply easy_pllt; [reflexivity| |lia|exact Hj]. split; intros; [apply H2|apply H1]; assumption.
Qed.

(** ** Scalar permutations *)
Lemma rsum_list n f : rsum n f = fold_right Rplus 0 (map f (seq 0 n)).
Proof.
  induction n as [|n IH]; [reflexivity|]. cbn [rsum]. rewrite IH, seq_S, map_app, fold_right_app. cbn [map fold_right Nat.add]. generalize (map f (seq 0 n)). induction l as [|x l IHl]; cbn; [lra|]. rewrite <- IHl. lra.
Qed.
Lemma fold_perm (l m : list R) : Permutation l m -> fold_right Rplus 0 l = fold_right Rplus 0 m.
Proof. intros H. induction H; cbn; lra. Qed.
Lemma map_seq_nth {A} (l : list nat) (f : nat -> A) : map f l = map (fun i => f (nth i l 0%nat)) (seq 0 (length l)).
Proof.
  induction l as [|x l IH]; [reflexivity|]. cbn [map length seq nth]. f_equal. rewrite <- seq_shift, map_map. exact IH.
Qed.
Lemma rsum_perm n idx f : Permutation (seq 0 n) idx -> rsum n (fun i => f (nth i idx 0%nat)) = rsum n f.
Proof.
  intros P. rewrite !rsum_list. assert (L : length idx = n) by (rewrite <- (Permutation_length P), seq_length; reflexivity).
  rewrite <- L at 1. rewrite <- (map_seq_nth idx f). symmetry. apply fold_perm, Permutation_map. exact P.
Qed.
Lemma idx_inj n idx i j : Permutation (seq 0 n) idx -> (i < n)%nat -> (j < n)%nat -> nth i idx 0%nat = nth j idx 0%nat -> i = j.
Proof.
  intros P Hi Hj E. assert (L : length idx = n) by (rewrite <- (Permutation_length P), seq_length; reflexivity).
  apply (proj1 (NoDup_nth idx 0%nat)); try lia. apply (Permutation_NoDup P), seq_NoDup.
Qed.
Lemma idx_onto n idx r : Permutation (seq 0 n) idx -> (r < n)%nat -> exists i, (i < n)%nat /\ nth i idx 0%nat = r.
Proof.
  intros P Hr. assert (L : length idx = n) by (rewrite <- (Permutation_length P), seq_length; reflexivity).
  assert (H : In r idx) by (apply (Permutation_in _ P), in_seq; lia). apply (In_nth _ _ 0%nat) in H. destruct H as (i & Hi & E). exists i. split; [lia|exact E].
Qed.
Lemma perm_fwd_ok n idx b i : Permutation (seq 0 n) idx -> (i < n)%nat -> perm_fwd (K := RSc) n idx b (nth i idx 0%nat) = b i.
Proof.
  intros P Hi. unfold perm_fwd. match goal with |- context[fold_left ?g _ _] => set (f := g) end.
  pose proof (fold_seq_inv (fun k x => forall i, (i < k)%nat -> x (nth i idx 0%nat) = b i) f n 0 b) as G. cbn [Nat.add] in G. apply G; [intros; lia| |exact Hi].
  intros j x _ Hj I k Hk. unfold f. destruct (Nat.eqb_spec (nth k idx 0%nat) (nth j idx 0%nat)) as [E|E].
  - rewrite (idx_inj n idx k j P ltac:(lia) ltac:(lia) E). reflexivity.
  - destruct (Nat.eq_dec k j) as [->|]; [congruence|]. apply I. lia.
Qed.

(** ** The object *)
Section Object.
  Variables (b : bldlt RSc) (A L : nat -> nat -> R) (D : nat -> R).
  Let y := bl_sym b.
  Let s := bs_struct y.
  Let idx := bs_idx y.
  Let N := total (sy_lens s).
  Hypothesis W : well s.
  Hypothesis LL : sy_llt s = true.
  Hypothesis SU : supported (sy_n s) (sy_lens s) (blk s).
  Hypothesis P : Permutation (seq 0 N) idx.
  Hypothesis F : factor_of N (renumber idx A) L D.
  Hypothesis DN : forall i, (S i < N)%nat -> D i <> 0.
  Hypothesis HS : has_structure (sy_n s) (sy_lens s) (blk s) L.
  Lemma object_compute : exists b', bldlt_compute (K := RSc) b N A = Ret b' /\ bl_ok b' = Some true /\ bl_n b' = N /\ bl_sym b' = y /\ stores N (bl_mat b') L D /\
    ((forall j, (j < sy_n s)%nat -> (2 <= nth j (sy_lens s) 0)%nat) -> bl_sign b = ZeroSign -> sign_is N D (bl_sign b')).
  Proof.
    unfold bldlt_compute. fold y idx. assert (LN : length idx = N) by (rewrite <- (Permutation_length P), seq_length; reflexivity). rewrite LN, Nat.eqb_refl. cbn [negb]. fold s.
    destruct (block_ok s (renumber idx A) L D W LL F DN ltac:(intros I J HJ HI; apply HS; lia) SU (sy_n s) 0 (freeze N N (permuted_lower (K := RSc) N idx A (bl_mat b))) (bl_sign b) ltac:(lia)) as (a' & sg' & E & S & SG).
    - intros r c Hc Hr. rewrite freeze_id. change (start (sy_lens s) 0) with 0%nat. bd. unfold sch. cbn [rsum]. unfold permuted_lower. destruct (Nat.leb_spec c r); [|lia]. destruct (Nat.ltb_spec r N); [|fold N in Hr; lia]. cbn [andb]. unfold renumber, mirror. bd; lra.
    - change (start (sy_lens s) 0) with 0%nat in E. fold N in E, S. rewrite E. cbn [bind]. eexists. split; [reflexivity|]. cbn [bl_ok bl_n bl_sym bl_mat bl_sign]. repeat (split; [first [reflexivity|exact S]|]).
      intros H2 Z. rewrite SG by (intros; apply H2; assumption). change (start (sy_lens s) 0) with 0%nat. fold N. rewrite Z, Nat.sub_0_r. apply sign_fold.
  Qed.
  Variable b' : bldlt RSc.
  Hypothesis B1 : bl_n b' = N.
  Hypothesis B2 : bl_sym b' = y.
  Hypothesis B3 : stores N (bl_mat b') L D.
  Lemma renumber_ldl i j : (i < N)%nat -> (j < N)%nat -> renumber idx A i j = ldl N L D i j.
  Proof.
    intros Hi Hj. destruct F as [U E]. destruct (Nat.le_gt_cases j i) as [H|H]; [apply E; lia|]. rewrite ldl_sym. rewrite <- E by lia. unfold renumber, mirror. bd; try reflexivity. replace (nth i idx 0%nat) with (nth j idx 0%nat) by lia. reflexivity.
  Qed.
  Lemma object_solve : (forall i, (i < N)%nat -> tiny (K := RSc) < Rabs (D i)) ->
    same (bs_tr y) (sy_n s) (sy_lens s) (fun i j => trans (blk s j i)) ->
    forall x, exists x', bldlt_solve (K := RSc) b' x = Ret (x', true) /\ solves N A x' x.
  Proof.
    intros HD (Wt & Nt & Lt & Bt) x. unfold bldlt_solve. rewrite B1, B2. fold s idx. cbn zeta. destruct B3 as [S1 S2]. destruct F as [U F'].
    set (x0 := perm_inv (K := RSc) N idx x). destruct (lower_solution N L x0 U) as [v Hv].
    destruct SU as (SU1 & SU2 & _).
    destruct (tri_lower_ok s L (bl_mat b') v W U S1 ltac:(intros I J HJ HI; apply HS; lia) SU1 SU2 x0 Hv (sy_n s) 0 x0 eq_refl) as (x1 & E1 & H1).
    { split; [cbn; intros; lia|]. intros i _ Hi. cbn [rsum start]. lra. }
    change (start (sy_lens s) 0) with 0%nat in E1. fold N in E1, H1. rewrite E1. cbn [bind fst snd].
    set (z := freezev N (dsolve (K := RSc) N (bl_mat b') x1)).
    assert (Hz : forall i, (i < N)%nat -> D i * z i = v i). { intros i Hi. unfold z. rewrite freezev_id. rewrite <- H1 by exact Hi. apply dsolve_ok; assumption. }
    destruct (upper_solution N L z U) as [w Hw].
    assert (Nt' : total (sy_lens (bs_tr y)) = N) by (rewrite Lt; reflexivity).
    destruct (tri_upper_ok (bs_tr y) L (fun i j => bl_mat b' j i) w Wt) with (beta := z) (m := sy_n (bs_tr y)) (b := z) as (x2 & E2 & H2).
    - rewrite Nt'. exact U.
    - rewrite Nt'. intros r c Hr Hc. apply S1; assumption.
    - rewrite Nt, Lt. intros I J HJ HI p q Hp Hq X. rewrite Bt in X by lia. apply (HS I J HI ltac:(lia) q p Hq Hp). intros M. apply X. apply may_trans. exact M.
    - rewrite Nt. intros k Hk. rewrite Bt by lia. destruct (SU1 k Hk) as [Q|Q]; rewrite Q; auto.
    - rewrite Nt, Lt. intros k i Hk Hi X. rewrite Bt in X by lia. symmetry. apply SU2; auto. destruct (blk s i k); cbn in X; congruence.
    - rewrite Nt'. exact Hw.
    - lia.
    - assert (EN : start (sy_lens (bs_tr y)) (sy_n (bs_tr y)) = N). { rewrite Lt, Nt. unfold N, total. destruct W as (_ & -> & _). reflexivity. }
      rewrite EN. split; [rewrite Nt'; intros; lia|]. rewrite Nt'. intros i Hi. replace (N - N)%nat with 0%nat by lia. cbn [rsum]. lra.
    - assert (EN : start (sy_lens (bs_tr y)) (sy_n (bs_tr y)) = N). { rewrite Lt, Nt. unfold N, total. destruct W as (_ & -> & _). reflexivity. }
      rewrite EN in E2. rewrite Nt' in H2. rewrite E2. cbn [bind fst snd orb]. eexists. split; [reflexivity|].
      intros r Hr. destruct (idx_onto N idx r P Hr) as (i & Hi & <-). unfold mvec. rewrite <- (rsum_perm N idx _ P).
      rewrite (rsum_ext N _ (fun j => ldl N L D i j * w j)).
      + rewrite (ldl_solves N L D w v z x0); auto. unfold x0, perm_inv. rewrite freezev_id. bd. reflexivity.
      + intros j Hj. rewrite perm_fwd_ok by assumption. rewrite freezev_id, H2 by exact Hj. rewrite <- renumber_ldl by assumption. reflexivity.
  Qed.
  Lemma object_reconstruct i j : (i < N)%nat -> (j < N)%nat -> bldlt_reconstruct (K := RSc) b' i j = mirror A i j.
  Proof.
    intros Hi Hj. unfold bldlt_reconstruct. rewrite B1, B2. fold idx. cbn zeta. destruct (idx_onto N idx i P Hi) as (r & Hr & <-). destruct (idx_onto N idx j P Hj) as (c & Hc & <-).
    set (res := reconstruct (K := RSc) N _ ident).
    assert (R : forall i j, (i < N)%nat -> (j < N)%nat -> res i j = ldl N L D i j).
    { intros i' j' Hi' Hj'. unfold res. destruct F as [U _]. destruct B3 as [S1 S2]. apply reconstruct_ok; auto. split; [intros p q H1 H2; bd; apply S1; assumption|intros p Hp; bd; apply S2; assumption]. }
    match goal with |- fold_left ?g _ _ _ _ = _ => set (f := g) end.
    pose proof (fold_seq_inv (fun k x => forall p q, (p < k)%nat -> (q < N)%nat -> x (nth p idx 0%nat) (nth q idx 0%nat) = res p q) f N 0 res) as G. cbn [Nat.add] in G.
    rewrite G; try assumption.
    - rewrite R by assumption. rewrite <- renumber_ldl by assumption. reflexivity.
    - intros; lia.
    - intros k x _ Hk I p q Hp Hq. unfold f.
      match goal with |- fold_left ?g _ _ _ _ = _ => set (f2 := g) end.
      pose proof (fold_seq_inv (fun m z => (forall p q, (p < k)%nat -> (q < N)%nat -> z (nth p idx 0%nat) (nth q idx 0%nat) = res p q) /\ (forall q, (q < m)%nat -> z (nth k idx 0%nat) (nth q idx 0%nat) = res k q)) f2 N 0 x) as G2. cbn [Nat.add] in G2.
      destruct G2 as [G21 G22].
      + split; [exact I|intros; lia].
      + intros m z _ Hm [I1 I2]. split.
        * intros p' q' Hp' Hq'. unfold f2. destruct (Nat.eqb_spec (nth p' idx 0%nat) (nth k idx 0%nat)) as [E|E]; [apply (idx_inj N idx p' k P) in E; lia|]. cbn [andb]. apply I1; assumption.
        * intros q' Hq'. unfold f2. rewrite Nat.eqb_refl. cbn [andb]. destruct (Nat.eqb_spec (nth q' idx 0%nat) (nth m idx 0%nat)) as [E|E].
          { apply (idx_inj N idx q' m P) in E; [|lia|lia]. subst q'. reflexivity. }
          destruct (Nat.eq_dec q' m) as [->|]; [congruence|]. apply I2. lia.
      + destruct (Nat.eq_dec p k) as [->|]; [apply G22; exact Hq|apply G21; [lia|exact Hq]].
  Qed.
End Object.

(** ** From the structure given to the constructor *)
Lemma renumber_structure n lens B A p idx : length lens = n -> is_perm n p -> moves_blocks lens p idx -> has_structure n lens B (mirror A) -> has_structure n (reorder_lens p lens) (reorder p B) (renumber idx A).
Proof.
  intros Ln P MV H i j Hi Hj q r Hq Hr X. pose proof (perm_len n p P) as Lp. rewrite nth_reorder in Hq, Hr by lia. unfold renumber, reorder in *.
  pose proof (MV i q ltac:(lia) ltac:(rewrite nth_reorder by lia; exact Hq)) as M1. pose proof (MV j r ltac:(lia) ltac:(rewrite nth_reorder by lia; exact Hr)) as M2.
  rewrite (nth_error_nth idx _ 0%nat M1), (nth_error_nth idx _ 0%nat M2). destruct (perm_in n p i P Hi) as [_ Hi']. destruct (perm_in n p j P Hj) as [_ Hj']. exact (H _ _ Hi' Hj' q r Hq Hr X).
Qed.
Lemma sym_reorder n B p : is_perm n p -> sym_pattern n B -> sym_pattern n (reorder p B).
Proof. intros P H i j Hi Hj. unfold reorder. apply H; [apply (perm_in n p i P Hi)|apply (perm_in n p j P Hj)]. Qed.
Lemma structure_ext n lens B B' M : (forall i j, (i < n)%nat -> (j < n)%nat -> B i j = B' i j) -> has_structure n lens B M -> has_structure n lens B' M.
Proof. intros E H i j Hi Hj. rewrite <- E by assumption. apply H; assumption. Qed.
Lemma block_ldlt_ok src p (b : bldlt RSc) A L D : let N := total (sy_lens src) in
  well src -> is_perm (sy_n src) p -> permuted src p (bl_sym b) -> sy_llt (bs_struct (bl_sym b)) = true ->
  sym_pattern (sy_n src) (blk src) -> simple (sy_n src) (sy_lens src) (blk src) ->
  has_structure (sy_n src) (sy_lens src) (blk src) (mirror A) ->
  factor_of N (renumber (bs_idx (bl_sym b)) A) L D -> (forall i, (i < N)%nat -> D i <> 0) ->
  exists b', bldlt_compute (K := RSc) b N A = Ret b' /\ bl_ok b' = Some true /\ stores N (bl_mat b') L D /\
    (forall i j, (i < N)%nat -> (j < N)%nat -> bldlt_reconstruct (K := RSc) b' i j = mirror A i j) /\
    ((forall i, (i < N)%nat -> tiny (K := RSc) < Rabs (D i)) -> forall x, exists x', bldlt_solve (K := RSc) b' x = Ret (x', true) /\ solves N A x' x) /\
    ((forall l, In l (sy_lens src) -> (2 <= l)%nat) -> bl_sign b = ZeroSign -> sign_is N D (bl_sign b')).
Proof.
  intros N W P (E1 & (s1 & s2 & ok & SM1 & EL & SM2) & SMT & PI & MV) LL SY SI HA F DN.
  assert (Ll : length (sy_lens src) = sy_n src) by apply W.
  assert (TN : total (reorder_lens p (sy_lens src)) = N) by (apply total_perm; rewrite Ll; exact P).
  destruct SM1 as (W1 & N1 & L1 & Bk1). destruct SM2 as (W2 & N2 & L2 & Bk2).
  assert (SI1 : simple (sy_n s1) (sy_lens s1) (blk s1)).
  { rewrite N1, L1. destruct (simple_reorder _ _ _ p P SI) as [X1 X2]. split; [intros k Hk; rewrite Bk1 by lia; auto|intros i j Hi Hj; rewrite Bk1 by lia; auto]. }
  assert (OK : ok = true). { destruct (llt_total s1 W1) as (s' & ok' & E' & _ & _ & _ & _ & H & _). rewrite EL in E'. injection E' as -> ->. apply H. apply SI1. }
  subst ok. assert (SU1 : supported (sy_n s1) (sy_lens s1) (blk s2)) by (apply simple_supported; assumption).
  set (s := bs_struct (bl_sym b)) in *.
  assert (SU : supported (sy_n s) (sy_lens s) (blk s)). { rewrite N2, L2, <- L1, <- N1. apply (supported_ext _ _ (blk s2)); [intros i j Hi Hj; symmetry; apply Bk2; lia|exact SU1]. }
  assert (HS : has_structure (sy_n s) (sy_lens s) (blk s) L).
  { rewrite N2, L2. apply (structure_ext _ _ (blk s2)); [intros i j Hi Hj; symmetry; apply Bk2; assumption|]. rewrite <- N1, <- L1.
    destruct F as [U F]. apply (covers s1 s2 (fun i j => ldl N L D i j) L D W1).
    - rewrite N1. intros i j Hi Hj. rewrite !Bk1 by assumption. apply (sym_reorder _ _ p P SY); assumption.
    - exact EL.
    - rewrite L1, TN. exact U.
    - rewrite L1, TN. exact DN.
    - rewrite L1, TN. reflexivity.
    - rewrite N1, L1. apply (structure_ext _ _ (reorder p (blk src))); [intros i j Hi Hj; symmetry; apply Bk1; assumption|].
      pose proof (renumber_structure _ _ _ A p (bs_idx (bl_sym b)) Ll P MV HA) as HR. intros i j Hi Hj q r Hq Hr X. specialize (HR i j Hi Hj q r Hq Hr X). cbv beta in HR.
      assert (I1 : (start (reorder_lens p (sy_lens src)) i + q < N)%nat) by (rewrite <- TN; apply block_in; [unfold reorder_lens; rewrite map_length, (perm_len _ _ P); exact Hi|exact Hq]).
      assert (I2 : (start (reorder_lens p (sy_lens src)) j + r < N)%nat) by (rewrite <- TN; apply block_in; [unfold reorder_lens; rewrite map_length, (perm_len _ _ P); exact Hj|exact Hr]).
      rewrite <- HR. symmetry. set (u := (start (reorder_lens p (sy_lens src)) i + q)%nat) in *. set (v := (start (reorder_lens p (sy_lens src)) j + r)%nat) in *.
      destruct (Nat.le_gt_cases v u) as [H|H]; [apply F; lia|]. rewrite ldl_sym, <- F by lia. unfold renumber, mirror. bd; try reflexivity. replace (nth u (bs_idx (bl_sym b)) 0%nat) with (nth v (bs_idx (bl_sym b)) 0%nat) by lia. reflexivity. }
  assert (TS : total (sy_lens s) = N) by (rewrite L2; exact TN).
  destruct (object_compute b A L D) as (b' & E & O1 & O2 & O3 & O4 & O5); fold s; rewrite ?TS; try assumption; [intros i Hi; apply DN; lia|].
  fold s in E, O2, O4, O5. rewrite TS in E, O2, O4, O5. exists b'. split; [exact E|]. split; [exact O1|]. split; [exact O4|]. split; [|split].
  - intros i j Hi Hj. apply (object_reconstruct b A L D); fold s; rewrite ?TS; assumption.
  - intros HD x. assert (Z := object_solve b A L D). fold s in Z. rewrite TS in Z. apply Z; try assumption. rewrite N2, L2. exact SMT.
  - intros H2. apply O5. intros j Hj. rewrite L2. rewrite N2 in Hj. rewrite nth_reorder by (rewrite (perm_len _ _ P); exact Hj). apply H2, nth_In. rewrite Ll. apply (perm_in _ p j P Hj).
Qed.
