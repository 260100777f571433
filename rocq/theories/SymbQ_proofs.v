(** Proofs about the permutations kept by BlockLDLT and about the default structure. *)
From Coq Require Import Reals List Bool Arith Lia Permutation.
From Verif Require Import Scalar Problem_model Symb_model Lin_spec Symb_spec Symb_proofs SymbL_proofs SymbC_proofs SymbP_proofs.
Import ListNotations.

(** ** Symmetry *)
Lemma keqb_ok a b : keqb a b = true <-> a = b.
Proof. destruct a, b; cbn; split; intros; congruence. Qed.
Lemma blk_load s i j : well s -> i < sy_n s -> j < sy_n s -> load (sy_data s) (at_ 0 (sy_stride s) i j) = Ret (blk s i j).
Proof. intros (W1 & W2 & W3) Hi Hj. apply nth_error_load. unfold at_, blk. cbn [Nat.add]. apply nth_error_nth'. rewrite W1. apply index_in; auto. Qed.
Lemma symmetric_ok s : well s -> exists b, check_if_symmetric s = Ret b /\ (b = true <-> forall i j, i < sy_n s -> j < sy_n s -> blk s i j = blk s j i).
Proof.
  intros W. unfold check_if_symmetric.
  destruct (for_each_inv (fun k (acc : bool) => acc = true <-> forall i j, i < k -> j < i -> blk s i j = blk s j i) 0 (sy_n s)
    (fun i (acc : bool) => for_each (range 0 i) (fun j (acc' : bool) => if acc' then do a <- load (sy_data s) (at_ 0 (sy_stride s) i j); do b <- load (sy_data s) (at_ 0 (sy_stride s) j i); Ret (keqb a b) else Ret false)%out acc) true) as (b & E & H).
  - lia.
  - split; [intros _; intros; lia|reflexivity].
  - intros i acc Hi HI.
    destruct (for_each_inv (fun k (acc' : bool) => acc' = true <-> acc = true /\ forall j, j < k -> blk s i j = blk s j i) 0 i
      (fun j (acc' : bool) => if acc' then do a <- load (sy_data s) (at_ 0 (sy_stride s) i j); do b <- load (sy_data s) (at_ 0 (sy_stride s) j i); Ret (keqb a b) else Ret false)%out acc) as (b & E & H).
    + lia.
    + split; [intros ->; split; [reflexivity|intros; lia]|tauto].
    + intros j [|] Hj HJ.
      * rewrite !blk_load by (auto; lia). cbn [bind]. eexists. split; [reflexivity|]. rewrite keqb_ok. split.
        -- intros X. destruct (proj1 HJ eq_refl) as [Q1 Q2]. split; [exact Q1|]. intros j' Hj'. assert (j' = j \/ j' < j) as [->|L] by lia; auto.
        -- intros [_ X]. apply X. lia.
      * eexists. split; [reflexivity|]. split; [discriminate|]. intros [Q1 Q2]. apply HJ. split; [exact Q1|]. intros; apply Q2; lia.
    + exists b. split; [exact E|]. rewrite H, HI. split.
      * intros [X Y] a c Ha Hc. assert (a = i \/ a < i) as [->|L] by lia; auto.
      * intros X. split; [intros; apply X; lia|]. intros; apply X; lia.
  - exists b. split; [exact E|]. rewrite H. split.
    + intros X i j Hi Hj. destruct (Nat.lt_trichotomy i j) as [L|[->|L]]; [symmetry; apply X; lia|reflexivity|apply X; lia].
    + intros X i j Hi Hj. apply X; lia.
Qed.

(** ** The scalar permutation *)
Lemma total_sum lens : total lens = list_sum lens.
Proof. unfold total. induction lens as [|l r IH]; [reflexivity|]. cbn [length start list_sum fold_right]. rewrite IH. reflexivity. Qed.
Lemma lens_reorder_id lens : reorder_lens (seq 0 (length lens)) lens = lens.
Proof.
  unfold reorder_lens. apply list_ext; [rewrite map_length, seq_length; reflexivity|]. rewrite map_length, seq_length. intros i Hi. rewrite nth_error_map_seq, (proj2 (Nat.ltb_lt _ _) Hi). symmetry. apply nth_error_nth'. exact Hi.
Qed.
Lemma lens_perm p lens : is_perm (length lens) p -> Permutation lens (reorder_lens p lens).
Proof. intros P. rewrite <- (lens_reorder_id lens) at 1. apply Permutation_map. exact P. Qed.
Lemma sum_perm l m : Permutation l m -> list_sum l = list_sum m.
Proof. unfold list_sum. induction 1; cbn; lia. Qed.
Lemma total_perm p lens : is_perm (length lens) p -> total (reorder_lens p lens) = total lens.
Proof. intros P. rewrite !total_sum. symmetry. apply sum_perm, lens_perm, P. Qed.
Definition blocks_idx (lens p : list nat) : list nat := flat_map (fun j => seq (start lens j) (nth j lens 0)) p.
Lemma blocks_id lens : forall k, k <= length lens -> blocks_idx lens (seq 0 k) = seq 0 (start lens k).
Proof.
  induction k as [|k IH]; intros Hk; [reflexivity|]. rewrite seq_S. unfold blocks_idx in *. rewrite flat_map_app. rewrite IH by lia. cbn [flat_map Nat.add]. rewrite app_nil_r, start_S by lia. rewrite seq_app. reflexivity.
Qed.
Lemma blocks_perm lens p : is_perm (length lens) p -> Permutation (seq 0 (total lens)) (blocks_idx lens p).
Proof. intros P. unfold total. rewrite <- blocks_id by lia. apply Permutation_flat_map. exact P. Qed.
Lemma blocks_len lens p : length (blocks_idx lens p) = list_sum (reorder_lens p lens).
Proof. unfold blocks_idx, reorder_lens. induction p as [|j p IH]; [reflexivity|]. cbn [flat_map map list_sum fold_right]. rewrite app_length, seq_length, IH. reflexivity. Qed.
Lemma nth_error_seq a n q : q < n -> nth_error (seq a n) q = Some (a + q).
Proof. intros H. rewrite nth_error_nth' with (d := 0) by (rewrite seq_length; exact H). rewrite seq_nth by exact H. reflexivity. Qed.
Lemma blocks_move lens p : moves_blocks lens p (blocks_idx lens p).
Proof.
  unfold moves_blocks. induction p as [|j p IH]; intros i q Hi Hq; [cbn in Hi; lia|]. unfold blocks_idx. cbn [flat_map]. destruct i as [|i].
  - cbn in Hq. cbn [start reorder_lens map Nat.add nth]. rewrite nth_error_app1 by (rewrite seq_length; exact Hq). apply nth_error_seq. exact Hq.
  - cbn in Hi, Hq. cbn [reorder_lens map start nth]. fold (reorder_lens p lens). rewrite nth_error_app2 by (rewrite seq_length; lia). rewrite seq_length. replace (nth j lens 0 + start (reorder_lens p lens) i + q - nth j lens 0) with (start (reorder_lens p lens) i + q) by lia.
    apply IH; [lia|exact Hq].
Qed.
Lemma start_indices_ok st lens : st <> [] -> length lens = length st -> start_indices st lens (length st) = Ret (map (start lens) (seq 0 (length st))).
Proof.
  intros NE HL. unfold start_indices. set (n := length st) in *. assert (0 < n) by (destruct st; [congruence|cbn in n; lia]).
  rewrite store_ok by (fold n; lia). cbn [bind].
  destruct (for_each_inv (fun k s => length s = n /\ forall i, i <= k -> nth_error s i = Some (start lens i)) 0 (n - 1)
    (fun i s => do a <- load s i; do l <- load lens i; store s (i + 1) (a + l))%out (put st 0 0)) as (s' & E & H1 & H2).
  - lia.
  - split; [rewrite put_length; reflexivity|]. intros i Hi. rewrite nth_put by (fold n; lia). replace i with 0 by lia. reflexivity.
  - intros i s Hi [H1 H2]. rewrite (nth_error_load s i _ (H2 i (le_n _))). cbn [bind]. rewrite (nth_error_load lens i (nth i lens 0)) by (apply nth_error_nth'; lia). cbn [bind].
    rewrite store_ok by lia. eexists. split; [reflexivity|]. split; [rewrite put_length; exact H1|]. intros i' Hi'. rewrite nth_put by lia. destruct (Nat.eqb_spec i' (i + 1)) as [->|]; [|apply H2; lia].
    replace (i + 1) with (S i) by lia. rewrite start_S by lia. reflexivity.
  - rewrite E. f_equal. apply list_ext; [rewrite map_length, seq_length; exact H1|]. intros i Hi. rewrite nth_error_map_seq, (proj2 (Nat.ltb_lt i n)) by lia. apply H2. lia.
Qed.
Lemma update_ok b init n lens : 0 < n -> sy_n (bs_struct b) = n -> sy_lens init = lens -> length lens = n -> length (bs_start b) = n -> length (bs_idx b) = total lens -> is_perm n (bs_perm b) ->
  update_indices b init = Ret (mkBsym (bs_struct b) (bs_tr b) (blocks_idx lens (bs_perm b)) (bs_perm b) (map (start lens) (seq 0 n))).
Proof.
  intros Hn En El Ll Ls Li P. unfold update_indices. rewrite En, El. rewrite <- Ls at 1. rewrite start_indices_ok by (try lia; intros Q; rewrite Q in Ls; cbn in Ls; lia). rewrite Ls. cbn [bind].
  set (p := bs_perm b) in *. set (N := total lens) in *. set (lens' := reorder_lens p lens).
  assert (Lp : length p = n) by (apply perm_len; exact P). assert (Ll' : length lens' = n) by (unfold lens', reorder_lens; rewrite map_length; exact Lp).
  destruct (for_each_inv (fun k (s : list nat * nat) => length (fst s) = N /\ snd s = start lens' k /\ firstn (snd s) (fst s) = blocks_idx lens (firstn k p)) 0 n
    (fun i s => let '(ix, pos) := s in do j <- load p i; do len <- load lens j; do i0 <- load (map (start lens) (seq 0 n)) j; do ix' <- fill_segment ix pos len i0; Ret (ix', pos + len))%out (bs_idx b, 0)) as ([ix pos] & E & H1 & H2 & H3).
  - lia.
  - cbn [fst snd]. auto.
  - intros i [ix pos] Hi (H1 & H2 & H3). cbn [fst snd] in H1, H2, H3. destruct (perm_in n p i P ltac:(lia)) as [E1 E2].
    rewrite (nth_error_load p i _ E1). cbn [bind]. set (j := nth i p 0) in *. rewrite (nth_error_load lens j (nth j lens 0)) by (apply nth_error_nth'; lia). cbn [bind].
    rewrite (nth_error_load _ j (start lens j)) by (rewrite nth_error_map_seq, (proj2 (Nat.ltb_lt j n)) by lia; reflexivity). cbn [bind].
    assert (Enext : start lens' (S i) = start lens' i + nth j lens 0).
    { rewrite start_S by lia. f_equal. unfold lens', reorder_lens. rewrite (nth_indep _ 0 (nth 0 lens 0)) by (rewrite map_length; lia). rewrite (map_nth (fun j => nth j lens 0)). reflexivity. }
    assert (Fit : pos + nth j lens 0 <= N). { rewrite H2, <- Enext. unfold N. rewrite <- (total_perm p lens) by (rewrite Ll; exact P). fold lens'. unfold total. apply start_mono; lia. }
    unfold fill_segment. rewrite H1, (proj2 (Nat.leb_le _ _) Fit). cbn [bind]. eexists. split; [reflexivity|]. cbn [fst snd]. split; [|split].
    + rewrite !app_length, firstn_length, seq_length, skipn_length. lia.
    + change (1 + i) with (S i). lia.
    + assert (Lf : length (firstn pos ix) = pos) by (rewrite firstn_length; lia).
      rewrite app_assoc, firstn_app, app_length, Lf, seq_length. replace (pos + nth j lens 0 - (pos + nth j lens 0)) with 0 by lia. cbn [firstn]. rewrite app_nil_r.
      rewrite firstn_all2 by (rewrite app_length, Lf, seq_length; lia). change (1 + i) with (S i).
      assert (Ef : firstn (S i) p = firstn i p ++ [j]). { clear - E1. clearbody j. clearbody p. revert i E1. induction p as [|x p IH]; intros [|i] E1; cbn in E1; try discriminate; [injection E1 as <-; reflexivity|]. cbn [firstn app]. f_equal. apply IH. exact E1. }
      rewrite Ef. unfold blocks_idx. rewrite flat_map_app. cbn [flat_map]. rewrite app_nil_r, H3. reflexivity.
  - rewrite E. cbn [bind fst]. cbn [fst snd] in H1, H2, H3. f_equal. f_equal. rewrite <- Lp, firstn_all in H3. rewrite <- H3. symmetry. apply firstn_all2.
    rewrite H1, H2. unfold N. rewrite <- (total_perm p lens) by (rewrite Ll; exact P). fold lens'. unfold total. rewrite Ll'. apply le_n.
Qed.
Lemma same_self s : well s -> same s (sy_n s) (sy_lens s) (blk s).
Proof. intros W. split; [exact W|]. auto. Qed.
Lemma same_perm src n lens B p s1 : same src n lens B -> is_perm n p -> same s1 n (reorder_lens p (sy_lens src)) (reorder p (blk src)) -> same s1 n (reorder_lens p lens) (reorder p B).
Proof.
  intros (W & N & L & E) P (W1 & N1 & L1 & E1). split; [exact W1|]. split; [exact N1|]. split; [rewrite <- L; exact L1|]. intros i j Hi Hj. rewrite E1 by auto. unfold reorder.
  destruct (perm_in n p i P Hi), (perm_in n p j P Hj). apply E; auto.
Qed.
(** An unanalysed structure is copied in the order p and analysed. *)
Lemma settle src n lens B s b p : same src n lens B -> 0 < n -> sy_llt src = false -> well s -> sy_n s = n -> is_perm n p -> length (bs_start b) = n -> length (bs_idx b) = total lens ->
  exists s' a f b', deep_copy src s (Some p) = Ret s' /\ analyze (mkBsym s' (bs_tr b) (bs_idx b) p (bs_start b)) = Ret (a, f) /\ update_indices a src = Ret b' /\
    bs_perm b' = p /\ bs_idx b' = blocks_idx lens p /\ bs_start b' = map (start lens) (seq 0 n) /\
    same (bs_struct b') n (reorder_lens p lens) (fst (pllt n 0 (reorder p B))) /\ f = snd (pllt n 0 (reorder p B)) /\ (f = true -> sy_llt (bs_struct b') = true) /\
    same (bs_tr b') n (reorder_lens p lens) (fun i j => trans (blk (bs_struct b') j i)).
Proof.
  intros SS Hn Fl W Ns P L1 L2. pose proof SS as (Ws & Nsrc & Ls & Bs). assert (Lln : length lens = n) by (rewrite <- Ls, <- Nsrc; apply Ws).
  destruct (deep_copy_perm src s p Ws W ltac:(congruence) ltac:(rewrite Nsrc; exact P)) as (s' & E & Sc & _ & F).
  rewrite Nsrc in Sc. pose proof (same_perm _ _ _ _ _ _ SS P Sc) as Sp.
  destruct (llt_same _ _ _ _ Sp) as (s2 & E2 & S2 & _ & F2).
  pose proof S2 as (W2 & N2 & L2' & B2). destruct (transpose_ok s2 W2) as (t & Et & St & _). rewrite N2, L2' in St.
  exists s'. unfold analyze. cbn [bs_struct bs_tr bs_idx bs_perm bs_start]. rewrite F, Fl, E2. cbn [bind]. rewrite Et. cbn [bind].
  eexists _, _. rewrite (update_ok _ src n lens); cbn [bs_struct bs_tr bs_idx bs_perm bs_start]; auto.
  eexists. split; [exact E|]. split; [reflexivity|]. split; [reflexivity|]. cbn [bs_struct bs_tr bs_idx bs_perm bs_start]. repeat (split; [first [reflexivity|assumption]|]). exact St.
  all: assumption.
Qed.
Lemma settle_permuted src b p n : well src -> n = sy_n src -> is_perm n p ->
  bs_perm b = p -> bs_idx b = blocks_idx (sy_lens src) p -> same (bs_struct b) n (reorder_lens p (sy_lens src)) (fst (pllt n 0 (reorder p (blk src)))) ->
  same (bs_tr b) n (reorder_lens p (sy_lens src)) (fun i j => trans (blk (bs_struct b) j i)) -> permuted src p b.
Proof.
  intros W -> P E1 E2 S1 S2. assert (Ll : length (sy_lens src) = sy_n src) by apply W. split; [exact E1|]. split; [|split; [exact S2|]].
  - destruct (deep_copy_perm src src p W W eq_refl P) as (s1 & _ & H & _). destruct (llt_same _ _ _ _ H) as (s2 & E & (W' & N' & L' & B') & _).
    exists s1, s2, (snd (pllt (sy_n src) 0 (reorder p (blk src)))). split; [exact H|]. split; [exact E|]. destruct S1 as (A1 & A2 & A3 & A4). split; [exact A1|]. split; [exact A2|]. split; [exact A3|]. intros i j Hi Hj. rewrite A4, B' by auto. reflexivity.
  - rewrite E2. split; [apply blocks_perm; rewrite Ll; exact P|apply blocks_move].
Qed.
Lemma new_ok size s : well s -> exists b, bsym_new size s = Ret b /\ same (bs_struct b) (sy_n s) (sy_lens s) (blk s) /\ sy_llt (bs_struct b) = sy_llt s /\ bs_perm b = seq 0 (sy_n s) /\ length (bs_start b) = sy_n s /\ bs_idx b = seq 0 size.
Proof.
  intros W. destruct (copy_ok s W) as (c & E & S & _ & F). destruct S as (Wc & Nc & Lc & Bc). destruct (transpose_ok c Wc) as (t & Et & _ & _). unfold bsym_new. rewrite E. cbn [bind]. rewrite Et. cbn [bind]. eexists. split; [reflexivity|].
  cbn [bs_struct bs_perm bs_start bs_idx]. rewrite repeat_length, Nc. repeat split; auto; apply Wc.
Qed.
Lemma set_fresh s b p : well s -> 0 < sy_n s -> sy_llt s = false -> is_perm (sy_n s) p -> bsym_new (total (sy_lens s)) s = Ret b ->
  exists b', set_permutation b (Some p) = Ret b' /\ permuted s p b' /\ ((forall i, i < sy_n s -> pivot (blk s i i)) -> sy_llt (bs_struct b') = true).
Proof.
  intros W Hn Fl P Eb. destruct (new_ok (total (sy_lens s)) s W) as (b0 & E0 & Sb & Fb & Pb & Lb & Ib). rewrite Eb in E0. injection E0 as <-.
  pose proof Sb as (Wb & Nb & Lnb & Bb). unfold set_permutation. destruct (copy_ok _ Wb) as (c & Ec & Sc & _ & Fc). rewrite Ec. cbn [bind]. cbn zeta. rewrite Nb.
  pose proof (perm_len _ _ P) as Lp. rewrite Lp, Nat.leb_refl. cbn [bind]. rewrite (firstn_all2 p) by lia. rewrite Pb, (skipn_all2 (seq 0 (sy_n s))) by (rewrite seq_length; lia). rewrite app_nil_r.
  assert (Sc' : same c (sy_n s) (sy_lens s) (blk s)). { destruct Sc as (A1 & A2 & A3 & A4). split; [exact A1|]. split; [congruence|]. split; [congruence|]. intros i j Hi Hj. rewrite A4 by lia. apply Bb; auto. }
  destruct (settle c _ _ _ (bs_struct b) b p Sc' Hn ltac:(congruence) Wb Nb P Lb ltac:(rewrite Ib, seq_length; reflexivity)) as (s' & a & f & b' & E1 & E2 & E3 & Q1 & Q2 & _ & Q3 & Qf & QF & Q4).
  rewrite E1. cbn [bind]. rewrite E2. cbn [bind fst]. rewrite E3. eexists. split; [reflexivity|]. split; [exact (settle_permuted s b' p _ W eq_refl P Q1 Q2 Q3 Q4)|].
  intros PV. apply QF. rewrite Qf. apply (pllt_ok (sy_n s)); [reflexivity|]. intros i _ Hi. unfold reorder. apply PV. apply (perm_in _ p i P Hi).
Qed.
Lemma fac_same s c : same c (sy_n s) (sy_lens s) (blk s) -> forall p, is_perm (sy_n s) p -> snd (fac c p) = snd (fac s p) /\ facn c p = facn s p.
Proof.
  intros (A1 & A2 & A3 & A4) p P. unfold facn, fac. rewrite A2, A3. destruct (pllt_agree (sy_n s) (sy_n s) 0 (reorder p (blk c)) (reorder p (blk s)) eq_refl) as [X Y].
  - intros i j Hi Hj. unfold reorder. destruct (perm_in _ p i P Hi), (perm_in _ p j P Hj). apply A4; auto.
  - split; [exact X|]. apply cnt_ext. exact Y.
Qed.
Lemma find_ok fuel s b : well s -> 0 < sy_n s -> sy_llt s = false -> sy_n s ^ sy_n s < fuel -> bsym_new (total (sy_lens s)) s = Ret b ->
  exists b' p, find_permutation fuel b = Ret b' /\ is_perm (sy_n s) p /\ permuted s p b' /\
    ((forall q, is_perm (sy_n s) q -> snd (fac s q) = true) -> sy_llt (bs_struct b') = true /\ forall q, is_perm (sy_n s) q -> facn s p <= facn s q).
Proof.
  intros W Hn Fl Fu Eb. destruct (new_ok (total (sy_lens s)) s W) as (b0 & E0 & Sb & Fb & Pb & Lb & Ib). rewrite Eb in E0. injection E0 as <-.
  pose proof Sb as (Wb & Nb & Lnb & Bb). unfold find_permutation. destruct (copy_ok _ Wb) as (c & Ec & Sc & _ & Fc). rewrite Ec. cbn [bind]. unfold brute_force.
  assert (Sc' : same c (sy_n s) (sy_lens s) (blk s)). { destruct Sc as (A1 & A2 & A3 & A4). split; [exact A1|]. split; [congruence|]. split; [congruence|]. intros i j Hi Hj. rewrite A4 by lia. apply Bb; auto. }
  pose proof Sc' as (Wc & Nc & Lc & Bc).
  destruct (brute_loop_ok c Wc fuel (bs_struct b) (seq 0 (sy_n c)) (bs_perm b) None Wb ltac:(congruence) eq_refl (id_perm _) ltac:(rewrite Pb, seq_length; congruence) eq_refl ltac:(rewrite Nc; lia))
    as (d & p & ok & E & Wd & Nd & _ & Lp & H1 & H2 & H3). rewrite E. cbn [bind]. rewrite Nc in *.
  assert (P : is_perm (sy_n s) p). { destruct H3 as [->|H3]; [rewrite Pb; apply id_perm|exact H3]. }
  destruct (settle c _ _ _ d b p Sc' Hn ltac:(congruence) Wd Nd P Lb ltac:(rewrite Ib, seq_length; reflexivity)) as (s' & a & f & b' & E1 & E2 & E3 & Q1 & Q2 & _ & Q3 & Qf & QF & Q4).
  rewrite E1. cbn [bind]. rewrite E2. cbn [bind fst]. rewrite E3. exists b', p. split; [reflexivity|]. split; [exact P|]. split; [exact (settle_permuted s b' p _ W eq_refl P Q1 Q2 Q3 Q4)|].
  intros All. split.
  - apply QF. rewrite Qf. apply (All p P).
  - intros q Pq. destruct ok.
    + destruct (H1 eq_refl) as (_ & _ & H). destruct (H q Pq) as [_ X]. destruct (fac_same s c Sc' p P) as [_ <-]. destruct (fac_same s c Sc' q Pq) as [_ <-]. exact X.
    + exfalso. destruct (H2 eq_refl) as (q' & Pq' & X). destruct (fac_same s c Sc' q' Pq') as [Y _]. rewrite (All q' Pq') in Y. congruence.
Qed.

(** ** The default structure *)
Lemma length_flat_const {A} (f : nat -> list A) m : forall n a, (forall j, length (f j) = m) -> length (flat_map f (seq a n)) = n * m.
Proof. induction n as [|n IH]; intros a H; [reflexivity|]. cbn [seq flat_map]. rewrite app_length, H, IH; auto. Qed.
Lemma nth_flat {A} (f : nat -> list A) d m : forall n a i j, (forall j, length (f j) = m) -> i < m -> j < n -> nth (i + j * m) (flat_map f (seq a n)) d = nth i (f (a + j)) d.
Proof.
  induction n as [|n IH]; intros a i j H Hi Hj; [lia|]. cbn [seq flat_map]. destruct j as [|j].
  - rewrite app_nth1 by (rewrite H; lia). rewrite !Nat.add_0_r. reflexivity.
  - rewrite app_nth2 by (rewrite H; nia). rewrite H. replace (i + S j * m - m) with (i + j * m) by nia. rewrite IH by (auto; lia). f_equal. f_equal. lia.
Qed.
Lemma default_well prims duals : well (default_structure prims duals).
Proof.
  unfold default_structure. split; [|split]; cbn [sy_data sy_lens sy_n sy_stride].
  - apply length_flat_const. intros j. rewrite map_length, seq_length. reflexivity.
  - rewrite app_length. reflexivity.
  - apply le_n.
Qed.
Lemma default_blk prims duals i j : i < length prims + length duals -> j < length prims + length duals ->
  blk (default_structure prims duals) i j = if Nat.ltb i (length prims) || Nat.ltb j (length prims) then Dense else if Nat.eqb i j then Diag else Zero.
Proof.
  intros Hi Hj. unfold blk. cbn [sy_data sy_stride default_structure]. rewrite nth_flat with (m := length prims + length duals); auto.
  - cbn [Nat.add]. apply nth_error_nth. rewrite nth_error_map_seq, (proj2 (Nat.ltb_lt i _) Hi). reflexivity.
  - intros k. rewrite map_length, seq_length. reflexivity.
Qed.
Lemma fold_add l : forall a, fold_left Nat.add l a = a + list_sum l.
Proof. induction l as [|x l IH]; intros a; cbn; [lia|]. rewrite IH. unfold list_sum. lia. Qed.
Lemma total_dim_ok prims duals : total_dim prims duals = total (prims ++ duals).
Proof. unfold total_dim. rewrite total_sum, list_sum_app, !fold_add. lia. Qed.
Lemma default_fac prims duals p : is_perm (length prims + length duals) p -> snd (fac (default_structure prims duals) p) = true.
Proof.
  intros P. unfold fac. cbn [sy_n default_structure]. apply (pllt_ok (length prims + length duals)); [reflexivity|]. intros i _ Hi. unfold reorder. destruct (perm_in _ p i P Hi) as [_ Hp]. rewrite default_blk by auto.
  rewrite Nat.eqb_refl. destruct (_ || _)%bool; [right|left]; reflexivity.
Qed.
Lemma allocate_ok fuel prims duals : let n := length prims + length duals in let s := default_structure prims duals in 0 < n -> n ^ n < fuel ->
  exists b p, allocate_block fuel prims duals = Ret b /\ is_perm n p /\ permuted s p b /\ sy_llt (bs_struct b) = true /\ forall q, is_perm n q -> facn s p <= facn s q.
Proof.
  intros n s Hn Fu. unfold allocate_block. fold s. rewrite total_dim_ok. change (prims ++ duals) with (sy_lens s).
  destruct (new_ok (total (sy_lens s)) s (default_well prims duals)) as (b & Eb & _). rewrite Eb. cbn [bind].
  destruct (find_ok fuel s b (default_well prims duals) Hn eq_refl Fu Eb) as (b' & p & E & P & Q & R). exists b', p. split; [exact E|]. split; [exact P|]. split; [exact Q|].
  apply R. intros q Pq. apply default_fac. exact Pq.
Qed.
(** Search statement used for brute_force. *)
Lemma brute_ok fuel src dst perm : well src -> well dst -> sy_n dst = sy_n src -> length perm = sy_n src -> sy_n src ^ sy_n src < fuel ->
  exists dst' p ok, brute_force fuel src dst perm = Ret (dst', p, ok) /\
    (ok = true -> is_perm (sy_n src) p /\ exists c, fill src p c /\ forall q, is_perm (sy_n src) q -> exists c', fill src q c' /\ c <= c') /\
    (ok = false -> exists q, is_perm (sy_n src) q /\ forall c, ~ fill src q c).
Proof.
  intros W Wd Nd Lp Fu. destruct (brute_loop_ok src W fuel dst (seq 0 (sy_n src)) perm None Wd Nd eq_refl (id_perm _) Lp eq_refl ltac:(lia)) as (d & p & ok & E & _ & _ & _ & _ & H1 & H2 & _).
  exists d, p, ok. split; [exact E|]. split.
  - intros T. destruct (H1 T) as (P & S & M). split; [exact P|]. exists (facn src p). split; [apply fill_intro; auto|]. intros q Pq. destruct (M q Pq) as [X Y]. exists (facn src q). split; [apply fill_intro; auto|exact Y].
  - intros T. destruct (H2 T) as (q & Pq & X). exists q. split; [exact Pq|]. intros c F. apply fill_iff in F. destruct F. congruence.
Qed.
Lemma may_inj a b : (forall p q, may a p q <-> may b p q) -> a = b.
Proof.
  intros H. pose proof (H 0 0). pose proof (H 1 0). pose proof (H 0 1). destruct a, b; cbn in *; try reflexivity; exfalso; lia.
Qed.
Lemma sym_pattern_ok n B : sym_pattern n B -> sym_structure n B.
Proof. intros H i j Hi Hj. apply may_inj. intros p q. rewrite (H i j Hi Hj p q). symmetry. apply may_trans. Qed.
Lemma covers s s' A L D : well s -> sym_pattern (sy_n s) (blk s) -> llt_in_place s = Ret (s', true) ->
  let N := total (sy_lens s) in
  unit_lower N L -> (forall i, i < N -> D i <> 0%R) -> (forall i j, i < N -> j < N -> A i j = ldl N L D i j) ->
  has_structure (sy_n s) (sy_lens s) (blk s) A -> has_structure (sy_n s) (sy_lens s) (blk s') L.
Proof. intros W SP. apply llt_covers; [exact W|]. apply sym_pattern_ok. exact SP. Qed.
Lemma llt_total s : well s -> exists s' ok, llt_in_place s = Ret (s', ok) /\ well s' /\ sy_n s' = sy_n s /\ sy_lens s' = sy_lens s /\ sy_stride s' = sy_stride s /\
  ((forall i, i < sy_n s -> pivot (blk s i i)) -> ok = true) /\ (0 < sy_n s -> ~ pivot (blk s 0 0) -> ok = false).
Proof.
  intros W. destruct (llt_runs s W) as (s' & E & W' & N' & L' & S' & _). exists s', (snd (pllt (sy_n s) 0 (blk s))). repeat (split; [assumption|]). split.
  - intros P. apply (pllt_ok (sy_n s)); auto.
  - intros Hn NP. destruct (sy_n s) as [|m]; [lia|]. apply pllt_refuse. exact NP.
Qed.
Lemma symmetric_sound s : well s -> (forall i j, i < sy_n s -> j < sy_n s -> i <> j -> blk s i j <> TriL /\ blk s i j <> TriU) ->
  exists b, check_if_symmetric s = Ret b /\ (b = true <-> forall i j, i < sy_n s -> j < sy_n s -> i <> j -> forall p q, may (blk s j i) p q <-> may (blk s i j) q p).
Proof.
  intros W H. destruct (symmetric_ok s W) as (b & E & I). exists b. split; [exact E|]. rewrite I. split.
  - intros X i j Hi Hj N p q. rewrite (X i j Hi Hj). destruct (H j i Hj Hi ltac:(auto)). destruct (blk s j i); try congruence; cbn; try tauto; split; auto.
  - intros X i j Hi Hj. destruct (Nat.eq_dec i j) as [->|N]; [reflexivity|]. symmetry. assert (Y : blk s j i = trans (blk s i j)) by (apply may_inj; intros p q; rewrite (X i j Hi Hj N p q); symmetry; apply may_trans).
    rewrite Y. destruct (H i j Hi Hj N). destruct (blk s i j); try congruence; reflexivity.
Qed.
Lemma update_moves b init : 0 < sy_n (bs_struct b) -> length (sy_lens init) = sy_n (bs_struct b) -> length (bs_start b) = sy_n (bs_struct b) ->
  length (bs_idx b) = total (sy_lens init) -> is_perm (sy_n (bs_struct b)) (bs_perm b) ->
  exists b', update_indices b init = Ret b' /\ Permutation (seq 0 (total (sy_lens init))) (bs_idx b') /\ moves_blocks (sy_lens init) (bs_perm b) (bs_idx b') /\
    bs_perm b' = bs_perm b /\ bs_struct b' = bs_struct b.
Proof.
  intros H1 H2 H3 H4 P. rewrite (update_ok b init (sy_n (bs_struct b)) (sy_lens init)) by auto. eexists. split; [reflexivity|]. cbn [bs_idx bs_perm bs_struct].
  split; [apply blocks_perm; rewrite H2; exact P|]. split; [apply blocks_move|]. auto.
Qed.
Lemma default_all prims duals i j : i < length prims + length duals -> j < length prims + length duals ->
  well (default_structure prims duals) /\ total_dim prims duals = total (sy_lens (default_structure prims duals)) /\
  blk (default_structure prims duals) i j = (if Nat.ltb i (length prims) || Nat.ltb j (length prims) then Dense else if Nat.eqb i j then Diag else Zero).
Proof. intros Hi Hj. split; [apply default_well|]. split; [apply total_dim_ok|]. apply default_blk; auto. Qed.
Lemma allocate_fill fuel prims duals : let n := length prims + length duals in let s := default_structure prims duals in 0 < n -> n ^ n < fuel ->
  exists b p c, allocate_block fuel prims duals = Ret b /\ is_perm n p /\ permuted s p b /\ sy_llt (bs_struct b) = true /\
    fill s p c /\ forall q, is_perm n q -> exists c', fill s q c' /\ c <= c'.
Proof.
  intros n s Hn Fu. destruct (allocate_ok fuel prims duals Hn Fu) as (b & p & E & P & Q & F & M). exists b, p, (facn s p). repeat (split; [assumption|]). split.
  - apply fill_intro; [apply default_well|exact P|]. apply default_fac. exact P.
  - intros q Pq. exists (facn s q). split; [|apply M; exact Pq]. apply fill_intro; [apply default_well|exact Pq|]. apply default_fac. exact Pq.
Qed.
