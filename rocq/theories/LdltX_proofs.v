From Coq Require Import Reals List Bool Arith Lia Lra Permutation.
From Verif Require Import Scalar Problem_model Symb_model Lin_spec Lin_proofs Symb_spec Symb_proofs SymbL_proofs SymbC_proofs SymbP_proofs SymbQ_proofs Ldlt_model Ldlt_spec Ldlt_proofs LdltG_proofs LdltB_proofs LdltS_proofs LdltO_proofs LdltQ_proofs LdltT_proofs.
Import ListNotations.
Local Open Scope R_scope.
Lemma dense_ldlt d n A L D : factor_of n A L D -> (forall i, (S i < n)%nat -> D i <> 0) ->
  exists d', dldlt_compute (K := RSc) d n A = Ret d' /\ dl_n d' = n /\ stores n (dl_mat d') L D /\ dl_ok d' = Some true /\
    (forall i j, (i < n)%nat -> (j < n)%nat -> dldlt_reconstruct (K := RSc) d' i j = mirror A i j) /\
    ((forall i, (i < n)%nat -> tiny (K := RSc) < Rabs (D i)) -> forall b, solves n A (dldlt_solve (K := RSc) d' b) b).
Proof. intros F H. destruct (compute_ok d n A L D F H) as (d' & H1 & H2 & H3 & H4 & H5 & H6 & _). exists d'. auto 10. Qed.
Lemma first_sign d n A L D : factor_of n A L D -> (forall i, (S i < n)%nat -> D i <> 0) -> (n <= 1)%nat \/ dl_sign d = ZeroSign ->
  exists d', dldlt_compute (K := RSc) d n A = Ret d' /\ sign_is n D (dl_sign d').
Proof. intros F H Z. destruct (compute_ok d n A L D F H) as (d' & H1 & _ & _ & _ & _ & _ & H7). exists d'. auto. Qed.
Lemma tiny_small : tiny (K := RSc) < 1.
Proof.
  unfold tiny, slit. cbn [sdiv sofZ RSc]. assert (H : 1 < IZR (2 ^ 1022)) by (apply IZR_lt; reflexivity). revert H. generalize (IZR (2 ^ 1022)). intros x H. cbn [RSc car] in *.
  apply (Rmult_lt_reg_r x); [lra|]. replace (1 / x * x) with 1 by (field; lra). lra.
Qed.
Lemma dense_total (K : Sc) : forall fuel n (a : mat K) sg, (n < fuel)%nat -> exists r, dense_in_place fuel n a sg = Ret r.
Proof.
  induction fuel as [|f IH]; intros n a sg H; [lia|]. cbn [dense_in_place]. destruct (Nat.leb_spec n threshold) as [T|T]; [eexists; reflexivity|]. unfold threshold in T.
  assert (B : (Nat.div (n + 1) 2 < n)%nat) by (apply Nat.div_lt_upper_bound; lia). assert (B' : (0 < Nat.div (n + 1) 2)%nat) by (apply Nat.div_str_pos; lia).
  cbn zeta. destruct (IH (Nat.div (n + 1) 2) (view 0 a) sg ltac:(lia)) as [[l00 sg1] E1]. rewrite E1. cbn [bind].
  match goal with |- context[dense_in_place f ?m ?v sg1] => destruct (IH m v sg1 ltac:(lia)) as [[l11 sg2] E2]; rewrite E2 end. cbn [bind]. eexists. reflexivity.
Qed.
Lemma always_success (K : Sc) (d : dldlt K) n a : exists d', dldlt_compute d n a = Ret d' /\ dl_ok d' = Some true.
Proof. unfold dldlt_compute. destruct (dense_total K (n + 1) n a (dl_sign d) ltac:(lia)) as [r E]. rewrite E. cbn [bind]. eexists. split; reflexivity. Qed.
Lemma ident_factor n (v : R) : factor_of n (fun i j => if Nat.eqb i j then v else 0) (ident (K := RSc)) (fun _ => v).
Proof.
  split; [split|].
  - intros i _. unfold ident. rewrite Nat.eqb_refl. reflexivity.
  - intros i j H1 H2. unfold ident. destruct (Nat.eqb_spec i j); [lia|reflexivity].
  - intros i j H1 H2. unfold ldl. rewrite (rsum_one n _ i H2).
    + unfold ident. rewrite Nat.eqb_refl. destruct (Nat.eqb_spec i j) as [->|N]; [rewrite Nat.eqb_refl; rs; lra|]. destruct (Nat.eqb_spec j i); [lia|]. rs. lra.
    + intros t Ht Nt. unfold ident. destruct (Nat.eqb_spec i t); [lia|]. rs. lra.
Qed.
Lemma sticky_sign A1 A2 L1 L2 D1 D2 : factor_of 2 A1 L1 D1 -> factor_of 2 A2 L2 D2 -> (forall i, (i < 2)%nat -> 0 < D1 i) -> (forall i, (i < 2)%nat -> D2 i < 0) ->
  exists d1 d2, dldlt_compute (K := RSc) (dldlt_new 2) 2 A1 = Ret d1 /\ dldlt_compute (K := RSc) d1 2 A2 = Ret d2 /\ dl_sign d2 = Indef.
Proof.
  intros F1 F2 P1 P2. unfold dldlt_compute.
  destruct (dense_ok (2 + 1) 2 A1 (dl_sign (dldlt_new (K := RSc) 2)) L1 D1 ltac:(lia) F1) as (a1 & g1 & E1 & _ & S1); [intros i Hi; specialize (P1 i ltac:(lia)); lra|].
  rewrite E1. cbn [bind fst snd]. eexists. 
  destruct (dense_ok (2 + 1) 2 A2 g1 L2 D2 ltac:(lia) F2) as (a2 & g2 & E2 & _ & S2); [intros i Hi; specialize (P2 i ltac:(lia)); lra|].
  eexists. split; [reflexivity|]. cbn [dl_sign]. rewrite E2. cbn [bind fst snd]. split; [reflexivity|]. cbn [dl_sign].
  pose proof (P1 0%nat ltac:(lia)). pose proof (P1 1%nat ltac:(lia)). pose proof (P2 0%nat ltac:(lia)).
  assert (U1 : update_sign (K := RSc) ZeroSign (D1 0%nat) = PosSemi) by (cbn; rewrite (proj2 (Rltb_true 0 (D1 0%nat))) by assumption; reflexivity).
  assert (U2 : update_sign (K := RSc) PosSemi (D1 1%nat) = PosSemi) by (cbn; rewrite (proj2 (Rltb_false (D1 1%nat) 0)) by lra; reflexivity).
  assert (U3 : update_sign (K := RSc) PosSemi (D2 0%nat) = Indef) by (cbn; rewrite (proj2 (Rltb_true (D2 0%nat) 0)) by assumption; reflexivity).
  cbn [Nat.leb seq map fold_left dl_sign dldlt_new] in S1, S2. rewrite U1, U2 in S1. rewrite S1, U3 in S2. rewrite S2. reflexivity.
Qed.
Lemma square_product kl kr n dst lhs rhs al : ~ (kl = Diag /\ (kr = TriL \/ kr = TriU)) -> fits kl n n lhs -> fits kr n n rhs ->
  exists d, gemmt (K := RSc) n n n dst lhs rhs kl kr al = Ret d /\
    forall p q, (p < n)%nat -> (q < n)%nat -> d p q = dst p q + al * rsum n (fun t => lhs p t * rhs q t).
Proof.
  intros NX F1 F2. destruct (gemmt_ok kl kr n n n dst lhs rhs al F1) as (d & E & G & _).
  - destruct kl, kr; cbn; auto; try lia; exfalso; apply NX; auto.
  - exists d. split; [exact E|]. intros p q Hp Hq. rewrite G by assumption. f_equal. f_equal. apply rsum_ext. intros t Ht. f_equal. unfold mask. destruct (mayb kr q t) eqn:M; [reflexivity|]. symmetry. apply F2; auto.
    intros X. destruct kr; cbn in X, M; try discriminate; try tauto.
    + apply Nat.eqb_neq in M. auto.
    + apply Nat.leb_gt in M. lia.
    + apply Nat.leb_gt in M. lia.
Qed.
Lemma diag_tri_undefined n dst lhs rhs al : (2 <= n)%nat ->
  gemmt (K := RSc) n n n dst lhs rhs Diag TriL al = UB /\ gemmt (K := RSc) n n n dst lhs rhs Diag TriU al = UB.
Proof.
  intros H. cbn [gemmt]. unfold gemm_dl, gemm_du. destruct n as [|[|n]]; try lia. split.
  - cbn [seq for_each Nat.add]. rewrite Nat.min_id. cbn. reflexivity.
  - cbn [seq for_each]. rewrite Nat.min_id, Nat.sub_0_r, !Nat.leb_refl, Nat.eqb_refl. cbn [Nat.leb andb bind]. replace (S (S n) - 1)%nat with (S n) by lia. rewrite (proj2 (Nat.eqb_neq (S (S n)) (S n))) by lia. rewrite andb_false_r. reflexivity.
Qed.
Lemma block_ldlt_factors src p (b : bldlt RSc) A L D : let N := total (sy_lens src) in
  well src -> is_perm (sy_n src) p -> permuted src p (bl_sym b) -> sy_llt (bs_struct (bl_sym b)) = true ->
  sym_pattern (sy_n src) (blk src) -> simple (sy_n src) (sy_lens src) (blk src) ->
  has_structure (sy_n src) (sy_lens src) (blk src) (mirror A) ->
  factor_of N (renumber (bs_idx (bl_sym b)) A) L D -> (forall i, (i < N)%nat -> D i <> 0) ->
  exists b', bldlt_compute (K := RSc) b N A = Ret b' /\ bl_ok b' = Some true /\ stores N (bl_mat b') L D /\
    (forall i j, (i < N)%nat -> (j < N)%nat -> bldlt_reconstruct (K := RSc) b' i j = mirror A i j) /\
    ((forall i, (i < N)%nat -> tiny (K := RSc) < Rabs (D i)) -> forall x, exists x', bldlt_solve (K := RSc) b' x = Ret (x', true) /\ solves N A x' x).
Proof.
  intros N H1 H2 H3 H4 H5 H6 H7 H8 H9. destruct (block_ldlt_ok src p b A L D H1 H2 H3 H4 H5 H6 H7 H8 H9) as (b' & Q1 & Q2 & Q3 & Q4 & Q5 & _). exists b'. auto.
Qed.
Lemma block_sign src p (b : bldlt RSc) A L D : let N := total (sy_lens src) in
  well src -> is_perm (sy_n src) p -> permuted src p (bl_sym b) -> sy_llt (bs_struct (bl_sym b)) = true ->
  sym_pattern (sy_n src) (blk src) -> simple (sy_n src) (sy_lens src) (blk src) ->
  has_structure (sy_n src) (sy_lens src) (blk src) (mirror A) ->
  factor_of N (renumber (bs_idx (bl_sym b)) A) L D -> (forall i, (i < N)%nat -> D i <> 0) ->
  (forall l, In l (sy_lens src) -> (2 <= l)%nat) -> bl_sign b = ZeroSign ->
  exists b', bldlt_compute (K := RSc) b N A = Ret b' /\ sign_is N D (bl_sign b').
Proof.
  intros N H1 H2 H3 H4 H5 H6 H7 H8 H9 S1 S2. destruct (block_ldlt_ok src p b A L D H1 H2 H3 H4 H5 H6 H7 H8 H9) as (b' & Q1 & _ & _ & _ & _ & Q6). exists b'. auto.
Qed.
Lemma C48_object s p : well s -> (0 < sy_n s)%nat -> sy_llt s = false -> is_perm (sy_n s) p ->
  exists y y', bsym_new (total (sy_lens s)) s = Ret y /\ set_permutation y (Some p) = Ret y' /\ permuted s p y' /\ ((forall i, (i < sy_n s)%nat -> pivot (blk s i i)) -> sy_llt (bs_struct y') = true).
Proof.
  intros W Hn F P. destruct (new_ok (total (sy_lens s)) s W) as (y & E & _). destruct (set_fresh s y p W Hn F P E) as (y' & E' & Q). exists y, y'. auto.
Qed.
