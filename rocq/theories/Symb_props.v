(** Properties C44 to C49, C71, C72: symbolic block structures and block permutations. *)
From Coq Require Import Reals List Bool Arith Lia Lra Permutation.
From Verif Require Import Scalar Problem_model Symb_model Lin_spec Symb_spec Symb_proofs SymbL_proofs SymbC_proofs SymbP_proofs SymbQ_proofs.
Import ListNotations.

(** C44. Sum, product and transpose of matrices with given structures have the structures computed by
    add, mul and trans. *)
Theorem C44_transpose : forall k r c M, fits k r c M -> fits (trans k) c r (fun p q => M q p).
Proof. exact trans_sound. Qed.
Print Assumptions C44_transpose.
Theorem C44_sum : forall a b r c M N, fits a r c M -> fits b r c N -> fits (kadd a b) r c (fun p q => M p q + N p q)%R.
Proof. exact add_sound. Qed.
Print Assumptions C44_sum.
Theorem C44_product : forall a b r m c M N, fits a r m M -> fits b m c N -> fits (kmul a b) r c (fun p q => rsum m (fun t => M p t * N t q))%R.
Proof. exact mul_sound. Qed.
Print Assumptions C44_product.
(** They are the smallest such structures: any structure that is right for 2 x 2 blocks contains them. *)
Theorem C44_smallest :
  (forall k k', (forall M, fits k 2 2 M -> fits k' 2 2 (fun p q => M q p)) -> finer (trans k) k') /\
  (forall a b k', (forall M N, fits a 2 2 M -> fits b 2 2 N -> fits k' 2 2 (fun p q => M p q + N p q)%R) -> finer (kadd a b) k') /\
  (forall a b k', (forall M N, fits a 2 2 M -> fits b 2 2 N -> fits k' 2 2 (fun p q => rsum 2 (fun t => M p t * N t q))%R) -> finer (kmul a b) k').
Proof. exact (conj trans_best (conj add_best mul_best)). Qed.
Print Assumptions C44_smallest.
Definition low3 (p q : nat) : R := if Nat.leb q p then INR (1 + p + q) else 0%R.
Example C44_example : fits TriL 3 3 low3 /\ fits Diag 3 3 (fun p q => if Nat.eqb p q then 2%R else 0%R) /\
  fits TriL 3 3 (fun p q => rsum 3 (fun t => low3 p t * (if Nat.eqb t q then 2 else 0)))%R.
Proof.
  assert (A : fits TriL 3 3 low3). { intros p q Hp Hq N. unfold low3. cbn in N. destruct (Nat.leb_spec q p); [lia|reflexivity]. }
  assert (B : fits Diag 3 3 (fun p q => if Nat.eqb p q then 2%R else 0%R)). { intros p q Hp Hq N. cbn in N. destruct (Nat.eqb_spec p q); [lia|reflexivity]. }
  split; [exact A|]. split; [exact B|]. exact (C44_product TriL Diag 3 3 3 _ _ A B).
Qed.

(** C45. The symbolic factorisation reads and writes only inside its arrays; with diagonal or dense
    pivots it succeeds, with another first pivot it refuses. *)
Theorem C45_in_bounds : forall s, well s -> exists s' ok, llt_in_place s = Ret (s', ok) /\ well s' /\ sy_n s' = sy_n s /\ sy_lens s' = sy_lens s /\ sy_stride s' = sy_stride s /\
  ((forall i, i < sy_n s -> pivot (blk s i i)) -> ok = true) /\ (0 < sy_n s -> ~ pivot (blk s 0 0) -> ok = false).
Proof. exact llt_total. Qed.
Print Assumptions C45_in_bounds.
(** After a success the structure left in s' contains the structure of the factor L of every matrix
    A = L D L' that has the structure of s. *)
Theorem C45_covers : forall s s' A L D, well s -> sym_pattern (sy_n s) (blk s) -> llt_in_place s = Ret (s', true) ->
  let N := total (sy_lens s) in
  unit_lower N L -> (forall i, i < N -> D i <> 0%R) -> (forall i j, i < N -> j < N -> A i j = ldl N L D i j) ->
  has_structure (sy_n s) (sy_lens s) (blk s) A -> has_structure (sy_n s) (sy_lens s) (blk s') L.
Proof. exact covers. Qed.
Print Assumptions C45_covers.
(** Arrow matrix with fill-in: A = [1 1 1; 1 2 0; 1 0 3], whose factor has entry (2, 1). *)
Definition arrow : symb := mkSymb [Dense; Dense; Dense; Dense; Dense; Zero; Dense; Zero; Dense] [1; 1; 1] 3 3 false.
Definition arrow_A (i j : nat) : R := match i, j with 0, _ => 1 | _, 0 => 1 | 1, 1 => 2 | 2, 2 => 3 | _, _ => 0 end%R.
Definition arrow_L (i j : nat) : R := match i, j with 0, 0 => 1 | 1, 0 => 1 | 2, 0 => 1 | 1, 1 => 1 | 2, 1 => -1 | 2, 2 => 1 | _, _ => 0 end%R.
Example C45_example : exists s', llt_in_place arrow = Ret (s', true) /\ blk s' 2 1 = Dense /\ blk s' 1 2 = Zero /\ has_structure 3 [1; 1; 1] (blk s') arrow_L.
Proof.
  destruct (llt_in_place arrow) as [[s' [|]]|e| |] eqn:E; vm_compute in E; try discriminate. injection E as <-. eexists. split; [reflexivity|]. split; [reflexivity|]. split; [reflexivity|].
  apply (C45_covers arrow _ arrow_A arrow_L (fun _ => 1%R)).
  - repeat split; cbn; lia.
  - cbn [sy_n arrow]. intros i j Hi Hj p q. destruct i as [|[|[|i]]], j as [|[|[|j]]]; try lia; cbn; tauto.
  - reflexivity.
  - cbn. split; intros i; destruct i as [|[|[|i]]]; try lia; try reflexivity; intros j; destruct j as [|[|[|j]]]; try lia; reflexivity.
  - intros i _. lra.
  - cbn. intros i j Hi Hj. destruct i as [|[|[|i]]], j as [|[|[|j]]]; try lia; cbn; lra.
  - cbn [sy_n arrow]. intros i j Hi Hj p q Hp Hq N. destruct i as [|[|[|i]]], j as [|[|[|j]]]; try lia; cbn in *; try tauto; replace p with 0 by lia; replace q with 0 by lia; reflexivity.
Qed.
(** The recorded structure is not the smallest: below a dense pivot a zero block is recorded as upper
    triangular, though no factor of any matrix with the structure has an entry there. *)
Theorem C45_smallest_refuted : exists s s', well s /\ sym_pattern (sy_n s) (blk s) /\ llt_in_place s = Ret (s', true) /\ may (blk s' 1 0) 0 0 /\
  forall A L D, unit_lower 2 L -> (forall i, i < 2 -> D i <> 0%R) -> (forall i j, i < 2 -> j < 2 -> A i j = ldl 2 L D i j) ->
    has_structure (sy_n s) (sy_lens s) (blk s) A -> L 1 0 = 0%R.
Proof.
  exists (mkSymb [Dense; Zero; Zero; Dense] [1; 1] 2 2 false). eexists. split; [repeat split; cbn; lia|]. split.
  - cbn [sy_n]. intros i j Hi Hj p q. destruct i as [|[|i]], j as [|[|j]]; try lia; cbn; tauto.
  - split; [vm_compute; reflexivity|]. split; [cbn; lia|]. intros A L D [U1 U2] DN E H.
    specialize (H 1 0 ltac:(cbn; lia) ltac:(cbn; lia) 0 0 ltac:(cbn; lia) ltac:(cbn; lia) ltac:(cbn; tauto)). cbn in H. rewrite (E 1 0) in H by lia. unfold ldl in H. cbn in H. rewrite (U1 0), (U2 0 1) in H by lia.
    pose proof (DN 0 ltac:(lia)). assert (H1 : (L 1%nat 0%nat * D 0%nat = 0)%R) by lra. apply Rmult_integral in H1. tauto.
Qed.
Print Assumptions C45_smallest_refuted.

(** C46. The symmetry check compares the kinds without transposing one of them. *)
Theorem C46_compares_kinds : forall s, well s -> exists b, check_if_symmetric s = Ret b /\ (b = true <-> forall i j, i < sy_n s -> j < sy_n s -> blk s i j = blk s j i).
Proof. exact symmetric_ok. Qed.
Print Assumptions C46_compares_kinds.
(** It is right when no off-diagonal block is triangular. *)
Theorem C46_without_triangles : forall s, well s -> (forall i j, i < sy_n s -> j < sy_n s -> i <> j -> blk s i j <> TriL /\ blk s i j <> TriU) ->
  exists b, check_if_symmetric s = Ret b /\ (b = true <-> forall i j, i < sy_n s -> j < sy_n s -> i <> j -> forall p q, may (blk s j i) p q <-> may (blk s i j) q p).
Proof. exact symmetric_sound. Qed.
Print Assumptions C46_without_triangles.
(** A symmetric structure is rejected and one that is not is accepted. *)
Theorem C46_refuted :
  (exists s, well s /\ sym_pattern (sy_n s) (blk s) /\ check_if_symmetric s = Ret false) /\
  (exists s, well s /\ ~ sym_pattern (sy_n s) (blk s) /\ check_if_symmetric s = Ret true).
Proof.
  split.
  - exists (mkSymb [Diag; TriL; TriU; Diag] [2; 2] 2 2 false). split; [repeat split; cbn; lia|]. split; [|reflexivity].
    cbn [sy_n]. intros i j Hi Hj p q. destruct i as [|[|i]], j as [|[|j]]; try lia; cbn; lia.
  - exists (mkSymb [Diag; TriL; TriL; Diag] [2; 2] 2 2 false). split; [repeat split; cbn; lia|]. split; [|reflexivity].
    cbn [sy_n]. intros H. specialize (H 0 1 ltac:(lia) ltac:(lia) 0 1). cbn in H. lia.
Qed.
Print Assumptions C46_refuted.
Example C46_example : well arrow /\ check_if_symmetric arrow = Ret true /\ check_if_symmetric (mkSymb [Dense; Zero; Diag; Dense] [1; 1] 2 2 false) = Ret false.
Proof. repeat split; cbn; lia. Qed.

(** C47. The search ends, whatever the structure; if it reports success, the permutation is one and no
    other permutation gives a factor with fewer entries; if it reports failure, some permuted structure
    cannot be factorised. *)
Theorem C47_minimal_fill : forall fuel src dst perm, well src -> well dst -> sy_n dst = sy_n src -> length perm = sy_n src -> sy_n src ^ sy_n src < fuel ->
  exists dst' p ok, brute_force fuel src dst perm = Ret (dst', p, ok) /\
    (ok = true -> is_perm (sy_n src) p /\ exists c, fill src p c /\ forall q, is_perm (sy_n src) q -> exists c', fill src q c' /\ c <= c') /\
    (ok = false -> exists q, is_perm (sy_n src) q /\ forall c, ~ fill src q c).
Proof. exact brute_ok. Qed.
Print Assumptions C47_minimal_fill.
Definition arrow_diag : symb := mkSymb [Dense; Dense; Dense; Dense; Diag; Zero; Dense; Zero; Diag] [1; 2; 2] 3 3 false.
Example C47_example : well arrow_diag /\ exists d, brute_force 28 arrow_diag arrow_diag [0; 1; 2] = Ret (d, [1; 2; 0], true).
Proof. split; [repeat split; cbn; lia|]. vm_compute. eexists. reflexivity. Qed.

(** C48. The first call of setBlockPermutation gives an object for the permuted matrix, marked as
    factorised if every diagonal block is diagonal or dense. *)
Theorem C48_first_call : forall s b p, well s -> 0 < sy_n s -> sy_llt s = false -> is_perm (sy_n s) p -> bsym_new (total (sy_lens s)) s = Ret b ->
  exists b', set_permutation b (Some p) = Ret b' /\ permuted s p b' /\ ((forall i, i < sy_n s -> pivot (blk s i i)) -> sy_llt (bs_struct b') = true).
Proof. exact set_fresh. Qed.
Print Assumptions C48_first_call.
(** A second call permutes the factor of the first one: neither the structure nor the scalar
    permutation belong to the matrix. *)
Theorem C48_refuted : exists s b p b1 b2, well s /\ 0 < sy_n s /\ sy_llt s = false /\ is_perm (sy_n s) p /\ bsym_new (total (sy_lens s)) s = Ret b /\
  set_permutation b (Some p) = Ret b1 /\ set_permutation b1 (Some p) = Ret b2 /\ ~ permuted s p b2 /\ ~ permuted s [0; 1] b2.
Proof.
  exists (mkSymb [Diag; Dense; Dense; Dense] [1; 2] 2 2 false).
  eexists. exists [1; 0]. eexists. eexists.
  split; [repeat split; cbn; lia|]. split; [cbn; lia|]. split; [reflexivity|]. split; [apply perm_swap|]. split; [vm_compute; reflexivity|]. split; [vm_compute; reflexivity|]. split; [vm_compute; reflexivity|]. split.
  - intros (_ & _ & _ & _ & M). specialize (M 0 0 ltac:(cbn; lia) ltac:(cbn; lia)). cbn in M. discriminate.
  - intros (E & _). discriminate.
Qed.
Print Assumptions C48_refuted.
Example C48_example : exists b b', bsym_new 3 (mkSymb [Diag; Dense; Dense; Dense] [1; 2] 2 2 false) = Ret b /\ set_permutation b (Some [1; 0]) = Ret b' /\ bs_idx b' = [1; 2; 0] /\ sy_lens (bs_struct b') = [2; 1].
Proof. eexists _, _. split; [vm_compute; reflexivity|]. split; [vm_compute; reflexivity|]. split; reflexivity. Qed.

(** C49. The scalar permutation of a block permutation is a permutation and moves whole blocks; block
    sizes may be zero. *)
Theorem C49_scalar_permutation : forall b init, 0 < sy_n (bs_struct b) -> length (sy_lens init) = sy_n (bs_struct b) -> length (bs_start b) = sy_n (bs_struct b) ->
  length (bs_idx b) = total (sy_lens init) -> is_perm (sy_n (bs_struct b)) (bs_perm b) ->
  exists b', update_indices b init = Ret b' /\ Permutation (seq 0 (total (sy_lens init))) (bs_idx b') /\ moves_blocks (sy_lens init) (bs_perm b) (bs_idx b') /\
    bs_perm b' = bs_perm b /\ bs_struct b' = bs_struct b.
Proof. exact update_moves. Qed.
Print Assumptions C49_scalar_permutation.
(** Without any block the first start index is written outside of its array. *)
Theorem C49_no_block_refuted : exists b s, well s /\ sy_n s = 0 /\ bsym_new 0 s = Ret b /\ update_indices b s = UB.
Proof. eexists. exists (mkSymb [] [] 0 0 false). split; [unfold well; cbn; lia|]. split; [reflexivity|]. split; vm_compute; reflexivity. Qed.
Print Assumptions C49_no_block_refuted.
Example C49_example : let s := mkSymb (repeat Dense 9) [2; 0; 1] 3 3 false in exists b', update_indices (mkBsym s s [0; 1; 2] [2; 0; 1] [0; 0; 0]) s = Ret b' /\ bs_idx b' = [2; 0; 1].
Proof. eexists. split; vm_compute; reflexivity. Qed.

(** C71. count_nnz counts the entries that may be non-zero, if only square blocks are diagonal or
    triangular. *)
Theorem C71_count : forall s, well s -> (forall i j, i < sy_n s -> j < sy_n s -> blk s i j = Zero \/ blk s i j = Dense \/ nth i (sy_lens s) 0 = nth j (sy_lens s) 0) ->
  count_nnz s = Ret (all_places (sy_n s) (sy_lens s) (blk s)).
Proof. exact count_places. Qed.
Print Assumptions C71_count.
(** A rectangular diagonal block is counted by its number of rows. *)
Theorem C71_rectangular_refuted : exists s, well s /\ count_nnz s <> Ret (all_places (sy_n s) (sy_lens s) (blk s)).
Proof. exists (mkSymb [Zero; Diag; Zero; Zero] [1; 2] 2 2 false). split; [repeat split; cbn; lia|]. vm_compute. discriminate. Qed.
Print Assumptions C71_rectangular_refuted.
Example C71_example : let s := mkSymb [Diag; TriL; Zero; Dense] [3; 3] 2 2 false in well s /\ count_nnz s = Ret 18.
Proof. split; [repeat split; cbn; lia|reflexivity]. Qed.

(** C72. The default structure of a KKT matrix: dense in the rows and columns of the variables and
    diagonal in the block of the multipliers.  Its allocation succeeds for every list of sizes, the
    chosen block permutation has the least fill and its symbolic factorisation succeeds. *)
Theorem C72_default_structure : forall prims duals i j, i < length prims + length duals -> j < length prims + length duals ->
  well (default_structure prims duals) /\ total_dim prims duals = total (sy_lens (default_structure prims duals)) /\
  blk (default_structure prims duals) i j = (if Nat.ltb i (length prims) || Nat.ltb j (length prims) then Dense else if Nat.eqb i j then Diag else Zero).
Proof. exact default_all. Qed.
Print Assumptions C72_default_structure.
Theorem C72_allocation : forall fuel prims duals, let n := length prims + length duals in let s := default_structure prims duals in 0 < n -> n ^ n < fuel ->
  exists b p c, allocate_block fuel prims duals = Ret b /\ is_perm n p /\ permuted s p b /\ sy_llt (bs_struct b) = true /\
    fill s p c /\ forall q, is_perm n q -> exists c', fill s q c' /\ c <= c'.
Proof. exact allocate_fill. Qed.
Print Assumptions C72_allocation.
Example C72_example : exists b, allocate_block 28 [2] [2; 2] = Ret b /\ bs_perm b = [1; 2; 0] /\ bs_idx b = [2; 3; 4; 5; 0; 1].
Proof. eexists. split; [vm_compute; reflexivity|]. split; reflexivity. Qed.
