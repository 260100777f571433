(** Properties C50 to C52, C56, C57, C73 to C75: the dense and the block-sparse LDLT factorisation. *)
From Coq Require Import Reals QArith List Bool Arith Lia Lra Permutation.
From Verif Require Import Scalar Problem_model Symb_model Lin_spec Symb_spec Solver_model Ldlt_model Ldlt_spec Lin_proofs Symb_proofs SymbL_proofs SymbC_proofs SymbP_proofs SymbQ_proofs Ldlt_proofs LdltG_proofs LdltB_proofs LdltS_proofs LdltO_proofs LdltQ_proofs LdltT_proofs LdltX_proofs LdltZ_proofs.
Import ListNotations.
Local Open Scope R_scope.

(** C50. DenseLDLT, any size: if the matrix with the lower triangle of A has a factorisation L D L' whose
    pivots (but the last) are not zero, compute stores L and D, reconstructedMatrix gives A back, and
    solve returns the solution if no pivot is below the threshold. *)
Theorem C50_dense_ldlt : forall d n A L D, factor_of n A L D -> (forall i, (S i < n)%nat -> D i <> 0) ->
  exists d', dldlt_compute (K := RSc) d n A = Ret d' /\ dl_n d' = n /\ stores n (dl_mat d') L D /\ dl_ok d' = Some true /\
    (forall i j, (i < n)%nat -> (j < n)%nat -> dldlt_reconstruct (K := RSc) d' i j = mirror A i j) /\
    ((forall i, (i < n)%nat -> tiny (K := RSc) < Rabs (D i)) -> forall b, solves n A (dldlt_solve (K := RSc) d' b) b).
Proof. exact dense_ldlt. Qed.
Print Assumptions C50_dense_ldlt.
(** A = [4 2; 2 3] = L D L' with L = [1 0; 1/2 1], D = (4, 2); and a matrix of size 200, above the
    recursion threshold: tridiagonal with 1 below the diagonal, L bidiagonal, D = 1. *)
Definition rowsR (l : list (list R)) (i j : nat) : R := nth j (nth i l []) 0.
Definition ex50_A : nat -> nat -> R := rowsR [[4; 2]; [2; 3]].
Definition ex50_L : nat -> nat -> R := rowsR [[1; 0]; [/ 2; 1]].
Definition ex50_D (i : nat) : R := nth i [4; 2] 0.
Definition ex50_L' (i j : nat) : R := if Nat.eqb i j then 1 else if Nat.eqb i (S j) then 1 else 0.
Example C50_example : factor_of 2 ex50_A ex50_L ex50_D /\ (forall i, (i < 2)%nat -> tiny (K := RSc) < Rabs (ex50_D i)) /\
  factor_of 200 (fun i j => ldl 200 ex50_L' (fun _ => 1) i j) ex50_L' (fun _ => 1).
Proof.
  split; [|split].
  - split; [split|].
    + intros [|[|i]] Hi; try lia; reflexivity.
    + intros [|[|i]] [|[|j]] H1 H2; try lia; reflexivity.
    + intros [|[|i]] [|[|j]] H1 H2; try lia; unfold ldl; cbn; lra.
  - intros i Hi. assert (T := tiny_small). destruct i as [|[|i]]; try lia; cbn; rewrite Rabs_right; lra.
  - split; [split|reflexivity].
    + intros i _. unfold ex50_L'. rewrite Nat.eqb_refl. reflexivity.
    + intros i j H1 H2. unfold ex50_L'. destruct (Nat.eqb_spec i j); [lia|]. destruct (Nat.eqb_spec i (S j)); [lia|reflexivity].
Qed.

(** With pivots below the threshold: solve returns the x with L' x = z, where b = L y and z is y / D, but 0
    at each pivot below the threshold. So if these pivots are exactly zero (the matrix is singular) and the
    system has a solution, solve returns a solution. *)
Theorem C50_tiny_pivots : forall d n A L D, factor_of n A L D -> (forall i, (S i < n)%nat -> D i <> 0) ->
  exists d', dldlt_compute (K := RSc) d n A = Ret d' /\
    (forall b, exists y, (forall i, (i < n)%nat -> b i = rsum n (fun t => L i t * y t)) /\
       forall i, (i < n)%nat -> rsum n (fun t => L t i * dldlt_solve (K := RSc) d' b t) = if Rlt_dec (tiny (K := RSc)) (Rabs (D i)) then y i / D i else 0) /\
    ((forall i, (i < n)%nat -> D i = 0 \/ tiny (K := RSc) < Rabs (D i)) -> forall b, (exists x, solves n A x b) -> solves n A (dldlt_solve (K := RSc) d' b) b).
Proof. exact singular_consistent. Qed.
Print Assumptions C50_tiny_pivots.
(** A = [4 2; 2 1] is singular, with D = (4, 0); the system with the right-hand side (6, 3) has a solution. *)
Definition ex50_Z : nat -> nat -> R := rowsR [[4; 2]; [2; 1]].
Definition ex50_ZD (i : nat) : R := nth i [4; 0] 0.
Example C50_tiny_example : factor_of 2 ex50_Z ex50_L ex50_ZD /\ (forall i, (S i < 2)%nat -> ex50_ZD i <> 0) /\
  (forall i, (i < 2)%nat -> ex50_ZD i = 0 \/ tiny (K := RSc) < Rabs (ex50_ZD i)) /\ exists x, solves 2 ex50_Z x (fun i => nth i [6; 3] 0).
Proof.
  split; [|split; [|split]].
  - split; [apply C50_example|]. intros [|[|i]] [|[|j]] H1 H2; try lia; unfold ldl; cbn; lra.
  - intros [|i] Hi; [cbn; lra|lia].
  - assert (T := tiny_small). intros [|[|i]] Hi; try lia; [right|left]; cbn; [rewrite Rabs_right; lra|reflexivity].
  - exists (fun _ => 1). intros [|[|i]] Hi; try lia; cbn; lra.
Qed.

(** C51. compute always reports success, in every arithmetic ... *)
Theorem C51_always_success : forall (K : Sc) (d : dldlt K) n a, exists d', dldlt_compute d n a = Ret d' /\ dl_ok d' = Some true.
Proof. exact always_success. Qed.
Print Assumptions C51_always_success.
(** ... also for the invertible matrix [0 1; 1 0], which has no factorisation without pivoting: the
    "solution" it returns for the right-hand side (1, 0), in rational arithmetic, is wrong. *)
Definition swap_matrix (i j : nat) : R := if Nat.eqb i j then 0 else 1.
Definition swap_matrix_q (i j : nat) : Q := if Nat.eqb i j then 0%Q else 1%Q.
Theorem C51_refuted : exists A : nat -> nat -> R, ~ (exists L D, factor_of 2 A L D) /\
  (forall d, exists d', dldlt_compute (K := RSc) d 2 A = Ret d' /\ dl_ok d' = Some true) /\ exists x, solves 2 A x (fun i => if Nat.eqb i 0 then 1 else 0).
Proof.
  exists swap_matrix. split; [|split].
  - intros (L & D & [U1 U2] & F). pose proof (F 0%nat 0%nat ltac:(lia) ltac:(lia)) as E0. pose proof (F 1%nat 0%nat ltac:(lia) ltac:(lia)) as E1. unfold ldl in *. cbn in *. pose proof (U1 0%nat ltac:(lia)) as X. pose proof (U2 0%nat 1%nat ltac:(lia) ltac:(lia)) as Y. rewrite X, Y in E0, E1. assert (Z : D 0%nat = 0) by lra. rewrite Z in E1. lra.
  - intros d. apply always_success.
  - exists (fun i => if Nat.eqb i 0 then 0 else 1). intros i Hi. destruct i as [|[|i]]; try lia; cbn; lra.
Qed.
Print Assumptions C51_refuted.
Example C51_example : exists d', dldlt_compute (K := QSc) (dldlt_new 2) 2 swap_matrix_q = Ret d' /\ dl_ok d' = Some true /\
  dldlt_solve (K := QSc) d' (fun i => if Nat.eqb i 0 then 1%Q else 0%Q) 1%nat = 0%Q.
Proof. eexists. split; [vm_compute; reflexivity|]. split; vm_compute; reflexivity. Qed.

(** C52. After the first compute of an object sign() describes the pivots. *)
Theorem C52_first_compute : forall d n A L D, factor_of n A L D -> (forall i, (S i < n)%nat -> D i <> 0) -> (n <= 1)%nat \/ dl_sign d = ZeroSign ->
  exists d', dldlt_compute (K := RSc) d n A = Ret d' /\ sign_is n D (dl_sign d').
Proof. exact first_sign. Qed.
Print Assumptions C52_first_compute.
(** After a second one it need not: diag(1, 1), then diag(-1, -1) is called indefinite. *)
Theorem C52_refuted : exists (A1 A2 L : nat -> nat -> R) (D : nat -> R) d1 d2, factor_of 2 A2 L D /\ (forall i, (i < 2)%nat -> D i < 0) /\
  dldlt_compute (K := RSc) (dldlt_new 2) 2 A1 = Ret d1 /\ dldlt_compute (K := RSc) d1 2 A2 = Ret d2 /\ dl_sign d2 = Indef.
Proof.
  destruct (sticky_sign ident (fun i j => if Nat.eqb i j then -1 else 0) ident ident (fun _ => 1) (fun _ => -1)) as (d1 & d2 & E1 & E2 & S).
  - apply ident_factor.
  - apply ident_factor.
  - intros; lra.
  - intros; lra.
  - exists ident, (fun i j => if Nat.eqb i j then -1 else 0), ident, (fun _ => -1), d1, d2. split; [apply ident_factor|]. split; [intros; lra|]. auto.
Qed.
Print Assumptions C52_refuted.
Example C52_example : exists d', dldlt_compute (K := RSc) (dldlt_new 2) 2 ex50_A = Ret d' /\ sign_is 2 ex50_D (dl_sign d').
Proof. apply (C52_first_compute (dldlt_new 2) 2 ex50_A ex50_L ex50_D (proj1 C50_example)); [intros [|i] Hi; [cbn; lra|lia]|right; reflexivity]. Qed.

(** C56. The structured product dst += alpha lhs rhs' for every pair of structures and sizes listed in
    [sizes]; entries of rhs outside of its structure are not read. *)
Theorem C56_structured_product : forall kl kr r m c dst lhs rhs al, fits kl r c lhs -> sizes kl kr r m c ->
  exists d, gemmt (K := RSc) r m c dst lhs rhs kl kr al = Ret d /\
    (forall p q, (p < r)%nat -> (q < m)%nat -> d p q = dst p q + al * rsum c (fun t => lhs p t * mask kr rhs q t)) /\
    (forall p q, ~ ((p < r)%nat /\ (q < m)%nat) -> d p q = dst p q).
Proof. exact gemmt_ok. Qed.
Print Assumptions C56_structured_product.
(** All pairs but two for square blocks. *)
Theorem C56_square : forall kl kr n dst lhs rhs al, ~ (kl = Diag /\ (kr = TriL \/ kr = TriU)) -> fits kl n n lhs -> fits kr n n rhs ->
  exists d, gemmt (K := RSc) n n n dst lhs rhs kl kr al = Ret d /\
    forall p q, (p < n)%nat -> (q < n)%nat -> d p q = dst p q + al * rsum n (fun t => lhs p t * rhs q t).
Proof. exact square_product. Qed.
Print Assumptions C56_square.
(** The other two are undefined (operands of different sizes) for every square size above one. *)
Theorem C56_refuted : forall n dst lhs rhs al, (2 <= n)%nat ->
  gemmt (K := RSc) n n n dst lhs rhs Diag TriL al = UB /\ gemmt (K := RSc) n n n dst lhs rhs Diag TriU al = UB.
Proof. exact diag_tri_undefined. Qed.
Print Assumptions C56_refuted.
Example C56_example : fits TriL 2 3 (fun p q => if Nat.leb q p then 1 else 0) /\ sizes TriL Diag 2 3 3 /\ sizes TriU TriL 4 2 3 /\ ~ sizes Diag TriL 2 2 2.
Proof.
  split; [|cbn; split; [lia|split; [exact I|lia]]]. intros p q Hp Hq X. cbn in X. destruct (Nat.leb_spec q p); [lia|reflexivity].
Qed.

(** C57. For an object whose transposed structure is in step, solveInPlace returns true exactly if all
    diagonal blocks are diagonal or triangular: the or of the two results loses nothing. *)
Theorem C57_reports_failure : forall (b : bldlt RSc) x, let s := bs_struct (bl_sym b) in
  well s -> bl_n b = total (sy_lens s) -> same (bs_tr (bl_sym b)) (sy_n s) (sy_lens s) (fun i j => trans (blk s j i)) ->
  (forall k i, (k < i)%nat -> (i < sy_n s)%nat -> blk s i k = Diag -> nth i (sy_lens s) 0%nat = nth k (sy_lens s) 0%nat) ->
  exists x' ok, bldlt_solve (K := RSc) b x = Ret (x', ok) /\ (ok = true <-> forall i, (i < sy_n s)%nat -> solvable (blk s i i)).
Proof. exact solve_flag. Qed.
Print Assumptions C57_reports_failure.
(** An object never analysed, with a dense diagonal block: false. *)
Example C57_example : exists b, bldlt_new (K := RSc) (fun _ _ => 1) 3 (mkSymb [Diag; Dense; Dense; Dense] [1; 2]%nat 2 2 false) = Ret b /\
  forall x, exists x' , bldlt_solve (K := RSc) b x = Ret (x', false).
Proof.
  exists (mkBldlt (K := RSc) (mkBsym (mkSymb [Diag; Dense; Dense; Dense] [1; 2]%nat 2 2 false) (mkSymb [Diag; Dense; Dense; Dense] [1; 2]%nat 2 2 false) [0; 1; 2]%nat [0; 1]%nat [0; 0]%nat) 3 (fun _ _ => 1) None ZeroSign).
  split; [reflexivity|]. intros x.
  match goal with |- context[bldlt_solve ?b x] => destruct (C57_reports_failure b x) as (x' & ok & E & H) end.
  - repeat split; cbn; lia.
  - reflexivity.
  - split; [repeat split; cbn; lia|]. split; [reflexivity|]. split; [reflexivity|]. cbn [sy_n bs_struct bl_sym]. intros i j Hi Hj. destruct i as [|[|i]], j as [|[|j]]; try lia; reflexivity.
  - cbn [sy_n bs_struct bl_sym]. intros k i Hk Hi. destruct k as [|[|k]], i as [|[|i]]; try lia; discriminate.
  - exists x'. rewrite E. destruct ok; [|reflexivity]. exfalso. destruct (proj1 H eq_refl 1%nat ltac:(cbn; lia)) as [X|[X|X]]; discriminate.
Qed.

(** C73. BlockLDLT: b holds the symbolic factor of the structure of src renumbered by p (after the first
    setBlockPermutation, C48, or findSparsifyingPermutation, C72).  If src has only zero, dense and square
    diagonal blocks, A has its structure and the renumbered A is L D L' with non-zero pivots, then compute
    succeeds and stores L and D, reconstructedMatrix gives A back and solve returns the solution. *)
Theorem C73_block_ldlt : forall src p (b : bldlt RSc) A L D, let N := total (sy_lens src) in
  well src -> is_perm (sy_n src) p -> permuted src p (bl_sym b) -> sy_llt (bs_struct (bl_sym b)) = true ->
  sym_pattern (sy_n src) (blk src) -> simple (sy_n src) (sy_lens src) (blk src) ->
  has_structure (sy_n src) (sy_lens src) (blk src) (mirror A) ->
  factor_of N (renumber (bs_idx (bl_sym b)) A) L D -> (forall i, (i < N)%nat -> D i <> 0) ->
  exists b', bldlt_compute (K := RSc) b N A = Ret b' /\ bl_ok b' = Some true /\ stores N (bl_mat b') L D /\
    (forall i j, (i < N)%nat -> (j < N)%nat -> bldlt_reconstruct (K := RSc) b' i j = mirror A i j) /\
    ((forall i, (i < N)%nat -> tiny (K := RSc) < Rabs (D i)) -> forall x, exists x', bldlt_solve (K := RSc) b' x = Ret (x', true) /\ solves N A x' x).
Proof. exact block_ldlt_factors. Qed.
Print Assumptions C73_block_ldlt.
(** Not for every structure whose symbolic factorisation succeeds: with a lower triangular block below a
    diagonal one the numeric factorisation of the identity reports failure; with an upper triangular
    block above a diagonal one in the same column it multiplies operands of different sizes. *)
Definition tril_structure : symb := mkSymb [Diag; TriL; TriU; Dense] [2; 2]%nat 2 2 false.
Definition triu_structure : symb := mkSymb [Diag; TriU; Diag; TriL; Dense; Dense; Diag; Dense; Dense] [2; 2; 2]%nat 3 3 false.
Definition ident_q (i j : nat) : Q := if Nat.eqb i j then 1%Q else 0%Q.
Theorem C73_refuted :
  (exists b b', bldlt_new (K := QSc) ident_q 4 tril_structure = Ret b /\ on_sym (fun y => set_permutation y None) b = Ret b' /\ sy_llt (bs_struct (bl_sym b')) = true /\
    exists b'', bldlt_compute b' 4 ident_q = Ret b'' /\ bl_ok b'' = Some false) /\
  (exists b b', bldlt_new (K := QSc) ident_q 6 triu_structure = Ret b /\ on_sym (fun y => set_permutation y None) b = Ret b' /\ sy_llt (bs_struct (bl_sym b')) = true /\
    bldlt_compute b' 6 ident_q = UB).
Proof.
  split.
  - eexists _, _. split; [reflexivity|]. split; [vm_compute; reflexivity|]. split; [reflexivity|]. eexists. split; [vm_compute; reflexivity|]. reflexivity.
  - eexists _, _. split; [reflexivity|]. split; [vm_compute; reflexivity|]. split; [reflexivity|]. vm_compute. reflexivity.
Qed.
Print Assumptions C73_refuted.
(** One dense and one diagonal block, in this order swapped by the permutation: [2 1 1; 1 -1 0; 1 0 -1]. *)
Definition ex73_src : symb := mkSymb [Dense; Dense; Dense; Diag] [1; 2]%nat 2 2 false.
Definition ex73_A : nat -> nat -> R := rowsR [[2; 1; 1]; [1; -1; 0]; [1; 0; -1]].
Definition ex73_L : nat -> nat -> R := rowsR [[1; 0; 0]; [0; 1; 0]; [-1; -1; 1]].
Definition ex73_D (i : nat) : R := nth i [-1; -1; 4] 0.
Example C73_example : exists b, on_sym (fun y => set_permutation y (Some [1; 0]%nat)) (mkBldlt (K := RSc) (mkBsym ex73_src (mkSymb [Dense; Dense; Dense; Diag] [1; 2]%nat 2 2 false) [0; 1; 2]%nat [0; 1]%nat [0; 0]%nat) 3 (fun _ _ => 0) None ZeroSign) = Ret b /\
  permuted ex73_src [1; 0]%nat (bl_sym b) /\ sy_llt (bs_struct (bl_sym b)) = true /\ simple 2 [1; 2]%nat (blk ex73_src) /\ has_structure 2 [1; 2]%nat (blk ex73_src) (mirror ex73_A) /\ factor_of 3 (renumber (bs_idx (bl_sym b)) ex73_A) ex73_L ex73_D.
Proof.
  assert (W : well ex73_src) by (repeat split; cbn; lia).
  destruct (C48_object ex73_src [1; 0]%nat W ltac:(cbn; lia) eq_refl (perm_swap 1%nat 0%nat [] : is_perm 2 [1; 0]%nat)) as (y & y' & E & E' & Q & LL).
  injection E as <-. unfold on_sym. cbn [bl_sym].
  assert (E1 : set_permutation (mkBsym ex73_src (mkSymb [Dense; Dense; Dense; Diag] [1; 2]%nat 2 2 false) [0; 1; 2]%nat [0; 1]%nat [0; 0]%nat) (Some [1; 0]%nat) = Ret y') by exact E'.
  rewrite E1. cbn [bind]. eexists. split; [reflexivity|]. cbn [bl_sym]. split; [exact Q|]. split.
  { apply LL. intros i Hi. destruct i as [|[|i]]; cbn in Hi; try lia; [right|left]; reflexivity. }
  split; [split|split].
  - intros i Hi. destruct i as [|[|i]]; try lia; [right|left]; reflexivity.
  - intros i j Hi Hj. destruct i as [|[|i]], j as [|[|j]]; try lia; cbn; auto.
  - intros i j Hi Hj. destruct i as [|[|i]], j as [|[|j]]; try lia; intros p q Hp Hq X; cbn in X; try tauto. cbn in Hp, Hq. destruct p as [|[|p]], q as [|[|q]]; try lia; reflexivity.
  - vm_compute in E1. injection E1 as <-. cbn [bs_idx]. split; [split|].
    + intros i Hi. destruct i as [|[|[|i]]]; try lia; reflexivity.
    + intros i j H1 H2. destruct i as [|[|[|i]]], j as [|[|[|j]]]; try lia; reflexivity.
    + intros i j H1 H2. destruct i as [|[|[|i]]], j as [|[|[|j]]]; try lia; unfold ldl; cbn; lra.
Qed.

(** C74. The factorisation the solver allocates for given numbers of variables and constraints
    factorises every regularised KKT matrix (positive definite in the variables, negative diagonal in the
    multipliers), and the inertia check accepts it at once; likewise for the dense factorisation. *)
Theorem C74_kkt_block : forall fuel junk prims duals, let n := (length prims + length duals)%nat in let np := total prims in let N := total (prims ++ duals) in
  (0 < n)%nat -> (n ^ n < fuel)%nat ->
  exists b, allocate_bldlt (K := RSc) fuel junk prims duals = Ret b /\ forall A, kkt_matrix np N A ->
    exists b', bldlt_compute (K := RSc) b N A = Ret b' /\ bl_ok b' = Some true /\
      check_inertia np (N - np) (d_signature (K := RSc) N (bl_mat b')) = Some INERTIA_OK /\
      (forall i j, (i < N)%nat -> (j < N)%nat -> bldlt_reconstruct (K := RSc) b' i j = mirror A i j) /\
      ((forall i, (i < N)%nat -> tiny (K := RSc) < Rabs (bl_mat b' i i)) -> forall x, exists x', bldlt_solve (K := RSc) b' x = Ret (x', true) /\ solves N A x' x).
Proof. exact kkt_block. Qed.
Print Assumptions C74_kkt_block.
Theorem C74_kkt_dense : forall d np N A, (np <= N)%nat -> kkt_matrix np N A ->
  exists d', dldlt_compute (K := RSc) d N A = Ret d' /\ dl_ok d' = Some true /\
    check_inertia np (N - np) (d_signature (K := RSc) N (dl_mat d')) = Some INERTIA_OK /\
    (forall i j, (i < N)%nat -> (j < N)%nat -> dldlt_reconstruct (K := RSc) d' i j = mirror A i j) /\
    ((forall i, (i < N)%nat -> tiny (K := RSc) < Rabs (dl_mat d' i i)) -> forall b, solves N A (dldlt_solve (K := RSc) d' b) b).
Proof. exact kkt_dense. Qed.
Print Assumptions C74_kkt_dense.
Example C74_example : kkt_matrix 1 3 ex73_A /\ exists b, allocate_bldlt (K := RSc) 5 (fun _ _ => 0) [1]%nat [2]%nat = Ret b.
Proof.
  split; [split; [|split]|].
  - intros x [i [Hi Hx]]. replace i with 0%nat in Hx by lia. unfold form. cbn. assert (0 < x 0%nat * x 0%nat) by (apply Rlt_0_sqr; exact Hx). lra.
  - intros i H1 H2. destruct i as [|[|[|i]]]; try lia; cbn; lra.
  - intros i j H1 H2 H3. destruct i as [|[|[|i]]], j as [|[|[|j]]]; try lia; reflexivity.
  - destruct (C74_kkt_block 5 (fun _ _ => 0) [1]%nat [2]%nat ltac:(cbn; lia) ltac:(cbn; lia)) as (b & E & _). exists b. exact E.
Qed.

(** C75. Under the hypotheses of C73, if every block has at least two rows, sign() of a fresh object
    describes the pivots. *)
Theorem C75_block_sign : forall src p (b : bldlt RSc) A L D, let N := total (sy_lens src) in
  well src -> is_perm (sy_n src) p -> permuted src p (bl_sym b) -> sy_llt (bs_struct (bl_sym b)) = true ->
  sym_pattern (sy_n src) (blk src) -> simple (sy_n src) (sy_lens src) (blk src) ->
  has_structure (sy_n src) (sy_lens src) (blk src) (mirror A) ->
  factor_of N (renumber (bs_idx (bl_sym b)) A) L D -> (forall i, (i < N)%nat -> D i <> 0) ->
  (forall l, In l (sy_lens src) -> (2 <= l)%nat) -> bl_sign b = ZeroSign ->
  exists b', bldlt_compute (K := RSc) b N A = Ret b' /\ sign_is N D (bl_sign b').
Proof. exact block_sign. Qed.
Print Assumptions C75_block_sign.
(** With blocks of one row it need not: diag(1, -1) with diagonal blocks of one row is called positive
    semidefinite (the last row is never looked at), and so is diag(-1, -1, 1, 1, 1) with dense blocks of
    sizes 2, 1, 2 (the block of one row overwrites the sign found before). *)
Definition diag_q (l : list Q) (i j : nat) : Q := if Nat.eqb i j then nth i l 0%Q else 0%Q.
Definition sign_of (k : kind) (lens : list nat) (l : list Q) : option sign :=
  let n := length lens in let N := length l in
  let s := mkSymb (map (fun i => if Nat.eqb (Nat.modulo i (n + 1)) 0 then k else Zero) (seq 0 (n * n))) lens n n false in
  match (do b <- bldlt_new (K := QSc) ident_q N s; do b' <- on_sym (fun y => set_permutation y None) b; bldlt_compute b' N (diag_q l))%out with
  | Ret b => Some (bl_sign b) | _ => None end.
Theorem C75_refuted : sign_of Diag [1; 1]%nat [1; -1]%Q = Some PosSemi /\ sign_of Dense [2; 1; 2]%nat [-1; -1; 1; 1; 1]%Q = Some PosSemi.
Proof. split; vm_compute; reflexivity. Qed.
Print Assumptions C75_refuted.
Example C75_example : sign_of Dense [2; 2]%nat [1; 1; -1; -1]%Q = Some Indef /\ sign_of Diag [2; 2]%nat [1; 1; 0; 2]%Q = Some PosSemi.
Proof. split; vm_compute; reflexivity. Qed.
