From Coq Require Import Reals List Bool Arith Lia Lra Permutation.
From Verif Require Import Scalar Problem_model Symb_model Lin_spec Lin_proofs Symb_spec Symb_proofs SymbL_proofs SymbC_proofs SymbP_proofs SymbQ_proofs Solver_model Ldlt_model Ldlt_spec Ldlt_proofs LdltG_proofs LdltB_proofs LdltS_proofs LdltO_proofs.
Import ListNotations.
Local Open Scope R_scope.

(** ** Quasi-definite matrices have factorisations *)
Lemma form_head n A x : msym (S n) A -> form (S n) A x = x 0%nat * x 0%nat * A 0%nat 0%nat + 2 * x 0%nat * rsum n (fun j => A 0%nat (S j) * x (S j)) + form n (fun i j => A (S i) (S j)) (fun i => x (S i)).
Proof.
  intros SY. unfold form. rewrite rsum_head. rewrite (rsum_head n (fun j => x 0%nat * A 0%nat j * x j)).
  rewrite (rsum_ext n (fun i => rsum (S n) (fun j => x (S i) * A (S i) j * x j)) (fun i => x 0%nat * (A 0%nat (S i) * x (S i)) + rsum n (fun j => x (S i) * A (S i) (S j) * x (S j)))).
  - rewrite rsum_plus, rsum_scale. rewrite (rsum_ext n (fun i => x 0%nat * A 0%nat (S i) * x (S i)) (fun j => x 0%nat * (A 0%nat (S j) * x (S j)))) by (intros; ring). rewrite rsum_scale. ring.
  - intros i Hi. rewrite rsum_head. rewrite (SY (S i) 0%nat) by lia. ring.
Qed.
Lemma form_schur n (A : nat -> nat -> R) (a : nat -> R) d x : form n (fun i j => A i j - a i * a j / d) x = form n A x - rsum n (fun j => a j * x j) * rsum n (fun j => a j * x j) / d.
Proof.
  unfold form. set (g := rsum n (fun j => a j * x j)).
  rewrite (rsum_ext n (fun i => rsum n (fun j => x i * (A i j - a i * a j / d) * x j)) (fun i => rsum n (fun j => x i * A i j * x j) - (a i * x i) * (g / d))).
  - rewrite rsum_minus, rsum_scale_r. fold g. unfold Rdiv. ring.
  - intros i Hi. rewrite (rsum_ext n (fun j => x i * (A i j - a i * a j / d) * x j) (fun j => x i * A i j * x j - (a i * x i / d) * (a j * x j))) by (intros; unfold Rdiv; ring). rewrite rsum_minus, rsum_scale. fold g. unfold Rdiv. ring.
Qed.
Definition cons0 (x0 : R) (x : nat -> R) (i : nat) : R := match i with O => x0 | S k => x k end.
Lemma qd_first n A pos : quasi_definite (S n) A pos -> (pos 0%nat = true -> 0 < A 0%nat 0%nat) /\ (pos 0%nat = false -> A 0%nat 0%nat < 0).
Proof.
  intros (SY & HP & HN). set (e := cons0 1 (fun _ => 0)). assert (E : form (S n) A e = A 0%nat 0%nat).
  { rewrite form_head by exact SY. unfold form, e. cbn [cons0]. rewrite !rsum_zero; [ring| |]; intros; [apply rsum_zero; intros|]; ring. }
  split; intros H; rewrite <- E; [apply HP|apply HN]; try (intros [|i] Hi Q; [congruence|reflexivity]); exists 0%nat; (split; [lia|cbn; lra]).
Qed.
Lemma qd_next n A pos : quasi_definite (S n) A pos -> quasi_definite n (fun i j => A (S i) (S j) - A 0%nat (S i) * A 0%nat (S j) / A 0%nat 0%nat) (fun i => pos (S i)).
Proof.
  intros Q. destruct (qd_first n A pos Q) as [D1 D2]. destruct Q as (SY & HP & HN). split; [|split].
  - intros i j Hi Hj. rewrite (SY (S i) (S j)) by lia. unfold Rdiv. ring.
  - intros x Z [k [Hk X]]. rewrite (form_schur n (fun i j => A (S i) (S j)) (fun i => A 0%nat (S i))). set (g := rsum n (fun j => A 0%nat (S j) * x j)).
    destruct (pos 0%nat) eqn:E.
    + specialize (D1 eq_refl). pose proof (HP (cons0 (- g / A 0%nat 0%nat) x)) as H. rewrite form_head in H by exact SY. cbn [cons0] in H. fold g in H. change (fun i => x i) with x in H.
      replace (form n (fun i j => A (S i) (S j)) x - g * g / A 0%nat 0%nat) with (- g / A 0%nat 0%nat * (- g / A 0%nat 0%nat) * A 0%nat 0%nat + 2 * (- g / A 0%nat 0%nat) * g + form n (fun i j => A (S i) (S j)) x) by (field; lra).
      apply H; [intros [|i] Hi P; [congruence|apply Z; [lia|exact P]]|exists (S k); split; [lia|exact X]].
    + specialize (D2 eq_refl). pose proof (HP (cons0 0 x)) as H. rewrite form_head in H by exact SY. cbn [cons0] in H. fold g in H. change (fun i => x i) with x in H.
      assert (0 < form n (fun i j => A (S i) (S j)) x). { apply Rlt_le_trans with (1 := H ltac:(intros [|i] Hi P; [reflexivity|apply Z; [lia|exact P]]) ltac:(exists (S k); split; [lia|exact X])). lra. }
      assert (0 <= g * g * (- / A 0%nat 0%nat)). { apply Rmult_le_pos; [apply Rle_0_sqr|]. apply Rlt_le. rewrite <- Ropp_0. apply Ropp_lt_contravar, Rinv_lt_0_compat, D2. } unfold Rdiv. lra.
  - intros x Z [k [Hk X]]. rewrite (form_schur n (fun i j => A (S i) (S j)) (fun i => A 0%nat (S i))). set (g := rsum n (fun j => A 0%nat (S j) * x j)).
    destruct (pos 0%nat) eqn:E.
    + specialize (D1 eq_refl). pose proof (HN (cons0 0 x)) as H. rewrite form_head in H by exact SY. cbn [cons0] in H. fold g in H. change (fun i => x i) with x in H.
      assert (form n (fun i j => A (S i) (S j)) x < 0). { apply Rle_lt_trans with (2 := H ltac:(intros [|i] Hi P; [reflexivity|apply Z; [lia|exact P]]) ltac:(exists (S k); split; [lia|exact X])). lra. }
      assert (0 <= g * g * (/ A 0%nat 0%nat)). { apply Rmult_le_pos; [apply Rle_0_sqr|]. apply Rlt_le, Rinv_0_lt_compat, D1. } unfold Rdiv. lra.
    + specialize (D2 eq_refl). pose proof (HN (cons0 (- g / A 0%nat 0%nat) x)) as H. rewrite form_head in H by exact SY. cbn [cons0] in H. fold g in H. change (fun i => x i) with x in H.
      replace (form n (fun i j => A (S i) (S j)) x - g * g / A 0%nat 0%nat) with (- g / A 0%nat 0%nat * (- g / A 0%nat 0%nat) * A 0%nat 0%nat + 2 * (- g / A 0%nat 0%nat) * g + form n (fun i j => A (S i) (S j)) x) by (field; lra).
      apply H; [intros [|i] Hi P; [congruence|apply Z; [lia|exact P]]|exists (S k); split; [lia|exact X]].
Qed.
Lemma qd_factor : forall n A pos, quasi_definite n A pos -> exists L D, factor_of n A L D /\ forall i, (i < n)%nat -> if pos i then 0 < D i else D i < 0.
Proof.
  induction n as [|n IH]; intros A pos Q.
  - exists (fun _ _ => 0), (fun _ => 0). split; [split; [split|]|]; intros; lia.
  - destruct (qd_first n A pos Q) as [D1 D2]. destruct (IH _ _ (qd_next n A pos Q)) as (L & D & [[U1 U2] F] & S). destruct Q as (SY & _).
    assert (NZ : A 0%nat 0%nat <> 0) by (destruct (pos 0%nat); [specialize (D1 eq_refl)|specialize (D2 eq_refl)]; lra).
    exists (fun i j => match i, j with O, O => 1 | O, _ => 0 | Datatypes.S i', O => A i 0%nat / A 0%nat 0%nat | Datatypes.S i', Datatypes.S j' => L i' j' end), (cons0 (A 0%nat 0%nat) D). split; [split; [split|]|].
    + intros [|i] Hi; [reflexivity|apply U1; lia].
    + intros [|i] [|j] Hij Hj; try lia; [reflexivity|apply U2; lia].
    + intros i j Hji Hi. unfold ldl. rewrite rsum_head. destruct i as [|i], j as [|j]; try lia.
      * rewrite rsum_zero by (intros; ring). cbn [cons0]. ring.
      * rewrite rsum_zero by (intros; ring). cbn [cons0]. field. exact NZ.
      * cbn [cons0]. specialize (F i j ltac:(lia) ltac:(lia)). unfold ldl in F. rewrite <- F. rewrite (SY (Datatypes.S i) 0%nat), (SY (Datatypes.S j) 0%nat) by lia. field. exact NZ.
    + intros [|i] Hi; cbn [cons0]; [destruct (pos 0%nat); auto|apply S; lia].
Qed.
(** ** Renumbering *)
Lemma form_renumber N idx A x : Permutation (seq 0 N) idx -> form N (renumber idx A) x = form N (mirror A) (perm_fwd (K := RSc) N idx x).
Proof.
  intros P. unfold form. rewrite <- (rsum_perm N idx (fun i => rsum N (fun j => perm_fwd (K := RSc) N idx x i * mirror A i j * perm_fwd (K := RSc) N idx x j)) P).
  apply rsum_ext. intros i Hi. rewrite <- (rsum_perm N idx (fun j => perm_fwd (K := RSc) N idx x (nth i idx 0%nat) * mirror A (nth i idx 0%nat) j * perm_fwd (K := RSc) N idx x j) P).
  apply rsum_ext. intros j Hj. rewrite !perm_fwd_ok by assumption. reflexivity.
Qed.
Lemma mirror_sym n A : msym n (mirror A).
Proof. intros i j Hi Hj. unfold mirror. bd; try reflexivity. replace j with i by lia. reflexivity. Qed.
Lemma qd_renumber N idx A pos : Permutation (seq 0 N) idx -> quasi_definite N (mirror A) pos -> quasi_definite N (renumber idx A) (fun i => pos (nth i idx 0%nat)).
Proof.
  intros P (SY & HP & HN). split; [|split].
  - intros i j Hi Hj. unfold renumber, mirror. bd; try reflexivity. replace (nth j idx 0%nat) with (nth i idx 0%nat) by lia. reflexivity.
  - intros x Z [k [Hk X]]. rewrite form_renumber by exact P. apply HP.
    + intros r Hr Q. destruct (idx_onto N idx r P Hr) as (i & Hi & <-). rewrite perm_fwd_ok by assumption. apply Z; assumption.
    + exists (nth k idx 0%nat). split; [apply (perm_in N idx k P Hk)|]. rewrite perm_fwd_ok by assumption. exact X.
  - intros x Z [k [Hk X]]. rewrite form_renumber by exact P. apply HN.
    + intros r Hr Q. destruct (idx_onto N idx r P Hr) as (i & Hi & <-). rewrite perm_fwd_ok by assumption. apply Z; assumption.
    + exists (nth k idx 0%nat). split; [apply (perm_in N idx k P Hk)|]. rewrite perm_fwd_ok by assumption. exact X.
Qed.
(** ** Regularised KKT matrices *)
Lemma kkt_qd np N A : (np <= N)%nat -> kkt_matrix np N A -> quasi_definite N (mirror A) (fun i => Nat.ltb i np).
Proof.
  intros Hn (H1 & H2 & H3). split; [apply mirror_sym|split].
  - intros x Z [k [Hk X]]. replace (form N (mirror A) x) with (form np (mirror A) x).
    + apply H1. exists k. split; [|exact X]. destruct (Nat.ltb_spec k np) as [Q|Q]; [exact Q|]. exfalso. apply X, Z; [exact Hk|]. apply Nat.ltb_ge. exact Q.
    + unfold form. symmetry. assert (Z' : forall i, (np <= i)%nat -> (i < N)%nat -> x i = 0) by (intros i Hi HN; apply Z; [exact HN|apply Nat.ltb_ge; exact Hi]).
      rewrite (rsum_cut N np) by (try exact Hn; intros i Hi HN; apply rsum_zero; intros j Hj; rewrite (Z' i) by assumption; ring). apply rsum_ext. intros i Hi.
      apply rsum_cut; [exact Hn|]. intros j Hj HN. rewrite (Z' j) by assumption. ring.
  - intros x Z [k [Hk X]]. assert (Z' : forall i, (i < np)%nat -> x i = 0) by (intros i Hi; apply Z; [lia|apply Nat.ltb_lt; exact Hi]).
    assert (Kp : (np <= k)%nat) by (destruct (Nat.le_gt_cases np k); [assumption|exfalso; apply X, Z'; assumption]).
    unfold form. rewrite (rsum_ext N _ (fun i => - (if Nat.ltb i np then 0 else - A i i * (x i * x i)))).
    + rewrite (rsum_ext N _ (fun i => -1 * (if Nat.ltb i np then 0 else - A i i * (x i * x i)))) by (intros; ring). rewrite rsum_scale.
      assert (G : forall m, (m <= N)%nat -> 0 <= rsum m (fun i => if Nat.ltb i np then 0 else - A i i * (x i * x i)) /\ ((k < m)%nat -> 0 < rsum m (fun i => if Nat.ltb i np then 0 else - A i i * (x i * x i)))).
      { induction m as [|m IH]; intros Hm; cbn [rsum]; [split; [lra|lia]|]. destruct (IH ltac:(lia)) as [I1 I2].
        assert (T : 0 <= (if Nat.ltb m np then 0 else - A m m * (x m * x m))). { destruct (Nat.ltb_spec m np); [lra|]. apply Rmult_le_pos; [specialize (H2 m ltac:(lia) ltac:(lia)); lra|apply Rle_0_sqr]. }
        split; [lra|]. intros HK. destruct (Nat.eq_dec k m) as [<-|]; [|specialize (I2 ltac:(lia)); lra].
        enough (0 < (if Nat.ltb k np then 0 else - A k k * (x k * x k))) by lra. destruct (Nat.ltb_spec k np); [lia|]. apply Rmult_lt_0_compat; [specialize (H2 k Kp Hk); lra|]. apply Rlt_0_sqr. exact X. }
      destruct (G N (le_n N)) as [_ G']. specialize (G' Hk). lra.
    + intros i Hi. destruct (Nat.ltb_spec i np) as [Q|Q].
      * rewrite rsum_zero; [ring|]. intros j Hj. rewrite Z' by assumption. ring.
      * rewrite (rsum_one N _ i Hi); [unfold mirror; rewrite Nat.leb_refl; ring|]. intros j Hj Nij. destruct (Nat.lt_ge_cases j np) as [R|R]; [rewrite (Z' j R); ring|].
        unfold mirror. destruct (Nat.leb_spec j i); rewrite H3 by lia; ring.
Qed.
Lemma start_app l m i : (length l <= i)%nat -> (total l <= start (l ++ m) i)%nat.
Proof. unfold total. revert i. induction l as [|x l IH]; intros i H; cbn [length start app]; [cbn; lia|]. destruct i as [|i]; cbn [length] in H; [lia|]. cbn [start]. specialize (IH i ltac:(lia)). lia. Qed.
Lemma kkt_structure prims duals A : kkt_matrix (total prims) (total (prims ++ duals)) A ->
  has_structure (length prims + length duals) (prims ++ duals) (blk (default_structure prims duals)) (mirror A).
Proof.
  intros (_ & _ & H3) i j Hi Hj p q Hp Hq X. cbv beta. rewrite default_blk in X by assumption.
  destruct (Nat.ltb_spec i (length prims)); [cbn in X; exfalso; apply X; exact I|]. destruct (Nat.ltb_spec j (length prims)); [cbn in X; exfalso; apply X; exact I|]. cbn [orb] in X.
  pose proof (start_app prims duals i ltac:(assumption)). pose proof (start_app prims duals j ltac:(assumption)).
  pose proof (block_in (prims ++ duals) i p ltac:(rewrite app_length; lia) Hp). pose proof (block_in (prims ++ duals) j q ltac:(rewrite app_length; lia) Hq).
  assert (NE : (start (prims ++ duals) i + p <> start (prims ++ duals) j + q)%nat).
  { intros E. destruct (Nat.eqb_spec i j) as [->|N]; [cbn in X; apply X; lia|]. 
    destruct (Nat.lt_ge_cases i j).
    - pose proof (start_next (prims ++ duals) i j ltac:(lia) ltac:(rewrite app_length; lia)). lia.
    - pose proof (start_next (prims ++ duals) j i ltac:(lia) ltac:(rewrite app_length; lia)). lia. }
  unfold mirror. destruct (Nat.leb_spec (start (prims ++ duals) j + q) (start (prims ++ duals) i + p)); apply H3; lia.
Qed.
(** ** The inertia check *)
Lemma tuple_loop l : forall a b c, (forall z, In z l -> z = 1%Z \/ z = (-1)%Z) ->
  inertia_tuple_loop l a b c = Some (a + count_occ Z.eq_dec l 1%Z, b + count_occ Z.eq_dec l (-1)%Z, c)%nat.
Proof.
  induction l as [|z l IH]; intros a b c H; cbn [inertia_tuple_loop count_occ]; [rewrite !Nat.add_0_r; reflexivity|].
  assert (H' : forall z, In z l -> z = 1%Z \/ z = (-1)%Z) by (intros; apply H; right; assumption).
  destruct (H z (or_introl eq_refl)) as [-> | ->]; cbn; rewrite IH by exact H'; f_equal; f_equal; f_equal; lia.
Qed.
Lemma count_seq np : forall n a, count_occ Z.eq_dec (map (fun r => if Nat.ltb r np then 1%Z else (-1)%Z) (seq a n)) 1%Z = (Nat.min (a + n) np - a)%nat /\
  count_occ Z.eq_dec (map (fun r => if Nat.ltb r np then 1%Z else (-1)%Z) (seq a n)) (-1)%Z = (n - (Nat.min (a + n) np - a))%nat.
Proof.
  induction n as [|n IH]; intros a; cbn [seq map count_occ]; [lia|]. destruct (IH (S a)) as [I1 I2]. destruct (Nat.ltb_spec a np).
  - destruct (Z.eq_dec 1 1); [|lia]. destruct (Z.eq_dec 1 (-1)); [lia|]. rewrite I1, I2. lia.
  - destruct (Z.eq_dec (-1) 1); [lia|]. destruct (Z.eq_dec (-1) (-1)); [|lia]. rewrite I1, I2. lia.
Qed.
Lemma inertia_by_index N np idx a : (np <= N)%nat -> Permutation (seq 0 N) idx -> (forall i, (i < N)%nat -> if Nat.ltb (nth i idx 0%nat) np then 0 < a i i else a i i < 0) ->
  check_inertia np (N - np) (d_signature (K := RSc) N a) = Some INERTIA_OK.
Proof.
  intros Hn P H.
  assert (LN : length idx = N) by (rewrite <- (Permutation_length P), seq_length; reflexivity).
  assert (E : d_signature (K := RSc) N a = map (fun r => if Nat.ltb r np then 1%Z else (-1)%Z) idx).
  { unfold d_signature. rewrite (map_seq_nth idx), LN. apply map_ext_in. intros i Hi. apply in_seq in Hi. specialize (H i ltac:(lia)). cbn [sltb s0 RSc].
    destruct (Nat.ltb (nth i idx 0%nat) np); [rewrite (proj2 (Rltb_true _ _) H); reflexivity|]. rewrite (proj2 (Rltb_false _ _)) by lra. rewrite (proj2 (Rltb_true _ _) H). reflexivity. }
  assert (PM : Permutation (map (fun r => if Nat.ltb r np then 1%Z else (-1)%Z) (seq 0 N)) (map (fun r => if Nat.ltb r np then 1%Z else (-1)%Z) idx)) by (apply Permutation_map; exact P).
  unfold check_inertia, inertia_tuple. rewrite E, tuple_loop.
  - rewrite <- !(proj1 (Permutation_count_occ Z.eq_dec _ _) PM). destruct (count_seq np N 0) as [-> ->]. cbn [Nat.add]. replace (Nat.min N np - 0)%nat with np by lia. rewrite !Nat.eqb_refl. reflexivity.
  - intros z Hz. apply in_map_iff in Hz. destruct Hz as (r & <- & _). destruct (Nat.ltb r np); auto.
Qed.
Lemma default_sym prims duals : sym_pattern (length prims + length duals) (blk (default_structure prims duals)).
Proof. intros i j Hi Hj p q. rewrite !default_blk by assumption. rewrite (Nat.eqb_sym j i), (orb_comm (Nat.ltb j _)). destruct (_ || _)%bool; [cbn; tauto|]. destruct (Nat.eqb i j); cbn; [split; auto|tauto]. Qed.
Lemma default_simple prims duals : simple (length prims + length duals) (prims ++ duals) (blk (default_structure prims duals)).
Proof.
  split.
  - intros k Hk. rewrite default_blk by assumption. rewrite Nat.eqb_refl. unfold pivot. destruct (_ || _)%bool; auto.
  - intros i j Hi Hj. rewrite default_blk by assumption. destruct (_ || _)%bool; [auto|]. destruct (Nat.eqb_spec i j) as [->|]; auto.
Qed.
Lemma total_app_le l m : (total l <= total (l ++ m))%nat.
Proof. unfold total at 2. apply start_app. rewrite app_length. lia. Qed.
Lemma kkt_block fuel junk prims duals : let n := (length prims + length duals)%nat in let np := total prims in let N := total (prims ++ duals) in
  (0 < n)%nat -> (n ^ n < fuel)%nat ->
  exists b, allocate_bldlt (K := RSc) fuel junk prims duals = Ret b /\ forall A, kkt_matrix np N A ->
    exists b', bldlt_compute (K := RSc) b N A = Ret b' /\ bl_ok b' = Some true /\
      check_inertia np (N - np) (d_signature (K := RSc) N (bl_mat b')) = Some INERTIA_OK /\
      (forall i j, (i < N)%nat -> (j < N)%nat -> bldlt_reconstruct (K := RSc) b' i j = mirror A i j) /\
      ((forall i, (i < N)%nat -> tiny (K := RSc) < Rabs (bl_mat b' i i)) -> forall x, exists x', bldlt_solve (K := RSc) b' x = Ret (x', true) /\ solves N A x' x).
Proof.
  intros n np N Hn Fu. destruct (allocate_ok fuel prims duals Hn Fu) as (y & p & E & P & Q & F & _).
  unfold allocate_block in E. unfold allocate_bldlt, bldlt_new. destruct (bsym_new (total_dim prims duals) (default_structure prims duals)) as [s0| | |] eqn:E0; try discriminate. cbn [bind] in *. unfold on_sym. cbn [bl_sym]. rewrite E. cbn [bind]. eexists. split; [reflexivity|]. cbn [bl_n bl_mat bl_ok bl_sign].
  intros A HA. set (b := mkBldlt _ _ _ _ _).
  assert (PI : Permutation (seq 0 N) (bs_idx y)) by apply Q.
  assert (QD : quasi_definite N (renumber (bs_idx y) A) (fun i => Nat.ltb (nth i (bs_idx y) 0%nat) np)). { apply (qd_renumber N (bs_idx y) A (fun i => Nat.ltb i np) PI). apply kkt_qd; [apply total_app_le|exact HA]. }
  destruct (qd_factor N _ _ QD) as (L & D & FA & SD).
  destruct (block_ldlt_ok (default_structure prims duals) p b A L D) as (b' & C1 & C2 & C3 & C4 & C5 & _); try assumption.
  - apply default_well.
  - apply default_sym.
  - apply default_simple.
  - apply kkt_structure. exact HA.
  - intros i Hi. specialize (SD i Hi). cbv beta in SD. destruct (Nat.ltb _ np); lra.
  - destruct C3 as [C3 C3']. exists b'. split; [exact C1|]. split; [exact C2|]. split; [|split; [exact C4|]].
    + apply (inertia_by_index N np (bs_idx y)); [apply total_app_le|exact PI|]. intros i Hi. rewrite C3' by exact Hi. apply SD. exact Hi.
    + intros T. apply C5. intros i Hi. rewrite <- (C3' i Hi). apply T. exact Hi.
Qed.
Lemma kkt_dense d np N A : (np <= N)%nat -> kkt_matrix np N A ->
  exists d', dldlt_compute (K := RSc) d N A = Ret d' /\ dl_ok d' = Some true /\
    check_inertia np (N - np) (d_signature (K := RSc) N (dl_mat d')) = Some INERTIA_OK /\
    (forall i j, (i < N)%nat -> (j < N)%nat -> dldlt_reconstruct (K := RSc) d' i j = mirror A i j) /\
    ((forall i, (i < N)%nat -> tiny (K := RSc) < Rabs (dl_mat d' i i)) -> forall b, solves N A (dldlt_solve (K := RSc) d' b) b).
Proof.
  intros Hn HA. destruct (qd_factor N _ _ (kkt_qd np N A Hn HA)) as (L & D & FA & SD).
  assert (FA' : factor_of N A L D). { destruct FA as [U F]. split; [exact U|]. intros i j Hj Hi. rewrite <- F by assumption. unfold mirror. bd. reflexivity. }
  destruct (compute_ok d N A L D FA') as (d' & C1 & C2 & [C3 C3'] & C4 & C5 & C6 & _).
  - intros i Hi. specialize (SD i ltac:(lia)). cbv beta in SD. destruct (Nat.ltb i np); lra.
  - exists d'. split; [exact C1|]. split; [exact C4|]. split; [|split; [exact C5|]].
    + apply (inertia_by_index N np (seq 0 N)); [exact Hn|reflexivity|]. intros i Hi. rewrite seq_nth by exact Hi. rewrite C3' by exact Hi. apply SD. exact Hi.
    + intros T. apply C6. intros i Hi. rewrite <- (C3' i Hi). apply T. exact Hi.
Qed.
