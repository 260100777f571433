(** Properties C53-C55, C76-C80: the Bunch-Kaufman factorisation and the meaning of the inertia check. *)
From Coq Require Import Reals ZArith List Bool Arith Lia Lra.
From Verif Require Import Scalar Problem_model Cset_model Solver_model Solver_spec Lin_spec Ldlt_model Ldlt_spec Bk_model Bk_spec BkV_proofs BkI_proofs Inertia_proofs BkG_proofs BkX_proofs.
Import ListNotations.
Local Open Scope R_scope.

(** C53. When compute() succeeds, solve returns the solution, for every size (unblocked and blocked). *)
Theorem C53_solve : forall n A s b, bk_compute (K := RSc) n A = Ret s -> bk_ok s = true ->
  exists x, bk_solve s b = Ret x /\ solves n A x b.
Proof. exact bk_solve_ok. Qed.
Print Assumptions C53_solve.
(** An indefinite matrix with a zero diagonal, which no factorisation without pivots of two rows handles. *)
Example C53_example : exists s, bk_compute (K := RSc) 2 (offdiag 3) = Ret s /\ bk_ok s = true /\ exists x, bk_solve s (fun _ => 6) = Ret x /\ x 0%nat = 2 /\ x 1%nat = 2.
Proof.
  destruct (offdiag_compute 3 ltac:(lra)) as (s & E & Ok & _). exists s. split; [exact E|]. split; [exact Ok|]. destruct (C53_solve 2 _ s (fun _ => 6) E Ok) as (x & Ex & Sx). exists x. split; [exact Ex|].
  pose proof (Sx 0%nat ltac:(lia)) as H0. pose proof (Sx 1%nat ltac:(lia)) as H1. unfold mvec, mirror, offdiag in H0, H1. cbn in H0, H1. lra.
Qed.

(** C76. compute() always returns, and succeeds exactly on the nonsingular matrices. *)
Theorem C76_success_iff_nonsingular : forall n A, exists s, bk_compute (K := RSc) n A = Ret s /\ bk_n s = n /\ (bk_ok s = true <-> nonsingular n A).
Proof. exact bk_success_iff. Qed.
Print Assumptions C76_success_iff_nonsingular.
Example C76_example : nonsingular 2 (offdiag 3) /\ ~ nonsingular 2 (fun _ _ => 1).
Proof.
  split.
  - intros x Hx i Hi. pose proof (Hx 0%nat ltac:(lia)) as H0. pose proof (Hx 1%nat ltac:(lia)) as H1. unfold mvec, mirror, offdiag in H0, H1. cbn in H0, H1. destruct i as [|[|]]; [lra|lra|lia].
  - intros H. pose (v := fun i : nat => match i with O => 1 | _ => -1 end). assert (X : v 0%nat = 0); [|cbn in X; lra]. apply (H v); [|lia]. intros i Hi. destruct i as [|[|]]; [| |lia]; unfold mvec, mirror; cbn; lra.
Qed.

(** C54. After a successful compute() the signature, unless it contains a zero, is the inertia of A: A = T diag(signature) T'
    with T invertible. *)
Theorem C54_signature : forall n A s, bk_compute (K := RSc) n A = Ret s -> bk_ok s = true ->
  exists sig, bk_signature s = Ret sig /\ length sig = n /\ (~ In 0%Z sig -> congruent n A sig).
Proof. exact bk_signature_ok. Qed.
Print Assumptions C54_signature.
(** It can contain zeros for a perfectly conditioned matrix: the determinant of the inverse of a pivot of
    two rows is compared with machine epsilon, whatever the scale. *)
Theorem C54_refuted : exists A s, bk_compute (K := RSc) 2 A = Ret s /\ bk_ok s = true /\ nonsingular 2 A /\
  exists sig, bk_signature s = Ret sig /\ ~ congruent 2 A sig /\ forall np nn, check_inertia np nn sig = Some INERTIA_HAS_ZEROS.
Proof.
  destruct (offdiag_compute (10 ^ 8) ltac:(lra)) as (s & E & Ok & Sg). exists (offdiag (10 ^ 8)), s. split; [exact E|]. split; [exact Ok|]. split.
  { destruct (bk_success_iff 2 (offdiag (10 ^ 8))) as (s' & E' & _ & I). rewrite E in E'. injection E' as <-. apply I, Ok. }
  exists [0; 0]%Z. split; [|split].
  - rewrite Sg. destruct (Rle_dec _ _) as [_|N]; [reflexivity|]. exfalso. apply N. apply Rinv_le_contravar; lra.
  - intros (_ & _ & T & _ & H). specialize (H 1%nat 0%nat ltac:(lia) ltac:(lia)). unfold mirror, offdiag in H. cbn in H. lra.
  - intros np nn. unfold check_inertia. cbn. rewrite !andb_false_r. reflexivity.
Qed.
Print Assumptions C54_refuted.
Example C54_example : exists s, bk_compute (K := RSc) 2 (offdiag 3) = Ret s /\ bk_ok s = true /\ bk_signature s = Ret [-1; 1]%Z.
Proof.
  destruct (offdiag_compute 3 ltac:(lra)) as (s & E & Ok & Sg). exists s. split; [exact E|]. split; [exact Ok|]. rewrite Sg. destruct (Rle_dec _ _) as [N|_]; [|reflexivity].
  exfalso. assert (/ 2 ^ 52 < / (3 * 3)); [|lra]. apply Rinv_lt_contravar; lra.
Qed.

(** C55. For at most 32 rows a failed factorisation has a zero in its signature, which the inertia check rejects. *)
Theorem C55_failure_detected : forall n A s, (n <= 32)%nat -> bk_compute (K := RSc) n A = Ret s -> bk_ok s = false ->
  exists sig, bk_signature s = Ret sig /\ length sig = n /\ In 0%Z sig /\ forall np nn, check_inertia np nn sig <> Some INERTIA_OK.
Proof. intros n A s H E Ok. destruct (bk_failed_signature n A s H E Ok) as (sig & H1 & H2 & H3). exists sig. repeat split; auto. intros np nn C. exact (ok_no_zero _ _ _ C H3). Qed.
Print Assumptions C55_failure_detected.
(** Above 32 rows it is not detected: the 33 x 33 matrix of ones passes as positive definite (binary64). *)
Theorem C55_refuted : exists s sig, bk_compute (K := FSc) 33 (fun _ _ => s1) = Ret s /\ bk_ok s = false /\ bk_signature s = Ret sig /\
  check_inertia 33 0 sig = Some INERTIA_OK.
Proof.
  assert (T : (match bk_compute (K := FSc) 33 (fun _ _ => s1) with
      | Ret s => match bk_signature s with Ret sig => (bk_ok s, sig) | _ => (true, []) end | _ => (true, []) end) = (false, repeat 1%Z 33)) by (vm_compute; reflexivity).
  destruct (bk_compute (K := FSc) 33 (fun _ _ => s1)) as [s| | |]; try discriminate T.
  destruct (bk_signature s) as [sig| | |] eqn:Es; try discriminate T.
  injection T as T1 T2. exists s, sig. split; [reflexivity|]. split; [exact T1|]. split; [exact Es|]. rewrite T2. vm_compute. reflexivity.
Qed.
Print Assumptions C55_refuted.
Example C55_example : exists s, bk_compute (K := RSc) 2 (fun _ _ => 1) = Ret s /\ bk_ok s = false.
Proof.
  destruct (C76_success_iff_nonsingular 2 (fun _ _ => 1)) as (s & E & _ & I). exists s. split; [exact E|]. destruct (bk_ok s) eqn:Ok; [|reflexivity]. exfalso. apply (proj2 C76_example), I; reflexivity.
Qed.

(** C77. What the inertia check means for a KKT matrix [H J'; J -D] with D diagonal and positive: np positive
    and N - np negative eigenvalues if and only if H + J' D^-1 J is positive definite.  For LDL' factors the
    check decides this; for Bunch-Kaufman (at most 32 rows or a successful factorisation) an accepted matrix
    has the property, and a matrix with the property is accepted unless the signature has a spurious zero. *)
Theorem C77_ldlt : forall np N A L D a, (np <= N)%nat -> regularised np N A -> factor_of N A L D -> (forall i, (i < N)%nat -> a i i = D i) ->
  (check_inertia np (N - np) (d_signature (K := RSc) N a) = Some INERTIA_OK <-> al_convex np N A).
Proof. exact ldl_inertia. Qed.
Print Assumptions C77_ldlt.
Theorem C77_bunch_kaufman : forall np N A s sig, (np <= N)%nat -> regularised np N A -> bk_compute (K := RSc) N A = Ret s -> bk_signature s = Ret sig ->
  (bk_ok s = true \/ (N <= 32)%nat) ->
  (check_inertia np (N - np) sig = Some INERTIA_OK -> bk_ok s = true /\ al_convex np N A) /\
  (al_convex np N A -> bk_ok s = true /\ (check_inertia np (N - np) sig = Some INERTIA_OK \/ In 0%Z sig)).
Proof. exact bk_inertia. Qed.
Print Assumptions C77_bunch_kaufman.
(** H = 1, J = 2, D = 4: 1 + 4 / 4 > 0; the same with H = -2 is rejected. *)
Definition ex77 (h : R) (i j : nat) : R := match i, j with O, O => h | S O, O => 2 | S O, S O => -4 | _, _ => 0 end.
Example C77_example : regularised 1 2 (ex77 1) /\ al_convex 1 2 (ex77 1) /\ regularised 1 2 (ex77 (-2)) /\ ~ al_convex 1 2 (ex77 (-2)) /\
  factor_of 2 (ex77 1) (fun i j => if Nat.eqb i j then 1 else if Nat.ltb j i then 2 else 0) (fun i => match i with O => 1 | _ => -8 end).
Proof.
  split; [|split; [|split; [|split]]].
  - split; intros i; [|intros j]; intros; [destruct i as [|[|]]; try lia; cbn; lra|lia].
  - intros x [i [Hi Hx]]. replace i with 0%nat in Hx by lia. unfold al_form, form, mirror. cbn. assert (0 < x 0%nat * x 0%nat) by (apply Rlt_0_sqr; exact Hx). replace (- -4) with 4 by lra. lra.
  - split; intros i; [|intros j]; intros; [destruct i as [|[|]]; try lia; cbn; lra|lia].
  - intros H. specialize (H (fun _ => 1) (ex_intro _ 0%nat (conj Nat.lt_0_1 R1_neq_R0))). unfold al_form, form, mirror in H. cbn in H. replace (- -4) with 4 in H by lra. lra.
  - split; [split|].
    + intros i Hi. rewrite Nat.eqb_refl. reflexivity.
    + intros i j H1 H2. destruct (Nat.eqb_spec i j); [lia|]. destruct (Nat.ltb_spec j i); [lia|reflexivity].
    + intros i j H1 H2. destruct i as [|[|]], j as [|[|]]; try lia; unfold ldl; cbn; lra.
Qed.

(** C78. The solver's inertia correction with this factorisation (at most 32 rows): when it stops within
    the bound on delta, the factorised matrix is the KKT matrix with delta added to the Hessian block, that block plus J' D^-1 J is
    positive definite, and every right-hand side is solved exactly. *)
Theorem C78_inertia_correction : forall fuel P ndx nd A Jp d F dl M' F' delta' dl',
  let M := assemble_kkt (K := RSc) ndx nd A Jp d in let N := (ndx + nd)%nat in
  (N <= 32)%nat -> length d = nd -> Forall (fun a => a < 0) d -> 0 < delta_nz_init P -> 0 < delta_min P -> 0 <= del_inc_k P -> 0 <= del_inc_big P ->
  inertia_loop (K := RSc) (bk RSc) (bk_fac (K := RSc) N) (bk_sig (K := RSc)) fuel P ndx nd M F 0 dl = Ret (M', F', delta', dl') -> delta' <= delta_max P ->
  exists B, plus_diag ndx delta' M B /\ al_convex ndx N (entries B) /\ forall b, exists x, bk_solve F' b = Ret x /\ solves N (entries B) x b.
Proof. exact bk_loop. Qed.
Print Assumptions C78_inertia_correction.
(** With the default options: Hessian -1/20000, Jacobian 1/20000; the loop adds 1/10000. *)
Example C78_example : forall F, exists M' F', inertia_loop (K := RSc) (bk RSc) (bk_fac (K := RSc) 2) (bk_sig (K := RSc)) 2 (default_params (K := RSc)) 1 1
    (assemble_kkt (K := RSc) 1 1 [[- (1 / 20000)]] [[1 / 20000]] [-1]) F 0 0 = Ret (M', F', 1 / 10000, 1 / 10000).
Proof. exact loop_run. Qed.

(** C79. The step descends: if x solves the KKT system with right-hand side -g, then the derivative along its
    primal part of the function with gradient g_x + J' D^-1 g_y is minus the form of H + J' D^-1 J, hence
    negative when that form is positive definite and the primal part is not zero. *)
Theorem C79_descent : forall np N A g x, (np <= N)%nat -> regularised np N A -> (forall i, (i < N)%nat -> mvec N (mirror A) x i = - g i) ->
  let deriv := rsum np (fun i => x i * (g i + rsum (N - np) (fun k => A (np + k)%nat i * (g (np + k)%nat / - A (np + k)%nat (np + k)%nat)))) in
  deriv = - al_form np N A x /\ (al_convex np N A -> (exists i, (i < np)%nat /\ x i <> 0) -> deriv < 0).
Proof.
  intros np N A g x Hn Rg H deriv. assert (E : deriv = - al_form np N A x) by (apply kkt_descent; assumption). split; [exact E|]. intros C X. specialize (C x X). lra.
Qed.
Print Assumptions C79_descent.
(** H = 1, J = 2, D = 4, g = (-2, 0): x = (1, 1/2). *)
Example C79_example : forall i, (i < 2)%nat -> mvec 2 (mirror (ex77 1)) (fun i => match i with O => 1 | _ => 1 / 2 end) i = - match i with O => -2 | _ => 0 end.
Proof. intros i Hi. destruct i as [|[|]]; [| |lia]; unfold mvec, mirror; cbn; lra. Qed.

(** C80. The pivots of the elimination, which are the inverses of what is stored, stay below growth^k times
    the largest entry of A: the choice of the pivots keeps the growth bound of Bunch and Kaufman. Pivots of
    two rows have a negative determinant. *)
Theorem C80_pivot_growth : forall n A s B k, bk_compute (K := RSc) n A = Ret s -> bk_ok s = true -> (forall i j, (j <= i)%nat -> (i < n)%nat -> Rabs (A i j) <= B) ->
  pivot_row (bk_piv s) k -> (k < n)%nat ->
  if (bk_piv s k <? 0)%Z then
    (k + 1 < n)%nat /\ let p := bk_mat s k k in let q := bk_sub s k in let r := bk_mat s (k + 1)%nat (k + 1)%nat in let d := p * r - q * q in
    d < 0 /\ Rabs (p / d) <= growth ^ k * B /\ Rabs (q / d) <= growth ^ k * B /\ Rabs (r / d) <= growth ^ k * B
  else bk_mat s k k <> 0 /\ Rabs (/ bk_mat s k k) <= growth ^ k * B.
Proof. exact bk_growth. Qed.
Print Assumptions C80_pivot_growth.
(** With entries 1 and a diagonal entry e, the pivots stay below growth whatever e is: elimination with the
    pivot e gives 1 - 1 / e. *)
Example C80_example : forall e, 0 < e <= 1 / 2 -> let A := fun i j : nat => if Nat.eqb (i + j) 0 then e else 1 in
  nonsingular 2 A /\ (forall i j, (j <= i)%nat -> (i < 2)%nat -> Rabs (A i j) <= 1) /\
  exists s, bk_compute (K := RSc) 2 A = Ret s /\ bk_ok s = true /\ pivot_row (bk_piv s) 0 /\ ((0 <= bk_piv s 0%nat)%Z -> pivot_row (bk_piv s) 1 /\ ((0 <= bk_piv s 1%nat)%Z -> Rabs (/ bk_mat s 1%nat 1%nat) <= growth)).
Proof.
  intros e He A. assert (N : nonsingular 2 A).
  { intros x Hx i Hi. pose proof (Hx 0%nat ltac:(lia)) as H0. pose proof (Hx 1%nat ltac:(lia)) as H1. unfold mvec, mirror, A in H0, H1. cbn in H0, H1.
    assert (E : (1 - e) * x 0%nat = 0) by lra. apply Rmult_integral in E. destruct E as [E|E]; [lra|]. rewrite E in *. destruct i as [|[|]]; [exact E|lra|lia]. }
  assert (Bd : forall i j, (j <= i)%nat -> (i < 2)%nat -> Rabs (A i j) <= 1).
  { intros i j _ _. unfold A. destruct (Nat.eqb (i + j) 0); [rewrite Rabs_pos_eq; lra|rewrite Rabs_R1; lra]. }
  split; [exact N|]. split; [exact Bd|]. destruct (C76_success_iff_nonsingular 2 A) as (s & E & _ & I). assert (Ok : bk_ok s = true) by (apply I, N).
  exists s. split; [exact E|]. split; [exact Ok|]. split; [constructor|]. intros P. assert (R1 : pivot_row (bk_piv s) 1) by (apply (pivot_row_one _ 0); [constructor|exact P]).
  split; [exact R1|]. intros P1. pose proof (C80_pivot_growth 2 A s 1 1 E Ok Bd R1 ltac:(lia)) as G. destruct (Z.ltb_spec (bk_piv s 1%nat) 0); [lia|]. destruct G as [_ G]. lra.
Qed.
