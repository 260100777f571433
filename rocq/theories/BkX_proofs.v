(** Bunch-Kaufman: meaning of the inertia check, the solver's loop, concrete matrices. *)
From Coq Require Import Reals ZArith List Bool Arith Lia Lra.
From Verif Require Import Scalar Problem_model Cset_model Solver_model Solver_spec SolverR_proofs Lin_spec Lin_proofs Ldlt_model Ldlt_spec Ldlt_proofs Bk_model Bk_spec Bk_proofs BkP_proofs BkS_proofs BkV_proofs BkI_proofs Inertia_proofs.
Import ListNotations.
Local Open Scope R_scope.
Local Notation mx := (nat -> nat -> R).

(** ** Regularised KKT matrices *)
Lemma convex_nonsingular np N A : (np <= N)%nat -> regularised np N A -> al_convex np N A -> nonsingular N A.
Proof.
  intros Hn Rg Cx x Hx. set (m := (N - np)%nat). assert (EN : N = (np + m)%nat) by (unfold m; lia). clearbody m. subst N. pose proof Rg as [R1 R2].
  assert (B : forall i, (i < m)%nat -> x (np + i)%nat + rsum np (fun j => A (np + i)%nat j * x j) / A (np + i)%nat (np + i)%nat = 0).
  { intros i Hi. pose proof (Hx (np + i)%nat ltac:(lia)) as H. pose proof (R1 (np + i)%nat ltac:(lia) ltac:(lia)). unfold mvec in H. rewrite rsum_split in H. rewrite (rsum_one m _ i Hi) in H.
    - rewrite (rsum_ext np _ (fun j => A (np + i)%nat j * x j)) in H by (intros j Hj; unfold mirror; bd; reflexivity). unfold mirror in H. rewrite Nat.leb_refl in H.
      replace (x (np + i)%nat) with (A (np + i)%nat (np + i)%nat * x (np + i)%nat / A (np + i)%nat (np + i)%nat) by (field; lra).
      replace (rsum np (fun j => A (np + i)%nat j * x j)) with (- (A (np + i)%nat (np + i)%nat * x (np + i)%nat)) by lra. field. lra.
    - intros j Hj Ne. unfold mirror. bd; [rewrite R2 by lia; ring|rewrite R2 by lia; ring]. }
  assert (F0 : form (np + m) (mirror A) x = 0).
  { unfold form. apply rsum_zero. intros i Hi. rewrite (rsum_ext _ _ (fun j => x i * (mirror A i j * x j))) by (intros; ring). rewrite rsum_scale. fold (mvec (np + m) (mirror A) x i). rewrite Hx by exact Hi. ring. }
  rewrite (form_square np m A x Rg) in F0. rewrite rsum_zero in F0 by (intros i Hi; rewrite B by exact Hi; ring).
  assert (X0 : forall i, (i < np)%nat -> x i = 0).
  { destruct (zero_or_not np x) as [Z|Z]; [exact Z|]. specialize (Cx x Z). lra. }
  intros i Hi. destruct (Nat.lt_ge_cases i np) as [L|L]; [apply X0, L|]. specialize (B (i - np)%nat ltac:(lia)). replace (np + (i - np))%nat with i in B by lia.
  rewrite rsum_zero in B by (intros j Hj; rewrite X0 by exact Hj; ring). lra.
Qed.
Lemma ok_no_zero np nn sig : check_inertia np nn sig = Some INERTIA_OK -> ~ In 0%Z sig.
Proof.
  intros H. destruct (check_inertia_spec np nn sig) as [C1 C2].
  destruct (Forall_dec (fun z => z = 1 \/ z = -1 \/ z = 0)%Z) with (l := sig) as [F|F].
  - intros z. destruct (Z.eq_dec z 1); [left; auto|]. destruct (Z.eq_dec z (-1)); [left; auto|]. destruct (Z.eq_dec z 0); [left; auto|]. right. tauto.
  - rewrite (C1 F) in H. destruct (Nat.eqb_spec (count 0 sig) 0) as [E|]; [|discriminate H]. apply count_in, E.
  - rewrite (C2 F) in H. discriminate H.
Qed.
Lemma bk_inertia np N A s sig : (np <= N)%nat -> regularised np N A -> bk_compute (K := RSc) N A = Ret s -> bk_signature s = Ret sig -> (bk_ok s = true \/ (N <= 32)%nat) ->
  (check_inertia np (N - np) sig = Some INERTIA_OK -> bk_ok s = true /\ al_convex np N A) /\
  (al_convex np N A -> bk_ok s = true /\ (check_inertia np (N - np) sig = Some INERTIA_OK \/ In 0%Z sig)).
Proof.
  intros Hn Rg E Es O. split.
  - intros C. pose proof (ok_no_zero _ _ _ C) as NZ.
    assert (Ok : bk_ok s = true).
    { destruct (bk_ok s) eqn:Ok; [reflexivity|]. destruct O as [O|O]; [discriminate O|]. destruct (bk_failed_signature N A s O E Ok) as (sig' & Es' & _ & I). rewrite Es in Es'. injection Es' as <-. contradiction. }
    split; [exact Ok|]. destruct (bk_signature_ok N A s E Ok) as (sig' & Es' & _ & Cg). rewrite Es in Es'. injection Es' as <-. apply (inertia_iff np N A sig Hn Rg (Cg NZ)), C.
  - intros Cx. destruct (bk_success_iff N A) as (s' & E' & _ & I). rewrite E in E'. injection E' as <-. pose proof (proj2 I (convex_nonsingular np N A Hn Rg Cx)) as Ok. split; [exact Ok|].
    destruct (in_dec Z.eq_dec 0%Z sig) as [Z|NZ]; [right; exact Z|left]. destruct (bk_signature_ok N A s E Ok) as (sig' & Es' & _ & Cg). rewrite Es in Es'. injection Es' as <-. apply (inertia_iff np N A sig Hn Rg (Cg NZ)), Cx.
Qed.
Lemma ldl_inertia np N A L D a : (np <= N)%nat -> regularised np N A -> factor_of N A L D -> (forall i, (i < N)%nat -> a i i = D i) ->
  (check_inertia np (N - np) (d_signature (K := RSc) N a) = Some INERTIA_OK <-> al_convex np N A).
Proof. intros Hn Rg F Ha. apply inertia_iff; [exact Hn|exact Rg|]. eapply ldl_congruent; eassumption. Qed.

(** ** A solution of the KKT system descends *)
Lemma kkt_descent np N A g x : (np <= N)%nat -> regularised np N A -> (forall i, (i < N)%nat -> mvec N (mirror A) x i = - g i) ->
  rsum np (fun i => x i * (g i + rsum (N - np) (fun k => A (np + k)%nat i * (g (np + k)%nat / - A (np + k)%nat (np + k)%nat)))) = - al_form np N A x.
Proof.
  intros Hn [R1 R2] H. set (m := (N - np)%nat). assert (EN : N = (np + m)%nat) by (unfold m; lia). unfold al_form. fold m. clearbody m. subst N.
  set (J := fun k => rsum np (fun j => A (np + k)%nat j * x j)).
  assert (B : forall k, (k < m)%nat -> g (np + k)%nat / - A (np + k)%nat (np + k)%nat = x (np + k)%nat - J k / - A (np + k)%nat (np + k)%nat).
  { intros k Hk. pose proof (H (np + k)%nat ltac:(lia)) as E. pose proof (R1 (np + k)%nat ltac:(lia) ltac:(lia)). unfold mvec in E. rewrite rsum_split in E. rewrite (rsum_one m _ k Hk) in E.
    - rewrite (rsum_ext np _ (fun j => A (np + k)%nat j * x j)) in E by (intros j Hj; unfold mirror; bd; reflexivity). fold (J k) in E. unfold mirror in E. rewrite Nat.leb_refl in E.
      replace (g (np + k)%nat) with (- (J k + A (np + k)%nat (np + k)%nat * x (np + k)%nat)) by lra. field. lra.
    - intros j Hj Ne. unfold mirror. bd; [rewrite R2 by lia; ring|rewrite R2 by lia; ring]. }
  assert (T : forall i, (i < np)%nat -> g i = - (rsum np (fun j => mirror A i j * x j) + rsum m (fun k => A (np + k)%nat i * x (np + k)%nat))).
  { intros i Hi. pose proof (H i ltac:(lia)) as E. unfold mvec in E. rewrite rsum_split in E. rewrite (rsum_ext m _ (fun k => A (np + k)%nat i * x (np + k)%nat)) in E by (intros k Hk; unfold mirror; bd; reflexivity). lra. }
  rewrite (rsum_ext np _ (fun i => - (x i * rsum np (fun j => mirror A i j * x j)) + - (x i * rsum m (fun k => A (np + k)%nat i * (J k / - A (np + k)%nat (np + k)%nat))))).
  2:{ intros i Hi. rewrite (T i Hi). rewrite (rsum_ext m (fun k => A (np + k)%nat i * (g (np + k)%nat / - A (np + k)%nat (np + k)%nat)) (fun k => A (np + k)%nat i * x (np + k)%nat - A (np + k)%nat i * (J k / - A (np + k)%nat (np + k)%nat))) by (intros k Hk; rewrite B by exact Hk; ring). rewrite rsum_minus. ring. }
  rewrite rsum_plus. rewrite Ropp_plus_distr. f_equal.
  - unfold form. rewrite (rsum_ext np (fun i => - _) (fun i => -1 * (x i * rsum np (fun j => mirror A i j * x j)))) by (intros; ring). rewrite rsum_scale.
    rewrite (rsum_ext np (fun i => rsum np (fun j => x i * mirror A i j * x j)) (fun i => x i * rsum np (fun j => mirror A i j * x j))) by (intros; rewrite <- rsum_scale; apply rsum_ext; intros; ring). ring.
  - rewrite (rsum_ext np (fun i => - _) (fun i => -1 * rsum m (fun k => A (np + k)%nat i * x i * (J k / - A (np + k)%nat (np + k)%nat)))) by (intros i Hi; rewrite (rsum_ext m (fun k => A (np + k)%nat i * x i * (J k / - A (np + k)%nat (np + k)%nat)) (fun k => x i * (A (np + k)%nat i * (J k / - A (np + k)%nat (np + k)%nat)))) by (intros; ring); rewrite rsum_scale; ring).
    rewrite rsum_scale, rsum_swap. rewrite (rsum_ext m _ (fun k => J k ^ 2 / - A (np + k)%nat (np + k)%nat)); [unfold J; ring|]. intros k Hk. rewrite (rsum_scale_r np). fold (J k). unfold Rdiv. ring.
Qed.

(** ** The solver's loop with this factorisation *)
Lemma mtab_size r c (f : nat -> nat -> R) i : (i < r)%nat -> length (mtab (K := RSc) r c f) = r /\ length (nth i (mtab (K := RSc) r c f) []) = c.
Proof.
  intros Hi. unfold mtab. cbn [car RSc]. split; [rewrite map_length, seq_length; reflexivity|]. set (g := fun i => map (f i) (seq 0 c)). rewrite (nth_indep _ [] (g 0%nat)) by (rewrite map_length, seq_length; exact Hi).
  rewrite (map_nth g). unfold g. rewrite map_length, seq_length. reflexivity.
Qed.
Lemma bk_loop fuel P ndx nd A Jp d F dl M' F' delta' dl' :
  let M := assemble_kkt (K := RSc) ndx nd A Jp d in let N := (ndx + nd)%nat in
  (N <= 32)%nat -> length d = nd -> Forall (fun a => a < 0) d -> 0 < delta_nz_init P -> 0 < delta_min P -> 0 <= del_inc_k P -> 0 <= del_inc_big P ->
  inertia_loop (K := RSc) (bk RSc) (bk_fac (K := RSc) N) (bk_sig (K := RSc)) fuel P ndx nd M F 0 dl = Ret (M', F', delta', dl') -> delta' <= delta_max P ->
  exists B, plus_diag ndx delta' M B /\ al_convex ndx N (entries B) /\ forall b, exists x, bk_solve F' b = Ret x /\ solves N (entries B) x b.
Proof.
  intros M N H32 Ld Dn P1 P2 P3 P4 H Hd. destruct (inertia_exact _ _ _ _ _ _ _ _ _ _ _ _ _ _ _ (Rle_refl 0) P1 P2 P3 P4 H) as [_ [(F0 & B & EF & PD & _ & _ & C)|[X _]]]; [|lra]. exists B. split; [exact PD|].
  assert (EB : forall i j, (i < N)%nat -> (j < N)%nat -> entries B i j = mget (K := RSc) M i j + (if Nat.eqb i j && Nat.ltb i ndx then delta' else 0)).
  { destruct PD as (L1 & L2 & PD). intros i j Hi Hj. unfold entries. assert (SM : length M = N /\ length (nth i M []) = N).
    { unfold M, assemble_kkt. apply (mtab_size (ndx + nd) (ndx + nd)), Hi. }
    destruct SM as [S1 S2]. apply PD; [exact (eq_ind_r (fun n => (i < n)%nat) Hi S1)|exact (eq_ind_r (fun n => (j < n)%nat) Hj S2)]. }
  assert (Rg : regularised ndx N (entries B)).
  { split.
    - intros i H1 H2. rewrite EB by lia. unfold M. rewrite kkt_blocks by (fold N; lia). bd. rewrite Forall_forall in Dn. specialize (Dn (nth (i - ndx) d 0) (nth_In (A := R) _ _ (eq_ind_r (fun n => (i - ndx < n)%nat) (ltac:(lia) : (i - ndx < nd)%nat) Ld))). lra.
    - intros i j H1 H2 H3. rewrite EB by lia. unfold M. rewrite kkt_blocks by (fold N; lia). bd. lra. }
  unfold bk_fac in EF. destruct (bk_success_iff N (entries B)) as (s & Es & Ns & _). fold (entries B) in EF. change (fun i j => nth j (nth i B []) (s0 (s := RSc))) with (entries B) in EF. rewrite Es in EF. subst F'. unfold bk_sig in C.
  destruct (bk_signature s) as [sig| | |] eqn:Eg.
  1: { destruct (bk_inertia ndx N (entries B) s sig ltac:(lia) Rg Es Eg (or_intror H32)) as [I _]. replace (N - ndx)%nat with nd in I by lia. destruct (I C) as [Ok Cx]. split; [exact Cx|]. intros b. apply bk_solve_ok; assumption. }
  all: exfalso; destruct (bk_ok s) eqn:Ok; [destruct (bk_signature_ok N (entries B) s Es Ok) as (sig & E1 & _)|destruct (bk_failed_signature N (entries B) s H32 Es Ok) as (sig & E1 & _)]; rewrite Eg in E1; discriminate E1.
Qed.

(** ** Two rows with a zero diagonal *)
Definition offdiag (c : R) (i j : nat) : R := if Nat.eqb i j then 0 else c.
Lemma offdiag_compute c : c <> 0 -> exists s, bk_compute (K := RSc) 2 (offdiag c) = Ret s /\ bk_ok s = true /\
  bk_signature s = Ret (if Rle_dec (/ (c * c)) (/ 2 ^ 52) then [0; 0]%Z else [-1; 1]%Z).
Proof.
  intros Hc. destruct (compute_ok 2 (offdiag c)) as (s & st & g & pv & E & C). exists s. split; [exact E|].
  assert (Ok : bk_ok s = true).
  { destruct (bk_success_iff 2 (offdiag c)) as (s' & E' & _ & I). rewrite E in E'. injection E' as <-. apply I. intros x Hx i Hi.
    pose proof (Hx 0%nat ltac:(lia)) as H0. pose proof (Hx 1%nat ltac:(lia)) as H1. unfold mvec, mirror, offdiag in H0, H1. cbn in H0, H1.
    assert (c * x 1%nat = 0) by lra. assert (c * x 0%nat = 0) by lra. apply Rmult_integral in H, H2. destruct i as [|[|]]; [tauto|tauto|lia]. }
  split; [exact Ok|]. destruct C as (N & G & _ & R). rewrite Ok in R. destruct R as (F & -> & Mt & Sd).
  assert (Dz : forall i, mirror (offdiag c) i i = 0) by (intros i; unfold mirror, offdiag; rewrite Nat.leb_refl, Nat.eqb_refl; reflexivity).
  destruct st as [|[p b] st]; [cbn in F; discriminate F|]. cbn [good fin snd] in G, F. destruct G as [(Q1 & Q2 & _ & G1) G2]. cbn [fst snd] in *. destruct b.
  2: { exfalso. destruct G1 as (D & _). apply D. apply Dz. }
  cbn [stepn kkof] in *. assert (p = 1%nat) by lia. subst p. destruct st as [|[p' b'] st]; [|cbn [fin snd] in F; pose proof (stepn_le 2 b'); pose proof (fin_ge st (stepn 2 b')); cbn [Nat.add] in F; lia].
  destruct G1 as (Y & D & A1 & A2 & A3 & P1 & P2 & _). cbn [Nat.add] in A2, A3. set (S1 := sp 0 (1%nat, true) (mirror (offdiag c))) in *.
  assert (V : S1 0%nat 0%nat = 0 /\ S1 1%nat 1%nat = 0 /\ S1 1%nat 0%nat = c) by (repeat split; reflexivity). destruct V as (V1 & V2 & V3).
  assert (M0 : @eq R (bk_mat s 0%nat 0%nat) 0) by (rewrite Mt; cbn [tperm two_at Nat.ltb Nat.leb Nat.eqb andb Nat.add]; rewrite A1; unfold e11; cbn [Nat.add]; rewrite V2; apply Rmult_0_l).
  assert (M1 : @eq R (bk_mat s 1%nat 1%nat) 0) by (rewrite Mt; cbn [tperm two_at snd Nat.ltb Nat.leb Nat.eqb andb orb Nat.add]; rewrite A3; unfold e22; cbn [Nat.add]; rewrite V1; apply Rmult_0_l).
  assert (M2 : @eq R (bk_sub s 0%nat) (/ c)) by (rewrite Sd by lia; cbn [two_at snd Nat.eqb andb orb Nat.add]; rewrite A2; unfold e21, det2; cbn [Nat.add]; rewrite V1, V2, V3; change (@eq R (- c / (0 * 0 - c * c)) (/ c)); field; exact Hc).
  unfold bk_signature. rewrite N. cbn [sig_loop Nat.ltb Nat.leb]. rewrite P1. cbn [fst Z.of_nat Pos.of_succ_nat]. change (-1 - 1 <? 0)%Z with true. cbv iota. cbn [Nat.add sig_loop Nat.ltb Nat.leb bind]. rewrite M0, M1, M2. rs.
  replace (0 * 0 - / c * / c) with (- / (c * c)) by (field; exact Hc). assert (Cp : 0 < / (c * c)) by (apply Rinv_0_lt_compat; pose proof (Rlt_0_sqr c Hc); unfold Rsqr in *; lra).
  rewrite Rabs_Ropp, (Rabs_right (/ (c * c))) by lra.
  assert (EP : eps (K := RSc) = / 2 ^ 52) by (unfold eps, slit; cbn [sdiv sofZ RSc]; change (2 ^ 52)%Z with (2 ^ Z.of_nat 52)%Z; rewrite <- pow_IZR; unfold Rdiv; rewrite Rmult_1_l; reflexivity). rewrite EP.
  destruct (Rle_dec (/ (c * c)) (/ 2 ^ 52)) as [L|L].
  - cbn [sleb sltb s0 RSc]. rewrite (proj2 (Rleb_true _ _) L). replace (0 + 0) with 0 by ring. rewrite isign_zero. reflexivity.
  - cbn [sleb sltb s0 RSc]. rewrite (proj2 (Rleb_false _ _)) by lra. rewrite (proj2 (Rltb_false _ _)) by lra. reflexivity.
Qed.
Lemma alpha_lt : bk_alpha (K := RSc) < 1.
Proof.
  unfold bk_alpha. cbn [sadd sdiv s1 ssqrt sofZ RSc]. assert (sqrt 17 < 5); [|lra]. rewrite <- (sqrt_square 5) by lra. apply sqrt_lt_1; lra.
Qed.
Lemma alpha_pos : 0 < bk_alpha (K := RSc).
Proof. unfold bk_alpha. cbn [sadd sdiv s1 ssqrt sofZ RSc]. pose proof (sqrt_pos 17). lra. Qed.
Lemma keep_step f n k (a : nat -> nat -> R) piv : (k < n)%nat -> a k k <> 0 -> fst (col_max (K := RSc) n k a) <= Rabs (a k k) -> 0 <= fst (col_max (K := RSc) n k a) ->
  unb_loop (K := RSc) (S f) n k a piv = unb_loop (K := RSc) f n (k + 1) (freeze n n (elim_one n k (freeze n n a))) (record_piv piv k k false).
Proof.
  intros Hk H0 H1 H2. pose proof (Rabs_pos_lt _ H0). cbn [unb_loop]. rewrite (proj2 (Nat.ltb_lt k n) Hk). destruct (col_max n k a) as [cm im]. cbn [fst] in H1, H2.
  assert (M1 : maxi (K := RSc) (sabs (s := RSc) (a k k)) cm = Rabs (a k k)) by (unfold maxi; cbn [sltb sabs RSc]; rewrite (proj2 (Rltb_false _ _)); [reflexivity|lra]).
  rewrite M1. cbn [seqb s0 RSc]. rewrite (proj2 (Reqb_false _ _)) by (apply Rgt_not_eq; assumption).
  assert (B : cm * bk_alpha (K := RSc) <= Rabs (a k k)) by (apply Rle_trans with (cm * 1); [apply Rmult_le_compat_l; [exact H2|left; exact alpha_lt]|lra]).
  assert (C : forall r t, choose (K := RSc) (sabs (s := RSc) (a k k)) cm r t = Keep) by (intros r t; unfold choose; cbn [sleb smul sabs RSc]; rewrite (proj2 (Rleb_true _ _) B); reflexivity).
  rewrite C. unfold sym_swap. rewrite Nat.eqb_refl. reflexivity.
Qed.
Lemma small_compute (A : nat -> nat -> R) : A 0%nat 0%nat <> 0 -> Rabs (A 1%nat 0%nat) <= Rabs (A 0%nat 0%nat) ->
  let z := A 1%nat 1%nat - A 1%nat 0%nat * (1 / A 0%nat 0%nat) * A 1%nat 0%nat in z <> 0 ->
  exists s, bk_compute (K := RSc) 2 A = Ret s /\ bk_signature s = Ret [isign (K := RSc) (1 / A 0%nat 0%nat); isign (K := RSc) (1 / z)].
Proof.
  intros H0 H1 z Hz. change (z <> 0) in Hz.
  set (a0 := view 0 (freeze (K := RSc) 2 2 (fun r c : nat => if Nat.leb c r then A r c else 0))).
  set (a2 := freeze (K := RSc) 2 2 (elim_one (K := RSc) 2 0 (freeze (K := RSc) 2 2 a0))). set (a4 := freeze (K := RSc) 2 2 (elim_one (K := RSc) 2 1 (freeze (K := RSc) 2 2 a2))).
  assert (F : a2 0%nat 0%nat = 1 / A 0%nat 0%nat /\ a2 1%nat 1%nat = z) by (split; reflexivity). destruct F as (F0 & F1).
  assert (G : a4 0%nat 0%nat = 1 / A 0%nat 0%nat /\ a4 1%nat 1%nat = 1 / z) by (split; [rewrite <- F0|rewrite <- F1]; reflexivity). destruct G as (G0 & G1).
  assert (U : unb_loop (K := RSc) 2 2 0 a0 (fun _ => 0%Z) = Ret (a4, record_piv (record_piv (fun _ => 0%Z) 0 0 false) 1 1 false, true)).
  { rewrite keep_step; [|lia|exact H0|exact H1|apply (Rabs_pos (A 1%nat 0%nat))]. fold a2. rewrite keep_step; [reflexivity|lia|exact Hz|apply Rabs_pos|apply Rle_refl]. }
  clearbody a4.
  eexists. split.
  - unfold bk_compute, bk_in_place, blocksize. cbn [Nat.leb]. cbn [bk_blocks Nat.ltb Nat.leb Nat.eqb negb andb Nat.sub]. unfold bk_unblocked. cbn [Nat.eqb]. match goal with |- context[unb_loop 2 2 0 ?a ?p] => change (unb_loop 2 2 0 a p) with (unb_loop (K := RSc) 2 2 0 a0 (fun _ => 0%Z)) end. rewrite U. cbn [bind]. cbn -[freeze row_swap paste]. reflexivity.
  - unfold bk_signature. cbn -[isign freeze row_swap paste]. rewrite !freeze_id. unfold row_swap. cbn -[isign freeze paste]. rewrite !freeze_id. unfold paste. cbn -[isign]. rewrite G0, G1. reflexivity.
Qed.

(** A run of the loop with the default options: the Hessian -1/20000 gets delta = 1/10000. *)
Lemma loop_run F : exists M' F', inertia_loop (K := RSc) (bk RSc) (bk_fac (K := RSc) 2) (bk_sig (K := RSc)) 2 (default_params (K := RSc)) 1 1
    (assemble_kkt (K := RSc) 1 1 [[- (1 / 20000)]] [[1 / 20000]] [-1]) F 0 0 = Ret (M', F', 1 / 10000, 1 / 10000).
Proof.
  pose (h := - (1 / 20000)). assert (Hh : h = - (1 / 20000)) by reflexivity. clearbody h. rewrite <- Hh.
  assert (Em : assemble_kkt (K := RSc) 1 1 [[h]] [[1 / 20000]] [-1] = [[h; 1 / 20000]; [1 / 20000; -1]]) by reflexivity. rewrite Em.
  assert (Sg : forall F h, h <> 0 -> 1 / 20000 <= Rabs h -> -1 - 1 / 20000 * (1 / h) * (1 / 20000) < 0 -> bk_sig (bk_fac (K := RSc) 2 F [[h; 1 / 20000]; [1 / 20000; -1]]) = [isign (K := RSc) (1 / h); (-1)%Z]).
  { intros G k K1 K2 K3. destruct (small_compute (fun i j => nth j (nth i [[k; 1 / 20000]; [1 / 20000; -1]] []) 0)) as (s & E1 & E2).
    - exact K1.
    - cbn [nth]. rewrite (Rabs_right (1 / 20000)) by lra. exact K2.
    - cbn [nth]. lra.
    - unfold bk_fac. match goal with |- context[bk_compute 2 ?f] => change (bk_compute 2 f) with (bk_compute (K := RSc) 2 (fun i j => nth j (nth i [[k; 1 / 20000]; [1 / 20000; -1]] []) 0)) end. rewrite E1. unfold bk_sig. rewrite E2. cbn [nth]. f_equal. f_equal. unfold isign. cbn [sltb s0 RSc].
      assert (1 / (-1 - 1 / 20000 * (1 / k) * (1 / 20000)) < 0) by (unfold Rdiv at 1; rewrite Rmult_1_l; apply Rinv_lt_0_compat; exact K3).
      rewrite (proj2 (Rltb_false _ _)) by lra. rewrite (proj2 (Rltb_true _ _)) by lra. reflexivity. }
  assert (S1 : forall F, bk_sig (bk_fac (K := RSc) 2 F [[h; 1 / 20000]; [1 / 20000; -1]]) = [-1; -1]%Z).
  { intros G. assert (E : 1 / h = -20000) by (rewrite Hh; field). rewrite Sg; [|lra|rewrite Hh, Rabs_Ropp, Rabs_right; lra|rewrite E; lra]. rewrite E. unfold isign. cbn [sltb s0 RSc]. rewrite (proj2 (Rltb_false _ _)) by lra. rewrite (proj2 (Rltb_true _ _)) by lra. reflexivity. }
  assert (S2 : forall F, bk_sig (bk_fac (K := RSc) 2 F [[h - 0 + 1 / 10000; 1 / 20000]; [1 / 20000; -1]]) = [1; -1]%Z).
  { intros G. assert (E0 : h - 0 + 1 / 10000 = 1 / 20000) by lra. rewrite E0. assert (E : 1 / (1 / 20000) = 20000) by field. rewrite Sg; [|lra|rewrite Rabs_right; lra|rewrite E; lra]. rewrite E. unfold isign. cbn [sltb s0 RSc]. rewrite (proj2 (Rltb_true _ _)) by lra. reflexivity. }
  do 2 eexists. cbn [inertia_loop]. cbn [sleb sltb s0 RSc].
  rewrite (proj2 (Rleb_true 0 (delta_max default_params))) by (cbn; lra). rewrite (proj2 (Rltb_false 0 0)) by lra. rewrite S1. cbn [check_inertia inertia_tuple].
  change (check_inertia 1 1 [-1; -1]%Z) with (Some INERTIA_BAD). cbv iota. cbn [seqb RSc]. rewrite (proj2 (Reqb_true 0 0)) by reflexivity.
  change (delta_nz_init default_params) with (1 / 10000).
  rewrite (proj2 (Rleb_true (1 / 10000) (delta_max default_params))) by (cbn; lra). rewrite (proj2 (Rltb_true 0 (1 / 10000))) by lra.
  change (upd_diag sadd 1 (1 / 10000) (upd_diag ssub 1 0 [[h; 1 / 20000]; [1 / 20000; -1]])) with [[h - 0 + 1 / 10000; 1 / 20000]; [1 / 20000; -1]].
  rewrite S2. change (check_inertia 1 1 [1; -1]%Z) with (Some INERTIA_OK). reflexivity.
Qed.
