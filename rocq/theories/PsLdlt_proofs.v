From Coq Require Import Reals List Bool Arith ZArith Lia Lra Permutation.
From Verif Require Import Scalar Problem_model Symb_model Lin_spec Lin_proofs Symb_spec Armijo_model Solver_model Solver_spec Ldlt_model Ldlt_spec Ldlt_proofs LdltO_proofs LdltQ_proofs Bk_spec Inertia_proofs BkX_proofs Cset_model Descent_spec DescentX_proofs
  Qp_spec Qp_proofs QpD_proofs QpT_proofs QpF_proofs Fac_model Fac_spec Fac_proofs FacX_proofs PsLdlt_model PsLdlt_spec.
Import ListNotations.
Local Open Scope R_scope.

Lemma ps_diag_eq n ld b i : (i < n)%nat -> ps_diag (K := RSc) n ld b i = dsolve (K := RSc) n ld b i.
Proof.
  intros Hi. unfold ps_diag. match goal with |- fold_left ?g _ _ _ = _ => set (f := g) end.
  destruct (fold_seq_inv (fun k x => (forall r, (r < k)%nat -> x r = dsolve (K := RSc) n ld b r) /\ forall r, (k <= r)%nat -> x r = b r) f n 0 b) as [H _].
  - split; [intros; lia|reflexivity].
  - intros j x _ Hj [I1 I2]. unfold f. split; intros r Hr; rewrite freezev_id.
    + destruct (Nat.eqb_spec r j) as [->|Ne]; [|apply I1; lia]. unfold dsolve. destruct (Nat.ltb_spec j n); [|lia]. rewrite I2 by lia. reflexivity.
    + destruct (Nat.eqb_spec r j); [lia|]. apply I2. lia.
  - apply H. exact Hi.
Qed.
Lemma ps_solve_impl_ok n A L D a b : factor_of n A L D -> stores n a L D -> (forall i, (i < n)%nat -> tiny (K := RSc) < Rabs (D i)) -> solves n A (ps_solve_impl (K := RSc) n a b) b.
Proof.
  intros F [S1 S2] T. destruct F as [U E]. unfold ps_solve_impl. destruct (lower_solution n L b U) as [y Hy].
  assert (Fw : forall i, (i < n)%nat -> fwd (K := RSc) 0 n a b i = y i).
  { intros i Hi. destruct (fwd_ok 0 n a b y) as [H _]; [|apply H; exact Hi]. intros q Hq. cbn [Nat.add]. rewrite Hy by exact Hq. rewrite (lower_rows n L y q U Hq). f_equal. apply rsum_ext. intros t Ht. rewrite S1 by lia. reflexivity. }
  set (z := ps_diag (K := RSc) n a (fwd (K := RSc) 0 n a b)).
  assert (Z : forall i, (i < n)%nat -> D i * z i = y i). { intros i Hi. unfold z. rewrite ps_diag_eq by exact Hi. rewrite <- Fw by exact Hi. apply dsolve_ok; assumption. }
  destruct (upper_solution n L z U) as [x Hx].
  assert (Bw : forall i, (i < n)%nat -> bwd (K := RSc) 0 n (fun r c => a c r) z i = x i).
  { intros i Hi. destruct (bwd_ok 0 n (fun r c => a c r) z x) as [H _]; [|apply H; exact Hi]. intros q Hq. cbn [Nat.add]. rewrite Hx by exact Hq. rewrite (upper_rows n L x q U Hq). f_equal. apply rsum_ext. intros t Ht. rewrite S1 by lia. reflexivity. }
  apply (solves_ext n A x); [exact Bw|]. intros i Hi. rewrite (mvec_factor n A L D x i (conj U E) Hi). apply (ldl_solves n L D x y z b); assumption.
Qed.
Lemma inverse_fwd n p pt b i : Permutation (seq 0 n) p -> Permutation (seq 0 n) pt -> (forall i, (i < n)%nat -> nth (nth i p 0%nat) pt 0%nat = i) -> (i < n)%nat -> perm_fwd (K := RSc) n pt b i = b (nth i p 0%nat).
Proof.
  intros P Pt I Hi. assert (H : (nth i p 0 < n)%nat). { assert (Lp : length p = n) by (rewrite <- (Permutation_length P), seq_length; reflexivity). assert (X : In (nth i p 0%nat) p) by (apply nth_In; lia). apply (Permutation_in _ (Permutation_sym P)), in_seq in X. lia. }
  rewrite <- (I i Hi) at 1. apply perm_fwd_ok; assumption.
Qed.
Section Factored.
  Variables (n : nat) (A : nat -> nat -> R) (f : psldlt RSc) (L : nat -> nat -> R) (D : nat -> R).
  Hypothesis Hn : ps_n f = n.
  Hypothesis P : Permutation (seq 0 n) (ps_p f).
  Hypothesis Pt : Permutation (seq 0 n) (ps_pt f).
  Hypothesis I : forall i, (i < n)%nat -> nth (nth i (ps_p f) 0%nat) (ps_pt f) 0%nat = i.
  Hypothesis F : factor_of n (renumber (ps_p f) A) L D.
  Hypothesis St : stores n (ps_ld f) L D.
  Lemma renum_full i j : mirror (renumber (ps_p f) A) i j = renumber (ps_p f) A i j.
  Proof. unfold mirror at 1. destruct (Nat.leb_spec j i); [reflexivity|]. unfold renumber, mirror. bd; try reflexivity. replace (nth i (ps_p f) 0%nat) with (nth j (ps_p f) 0%nat) by lia. reflexivity. Qed.
  Lemma ps_solve_ok b : (forall i, (i < n)%nat -> tiny (K := RSc) < Rabs (D i)) -> solves n A (ps_solve (K := RSc) f b) b.
  Proof.
    intros T r Hr. unfold ps_solve. rewrite Hn. set (b' := perm_fwd (K := RSc) n (ps_pt f) b). set (w := ps_solve_impl (K := RSc) n (ps_ld f) b').
    assert (S : solves n (renumber (ps_p f) A) w b') by (apply (ps_solve_impl_ok n _ L D); assumption).
    destruct (idx_onto n (ps_p f) r P Hr) as (i & Hi & <-). specialize (S i Hi). unfold b' in S. rewrite (inverse_fwd n (ps_p f)) in S by assumption. rewrite <- S. unfold mvec. rewrite <- (rsum_perm n (ps_p f) _ P). apply rsum_ext.
    intros j Hj. rewrite perm_fwd_ok by assumption. rewrite renum_full. reflexivity.
  Qed.
  Lemma ps_reconstruct_ok i j : (i < n)%nat -> (j < n)%nat -> ps_reconstruct (K := RSc) f i j = mirror A i j.
  Proof.
    intros Hi Hj. destruct (idx_onto n (ps_p f) i P Hi) as (r & Hr & <-). destruct (idx_onto n (ps_p f) j P Hj) as (c & Hc & <-). unfold ps_reconstruct. rewrite Hn. cbv zeta. rewrite perm_fwd_ok by assumption. rewrite I by assumption. rewrite freeze_id.
    change (mirror A (nth r (ps_p f) 0%nat) (nth c (ps_p f) 0%nat)) with (renumber (ps_p f) A r c). rewrite <- renum_full. rewrite (mirror_ldl n _ L D F r c Hr Hc). rewrite ssum_rsum. unfold ldl. apply rsum_ext. intros t Ht. destruct F as [[U1 U2] _]. destruct St as [S1 S2].
    unfold ps_vectorD. rs. rewrite S2 by exact Ht. bd; try (subst; rewrite ?U1, ?U2, ?S1 by lia; lra). rewrite (U2 c t) by lia. lra.
  Qed.
  Lemma ps_signs : signs n D (ps_sig (K := RSc) f).
  Proof.
    unfold ps_sig. rewrite Hn. split; [rewrite map_length, seq_length; reflexivity|]. intros i Hi. match goal with |- context [map ?g (seq 0 n)] => rewrite (nth_indep _ 0%Z (g 0%nat)) by (rewrite map_length, seq_length; exact Hi); rewrite (map_nth g) end.
    rewrite seq_nth by exact Hi. cbn [Nat.add]. unfold ps_vectorD. destruct St as [_ S2]. cbn [sltb s0 RSc]. rewrite S2 by exact Hi. destruct (Rltb 0 (D i)) eqn:E1; [left; rhyp; auto|]. destruct (Rltb (D i) 0) eqn:E2; [right; left; rhyp; auto|]. right. right. rhyp. split; [lra|reflexivity].
  Qed.
End Factored.

(** ** Pivoted factorisations *)
Lemma signs_signature n D sig : signs n D sig -> sig = d_signature (K := RSc) n (fun i _ => D i).
Proof.
  intros [Ls H]. apply (nth_ext _ _ 0%Z 0%Z); [unfold d_signature; rewrite map_length, seq_length; exact Ls|]. intros i Hi. rewrite Ls in Hi. unfold d_signature.
  match goal with |- context [map ?g (seq 0 n)] => rewrite (nth_indep (map g _) 0%Z (g 0%nat)) by (rewrite map_length, seq_length; exact Hi); rewrite (map_nth g) end. rewrite seq_nth by exact Hi. cbn [Nat.add sltb s0 RSc].
  destruct (H i Hi) as [[X ->]|[[X ->]|[X ->]]].
  - rewrite (proj2 (Rltb_true 0 _)) by exact X. reflexivity.
  - rewrite (proj2 (Rltb_false 0 _)) by lra. rewrite (proj2 (Rltb_true _ 0)) by exact X. reflexivity.
  - rewrite X. rewrite (proj2 (Rltb_false 0 0)) by lra. reflexivity.
Qed.
Lemma pivoted_congruent n A p L D sig : Permutation (seq 0 n) p -> factor_of n (renumber p A) L D -> signs n D sig -> congruent n A sig.
Proof.
  intros P F S. rewrite (signs_signature n D sig S). set (a := fun i _ : nat => D i). destruct (ldl_congruent n (renumber p A) L D a F ltac:(reflexivity)) as (C1 & C2 & T & TO & TE).
  split; [exact C1|]. split; [exact C2|]. assert (Lp : length p = n) by (rewrite <- (Permutation_length P), seq_length; reflexivity).
  assert (INV : forall m, exists g : nat -> nat, forall r, (r < m)%nat -> (r < n)%nat -> (g r < n)%nat /\ nth (g r) p 0%nat = r).
  { induction m as [|m [g G]]; [exists (fun x => x); intros; lia|]. destruct (Nat.lt_ge_cases m n) as [Hm|Hm]; [|exists g; intros r H1 H2; apply G; lia]. destruct (idx_onto n p m P Hm) as (i & Hi & E). exists (fun r => if Nat.eqb r m then i else g r). intros r H1 H2. destruct (Nat.eqb_spec r m) as [->|]; [auto|apply G; lia]. }
  destruct (INV n) as [g G]. exists (fun r c => T (g r) c). split.
  - intros b. destruct (TO (fun i => b (nth i p 0%nat))) as [x Hx]. exists x. intros r Hr. destruct (G r Hr Hr) as [G1 G2]. specialize (Hx (g r) G1). cbv beta in Hx. rewrite G2 in Hx. exact Hx.
  - intros i j Hi Hj. destruct (G i Hi Hi) as [G1 G2]. destruct (G j Hj Hj) as [G3 G4]. rewrite <- TE by assumption. rewrite <- G2 at 1. rewrite <- G4 at 1. unfold renumber. unfold mirror at 2. destruct (Nat.leb_spec (g j) (g i)); [reflexivity|]. unfold mirror. bd; try reflexivity. rewrite G2, G4. replace i with j by lia. reflexivity.
Qed.
Lemma factor_unique n A L D L' D' : factor_of n A L D -> factor_of n A L' D' -> (forall i, (i < n)%nat -> D' i <> 0) -> forall c, (c < n)%nat -> D c = D' c /\ forall r, (c < r)%nat -> (r < n)%nat -> L r c = L' r c.
Proof.
  intros [U F] [U' F'] N c. induction c as [c IH] using (well_founded_induction lt_wf). intros Hc.
  assert (E : forall r, (c <= r)%nat -> (r < n)%nat -> L r c * D c = L' r c * D' c).
  { intros r Hr Hrn. pose proof (F r c Hr Hrn) as E1. pose proof (F' r c Hr Hrn) as E2. rewrite ldl_entry in E1, E2 by assumption. rewrite E1 in E2. assert (X : rsum c (fun t => L r t * D t * L c t) = rsum c (fun t => L' r t * D' t * L' c t)).
    { apply rsum_ext. intros t Ht. destruct (IH t Ht ltac:(lia)) as [I1 I2]. rewrite I1. rewrite (I2 c) by lia. rewrite (I2 r) by lia. reflexivity. } lra. }
  assert (ED : D c = D' c). { pose proof (E c (le_n c) Hc) as X. destruct U as [U1 _], U' as [U1' _]. rewrite U1, U1' in X by exact Hc. lra. }
  split; [exact ED|]. intros r Hr Hrn. specialize (E r ltac:(lia) Hrn). rewrite ED in E. apply (Rmult_eq_reg_r (D' c)); [exact E|apply N; exact Hc].
Qed.
Lemma pivoted_handles (O : oracles RSc) n m Q A mu c : pivoted O (n + m) (qp_kkt n m Q A mu) -> strongly_convex n Q c -> tiny (K := RSc) < c -> tiny (K := RSc) < mu -> handles O n m Q A mu.
Proof.
  intros Pv Sc Hc Hm F. pose proof tiny_pos as TP. assert (C0 : 0 < c) by (cbn [car RSc] in *; lra). assert (M0 : 0 < mu) by (cbn [car RSc] in *; lra). destruct (Pv F) as (p & L & D & P & FA & SG & EX). cbv zeta in SG, EX |- *. set (N := (n + m)%nat) in *. change (qp_kkt n m Q A mu) with (kmat n m Q A mu) in *. set (M := kmat n m Q A mu) in *.
  pose proof (by_renumber N p (entries M) (fun i => Nat.ltb i n) c mu P (kmat_by n m Q A mu c Sc)) as QD.
  destruct (by_factor N _ _ c mu C0 M0 QD) as (L' & D' & FA' & SD).
  assert (BD : forall i, (i < N)%nat -> tiny (K := RSc) < Rabs (D' i) /\ (if Nat.ltb (nth i p 0%nat) n then 0 < D' i else D' i < 0)).
  { intros i Hi. specialize (SD i Hi). cbv beta in SD. pose proof (pivots_big n (nth i p 0%nat) (fun _ => D' i) c mu Hc Hm SD) as X. exact X. }
  assert (ED : forall i, (i < N)%nat -> D i = D' i). { intros i Hi. apply (factor_unique N (renumber p (entries M)) L D L' D' FA FA'); [|exact Hi]. intros k Hk. destruct (BD k Hk) as [_ B]. destruct (Nat.ltb _ n); lra. }
  split.
  - rewrite (signs_signature N D _ SG). replace m with (N - n)%nat by (unfold N; lia). apply (inertia_by_index N n p); [unfold N; lia|exact P|]. intros i Hi. cbv beta. rewrite ED by exact Hi. apply BD, Hi.
  - apply EX. intros i Hi. rewrite ED by exact Hi. apply BD, Hi.
Qed.
Lemma ps_pivoted fz pw ig pv pg ph bf bu qr N M : (forall p pt ld, fz N (entries M) = (p, pt, ld) -> ps_factored N (entries M) p pt ld) ->
  pivoted (mkOracles (K := RSc) pw ig pv pg ph (psldlt RSc) (ps_fac (K := RSc) fz N) (ps_sig (K := RSc)) (ps_solve_list (K := RSc)) bf bu qr) N M.
Proof.
  intros H F. cbn [o_compute o_signature o_solve]. unfold ps_fac, ps_compute. change (fun i j => nth j (nth i M []) (s0 (s := RSc))) with (entries M). destruct (fz N (entries M)) as [[p pt] ld] eqn:E. destruct (H p pt ld eq_refl) as (P & Pt & I & L & D & FA & St). set (f := mkPs (K := RSc) N p pt ld (Some true) (ps_sign F)).
  exists p, L, D. cbv zeta. split; [exact P|]. split; [exact FA|]. split; [eapply (ps_signs N f L D); [reflexivity|exact St]|].
  intros T b Lb. unfold ps_solve_list. cbn [ps_n f]. split; [rewrite map_length, seq_length; reflexivity|].
  apply (solves_ext N _ (ps_solve (K := RSc) f (fun i => nth i b (s0 (s := RSc))))); [intros i Hi; apply DescentX_proofs.tab_nth, Hi|]. apply (ps_solve_ok N (entries M) f L D); try assumption. reflexivity.
Qed.

Lemma pivoted_converges (O : oracles RSc) (P : @params RSc) n Q q ms A b p c xs ls D Rn T fo fi fls fin : let m := Qp_spec.total ms in let K := (Rn * S T + T)%nat in
  forall (s : solver_state O) mus x0 l0,
  answers_like n p (qp n Q q ms A b) -> plain O P n -> outer_params O P D Rn T -> (forall mu, mu_lower P <= mu -> pivoted O (n + m) (qp_kkt n m Q A mu)) -> strongly_convex n Q c -> tiny (K := RSc) < c -> tiny (K := RSc) < mu_lower P ->
  qp_optimal n m Q q A b xs ls -> rsum m (fun k => (nth k l0 0 - ls k) * (nth k l0 0 - ls k)) <= D * D -> length x0 = n -> length l0 = m ->
  sets s = map CEq mus -> length mus = length ms -> buffers_fit p s ->
  (K < max_al_iters P)%nat -> (S K < max_iters P)%nat -> (max_al_iters P < fo)%nat -> (1 < fi)%nat -> (0 < fls)%nat -> (0 < fin)%nat ->
  exists (s' : solver_state O) f, run_solve O fo fi fls fin P p (Some s) x0 l0 = Ret (s', f) /\ length (r_x (res s')) = n /\ length (r_lams (res s')) = m /\
    let x := fun i => nth i (r_x (res s')) 0 in let l := fun k => nth k (r_lams (res s')) 0 in
    (forall k, (k < m)%nat -> Rabs (qp_con n A b x k) <= target_tol P) /\ (forall i, (i < n)%nat -> Rabs (qp_lag n m Q q A x l i) <= target_tol P) /\
    ((f = SUCCESS /\ (r_al_iters (res s') <= K)%nat /\ (r_num_iters (res s') <= S K)%nat) \/
     (exists k, (k < m)%nat /\ Rabs (qp_con n A b x k) = target_tol P) \/ (exists i, (i < n)%nat /\ Rabs (qp_lag n m Q q A x l i) = target_tol P)).
Proof.
  intros m K s mus x0 l0 Hp Pl Op Pv Sc Hc Hm. pose proof tiny_pos as TP. apply solve_final; try assumption.
  - apply (strong_convex n (Qp_spec.total ms) Q A c); [cbn [car RSc] in *; lra|exact Sc].
  - intros mu [H _]. apply (pivoted_handles O n (Qp_spec.total ms) Q A mu c); [apply Pv; exact H|exact Sc|exact Hc|]. cbn [car RSc] in *. lra.
Qed.
Lemma ps_object n A p pt ld sg : ps_factored n A p pt ld -> let f := mkPs (K := RSc) n p pt ld (Some true) sg in
  (forall i j, (i < n)%nat -> (j < n)%nat -> ps_reconstruct (K := RSc) f i j = mirror A i j) /\
  (forall b, (forall i, (i < n)%nat -> tiny (K := RSc) < Rabs (ps_vectorD (K := RSc) f i)) -> solves n A (ps_solve (K := RSc) f b) b) /\
  (forall np, (np <= n)%nat -> regularised np n A -> (check_inertia np (n - np) (ps_sig (K := RSc) f) = Some INERTIA_OK <-> al_convex np n A)).
Proof.
  intros (P & Pt & I & L & D & FA & St) f. split; [|split].
  - intros i j Hi Hj. apply (ps_reconstruct_ok n A f L D); try assumption; reflexivity.
  - intros b T. apply (ps_solve_ok n A f L D); try assumption; try reflexivity. intros i Hi. destruct St as [_ S2]. rewrite <- S2 by exact Hi. apply T, Hi.
  - intros np Hn Rg. apply inertia_iff; [exact Hn|exact Rg|]. apply (pivoted_congruent n A p L D); [exact P|exact FA|]. eapply (ps_signs n f L D); [reflexivity|exact St].
Qed.
Lemma ps_sign_kept : exists n A p pt ld, ps_factored n A p pt ld /\ (forall i, (i < n)%nat -> 0 < ld i i) /\
  let f := ps_compute (K := RSc) (fun _ _ => (p, pt, ld)) (ps_new (K := RSc)) n A in ps_ok f = Some true /\ ps_sign f = ZeroSign.
Proof.
  exists 1%nat, (fun _ _ => 1), [0%nat], [0%nat], (fun _ _ => 1). split; [|split; [intros; lra|split; reflexivity]].
  split; [reflexivity|]. split; [reflexivity|]. split; [intros [|i] Hi; [reflexivity|lia]|]. exists (fun _ _ => 1), (fun _ => 1). split; [split; [split; [reflexivity|intros; lia]|]|split; reflexivity].
  intros [|i] [|j] H1 H2; try lia. unfold renumber, mirror, ldl. cbn. lra.
Qed.
(** The result of a factorisation of [2 3; 3 -1] with the second pivot first, for the example of C97. *)
Definition ex_fz (_ : nat) (_ : nat -> nat -> R) : list nat * list nat * (nat -> nat -> R) :=
  ([1; 0]%nat, [1; 0]%nat, fun i j => match i, j with O, _ => -1 | _, O => -3 | _, _ => 11 end).
