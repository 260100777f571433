(** The dense factorisation of matrices without an LDL' factorisation: a pivot is stored as zero. *)
From Coq Require Import Reals List Bool Arith ZArith Lia Lra Permutation.
From Verif Require Import Scalar Problem_model Symb_model Lin_spec Lin_proofs Symb_spec Armijo_model Solver_model Solver_spec Ldlt_model Ldlt_spec Ldlt_proofs Bk_spec BkX_proofs Descent_spec DescentX_proofs Fac_model.
Import ListNotations.
Local Open Scope R_scope.

(** The columns before k of A are those of L D L' with nonzero pivots, and the pivot k is zero. *)
Definition zero_at (k n : nat) (A L : nat -> nat -> R) (D : nat -> R) : Prop :=
  (k < n)%nat /\ unit_lower n L /\ (forall r c, (c < k)%nat -> (c <= r)%nat -> (r < n)%nat -> A r c = ldl n L D r c) /\ A k k = ldl n L D k k /\ (forall i, (i < k)%nat -> D i <> 0) /\ D k = 0.
Lemma factor_or_zero n A : (exists L D, factor_of n A L D /\ forall i, (i < n)%nat -> D i <> 0) \/ exists k L D, zero_at k n A L D.
Proof.
  enough (H : forall k, (k <= n)%nat -> (exists L D, unit_lower n L /\ (forall r c, (c < k)%nat -> (c <= r)%nat -> (r < n)%nat -> A r c = ldl n L D r c) /\ forall i, (i < k)%nat -> D i <> 0) \/ exists j L D, zero_at j n A L D).
  { destruct (H n (le_n n)) as [(L & D & U & E & N)|H0]; [|right; exact H0]. left. exists L, D. split; [|exact N]. split; [exact U|]. intros i j Hj Hi. apply E; lia. }
  induction k as [|k IH]; intros Hk.
  - left. exists (fun i j => if Nat.eqb i j then 1 else 0), (fun _ => 1). split; [split; intros; bd; reflexivity|]. split; intros; lia.
  - destruct (IH ltac:(lia)) as [(L & D & U & E & N)|H0]; [|right; exact H0]. destruct U as [U1 U2].
    set (dk := A k k - rsum k (fun t => L k t * D t * L k t)). set (D' := fun t => if Nat.eqb t k then dk else D t).
    set (L' := fun r c => if Nat.eqb c k && Nat.ltb k r then (A r k - rsum k (fun t => L r t * D t * L k t)) / dk else L r c).
    assert (UL : unit_lower n L') by (split; intros; unfold L'; bd; [apply U1|apply U1|apply U2|apply U2]; lia).
    assert (ND : forall i, (i < k)%nat -> D' i <> 0) by (intros i Hi; unfold D'; bd; apply N; lia).
    assert (SA : forall r c m, (m <= k)%nat -> (c <= k)%nat -> rsum m (fun t => L' r t * D' t * L' c t) = rsum m (fun t => L r t * D t * L c t)) by (intros r c m Hm Hc; apply rsum_ext; intros t Ht; unfold L', D'; bd; reflexivity).
    assert (OLD : forall r c, (c < k)%nat -> (c <= r)%nat -> (r < n)%nat -> A r c = ldl n L' D' r c).
    { intros r c Hc Hr Hn. rewrite ldl_entry by (try assumption; lia). rewrite SA by lia. rewrite E by lia. rewrite ldl_entry; [|split; assumption|lia|lia]. unfold L', D'. bd; reflexivity. }
    assert (DG : A k k = ldl n L' D' k k).
    { rewrite ldl_entry by (try assumption; lia). rewrite SA by lia. destruct UL as [UL1 _]. rewrite UL1 by lia. unfold D'. rewrite Nat.eqb_refl. unfold dk. ring. }
    destruct (Req_dec dk 0) as [Z|Z].
    + right. exists k, L', D'. split; [lia|]. split; [exact UL|]. split; [exact OLD|]. split; [exact DG|]. split; [exact ND|]. unfold D'. rewrite Nat.eqb_refl. exact Z.
    + left. exists L', D'. split; [exact UL|]. split.
      * intros r c Hc Hr Hn. destruct (Nat.eq_dec c k) as [->|Ne]; [|apply OLD; lia]. destruct (Nat.eq_dec r k) as [->|Nr]; [exact DG|].
        rewrite ldl_entry by (try assumption; lia). rewrite SA by lia. unfold L' at 1. unfold D'. bd. field. exact Z.
      * intros i Hi. destruct (Nat.eq_dec i k) as [->|Ne]; [unfold D'; rewrite Nat.eqb_refl; exact Z|apply ND; lia].
Qed.

Lemma unblocked_zero k n A L D sg : zero_at k n A L D -> fst (unblocked (K := RSc) n A sg) k k = 0.
Proof.
  intros (Hk & U & E & Ek & N & Z). destruct U as [U1 U2].
  assert (EN : forall r c, (c < k)%nat -> (c <= r)%nat -> (r < n)%nat -> A r c = rsum c (fun t => L r t * D t * L c t) + L r c * D c) by (intros r c H1 H2 H3; rewrite E by assumption; apply ldl_entry; [split; assumption|assumption|assumption]).
  assert (EK : A k k = rsum k (fun t => L k t * D t * L k t)). { rewrite Ek, ldl_entry; [rewrite Z; ring|split; assumption|lia|exact Hk]. }
  unfold unblocked. destruct (Nat.leb_spec n 1) as [Hn|Hn]; [cbn [fst]; rewrite EK; replace k with 0%nat by lia; reflexivity|].
  set (inv := fun j (st : (nat -> nat -> R) * sign) => let a := fst st in if Nat.leb j k then
    (forall r c, (c < j)%nat -> (c < r)%nat -> (r < n)%nat -> a r c = L r c) /\ (forall c, (c < j)%nat -> a c c = D c) /\ (forall r c, (j <= c)%nat -> (c <= r)%nat -> (r < n)%nat -> a r c = A r c) else a k k = 0).
  enough (G : inv (0 + n)%nat (fold_left (unb_step (K := RSc) n) (seq 0 n) (A, sg))). { unfold inv in G. destruct (Nat.leb_spec (0 + n) k); [lia|exact G]. }
  apply fold_seq_inv.
  - unfold inv. cbn [Nat.leb fst]. split; [intros; lia|]. split; [intros; lia|]. reflexivity.
  - intros j [a sg'] _ Hj. unfold inv. cbv zeta. cbn [fst]. intros I. set (a1 := unb_work (K := RSc) n j a).
    assert (Lo : forall r c, (c <= r)%nat -> (r < n)%nat -> a1 r c = a r c) by (intros r c Hc Hr; unfold a1, unb_work; bd; reflexivity).
    set (a2 := freeze n n (unb_pivot (K := RSc) n j a1)).
    assert (O2 : forall r c, ~ (r = j /\ c = j) -> a2 r c = a1 r c) by (intros r c X; unfold a2; rewrite freeze_id; unfold unb_pivot; bd; reflexivity).
    assert (C : forall r c, freeze n n (unb_col (K := RSc) n j a2) r c = unb_col (K := RSc) n j a2 r c) by (intros; apply freeze_id).
    destruct (Nat.leb_spec j k) as [Hjk|Hjk].
    2: { destruct (Nat.leb_spec (S j) k); [lia|]. unfold unb_step. fold a1. fold a2. destruct (Nat.eqb_spec (j + 1) n); cbn [fst].
      - rewrite O2 by lia. rewrite Lo by lia. exact I.
      - rewrite C. unfold unb_col. bd. rewrite O2 by lia. rewrite Lo by lia. exact I. }
    destruct I as (H1 & H2 & H3).
    assert (W : forall t, (t < j)%nat -> a1 t (n - 1)%nat = L j t * D t) by (intros t Ht; unfold a1, unb_work; bd; rs; rewrite H1, H2 by lia; reflexivity).
    assert (P2 : a2 j j = D j).
    { unfold a2. rewrite freeze_id. unfold unb_pivot. bd. rs. rewrite ssum_rsum, Lo by lia. rewrite H3 by lia.
      rewrite (rsum_ext j (fun t => a1 t (n - 1)%nat * a1 j t) (fun t => L j t * D t * L j t)).
      - destruct (Nat.eq_dec j k) as [->|Ne]; [rewrite EK, Z; lra|]. rewrite (EN j j) by lia. rewrite U1 by lia. lra.
      - intros t Ht. rewrite W by exact Ht. rewrite Lo by lia. rewrite H1 by lia. reflexivity. }
    unfold unb_step. fold a1. fold a2. destruct (Nat.leb_spec (S j) k) as [Hs|Hs].
    + destruct (Nat.eqb_spec (j + 1) n) as [En|En]; [lia|]. cbn [fst]. split; [|split].
      * intros r c Hc Hr Hn'. rewrite C. unfold unb_col. destruct (Nat.eq_dec c j) as [->|Nj].
        -- bd. rs. rewrite ssum_rsum, P2, O2, Lo by lia. rewrite H3 by lia. rewrite (EN r j) by lia.
           rewrite (rsum_ext j (fun t => a2 r t * a2 t (n - 1)%nat) (fun t => L r t * D t * L j t)).
           { unfold Rdiv. rewrite Rmult_1_l. field. apply N. lia. }
           intros t Ht. rewrite !O2 by lia. rewrite W, Lo by lia. rewrite H1 by lia. lra.
        -- bd. rewrite O2, Lo by lia. apply H1; lia.
      * intros c Hc. rewrite C. unfold unb_col. bd; (destruct (Nat.eq_dec c j) as [->|]; [exact P2|]; rewrite O2, Lo by lia; apply H2; lia).
      * intros r c Hc Hr Hn'. rewrite C. unfold unb_col. bd; rewrite O2, Lo by lia; apply H3; lia.
    + assert (j = k) as -> by lia. rewrite Z in P2. destruct (Nat.eqb_spec (k + 1) n) as [En|En]; cbn [fst]; [exact P2|]. rewrite C. unfold unb_col. bd. exact P2.
Qed.
Lemma dense_zero : forall fuel k n a sg L D, (n < fuel)%nat -> zero_at k n a L D -> exists a' sg', dense_in_place (K := RSc) fuel n a sg = Ret (a', sg') /\ a' k k = 0.
Proof.
  induction fuel as [|f IH]; intros k n a sg L D Hf ZA; [lia|]. cbn [dense_in_place]. destruct (Nat.leb_spec n threshold) as [Hn|Hn].
  - pose proof (unblocked_zero k n a L D sg ZA) as X. destruct (unblocked n a sg) as [a' sg']. exists a', sg'. split; [reflexivity|exact X].
  - unfold threshold in Hn. set (bs := Nat.div (n + 1) 2).
    assert (B1 : (bs <= n - 2)%nat /\ (2 <= bs)%nat).
    { unfold bs. pose proof (Nat.div_mod (n + 1) 2 ltac:(lia)). pose proof (Nat.mod_upper_bound (n + 1) 2 ltac:(lia)). lia. }
    clearbody bs. destruct B1 as [B1 B2]. destruct ZA as (Hk & U & F & Fk & N & Z).
    assert (TOT : forall g m x s, (m < g)%nat -> exists l sg', dense_in_place (K := RSc) g m x s = Ret (l, sg')).
    { induction g as [|g IHg]; intros m x s Hm; [lia|]. cbn [dense_in_place]. destruct (Nat.leb_spec m threshold) as [Hm'|Hm']; [destruct (unblocked m x s) as [l s']; exists l, s'; reflexivity|]. unfold threshold in Hm'.
      pose proof (Nat.div_mod (m + 1) 2 ltac:(lia)). pose proof (Nat.mod_upper_bound (m + 1) 2 ltac:(lia)).
      destruct (IHg (Nat.div (m + 1) 2) (view (K := RSc) 0 x) s ltac:(lia)) as (l & s' & ->). cbn [bind]. match goal with |- context [dense_in_place g ?m2 ?x2 s'] => destruct (IHg m2 x2 s' ltac:(lia)) as (l2 & s2 & ->) end. cbn [bind]. eexists _, _. reflexivity. }
    destruct (Nat.lt_ge_cases k bs) as [Hkb|Hkb].
    + destruct (IH k bs (view (K := RSc) 0 a) sg L D ltac:(lia)) as (l00 & sg1 & E1 & X).
      { split; [exact Hkb|]. split; [apply (unit_head bs n); [lia|exact U]|]. split; [intros r c Hc Hr Hb; unfold view; cbn [Nat.add]; rewrite F by lia; apply ldl_head; [lia|exact U|lia|lia]|].
        split; [unfold view; cbn [Nat.add]; rewrite Fk; apply ldl_head; [lia|exact U|lia|lia]|]. split; [exact N|exact Z]. }
      rewrite E1. cbn [bind]. match goal with |- context [dense_in_place f ?m2 ?x2 sg1] => destruct (TOT f m2 x2 sg1 ltac:(lia)) as (l2 & s2 & ->) end. cbn [bind]. eexists _, _. split; [reflexivity|].
      unfold paste at 1. bd. unfold rec_update. bd. unfold rec_scale. bd. unfold rec_work. bd.
      set (p := paste (K := RSc) 0 bs l00 a). assert (R2 : solve_right (K := RSc) 0 bs bs (n - bs) p k k = p k k).
      { unfold solve_right. match goal with |- fold_left ?g _ _ _ _ = _ => apply (fold_seq_inv (fun _ b => b k k = p k k) g bs 0 p) end; [reflexivity|]. intros q b _ Hq I. cbv beta. rewrite freeze_id. bd; exact I. }
      rewrite R2. unfold p, paste. bd. rewrite Nat.sub_0_r. exact X.
    + assert (FB : factor_of bs (view (K := RSc) 0 a) L D). { split; [apply (unit_head bs n); [lia|exact U]|]. intros i j Hj Hi. unfold view. cbn [Nat.add]. rewrite F by lia. apply ldl_head; [lia|exact U|lia|lia]. }
      destruct (dense_ok f bs (view (K := RSc) 0 a) sg L D ltac:(lia) FB) as (l00 & sg1 & E1 & [S1 S2] & _).
      { intros i Hi. apply N. lia. }
      rewrite E1. cbn [bind].
      set (p := paste (K := RSc) 0 bs l00 a). set (a1 := solve_right (K := RSc) 0 bs bs (n - bs) p).
      assert (P1 : forall i j, (j < bs)%nat -> (i < bs)%nat -> p i j = l00 i j). { intros i j Hj Hi. unfold p, paste. bd. rewrite !Nat.sub_0_r. reflexivity. }
      assert (P2 : forall i j, (bs <= i)%nat \/ (bs <= j)%nat -> p i j = a i j). { intros i j H. unfold p, paste. bd; reflexivity. }
      destruct (solve_right_ok 0 bs bs (n - bs) p (fun r q => L r q * D q)) as [R1 R2]; [lia| |].
      { intros r q Hr Hr' Hq. cbn [Nat.add]. rewrite P2 by lia. rewrite F by lia. rewrite (ldl_entry n L D r q U) by lia. f_equal. apply rsum_ext. intros t Ht. rewrite P1 by lia. rewrite S1 by lia. lra. }
      fold a1 in R1, R2. cbn [Nat.add] in R1, R2.
      set (a2 := rec_scale (K := RSc) bs n (rec_work (K := RSc) bs n a1)). set (a3 := rec_update (K := RSc) bs n a2).
      assert (V2 : forall r c, (c < bs)%nat -> (bs <= r)%nat -> (r < n)%nat -> a2 r c = L r c).
      { intros r c Hc Hr Hn'. unfold a2, rec_scale. bd. rs. assert (E : rec_work (K := RSc) bs n a1 r c = L r c * D c) by (unfold rec_work; bd; apply R1; lia). rewrite E.
        assert (E' : rec_work (K := RSc) bs n a1 c c = D c) by (unfold rec_work; bd; rewrite R2 by lia; rewrite P1 by lia; apply S2; lia). rewrite E'. field. apply N. lia. }
      assert (V3 : forall t c, (t < bs)%nat -> (bs <= c)%nat -> (c < n)%nat -> a2 t c = L c t * D t).
      { intros t c Ht Hc Hn'. unfold a2, rec_scale. bd. unfold rec_work. bd. apply R1; lia. }
      assert (V4 : forall r c, (bs <= c)%nat -> (c <= r)%nat -> (r < n)%nat -> a3 r c = a r c - rsum bs (fun t => L r t * D t * L c t)).
      { intros r c Hc Hr Hn'. unfold a3, rec_update. bd. rs. rewrite ssum_rsum. assert (E : a2 r c = a r c). { unfold a2, rec_scale. bd. unfold rec_work. bd. rewrite R2 by lia. apply P2. lia. } rewrite E. f_equal.
        apply rsum_ext. intros t Ht. rewrite V2, V3 by lia. lra. }
      fold a2. fold a3. destruct (IH (k - bs)%nat (n - bs)%nat (view (K := RSc) bs a3) sg1 (fun i j => L (bs + i)%nat (bs + j)%nat) (fun i => D (bs + i)%nat) ltac:(lia)) as (l11 & sg2 & E2 & X).
      { assert (TL : forall i j, (j <= i)%nat -> (bs + i < n)%nat -> (bs + j < k)%nat \/ (i = k - bs /\ j = k - bs)%nat -> view (K := RSc) bs a3 i j = ldl (n - bs) (fun i j => L (bs + i)%nat (bs + j)%nat) (fun i => D (bs + i)%nat) i j).
        { intros i j Hj Hi HH. unfold view. rewrite V4 by lia. assert (EA : a (bs + i)%nat (bs + j)%nat = ldl n L D (bs + i)%nat (bs + j)%nat). { destruct HH as [HH|[-> ->]]; [apply F; lia|]. replace (bs + (k - bs))%nat with k by lia. exact Fk. }
          rewrite EA. replace n with (bs + (n - bs))%nat at 1 by lia. rewrite ldl_tail. lra. }
        split; [lia|]. split; [apply unit_tail; replace (bs + (n - bs))%nat with n by lia; exact U|]. split; [intros r c Hc Hr Hr'; apply TL; lia|]. split; [apply TL; lia|]. split; [intros i Hi; apply N; lia|]. replace (bs + (k - bs))%nat with k by lia. exact Z. }
      rewrite E2. cbn [bind]. eexists _, _. split; [reflexivity|]. unfold paste. bd. exact X.
Qed.

(** ** The inertia test with the dense factorisation *)
Lemma dense_computed F N M : dl_n (dense_fac (K := RSc) N F M) = N /\
  ((exists L D, factor_of N (entries M) L D /\ (forall i, (i < N)%nat -> D i <> 0) /\ stores N (dl_mat (dense_fac (K := RSc) N F M)) L D /\
     ((forall i, (i < N)%nat -> tiny (K := RSc) < Rabs (D i)) -> forall b, solves N (entries M) (dldlt_solve (K := RSc) (dense_fac (K := RSc) N F M) b) b)) \/
   exists k, (k < N)%nat /\ dl_mat (dense_fac (K := RSc) N F M) k k = 0).
Proof.
  destruct (factor_or_zero N (entries M)) as [(L & D & FA & ND)|(k & L & D & ZA)].
  - destruct (compute_ok F N (entries M) L D FA) as (d' & C1 & C2 & C3 & C4 & C5 & C6 & _). { intros i Hi. apply ND. lia. }
    assert (EF : dense_fac (K := RSc) N F M = d'). { unfold dense_fac. change (fun i j => nth j (nth i M []) (s0 (s := RSc))) with (entries M). rewrite C1. reflexivity. }
    rewrite EF. split; [exact C2|]. left. exists L, D. split; [exact FA|]. split; [exact ND|]. split; [exact C3|exact C6].
  - destruct (dense_zero (N + 1) k N (entries M) (dl_sign F) L D ltac:(lia) ZA) as (a' & sg' & E & X).
    assert (EF : dense_fac (K := RSc) N F M = mkDldlt (K := RSc) N a' (Some true) sg'). { unfold dense_fac, dldlt_compute. change (fun i j => nth j (nth i M []) (s0 (s := RSc))) with (entries M). rewrite E. reflexivity. }
    rewrite EF. split; [reflexivity|]. right. exists k. split; [apply ZA|exact X].
Qed.
Lemma zero_signature N (a : nat -> nat -> R) k : (k < N)%nat -> a k k = 0 -> In 0%Z (d_signature (K := RSc) N a).
Proof.
  intros Hk E. apply in_map_iff. exists k. split; [|apply in_seq; lia]. cbn [sltb s0 RSc]. rewrite E. rewrite (proj2 (Rltb_false _ _)) by lra. reflexivity.
Qed.
Lemma dense_sound F ndx nd M : let N := (ndx + nd)%nat in let F' := dense_fac (K := RSc) N F M in regularised ndx N (entries M) -> check_inertia ndx nd (dense_sig (K := RSc) F') = Some INERTIA_OK ->
  al_convex ndx N (entries M) /\ dl_n F' = N /\ (forall i, (i < N)%nat -> dl_mat F' i i <> 0) /\
  ((forall i, (i < N)%nat -> tiny (K := RSc) < Rabs (dl_mat F' i i)) -> exact_solver N (entries M) (dense_solve_list (K := RSc) F')).
Proof.
  intros N F' Rg C. destruct (dense_computed F N M) as [Nn H]. fold F' in Nn, H. unfold dense_sig in C. rewrite Nn in C. destruct H as [(L & D & FA & ND & [ST1 ST2] & SV)|(k & Hk & Z)].
  - split; [apply (ldl_inertia ndx N (entries M) L D (dl_mat F')); [unfold N; lia|exact Rg|exact FA|exact ST2|replace (N - ndx)%nat with nd by (unfold N; lia); exact C]|]. split; [exact Nn|]. split; [intros i Hi; rewrite ST2 by exact Hi; apply ND, Hi|].
    intros TT v Lv. unfold dense_solve_list. rewrite Nn. split; [rewrite map_length, seq_length; reflexivity|].
    apply (solves_ext N _ (dldlt_solve (K := RSc) F' (fun i => nth i v (s0 (s := RSc))))); [intros i Hi; apply DescentX_proofs.tab_nth, Hi|]. apply SV. intros i Hi. rewrite <- ST2 by exact Hi. apply TT, Hi.
  - exfalso. apply (ok_no_zero _ _ _ C). exact (zero_signature N (dl_mat F') k Hk Z).
Qed.
Lemma dense_faithful pw ig pv pg ph bf bu qr ndx nd :
  faithful_on (mkOracles (K := RSc) pw ig pv pg ph (dldlt RSc) (dense_fac (K := RSc) (ndx + nd)) (dense_sig (K := RSc)) (dense_solve_list (K := RSc)) bf bu qr)
    (fun F => forall i, (i < ndx + nd)%nat -> tiny (K := RSc) < Rabs (dl_mat F i i)) ndx nd.
Proof.
  intros F M N _ _ Rg G C. cbn [o_signature o_compute o_solve o_fac] in *. fold N in G, C |- *. destruct (dense_sound F ndx nd M Rg C) as (Cx & _ & _ & Ex). split; [exact Cx|]. apply Ex. exact G.
Qed.
(** A KKT matrix with a zero Hessian. *)
Lemma dense_rejects : let M := [[0; 1]; [1; -1]] in regularised 1 2 (entries M) /\ al_convex 1 2 (entries M) /\
  forall F, check_inertia 1 1 (dense_sig (K := RSc) (dense_fac (K := RSc) 2 F M)) = Some INERTIA_HAS_ZEROS.
Proof.
  intros M. split; [split|split].
  - intros i H1 H2. replace i with 1%nat by lia. cbn. lra.
  - intros i j H1 H2 H3. lia.
  - intros x (i & Hi & Hx). replace i with 0%nat in Hx by lia. unfold al_form, form. cbn [Nat.sub rsum Nat.add]. unfold mirror. cbn. pose proof (Rsqr_pos_lt _ Hx) as P. unfold Rsqr in P. match goal with |- 0 < ?e => replace e with (x 0%nat * x 0%nat) by field end. exact P.
  - intros F. destruct (dense_computed F 2 M) as [Nn H]. unfold dense_sig. rewrite Nn. set (a := dl_mat (dense_fac (K := RSc) 2 F M)) in *.
    enough (Z : a 0%nat 0%nat = 0).
    { unfold d_signature, check_inertia, inertia_tuple. cbn [seq map]. cbn [sltb s0 RSc]. rewrite Z. rewrite (proj2 (Rltb_false 0 0)) by lra. cbn [inertia_tuple_loop Z.eqb]. destruct (Rltb 0 (a 1%nat 1%nat)); [reflexivity|]. destruct (Rltb (a 1%nat 1%nat) 0); reflexivity. }
    clear H. unfold a. destruct (dense_zero (2 + 1) 0 2 (entries M) (dl_sign F) (fun i j => if Nat.eqb i j then 1 else 0) (fun _ => 0) ltac:(lia)) as (a' & sg' & E & X).
    { split; [lia|]. split; [split; intros; bd; reflexivity|]. split; [intros; lia|]. split; [cbn; ring|]. split; [intros; lia|reflexivity]. }
    unfold dense_fac, dldlt_compute. change (fun i j => nth j (nth i M []) (s0 (s := RSc))) with (entries M). rewrite E. exact X.
Qed.
Lemma dense_two F a b c : a <> 0 -> let d := fun i => match i with O => a | _ => c - b * b / a end in
  dense_sig (K := RSc) (dense_fac (K := RSc) 2 F [[a; b]; [b; c]]) = map (fun i => if Rltb 0 (d i) then 1%Z else if Rltb (d i) 0 then (-1)%Z else 0%Z) [0%nat; 1%nat].
Proof.
  intros Ha d. set (L := fun i j : nat => if Nat.eqb i j then 1 else if Nat.ltb j i then b / a else 0). set (M := [[a; b]; [b; c]]).
  assert (FA : factor_of 2 (entries M) L d).
  { split; [split; intros; unfold L; bd; reflexivity|]. intros i j Hj Hi. unfold ldl. destruct i as [|[|i]], j as [|[|j]]; try lia; unfold entries, M, L, d; cbn; field; exact Ha. }
  destruct (compute_ok F 2 (entries M) L d FA) as (d' & C1 & C2 & [_ C3] & _). { intros i Hi. replace i with 0%nat by lia. exact Ha. }
  assert (EF : dense_fac (K := RSc) 2 F M = d'). { unfold dense_fac. change (fun i j => nth j (nth i M []) (s0 (s := RSc))) with (entries M). rewrite C1. reflexivity. }
  rewrite EF. unfold dense_sig, d_signature. rewrite C2. cbn [seq map]. cbn [sltb s0 RSc]. rewrite !C3 by lia. reflexivity.
Qed.
