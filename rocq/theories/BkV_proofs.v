(** Bunch-Kaufman: compute and solve. *)
From Coq Require Import Reals ZArith List Bool Arith Lia Lra.
From Verif Require Import Scalar Problem_model Lin_spec Lin_proofs Ldlt_model Ldlt_spec Ldlt_proofs Bk_model Bk_spec Bk_proofs BkP_proofs BkS_proofs.
Import ListNotations.
Local Open Scope R_scope.
Local Notation mx := (nat -> nat -> R).

(** The later swaps do not touch the rows of the pivot of column c. *)
Lemma tperm_bound n S a piv st : forall k c m i, good n k st S a piv -> (k <= c -> m = c + 1 \/ (two_at k st c = true /\ m = c + 2))%nat -> (c < k -> m <= k)%nat ->
  ((i < m)%nat -> tperm k st c i = i) /\ ((m <= i)%nat -> (m <= tperm k st c i)%nat).
Proof.
  revert S. induction st as [|s st IH]; intros S k c m i G H1 H2; [cbn [tperm]; split; intros; [reflexivity|assumption]|].
  cbn [good tperm two_at] in *. destruct G as [(Q1 & Q2 & _) G]. pose proof (stepn_le k (snd s)) as Sl. pose proof (kkof_ge k (snd s)) as Kg.
  destruct (IH _ (stepn k (snd s)) c m i G) as [I1 I2].
  - intros Hc. destruct (H1 ltac:(lia)) as [E|[E1 E2]]; [left; exact E|]. right. split; [|exact E2]. apply orb_true_iff in E1. destruct E1 as [E1|E1]; [|exact E1]. apply andb_true_iff in E1. destruct E1 as [_ E1]. apply Nat.eqb_eq in E1. lia.
  - intros Hc. destruct (Nat.lt_ge_cases c k) as [L|L]; [specialize (H2 L); lia|]. destruct (H1 L) as [E|[E1 E2]]; [lia|]. apply orb_true_iff in E1. destruct E1 as [E1|E1].
    + apply andb_true_iff in E1. destruct E1 as [E0 E1]. apply Nat.eqb_eq in E1. rewrite E0. cbn [stepn]. lia.
    + apply two_at_range in E1. lia.
  - destruct (Nat.ltb_spec c k) as [L|L]; [|split; assumption]. specialize (H2 L). split; intros Hi.
    + rewrite I1 by exact Hi. apply swp_below; lia.
    + apply swp_ge; [lia|lia|]. apply I2, Hi.
Qed.
Lemma tperm_lt n S a piv st : forall k c i, good n k st S a piv -> (i < n)%nat -> (tperm k st c i < n)%nat.
Proof.
  revert S. induction st as [|s st IH]; intros S k c i G Hi; [exact Hi|]. cbn [good tperm] in *. destruct G as [(G1 & G2 & _) G]. specialize (IH _ _ c i G Hi). destruct (Nat.ltb c k); [apply swp_lt; lia|exact IH].
Qed.

(** The factor L of the steps. *)
Definition lmat (k : nat) (st : list (nat * bool)) (a : mx) : mx := fun i c =>
  if Nat.eqb i c then 1 else if Nat.ltb i c then 0 else if Nat.leb (fin k st) c then 0 else if two_at k st c && Nat.eqb i (c + 1) then 0 else a (tperm k st c i) c.
Lemma lmat_lcol n k st a : lcol n k st a (lmat k st a).
Proof. intros i c _ _ _. reflexivity. Qed.
Lemma lmat_unit n k st a : unit_lower n (lmat k st a).
Proof. split; intros; unfold lmat; bd; reflexivity. Qed.

(** ** The inverse pivots *)
Lemma diag_pass_ok n (m : mx) (sd : nat -> R) a piv st : forall fuel k S (x : nat -> R), good n k st S a piv -> fin k st = n -> (n - k <= fuel)%nat -> sym S ->
  (forall c, (k <= c)%nat -> (c < n)%nat -> m c c = a c c) -> (forall c, two_at k st c = true -> sd c = a (c + 1)%nat c) ->
  exists y, diag_pass (K := RSc) fuel n k m sd piv x = Ret y /\ (forall i, (i < k)%nat -> y i = x i) /\ forall c, (k <= c)%nat -> (c < n)%nat -> rsum n (fun d => emat n k st S c d * y d) = x c.
Proof.
  induction st as [|[p b] st IH]; intros fuel k S x G F Hf Sy Hm Hs.
  - cbn in F. subst k. exists x. destruct fuel; cbn [diag_pass]; rewrite Nat.ltb_irrefl; (split; [reflexivity|]; split; [reflexivity|]; intros; lia).
  - cbn [good fin snd] in *. destruct G as [G1 G2]. destruct (good1_dec _ _ _ _ _ _ G1) as (D1 & D2 & D3 & D4). cbn [fst snd] in *. pose proof (stepn_le k b). pose proof (fin_ge st (stepn k b)).
    destruct fuel as [|f]; [lia|]. cbn [diag_pass]. destruct (Nat.ltb_spec k n); [|lia]. rewrite D1. unfold good1 in G1. cbn [fst snd] in G1. set (S1 := sp k (p, b) S) in *.
    assert (SS : sym S1) by (apply psw_sym, Sy). pose proof (nxt_sym k (p, b) S Sy) as SN. destruct b; cbn [stepn kkof] in *.
    + destruct (Nat.leb_spec n (k + 1)); [lia|]. destruct G1 as (_ & _ & _ & Y & D & A1 & A2 & A3 & _ & _ & _).
      match goal with |- context[diag_pass f n (k + 2) m sd piv ?z] => destruct (IH f (k + 2)%nat _ z G2 F ltac:(lia) SN) as (y & E & B1 & B2); [intros; apply Hm; lia|intros c Hc; apply Hs; cbn [two_at snd stepn]; rewrite Hc; apply orb_true_r|set (x' := z) in *] end.
      assert (X' : forall i, x' i = if Nat.eqb i k then x k * m k k + x (k + 1)%nat * sd k else if Nat.eqb i (k + 1) then x (k + 1)%nat * m (k + 1)%nat (k + 1)%nat + x k * sd k else x i) by (intros i; unfold x'; rewrite freezev_id; reflexivity).
      rewrite !Hm, Hs in X' by (try lia; cbn [two_at snd]; rewrite Nat.eqb_refl; reflexivity). rewrite A1, A2, A3 in X'.
      exists y. split; [exact E|]. split; [intros i Hi; rewrite B1 by lia; rewrite X'; bd; reflexivity|].
      intros c Hc1 Hc2. destruct (Nat.lt_ge_cases c (k + 2)) as [Hc|Hc].
      * rewrite (rsum_two n _ k ltac:(lia)).
        { cbn [emat snd stepn]. fold S1. rewrite !emat_below by lia. rewrite !B1, !X' by lia. unfold e11, e21, e22. assert (DN : det2 k S1 <> 0) by lra.
          assert (C : c = k \/ c = (k + 1)%nat) by lia. destruct C as [->| ->]; bd; rewrite ?(SS k (k + 1)%nat); unfold det2 in *; field; exact DN. }
        { intros d Hd N1 N2. cbn [emat snd stepn]. rewrite emat_below by lia. bd; ring. }
      * rewrite (rsum_ext n (fun d => emat n k ((p, true) :: st) S c d * y d) (fun d => emat n (k + 2) st (nxt k (p, true) S) c d * y d)).
        { rewrite B2 by lia. rewrite X'. bd. reflexivity. }
        { intros d Hd. cbn [emat snd stepn]. bd; ring. }
    + destruct G1 as (_ & _ & _ & D & A1 & _ & _).
      match goal with |- context[diag_pass f n (k + 1) m sd piv ?z] => destruct (IH f (k + 1)%nat _ z G2 F ltac:(lia) SN) as (y & E & B1 & B2); [intros; apply Hm; lia|intros c Hc; apply Hs; cbn [two_at snd stepn]; rewrite Hc; apply orb_true_r|set (x' := z) in *] end.
      assert (X' : forall i, x' i = if Nat.eqb i k then x k * m k k else x i) by (intros i; unfold x'; rewrite freezev_id; reflexivity).
      rewrite Hm, A1 in X' by lia.
      exists y. split; [exact E|]. split; [intros i Hi; rewrite B1 by lia; rewrite X'; bd; reflexivity|].
      intros c Hc1 Hc2. destruct (Nat.lt_ge_cases c (k + 1)) as [Hc|Hc].
      * assert (c = k) by lia. subst c. rewrite (rsum_one n _ k ltac:(lia)).
        { cbn [emat snd stepn]. fold S1. rewrite emat_below by lia. rewrite B1, X' by lia. bd. field. exact D. }
        { intros d Hd N1. cbn [emat snd stepn]. rewrite emat_below by lia. bd; ring. }
      * rewrite (rsum_ext n (fun d => emat n k ((p, false) :: st) S c d * y d) (fun d => emat n (k + 1) st (nxt k (p, false) S) c d * y d)).
        { rewrite B2 by lia. rewrite X'. bd. reflexivity. }
        { intros d Hd. cbn [emat snd stepn]. bd; ring. }
Qed.

(** ** The object after compute *)
Lemma mirror_sym (A : mx) : sym (mirror A).
Proof. intros i j. unfold mirror. destruct (Nat.leb_spec j i), (Nat.leb_spec i j); try reflexivity; [|lia]. replace i with j by lia. reflexivity. Qed.
Definition computed (n : nat) (A : mx) (s : bk RSc) (st : list (nat * bool)) (g : mx) (pv : nat -> Z) : Prop :=
  bk_n s = n /\ good n 0 st (mirror A) g pv /\ (fin 0 st <= n)%nat /\
  if bk_ok s then fin 0 st = n /\ pv = bk_piv s /\ (forall r c, bk_mat s r c = if two_at 0 st c && Nat.eqb (tperm 0 st c r) (c + 1) then 0 else g (tperm 0 st c r) c) /\
    (forall i, (i < n)%nat -> bk_sub s i = if two_at 0 st i then g (i + 1)%nat i else 0)
  else (fin 0 st < n)%nat /\ forall i, (fin 0 st <= i)%nat -> (i < n)%nat -> after 0 st (mirror A) i (fin 0 st) = 0.
Lemma compute_ok n A : exists s st g pv, bk_compute (K := RSc) n A = Ret s /\ computed n A s st g pv.
Proof.
  unfold bk_compute, bk_in_place. set (a0 := freeze n n _).
  assert (L0 : low n 0 a0 (mirror A)) by (intros r c _ H1 H2; unfold a0; rewrite freeze_id; unfold mirror; bd; reflexivity).
  destruct (blocks_ok n (blocksize n) ltac:(unfold blocksize; destruct (Nat.leb n 32); lia) n 0%nat a0 (fun _ _ => 0) (fun _ => 0%Z) (mirror A) ltac:(lia) ltac:(lia) (mirror_sym A) L0 ltac:(reflexivity))
    as (a1 & piv1 & ok & st & g & pv & E & G & Hf & _ & _ & R). rs. rewrite E. cbn [bind]. destruct ok.
  - destruct R as [F G']. destruct (sub_pass_ok n (mirror A) a1 piv1 st n 0%nat a1 (fun _ => 0) G' F ltac:(lia)) as (a2 & sd & E2 & A2 & B2). rewrite E2. cbn [bind].
    destruct (row_pass_ok n (mirror A) a1 piv1 st n 0%nat (freeze n n a2) G' F ltac:(lia)) as (a3 & E3 & A3). rewrite E3. cbn [bind].
    eexists _, st, a1, piv1. split; [reflexivity|]. unfold computed. cbn [bk_n bk_ok bk_piv bk_mat bk_sub]. do 4 (split; [auto|]). split; [reflexivity|]. split.
    + intros r c. rewrite A3, freeze_id, A2. reflexivity.
    + intros i Hi. rewrite B2. bd. reflexivity.
  - eexists _, st, g, pv. split; [reflexivity|]. unfold computed. cbn [bk_n bk_ok]. auto.
Qed.
Lemma computed_lower n A s st g : computed n A s st g (bk_piv s) -> bk_ok s = true ->
  (forall c, (c < n)%nat -> bk_mat s c c = g c c) /\ (forall r c, (c < r)%nat -> (r < n)%nat -> bk_mat s r c = lmat 0 st g r c).
Proof.
  intros (_ & G & _ & R) Ok. rewrite Ok in R. destruct R as (F & _ & Mt & _). split.
  - intros c Hc. rewrite Mt. destruct (tperm_bound n _ _ _ st 0 c (c + 1) c G) as [T _]; [auto|lia|]. rewrite T by lia. destruct (Nat.eqb_spec c (c + 1)); [lia|]. rewrite andb_false_r. reflexivity.
  - intros r c H1 H2. rewrite Mt. unfold lmat. destruct (Nat.eqb_spec r c); [lia|]. destruct (Nat.ltb_spec r c); [lia|]. destruct (Nat.leb_spec (fin 0 st) c); [lia|].
    destruct (two_at 0 st c) eqn:T2; cbn [andb]; [|reflexivity]. destruct (tperm_bound n _ _ _ st 0 c (c + 2) r G) as [T3 T4]; [auto|lia|].
    destruct (Nat.eqb_spec r (c + 1)) as [->|N]; [rewrite T3 by lia; rewrite Nat.eqb_refl; reflexivity|]. specialize (T4 ltac:(lia)). destruct (Nat.eqb_spec (tperm 0 st c r) (c + 1)); [lia|]. reflexivity.
Qed.

(** ** The solve *)
Lemma lel_mvec n L E x i : rsum n (fun j => lel n L E i j * x j) = rsum n (fun c => L i c * rsum n (fun d => E c d * rsum n (fun j => L j d * x j))).
Proof.
  unfold lel. rewrite (rsum_ext n (fun j => rsum n (fun c => rsum n (fun d => L i c * E c d * L j d)) * x j) (fun j => rsum n (fun c => rsum n (fun d => L i c * E c d * L j d) * x j))) by (intros; rewrite rsum_scale_r; reflexivity).
  rewrite rsum_swap. apply rsum_ext. intros c Hc.
  rewrite (rsum_ext n (fun j => rsum n (fun d => L i c * E c d * L j d) * x j) (fun j => rsum n (fun d => L i c * E c d * L j d * x j))) by (intros; rewrite rsum_scale_r; reflexivity).
  rewrite rsum_swap. rewrite <- rsum_scale. apply rsum_ext. intros d Hd. rewrite <- !rsum_scale. apply rsum_ext. intros j Hj. ring.
Qed.
(** A in the coordinates of the permutation. *)
Lemma perm_mvec n A g pv st x i : good n 0 st (mirror A) g pv -> (fin 0 st <= n)%nat -> (i < n)%nat ->
  mvec n (mirror A) x (fperm 0 st i) = rsum n (fun c => lmat 0 st g i c * rsum n (fun d => emat n 0 st (mirror A) c d * rsum n (fun j => lmat 0 st g j d * x (fperm 0 st j)))).
Proof.
  intros G F Hi. unfold mvec. rewrite <- (rsum_fperm n _ _ _ st 0 (fun j => mirror A (fperm 0 st i) j * x j) G). rewrite <- lel_mvec. apply rsum_ext. intros j Hj.
  rewrite (factor_product n g pv (lmat 0 st g) st 0 (mirror A) G F (mirror_sym A) (lmat_lcol n 0 st g) i j) by lia. reflexivity.
Qed.
Lemma bk_solve_ok n A s b : bk_compute (K := RSc) n A = Ret s -> bk_ok s = true -> exists x, bk_solve s b = Ret x /\ solves n A x b.
Proof.
  intros E Ok. destruct (compute_ok n A) as (s' & st & g & pv & E' & C). rewrite E in E'. injection E' as <-. pose proof C as C0. destruct C as (N & G & _ & R). rewrite Ok in R. destruct R as (F & -> & Mt & Sd).
  destruct (computed_lower n A s st g C0 Ok) as [LD LL]. unfold bk_solve. rewrite N.
  destruct (swap_pass_ok n _ _ _ st n 0%nat b G F ltac:(lia)) as (x1 & E1 & X1). rewrite E1. cbn [bind]. clear E1.
  pose proof (lmat_unit n 0 st g) as U. destruct (lower_solution n _ x1 U) as [y2 Y2]. set (x2 := fwd (K := RSc) 0 n (bk_mat s) x1).
  assert (X2 : forall i, (i < n)%nat -> x2 i = y2 i).
  { intros q Hq. destruct (fwd_ok 0 n (bk_mat s) x1 y2) as [H _]; [|exact (H q Hq)]. intros p Hp. cbn [Nat.add]. rewrite Y2 by exact Hp. rewrite (lower_rows n _ y2 p U Hp). f_equal. apply rsum_ext. intros t Ht. rewrite LL by lia. reflexivity. }
  destruct (diag_pass_ok n (bk_mat s) (bk_sub s) g (bk_piv s) st n 0%nat (mirror A) x2 G F ltac:(lia) (mirror_sym A)) as (x3 & E3 & _ & X3); [intros; apply LD; lia|intros c Hc; pose proof (two_at_range _ _ _ Hc); rewrite Sd by lia; rewrite Hc; reflexivity|].
  rewrite E3. cbn [bind]. clear E3. destruct (upper_solution n _ x3 U) as [y4 Y4]. set (x4 := bwd (K := RSc) 0 n (fun r c => bk_mat s c r) x3).
  assert (X4 : forall i, (i < n)%nat -> x4 i = y4 i).
  { intros q Hq. destruct (bwd_ok 0 n (fun r c => bk_mat s c r) x3 y4) as [H _]; [|exact (H q Hq)]. intros p Hp. cbn [Nat.add]. rewrite Y4 by exact Hp. rewrite (upper_rows n _ y4 p U Hp). f_equal. apply rsum_ext. intros t Ht. rewrite LL by lia. reflexivity. }
  destruct (back_pass_ok n _ _ _ st n x4 G ltac:(lia)) as (x & E5 & X5). rewrite F in E5. rewrite E5. exists x. split; [reflexivity|].
  intros i' Hi'. rewrite <- (fperm_iperm st 0 i'). pose proof (iperm_lt n _ _ _ st 0 i' G Hi') as Hi. set (i := iperm 0 st i') in *. rewrite (perm_mvec n A g (bk_piv s) st x i G ltac:(lia) Hi).
  rewrite <- X1. rewrite (Y2 i Hi). apply rsum_ext. intros c Hc. f_equal. rewrite <- X2 by exact Hc. rewrite <- X3 by lia. apply rsum_ext. intros d Hd. f_equal. rewrite Y4 by exact Hd. apply rsum_ext. intros j Hj. rewrite X5, X4 by exact Hj. reflexivity.
Qed.

(** ** Success and singular matrices *)
Lemma emat_tail n st : forall k S c d, (fin k st <= d)%nat -> emat n k st S c d = if Nat.leb (fin k st) c && Nat.ltb c n && Nat.ltb d n then after k st S c d else 0.
Proof.
  induction st as [|s st IH]; intros k S c d H; cbn [emat fin after] in *; [bd; reflexivity|]. pose proof (fin_ge st (stepn k (snd s))). pose proof (stepn_le k (snd s)). rewrite IH by exact H. bd; lra.
Qed.
Lemma zero_or_not n (u : nat -> R) : (forall i, (i < n)%nat -> u i = 0) \/ exists i, (i < n)%nat /\ u i <> 0.
Proof.
  induction n as [|n [IH|[i [H1 H2]]]]; [left; intros; lia| |right; exists i; split; [lia|exact H2]].
  destruct (Req_dec (u n) 0) as [E|E]; [left|right; exists n; split; [lia|exact E]]. intros i Hi. destruct (Nat.eq_dec i n) as [->|]; [exact E|apply IH; lia].
Qed.
Lemma failed_singular n A s : bk_compute (K := RSc) n A = Ret s -> bk_ok s = false -> exists x, (forall i, (i < n)%nat -> mvec n (mirror A) x i = 0) /\ exists i, (i < n)%nat /\ x i <> 0.
Proof.
  intros E Ok. destruct (compute_ok n A) as (s' & st & g & pv & E' & C). rewrite E in E'. injection E' as <-. destruct C as (N & G & F & R). rewrite Ok in R. destruct R as [F' Z]. set (m := fin 0 st) in *.
  pose proof (lmat_unit n 0 st g) as U. destruct (upper_solution n _ (fun d => if Nat.eqb d m then 1 else 0) U) as [u Hu].
  exists (fun j => u (iperm 0 st j)). split.
  - intros i' Hi'. rewrite <- (fperm_iperm st 0 i'). pose proof (iperm_lt n _ _ _ st 0 i' G Hi') as Hi. rewrite (perm_mvec n A g pv st _ _ G F Hi). apply rsum_zero. intros c Hc.
    rewrite (rsum_zero n (fun d => emat n 0 st (mirror A) c d * _)); [ring|]. intros d Hd.
    rewrite (rsum_ext n (fun j => lmat 0 st g j d * u (iperm 0 st (fperm 0 st j))) (fun j => lmat 0 st g j d * u j)) by (intros; rewrite iperm_fperm; reflexivity). rewrite <- (Hu d Hd).
    destruct (Nat.eqb_spec d m) as [->|]; [|ring]. rewrite emat_tail by (fold m; lia). fold m. destruct (Nat.leb_spec m c); [|cbn [andb]; ring]. rewrite Z by lia. bd; ring.
  - destruct (zero_or_not n u) as [H|[i [H1 H2]]].
    + exfalso. specialize (Hu m F'). cbn beta in Hu. rewrite Nat.eqb_refl, rsum_zero in Hu; [lra|]. intros t Ht. rewrite H by exact Ht. ring.
    + exists (fperm 0 st i). split; [eapply fperm_lt; eassumption|]. rewrite iperm_fperm. exact H2.
Qed.
Lemma bk_success_iff n A : exists s, bk_compute (K := RSc) n A = Ret s /\ bk_n s = n /\ (bk_ok s = true <-> nonsingular n A).
Proof.
  destruct (compute_ok n A) as (s & st & g & pv & E & C). exists s. split; [exact E|]. split; [apply C|]. split.
  - intros Ok x Hx i Hi. destruct (bk_solve_ok n A s (fun j => if Nat.eqb j i then 1 else 0) E Ok) as (y & _ & Hy).
    assert (Q : rsum n (fun j => x j * mvec n (mirror A) y j) = rsum n (fun j => y j * mvec n (mirror A) x j)).
    { unfold mvec. rewrite (rsum_ext n (fun j => x j * rsum n (fun t => mirror A j t * y t)) (fun j => rsum n (fun t => x j * (mirror A j t * y t)))) by (intros; rewrite rsum_scale; reflexivity).
      rewrite rsum_swap. apply rsum_ext. intros j Hj. rewrite <- rsum_scale. apply rsum_ext. intros t Ht. rewrite (mirror_sym A t j). ring. }
    rewrite (rsum_zero n (fun j => y j * mvec n (mirror A) x j)) in Q by (intros j Hj; rewrite Hx by exact Hj; ring).
    rewrite (rsum_one n _ i Hi) in Q; [|intros j Hj N; rewrite Hy by exact Hj; bd; ring]. rewrite Hy in Q by exact Hi. cbn beta in Q. rewrite Nat.eqb_refl in Q. lra.
  - intros NS. destruct (bk_ok s) eqn:Ok; [reflexivity|]. destruct (failed_singular n A s E Ok) as (x & X1 & i & Hi & X2). exfalso. apply X2, NS; assumption.
Qed.
