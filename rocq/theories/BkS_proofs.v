(** Bunch-Kaufman: the factorisation as a product, the solve, the signature. *)
From Coq Require Import Reals ZArith List Bool Arith Lia Lra.
From Verif Require Import Scalar Problem_model Lin_spec Lin_proofs Ldlt_model Ldlt_spec Ldlt_proofs Bk_model Bk_proofs BkP_proofs.
Import ListNotations.
Local Open Scope R_scope.
Local Notation mx := (nat -> nat -> R).

(** ** Decoding the pivots *)
Lemma good1_dec n k s S a piv : good1 n k s S a piv -> (piv k <? 0)%Z = snd s /\ Z.to_nat (if snd s then -1 - piv k else piv k)%Z = fst s /\ (kkof k (snd s) <= fst s)%nat /\ (fst s < n)%nat.
Proof.
  intros (H1 & H2 & _ & H). assert (P : piv k = (if snd s then -1 - Z.of_nat (fst s) else Z.of_nat (fst s))%Z) by (destruct (snd s); apply H). destruct (piv_decode _ _ _ P). auto.
Qed.
(** c is the first column of a pivot of two rows. *)
Fixpoint two_at (k : nat) (st : list (nat * bool)) (c : nat) : bool := match st with [] => false | s :: r => (snd s && Nat.eqb c k) || two_at (stepn k (snd s)) r c end.
Lemma two_at_range st : forall k c, two_at k st c = true -> (k <= c)%nat /\ (c + 1 < fin k st)%nat.
Proof.
  induction st as [|[p b] st IH]; intros k c H; [discriminate|]. cbn [two_at fin snd] in *. apply orb_true_iff in H. destruct H as [H|H].
  - destruct b; [|discriminate]. cbn [andb] in H. apply Nat.eqb_eq in H. cbn [stepn]. pose proof (fin_ge st (k + 2)). lia.
  - apply IH in H. pose proof (stepn_le k b). lia.
Qed.
Lemma two_at_below st k c : (c < k)%nat -> two_at k st c = false.
Proof. intros H. destruct (two_at k st c) eqn:E; [|reflexivity]. apply two_at_range in E. lia. Qed.

Lemma sub_pass_ok n S a0 piv st : forall fuel k (a : mx) (sd : nat -> R), good n k st S a0 piv -> fin k st = n -> (n - k <= fuel)%nat ->
  exists a' sd', sub_pass (K := RSc) fuel n k piv a sd = Ret (a', sd') /\ (forall r c, a' r c = if two_at k st c && Nat.eqb r (c + 1) then 0 else a r c) /\
    forall i, sd' i = if Nat.leb k i && Nat.ltb i n then (if two_at k st i then a (i + 1)%nat i else 0) else sd i.
Proof.
  revert S. induction st as [|[p b] st IH]; intros S fuel k a sd G F Hf.
  - cbn in F. subst k. exists a, sd. destruct fuel; cbn [sub_pass]; rewrite Nat.ltb_irrefl; (split; [reflexivity|]; split; [reflexivity|]; intros i; bd; reflexivity).
  - cbn [good fin snd] in *. destruct G as [G1 G2]. destruct (good1_dec _ _ _ _ _ _ G1) as (D1 & D2 & D3 & D4). cbn [fst snd] in *. pose proof (stepn_le k b). pose proof (fin_ge st (stepn k b)).
    destruct fuel as [|f]; [lia|]. cbn [sub_pass]. destruct (Nat.ltb_spec k n); [|lia]. rewrite D1. destruct b; cbn [stepn kkof] in *.
    + destruct (Nat.leb_spec n (k + 1)); [lia|].
      match goal with |- context[sub_pass f n (k + 2) piv ?x ?y] => destruct (IH _ f (k + 2)%nat x y G2 F ltac:(lia)) as (a' & sd' & E & A & B) end. rewrite E. exists a', sd'. split; [reflexivity|]. split.
      * intros r c. rewrite A. cbn [two_at snd andb stepn]. destruct (Nat.eqb_spec c k) as [->|Nc]; cbn [orb].
        { rewrite two_at_below by lia. cbn [andb]. bd; reflexivity. }
        { destruct (two_at (k + 2) st c && Nat.eqb r (c + 1)); [reflexivity|]. bd; reflexivity. }
      * intros i. rewrite B. cbn [two_at snd andb stepn]. destruct (Nat.eqb_spec i k) as [->|Ni]; cbn [orb].
        { bd. reflexivity. }
        { destruct (two_at (k + 2) st i) eqn:T2; [pose proof (two_at_range _ _ _ T2)|]; bd; reflexivity. }
    + match goal with |- context[sub_pass f n (k + 1) piv ?x ?y] => destruct (IH _ f (k + 1)%nat x y G2 F ltac:(lia)) as (a' & sd' & E & A & B) end. rewrite E. exists a', sd'. split; [reflexivity|]. split.
      * intros r c. rewrite A. cbn [two_at snd andb orb stepn]. reflexivity.
      * intros i. rewrite B. cbn [two_at snd andb orb stepn]. destruct (two_at (k + 1) st i) eqn:T2; [pose proof (two_at_range _ _ _ T2)|]; bd; reflexivity.
Qed.
Lemma row_pass_ok n S a0 piv st : forall fuel k (a : mx), good n k st S a0 piv -> fin k st = n -> (n - k <= fuel)%nat ->
  exists a', row_pass (K := RSc) fuel n k piv a = Ret a' /\ forall r c, a' r c = a (tperm k st c r) c.
Proof.
  revert S. induction st as [|[p b] st IH]; intros S fuel k a G F Hf.
  - cbn in F. subst k. exists a. destruct fuel; cbn [row_pass]; rewrite Nat.ltb_irrefl; split; reflexivity.
  - cbn [good fin snd] in *. destruct G as [G1 G2]. destruct (good1_dec _ _ _ _ _ _ G1) as (D1 & D2 & D3 & D4). cbn [fst snd] in *. pose proof (stepn_le k b). pose proof (fin_ge st (stepn k b)).
    destruct fuel as [|f]; [lia|]. cbn [row_pass]. destruct (Nat.ltb_spec k n); [|lia]. rewrite D1, D2. destruct (Nat.leb_spec n p); [lia|]. cbn [orb].
    assert (B : b && Nat.leb n (k + 1) = false) by (destruct b; [cbn [kkof] in *; cbn [andb]; apply Nat.leb_gt; lia|reflexivity]). rewrite B. fold (kkof k b) (stepn k b).
    match goal with |- context[row_pass f n (stepn k b) piv ?x] => destruct (IH _ f (stepn k b) x G2 F ltac:(lia)) as (a' & E & A) end. rewrite E. exists a'. split; [reflexivity|]. intros r c. rewrite A, freeze_id, row_swap_eq. cbn [tperm fst snd].
    destruct (Nat.ltb c k); [|reflexivity]. f_equal. unfold swp. bd; subst; reflexivity.
Qed.
Lemma swap_pass_ok n S a0 piv st : forall fuel k (x : nat -> R), good n k st S a0 piv -> fin k st = n -> (n - k <= fuel)%nat ->
  exists y, swap_pass (K := RSc) fuel n k piv x = Ret y /\ forall i, y i = x (fperm k st i).
Proof.
  revert S. induction st as [|[p b] st IH]; intros S fuel k x G F Hf.
  - cbn in F. subst k. exists x. destruct fuel; cbn [swap_pass]; rewrite Nat.ltb_irrefl; split; reflexivity.
  - cbn [good fin snd] in *. destruct G as [G1 G2]. destruct (good1_dec _ _ _ _ _ _ G1) as (D1 & D2 & D3 & D4). cbn [fst snd] in *. pose proof (stepn_le k b). pose proof (fin_ge st (stepn k b)).
    destruct fuel as [|f]; [lia|]. cbn [swap_pass]. destruct (Nat.ltb_spec k n); [|lia]. rewrite D1, D2. destruct (Nat.leb_spec n p); [lia|]. cbn [orb].
    assert (B : b && Nat.leb n (k + 1) = false) by (destruct b; [cbn [kkof] in *; cbn [andb]; apply Nat.leb_gt; lia|reflexivity]). rewrite B. fold (kkof k b) (stepn k b).
    match goal with |- context[swap_pass f n (stepn k b) piv ?x] => destruct (IH _ f (stepn k b) x G2 F ltac:(lia)) as (y & E & A) end. rewrite E. exists y. split; [reflexivity|]. intros i. rewrite A, freezev_id. cbn [fperm fst snd]. unfold vswap, swp. bd; subst; reflexivity.
Qed.
Lemma back_pass_ok n S a0 piv st : forall fuel (x : nat -> R), good n 0 st S a0 piv -> (fin 0 st <= fuel)%nat ->
  exists y, back_pass (K := RSc) fuel n (fin 0 st) piv x = Ret y /\ forall i, y (fperm 0 st i) = x i.
Proof.
  induction st as [|[p b] st IH] using rev_ind; intros fuel x G Hf.
  - exists x. destruct fuel; split; reflexivity.
  - rewrite good_app in G. destruct G as [G0 [G1 _]]. rewrite fin_snoc in *. cbn [snd] in *. set (k0 := fin 0 st) in *. pose proof (stepn_le k0 b).
    destruct (good1_dec _ _ _ _ _ _ G1) as (_ & _ & D3 & D4). destruct (piv_decode b p _ (good1_piv _ _ _ _ _ _ G1)) as [D1 D2]. cbn [fst snd] in *.
    destruct fuel as [|f]; [lia|]. rewrite kkof_step. cbn [back_pass]. rewrite D1, D2. destruct (Nat.leb_spec n p); [lia|]. cbn [orb].
    assert (B : b && Nat.eqb (kkof k0 b) 0 = false) by (destruct b; [cbn [kkof andb]; apply Nat.eqb_neq; lia|reflexivity]). rewrite B.
    replace (if b then (kkof k0 b - 1)%nat else kkof k0 b) with k0 by (destruct b; cbn [kkof]; lia).
    destruct (IH f (freezev n (vswap (K := RSc) (kkof k0 b) p x)) G0 ltac:(fold k0; lia)) as (y & E & A). fold k0 in E. rewrite E. exists y. split; [reflexivity|].
    intros i. rewrite fperm_snoc. fold k0. cbn [fst snd]. rewrite A, freezev_id. rewrite <- (swp_inv (kkof k0 b) p i) at 2. set (j := swp (kkof k0 b) p i). unfold vswap, swp. bd; subst; reflexivity.
Qed.

(** ** The permutation *)
Fixpoint iperm (k : nat) (st : list (nat * bool)) (i : nat) : nat := match st with [] => i | s :: r => iperm (stepn k (snd s)) r (swp (kkof k (snd s)) (fst s) i) end.
Lemma fperm_iperm st : forall k i, fperm k st (iperm k st i) = i.
Proof. induction st as [|s st IH]; intros k i; [reflexivity|]. cbn. rewrite IH. apply swp_inv. Qed.
Lemma iperm_fperm st : forall k i, iperm k st (fperm k st i) = i.
Proof. induction st as [|s st IH]; intros k i; [reflexivity|]. cbn. rewrite swp_inv. apply IH. Qed.
Lemma fperm_lt n S a piv st : forall k i, good n k st S a piv -> (i < n)%nat -> (fperm k st i < n)%nat.
Proof.
  revert S. induction st as [|s st IH]; intros S k i G Hi; [exact Hi|]. cbn in *. destruct G as [(G1 & G2 & _) G]. apply swp_lt; [lia|exact G2|]. eapply IH; eauto.
Qed.
Lemma iperm_lt n S a piv st : forall k i, good n k st S a piv -> (i < n)%nat -> (iperm k st i < n)%nat.
Proof.
  revert S. induction st as [|s st IH]; intros S k i G Hi; [exact Hi|]. cbn in *. destruct G as [(G1 & G2 & _) G]. eapply IH; eauto. apply swp_lt; lia.
Qed.
Lemma fperm_ge n S a piv st : forall k m i, good n k st S a piv -> (m <= k)%nat -> (m <= i)%nat -> (m <= fperm k st i)%nat.
Proof.
  revert S. induction st as [|s st IH]; intros S k m i G Hk Hi; [exact Hi|]. cbn in *. destruct G as [(G1 & G2 & _) G]. pose proof (kkof_ge k (snd s)). pose proof (stepn_le k (snd s)). apply swp_ge; try lia. eapply IH; eauto. lia.
Qed.
Lemma fperm_below n S a piv st : forall k i, good n k st S a piv -> (i < k)%nat -> fperm k st i = i.
Proof.
  revert S. induction st as [|s st IH]; intros S k i G Hi; [reflexivity|]. cbn in *. destruct G as [(G1 & G2 & _) G]. pose proof (kkof_ge k (snd s)). pose proof (stepn_le k (snd s)). rewrite (IH _ _ _ G) by lia. apply swp_below; lia.
Qed.
Lemma tperm_all st : forall k c i, (c < k)%nat -> tperm k st c i = fperm k st i.
Proof. induction st as [|s st IH]; intros k c i H; [reflexivity|]. cbn [tperm fperm]. pose proof (stepn_le k (snd s)). rewrite IH by lia. bd. Qed.
Lemma rsum_swp n q p f : (q < n)%nat -> (p < n)%nat -> rsum n (fun i => f (swp q p i)) = rsum n f.
Proof.
  intros Hq Hp. destruct (Nat.eq_dec q p) as [->|N]; [apply rsum_ext; intros; rewrite swp_same; reflexivity|].
  set (d := fun i => (if Nat.eqb i q then f p - f q else 0) + (if Nat.eqb i p then f q - f p else 0)).
  rewrite (rsum_ext n (fun i => f (swp q p i)) (fun i => f i + d i)).
  - rewrite rsum_plus. unfold d. rewrite rsum_plus. rewrite (rsum_one n (fun i => if Nat.eqb i q then f p - f q else 0) q Hq), (rsum_one n (fun i => if Nat.eqb i p then f q - f p else 0) p Hp).
    + bd; lra.
    + intros i _ H. bd. reflexivity.
    + intros i _ H. bd. reflexivity.
  - intros i _. unfold d, swp. bd; subst; lra.
Qed.
Lemma rsum_fperm n S a piv st : forall k f, good n k st S a piv -> rsum n (fun i => f (fperm k st i)) = rsum n f.
Proof.
  revert S. induction st as [|s st IH]; intros S k f G; [reflexivity|]. cbn [good fperm] in *. destruct G as [(G1 & G2 & _) G].
  rewrite (IH _ _ (fun j => f (swp (kkof k (snd s)) (fst s) j)) G). apply rsum_swp; lia.
Qed.

(** ** The product of the factors *)
(** The block diagonal: the pivots of the steps, then what is left. *)
Fixpoint emat (n k : nat) (st : list (nat * bool)) (S : mx) (c d : nat) : R :=
  match st with
  | [] => if Nat.leb k c && Nat.ltb c n && Nat.leb k d && Nat.ltb d n then S c d else 0
  | s :: r => (if Nat.leb k c && Nat.ltb c (stepn k (snd s)) && Nat.leb k d && Nat.ltb d (stepn k (snd s)) then sp k s S c d else 0) + emat n (stepn k (snd s)) r (nxt k s S) c d
  end.
Lemma emat_below n st : forall k S c d, (c < k \/ d < k)%nat -> emat n k st S c d = 0.
Proof. induction st as [|s st IH]; intros k S c d H; cbn [emat]; [bd; reflexivity|]. pose proof (stepn_le k (snd s)). rewrite IH by lia. bd; lra. Qed.
(** The columns of the steps in L: rows swapped by the later steps, zero below the diagonal inside a
    pivot; the columns after the steps are those of the identity. *)
Definition lcol (n k : nat) (st : list (nat * bool)) (a L : mx) : Prop :=
  forall i c, (k <= c)%nat -> (c < n)%nat -> (i < n)%nat ->
    L i c = if Nat.eqb i c then 1 else if Nat.ltb i c then 0 else if Nat.leb (fin k st) c then 0 else if two_at k st c && Nat.eqb i (c + 1) then 0 else a (tperm k st c i) c.
Lemma lcol_next n k s st a L : lcol n k (s :: st) a L -> lcol n (stepn k (snd s)) st a L.
Proof.
  intros H i c H1 H2 H3. pose proof (stepn_le k (snd s)). rewrite H by lia. cbn [fin two_at tperm].
  replace (Nat.eqb c k) with false by (symmetry; apply Nat.eqb_neq; lia). replace (Nat.ltb c k) with false by (symmetry; apply Nat.ltb_ge; lia). rewrite andb_false_r. reflexivity.
Qed.
Definition lel (n : nat) (L E : mx) (i j : nat) : R := rsum n (fun c => rsum n (fun d => L i c * E c d * L j d)).
Lemma rsum_two n f k : (k + 1 < n)%nat -> (forall i, (i < n)%nat -> i <> k -> i <> (k + 1)%nat -> f i = 0) -> rsum n f = f k + f (k + 1)%nat.
Proof.
  intros H Z. rewrite (rsum_ext n f (fun i => (if Nat.eqb i k then f k else 0) + (if Nat.eqb i (k + 1) then f (k + 1)%nat else 0))).
  - rewrite rsum_plus. rewrite (rsum_one n (fun i => if Nat.eqb i k then f k else 0) k), (rsum_one n (fun i => if Nat.eqb i (k + 1) then f (k + 1)%nat else 0) (k + 1)); try lia; [bd; lra| |]; intros i _ N; bd; reflexivity.
  - intros i Hi. bd; subst; try lra. rewrite Z by assumption. lra.
Qed.
Lemma lel_plus n L E F i j : lel n L (fun c d => E c d + F c d) i j = lel n L E i j + lel n L F i j.
Proof. unfold lel. rewrite <- rsum_plus. apply rsum_ext. intros c Hc. rewrite <- rsum_plus. apply rsum_ext. intros d Hd. ring. Qed.
Lemma lel_one n L (F : mx) k i j : (k < n)%nat -> lel n L (fun c d => if Nat.leb k c && Nat.ltb c (k + 1) && Nat.leb k d && Nat.ltb d (k + 1) then F c d else 0) i j = L i k * F k k * L j k.
Proof.
  intros Hk. unfold lel. rewrite (rsum_one n _ k Hk), (rsum_one n _ k Hk).
  - bd. reflexivity.
  - intros d _ N. bd; ring.
  - intros c _ N. apply rsum_zero. intros d _. bd; ring.
Qed.
Lemma lel_two n L (F : mx) k i j : (k + 1 < n)%nat -> lel n L (fun c d => if Nat.leb k c && Nat.ltb c (k + 2) && Nat.leb k d && Nat.ltb d (k + 2) then F c d else 0) i j =
  L i k * F k k * L j k + L i k * F k (k + 1)%nat * L j (k + 1)%nat + (L i (k + 1)%nat * F (k + 1)%nat k * L j k + L i (k + 1)%nat * F (k + 1)%nat (k + 1)%nat * L j (k + 1)%nat).
Proof.
  intros Hk. unfold lel. rewrite (rsum_two n _ k Hk), (rsum_two n (fun d => L i k * _ * _) k Hk), (rsum_two n (fun d => L i (k + 1)%nat * _ * _) k Hk).
  - bd. reflexivity.
  - intros d _ N1 N2. bd; ring.
  - intros d _ N1 N2. bd; ring.
  - intros c _ N1 N2. apply rsum_zero. intros d _. bd; ring.
Qed.
Lemma factor_product n a piv L st : forall k S, good n k st S a piv -> (fin k st <= n)%nat -> sym S -> lcol n k st a L ->
  forall i j, (k <= i)%nat -> (i < n)%nat -> (k <= j)%nat -> (j < n)%nat -> S (fperm k st i) (fperm k st j) = lel n L (emat n k st S) i j.
Proof.
  induction st as [|s st IH]; intros k S G Hf Sy LC i j Hi1 Hi2 Hj1 Hj2.
  - cbn [fperm]. assert (LI : forall r c, (k <= c)%nat -> (c < n)%nat -> (r < n)%nat -> L r c = if Nat.eqb r c then 1 else 0).
    { intros r c H1 H2 H3. rewrite LC by lia. cbn [fin]. bd; reflexivity. }
    unfold lel. rewrite (rsum_one n _ i Hi2), (rsum_one n _ j Hj2).
    + cbn [emat]. rewrite !LI by lia. bd; ring.
    + intros d Hd N. cbn [emat]. destruct (Nat.lt_ge_cases d k); [bd; ring|]. rewrite (LI j d) by lia. bd; ring.
    + intros c Hc N. apply rsum_zero. intros d Hd. cbn [emat]. destruct (Nat.lt_ge_cases c k); [bd; ring|]. rewrite (LI i c) by lia. bd; ring.
  - cbn [good fin fperm] in *. destruct G as [G1 G2]. pose proof (stepn_le k (snd s)) as Sl. pose proof (fin_ge st (stepn k (snd s))) as Fg.
    pose proof (lcol_next _ _ _ _ _ _ LC) as LC'. specialize (IH (stepn k (snd s)) (nxt k s S) G2 Hf (nxt_sym k s S Sy) LC').
    set (S1 := sp k s S). assert (SS1 : sym S1) by (apply psw_sym, Sy).
    set (pi := fperm (stepn k (snd s)) st) in *.
    change (S (swp (kkof k (snd s)) (fst s) (pi i)) (swp (kkof k (snd s)) (fst s) (pi j))) with (S1 (pi i) (pi j)).
    assert (Pl : forall r, (r < stepn k (snd s))%nat -> pi r = r) by (intros r Hr; eapply fperm_below; eassumption).
    assert (Pg : forall r, (stepn k (snd s) <= r)%nat -> (r < n)%nat -> (stepn k (snd s) <= pi r)%nat /\ (pi r < n)%nat).
    { intros r Hr1 Hr2. split; [eapply fperm_ge; eauto|eapply fperm_lt; eauto]. }
    assert (LB : forall r c, (k <= c)%nat -> (c < stepn k (snd s))%nat -> (stepn k (snd s) <= r)%nat -> (r < n)%nat -> L r c = a (pi r) c).
    { intros r c H1 H2 H3 H4. rewrite LC by lia. cbn [fin two_at tperm]. rewrite two_at_below by lia. rewrite tperm_all by lia. fold pi.
      destruct (snd s) eqn:Es; cbn [stepn] in *; bd; reflexivity. }
    assert (LD : forall r c, (k <= c)%nat -> (c < stepn k (snd s))%nat -> (k <= r)%nat -> (r < stepn k (snd s))%nat -> L r c = if Nat.eqb r c then 1 else 0).
    { intros r c H1 H2 H3 H4. rewrite LC by lia. cbn [fin two_at tperm]. destruct (snd s) eqn:Es; cbn [stepn] in *; cbn [andb orb]; bd; reflexivity. }
    assert (Zl : (i < stepn k (snd s) \/ j < stepn k (snd s))%nat -> lel n L (emat n (stepn k (snd s)) st (nxt k s S)) i j = 0).
    { intros H. unfold lel. apply rsum_zero. intros c Hc. apply rsum_zero. intros d Hd.
      destruct (Nat.lt_ge_cases c (stepn k (snd s))); [rewrite emat_below by lia; ring|]. destruct (Nat.lt_ge_cases d (stepn k (snd s))); [rewrite emat_below by lia; ring|].
      destruct H; [rewrite (LC i c) by lia|rewrite (LC j d) by lia]; bd; ring. }
    cbn [emat]. rewrite lel_plus. fold S1.
    destruct s as [p b]. unfold good1 in G1. cbn [fst snd] in *. fold S1 in G1. destruct G1 as (Q1 & Q2 & _ & G1). destruct b; cbn [stepn kkof] in *.
    + destruct G1 as (Y & D & A1 & A2 & A3 & _ & _ & C).
      rewrite lel_two by lia. unfold nxt in IH. cbn [snd] in IH. fold S1 in IH. rewrite (SS1 k (k + 1)%nat).
      assert (CL : forall r, (k + 2 <= r)%nat -> (r < n)%nat -> L r k = S1 (pi r) k * e11 k S1 + S1 (pi r) (k + 1)%nat * e21 k S1 /\ L r (k + 1)%nat = S1 (pi r) k * e21 k S1 + S1 (pi r) (k + 1)%nat * e22 k S1).
      { intros r H1 H2. rewrite !LB by lia. destruct (Pg r H1 H2). apply C; lia. }
      assert (DN : det2 k S1 <> 0) by lra. unfold e11, e21, e22 in CL.
      assert (N2 : forall x y, nxt2 k S1 x y = S1 x y - (S1 x k * (S1 y k * (S1 (k + 1)%nat (k + 1)%nat / det2 k S1) + S1 y (k + 1)%nat * (- S1 (k + 1)%nat k / det2 k S1)) + S1 x (k + 1)%nat * (S1 y k * (- S1 (k + 1)%nat k / det2 k S1) + S1 y (k + 1)%nat * (S1 k k / det2 k S1)))) by reflexivity.
      assert (Row : forall r, (k <= r)%nat -> (r < n)%nat -> r = k \/ r = (k + 1)%nat \/ (k + 2 <= r)%nat) by (intros; lia).
      assert (LE : forall r, (k + 2 <= r)%nat -> (r < n)%nat -> L r k * S1 k k + L r (k + 1)%nat * S1 (k + 1)%nat k = S1 (pi r) k /\ L r k * S1 (k + 1)%nat k + L r (k + 1)%nat * S1 (k + 1)%nat (k + 1)%nat = S1 (pi r) (k + 1)%nat).
      { intros r H1 H2. destruct (CL r H1 H2) as [-> ->]. unfold det2 in *. split; field; exact DN. }
      destruct (Row i Hi1 Hi2) as [->|[->|Hi]]; destruct (Row j Hj1 Hj2) as [->|[->|Hj]].
      * rewrite Zl by lia. rewrite !Pl by lia. rewrite !LD by lia. bd. ring.
      * rewrite Zl by lia. rewrite !Pl by lia. rewrite !LD by lia. bd. rewrite (SS1 k (k + 1)%nat). ring.
      * rewrite Zl by lia. rewrite (Pl k) by lia. rewrite !(LD k) by lia. bd. rewrite (SS1 k). destruct (LE j Hj Hj2) as [<- _]. ring.
      * rewrite Zl by lia. rewrite !Pl by lia. rewrite !LD by lia. bd. ring.
      * rewrite Zl by lia. rewrite !Pl by lia. rewrite !LD by lia. bd. ring.
      * rewrite Zl by lia. rewrite (Pl (k + 1)%nat) by lia. rewrite !(LD (k + 1)%nat) by lia. bd. rewrite (SS1 (k + 1)%nat (pi j)). destruct (LE j Hj Hj2) as [_ <-]. ring.
      * rewrite Zl by lia. rewrite (Pl k) by lia. rewrite !(LD k) by lia. bd. destruct (LE i Hi Hi2) as [<- _]. ring.
      * rewrite Zl by lia. rewrite (Pl (k + 1)%nat) by lia. rewrite !(LD (k + 1)%nat) by lia. bd. destruct (LE i Hi Hi2) as [_ <-]. ring.
      * rewrite <- IH by lia. rewrite N2. destruct (CL i Hi Hi2) as [-> ->]. destruct (CL j Hj Hj2) as [-> ->]. unfold det2 in *. field. exact DN.
    + destruct G1 as (D & A1 & _ & C). rewrite lel_one by lia. unfold nxt in IH. cbn [snd] in IH. fold S1 in IH.
      assert (CL : forall r, (k + 1 <= r)%nat -> (r < n)%nat -> L r k = S1 (pi r) k * / S1 k k).
      { intros r H1 H2. rewrite LB by lia. destruct (Pg r H1 H2). apply C; lia. }
      assert (N1 : forall x y, nxt1 k S1 x y = S1 x y - S1 x k * (/ S1 k k * S1 y k)) by reflexivity.
      destruct (Nat.eq_dec i k) as [->|Ni]; destruct (Nat.eq_dec j k) as [->|Nj].
      * rewrite Zl by lia. rewrite !Pl by lia. rewrite !LD by lia. bd. ring.
      * rewrite Zl by lia. rewrite (Pl k) by lia. rewrite (LD k k) by lia. bd. rewrite CL by lia. rewrite (SS1 k). field. exact D.
      * rewrite Zl by lia. rewrite (Pl k) by lia. rewrite (LD k k) by lia. bd. rewrite CL by lia. field. exact D.
      * rewrite <- IH by lia. rewrite N1. rewrite !CL by lia. field. exact D.
Qed.
