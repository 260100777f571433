(** Bunch-Kaufman: elimination steps, pivot choice, unblocked factorisation. *)
From Coq Require Import Reals ZArith List Bool Arith Lia Lra.
From Verif Require Import Scalar Problem_model Lin_spec Lin_proofs Ldlt_model Ldlt_spec Ldlt_proofs Bk_model.
Import ListNotations.
Local Open Scope R_scope.

Local Notation mx := (nat -> nat -> R).
Definition swp (q p i : nat) : nat := if Nat.eqb i q then p else if Nat.eqb i p then q else i.
Definition psw (q p : nat) (S : mx) : mx := fun i j => S (swp q p i) (swp q p j).
Definition nxt1 (k : nat) (S : mx) : mx := fun i j => S i j - S i k * (/ S k k * S j k).
Definition det2 (k : nat) (S : mx) : R := S k k * S (k + 1)%nat (k + 1)%nat - S (k + 1)%nat k * S (k + 1)%nat k.
Definition e11 (k : nat) (S : mx) : R := S (k + 1)%nat (k + 1)%nat / det2 k S.
Definition e21 (k : nat) (S : mx) : R := - S (k + 1)%nat k / det2 k S.
Definition e22 (k : nat) (S : mx) : R := S k k / det2 k S.
Definition nxt2 (k : nat) (S : mx) : mx :=
  fun i j => S i j - (S i k * (S j k * e11 k S + S j (k + 1)%nat * e21 k S) + S i (k + 1)%nat * (S j k * e21 k S + S j (k + 1)%nat * e22 k S)).
Definition kkof (k : nat) (b : bool) : nat := if b then (k + 1)%nat else k.
Definition stepn (k : nat) (b : bool) : nat := if b then (k + 2)%nat else (k + 1)%nat.
Definition sp (k : nat) (s : nat * bool) (S : mx) : mx := psw (kkof k (snd s)) (fst s) S.
Definition nxt (k : nat) (s : nat * bool) (S : mx) : mx := if snd s then nxt2 k (sp k s S) else nxt1 k (sp k s S).
Fixpoint after (k : nat) (st : list (nat * bool)) (S : mx) : mx := match st with [] => S | s :: r => after (stepn k (snd s)) r (nxt k s S) end.
Fixpoint fin (k : nat) (st : list (nat * bool)) : nat := match st with [] => k | s :: r => fin (stepn k (snd s)) r end.
(** Entries grow at most by 1 + 1/alpha for each eliminated row. *)
Definition tame (n k : nat) (s : nat * bool) (S : mx) : Prop :=
  forall B, (forall i j, (k <= i)%nat -> (i < n)%nat -> (k <= j)%nat -> (j < n)%nat -> Rabs (S i j) <= B) ->
  forall i j, (stepn k (snd s) <= i)%nat -> (i < n)%nat -> (stepn k (snd s) <= j)%nat -> (j < n)%nat ->
  Rabs (nxt k s S i j) <= (1 + / bk_alpha (K := RSc)) ^ (stepn k (snd s) - k) * B.
(** One step, as it is stored: the inverse pivot, the columns of L, the pivot index. *)
Definition good1 (n k : nat) (s : nat * bool) (S a : mx) (piv : nat -> Z) : Prop :=
  let S1 := sp k s S in
  (kkof k (snd s) <= fst s)%nat /\ (fst s < n)%nat /\ tame n k s S /\
  if snd s then S1 (k + 1)%nat k <> 0 /\ det2 k S1 < 0 /\ a k k = e11 k S1 /\ a (k + 1)%nat k = e21 k S1 /\ a (k + 1)%nat (k + 1)%nat = e22 k S1 /\
    piv k = (-1 - Z.of_nat (fst s))%Z /\ piv (k + 1)%nat = (-1 - Z.of_nat (fst s))%Z /\
    forall i, (k + 1 < i)%nat -> (i < n)%nat -> a i k = S1 i k * e11 k S1 + S1 i (k + 1)%nat * e21 k S1 /\ a i (k + 1)%nat = S1 i k * e21 k S1 + S1 i (k + 1)%nat * e22 k S1
  else S1 k k <> 0 /\ a k k = / S1 k k /\ piv k = Z.of_nat (fst s) /\ forall i, (k < i)%nat -> (i < n)%nat -> a i k = S1 i k * / S1 k k.
Fixpoint good (n k : nat) (st : list (nat * bool)) (S a : mx) (piv : nat -> Z) : Prop :=
  match st with [] => True | s :: r => good1 n k s S a piv /\ good n (stepn k (snd s)) r (nxt k s S) a piv end.
Definition sym (S : mx) : Prop := forall i j, S i j = S j i.
(** The lower triangle from row k on. *)
Definition low (n k : nat) (a S : mx) : Prop := forall r c, (k <= c)%nat -> (c <= r)%nat -> (r < n)%nat -> a r c = S r c.

Lemma swp_inv q p i : swp q p (swp q p i) = i.
Proof. unfold swp. destruct (Nat.eqb_spec i q) as [->|]; [|destruct (Nat.eqb_spec i p) as [->|]]; bd; try reflexivity; lia. Qed.
Lemma swp_same q i : swp q q i = i. Proof. unfold swp. bd; try reflexivity; try congruence; lia. Qed.
Lemma swp_lt n q p i : (q < n)%nat -> (p < n)%nat -> (i < n)%nat -> (swp q p i < n)%nat. Proof. unfold swp. bd; try reflexivity; try congruence; lia. Qed.
Lemma swp_ge k q p i : (k <= q)%nat -> (k <= p)%nat -> (k <= i)%nat -> (k <= swp q p i)%nat. Proof. unfold swp. bd; try reflexivity; try congruence; lia. Qed.
Lemma swp_below q p i : (i < q)%nat -> (i < p)%nat -> swp q p i = i. Proof. unfold swp. bd; try reflexivity; try congruence; lia. Qed.
Lemma stepn_le k b : (k < stepn k b)%nat. Proof. destruct b; cbn; lia. Qed.
Lemma kkof_step k b : stepn k b = S (kkof k b). Proof. destruct b; cbn; lia. Qed.
Lemma kkof_ge k b : (k <= kkof k b)%nat. Proof. destruct b; cbn; lia. Qed.

Lemma psw_sym q p S : sym S -> sym (psw q p S). Proof. intros H i j. apply H. Qed.
Lemma nxt1_sym k S : sym S -> sym (nxt1 k S).
Proof. intros H i j. unfold nxt1. rewrite (H i j). ring. Qed.
Lemma nxt2_sym k S : sym S -> sym (nxt2 k S).
Proof. intros H i j. unfold nxt2. rewrite (H i j). ring. Qed.
Lemma nxt_sym k s S : sym S -> sym (nxt k s S).
Proof. intros H. unfold nxt, sp. destruct (snd s); [apply nxt2_sym|apply nxt1_sym]; apply psw_sym; exact H. Qed.
Lemma after_sym st : forall k S, sym S -> sym (after k st S).
Proof. induction st as [|s st IH]; intros k S H; [exact H|]. cbn. apply IH, nxt_sym, H. Qed.
Lemma fin_ge st : forall k, (k <= fin k st)%nat.
Proof. induction st as [|s st IH]; intros k; [apply le_n|]. cbn. pose proof (IH (stepn k (snd s))). pose proof (stepn_le k (snd s)). lia. Qed.
Lemma fin_app st : forall k t, fin k (st ++ t) = fin (fin k st) t.
Proof. induction st as [|s st IH]; intros k t; [reflexivity|]. cbn. apply IH. Qed.
Lemma after_app st : forall k t S, after k (st ++ t) S = after (fin k st) t (after k st S).
Proof. induction st as [|s st IH]; intros k t S; [reflexivity|]. cbn. apply IH. Qed.
Lemma good_app n st : forall k t S a piv, good n k (st ++ t) S a piv <-> good n k st S a piv /\ good n (fin k st) t (after k st S) a piv.
Proof. induction st as [|s st IH]; intros k t S a piv; cbn; [tauto|]. rewrite IH. tauto. Qed.

(** Only the columns of the steps matter. *)
Lemma good1_ext n k s S a a' piv piv' : (forall r c, (k <= c)%nat -> (c < stepn k (snd s))%nat -> (k <= r)%nat -> (r < n)%nat -> a' r c = a r c) ->
  (forall i, (k <= i)%nat -> (i < stepn k (snd s))%nat -> piv' i = piv i) -> good1 n k s S a piv -> good1 n k s S a' piv'.
Proof.
  unfold good1. destruct s as [p []]; cbn [fst snd kkof stepn]; intros H1 H2 (G0 & G1 & TM & G).
  - destruct G as (Y & D & A1 & A2 & A3 & P1 & P2 & C). split; [exact G0|]. split; [exact G1|]. split; [exact TM|]. rewrite !H1 by lia. rewrite !H2 by lia. do 7 (split; [assumption|]).
    intros i Hi Hn. rewrite !H1 by lia. apply C; assumption.
  - destruct G as (D & A1 & P1 & C). split; [exact G0|]. split; [exact G1|]. split; [exact TM|]. rewrite !H1 by lia. rewrite !H2 by lia. do 3 (split; [assumption|]).
    intros i Hi Hn. rewrite !H1 by lia. apply C; assumption.
Qed.
Lemma good_ext n st : forall k S a a' piv piv', (forall r c, (k <= c)%nat -> (c < fin k st)%nat -> (k <= r)%nat -> (r < n)%nat -> a' r c = a r c) ->
  (forall i, (k <= i)%nat -> (i < fin k st)%nat -> piv' i = piv i) -> good n k st S a piv -> good n k st S a' piv'.
Proof.
  induction st as [|s st IH]; intros k S a a' piv piv' H1 H2 G; [exact I|]. cbn in *. destruct G as [G1 G2]. pose proof (stepn_le k (snd s)). pose proof (fin_ge st (stepn k (snd s))). split.
  - revert G1. apply good1_ext; intros; [apply H1|apply H2]; lia.
  - revert G2. apply IH; intros; [apply H1|apply H2]; lia.
Qed.

(** Only the part from row k on of S matters. *)
Definition eqf (n k : nat) (S T : mx) : Prop := forall i j, (k <= i)%nat -> (i < n)%nat -> (k <= j)%nat -> (j < n)%nat -> S i j = T i j.
Lemma eqf_sp n k s S T : (kkof k (snd s) <= fst s)%nat -> (fst s < n)%nat -> eqf n k S T -> eqf n k (sp k s S) (sp k s T).
Proof.
  intros H1 H2 E i j Hi1 Hi2 Hj1 Hj2. unfold sp, psw. pose proof (kkof_ge k (snd s)). apply E; try (apply swp_ge; lia); apply swp_lt; lia.
Qed.
Lemma eqf_nxt n k s S T : (kkof k (snd s) <= fst s)%nat -> (fst s < n)%nat -> eqf n k S T -> eqf n (stepn k (snd s)) (nxt k s S) (nxt k s T).
Proof.
  intros H1 H2 E0. pose proof (eqf_sp n k s S T H1 H2 E0) as E. intros i j Hi1 Hi2 Hj1 Hj2. unfold nxt. destruct s as [p []]; cbn [fst snd kkof stepn] in *.
  - unfold nxt2, e11, e21, e22, det2. rewrite !E by lia. reflexivity.
  - unfold nxt1. rewrite !E by lia. reflexivity.
Qed.
Lemma tame_eqf n k s S T : (kkof k (snd s) <= fst s)%nat -> (fst s < n)%nat -> eqf n k S T -> tame n k s S -> tame n k s T.
Proof.
  intros H1 H2 E TM B HB i j Hi1 Hi2 Hj1 Hj2. rewrite <- (eqf_nxt n k s S T H1 H2 E i j Hi1 Hi2 Hj1 Hj2). apply TM; try assumption. intros a b A1 A2 B1 B2. rewrite E by assumption. apply HB; assumption.
Qed.
Lemma good1_eqf n k s S T a piv : eqf n k S T -> good1 n k s S a piv -> good1 n k s T a piv.
Proof.
  unfold good1. intros E0 (G0 & G1 & TM & G). pose proof (eqf_sp n k s S T G0 G1 E0) as E. split; [exact G0|]. split; [exact G1|]. split; [eapply tame_eqf; eassumption|]. destruct s as [p []]; cbn [fst snd kkof stepn] in *.
  - assert (D2 : det2 k (sp k (p, true) S) = det2 k (sp k (p, true) T)) by (unfold det2; rewrite !E by lia; reflexivity).
    assert (F11 : e11 k (sp k (p, true) S) = e11 k (sp k (p, true) T)) by (unfold e11; rewrite D2, !E by lia; reflexivity).
    assert (F21 : e21 k (sp k (p, true) S) = e21 k (sp k (p, true) T)) by (unfold e21; rewrite D2, !E by lia; reflexivity).
    assert (F22 : e22 k (sp k (p, true) S) = e22 k (sp k (p, true) T)) by (unfold e22; rewrite D2, !E by lia; reflexivity).
    rewrite D2, F11, F21, F22, (E (k + 1)%nat k) in G by lia. destruct G as (Y & D & A1 & A2 & A3 & P1 & P2 & C). do 7 (split; [assumption|]).
    intros i Hi Hn. destruct (C i Hi Hn) as [C1 C2]. rewrite !E in C1, C2 by lia. split; assumption.
  - rewrite (E k k) in G by lia. destruct G as (D & A1 & P1 & C). do 3 (split; [assumption|]). intros i Hi Hn. rewrite (C i Hi Hn), E by lia. reflexivity.
Qed.
Lemma good_eqf n st : forall k S T a piv, eqf n k S T -> good n k st S a piv -> good n k st T a piv.
Proof.
  induction st as [|s st IH]; intros k S T a piv E G; [exact I|]. cbn in *. destruct G as [G1 G2]. split; [eapply good1_eqf; eassumption|].
  eapply IH; [|exact G2]. destruct G1 as (X & Y & _). apply eqf_nxt; assumption.
Qed.
Lemma after_eqf n st : forall k S T a piv, eqf n k S T -> good n k st S a piv -> eqf n (fin k st) (after k st S) (after k st T).
Proof.
  induction st as [|s st IH]; intros k S T a piv E G; [exact E|]. cbn in *. destruct G as [G1 G2]. eapply IH; [|exact G2]. destruct G1 as (X & Y & _). apply eqf_nxt; assumption.
Qed.

(** ** Pivot choice *)
Lemma alpha_bounds : 0 < bk_alpha (K := RSc) < 1.
Proof.
  unfold bk_alpha. rs. cbn [ssqrt sofZ RSc]. pose proof (sqrt_pos 17). assert (sqrt 17 < 7). { rewrite <- (sqrt_square 7) by lra. apply sqrt_lt_1; lra. } split; lra.
Qed.
Lemma max_abs_spec f len : (0 < len)%nat -> let m := max_abs (K := RSc) f len in (snd m < len)%nat /\ fst m = Rabs (f (snd m)) /\ forall t, (t < len)%nat -> Rabs (f t) <= fst m.
Proof.
  intros H. unfold max_abs. rs.
  pose proof (fold_seq_inv (fun j (m : R * nat) => (snd m < j)%nat /\ fst m = Rabs (f (snd m)) /\ forall t, (t < j)%nat -> Rabs (f t) <= fst m)
    (fun m i => if sltb (s := RSc) (fst m) (Rabs (f i)) then (Rabs (f i), i) else m) (len - 1) 1 (Rabs (f 0%nat), 0%nat)) as F.
  replace (1 + (len - 1))%nat with len in F by lia. apply F.
  - cbn [fst snd]. split; [lia|]. split; [reflexivity|]. intros t Ht. replace t with 0%nat by lia. lra.
  - intros j [m im] _ _ (I1 & I2 & I3). cbn [fst snd] in *. destruct (sltb (s := RSc) m (Rabs (f j))) eqn:E; cbn [fst snd].
    + apply Rltb_true in E. split; [lia|]. split; [reflexivity|]. intros t Ht. destruct (Nat.eq_dec t j) as [->|]; [lra|]. specialize (I3 t ltac:(lia)). lra.
    + apply Rltb_false in E. split; [lia|]. split; [exact I2|]. intros t Ht. destruct (Nat.eq_dec t j) as [->|]; [exact E|]. apply I3. lia.
Qed.
Lemma maxi_l x y : x <= maxi (K := RSc) x y. Proof. unfold maxi. destruct (sltb (s := RSc) x y) eqn:E; [apply Rltb_true in E; lra|lra]. Qed.
Lemma maxi_r x y : y <= maxi (K := RSc) x y. Proof. unfold maxi. destruct (sltb (s := RSc) x y) eqn:E; [lra|apply Rltb_false in E; lra]. Qed.
Lemma row_max_spec n k imax f : (k < imax)%nat -> Rabs (f k) <= row_max (K := RSc) n k imax f.
Proof.
  intros H. unfold row_max. destruct (Nat.ltb_spec 0 (imax - k)) as [L|]; [|lia].
  destruct (max_abs_spec (fun t => f (k + t)%nat) (imax - k) L) as (_ & _ & M). specialize (M 0%nat L). cbn beta in M. rewrite Nat.add_0_r in M.
  destruct (Nat.ltb 0 (n - imax - 1)); [|exact M]. eapply Rle_trans; [exact M|apply maxi_l].
Qed.
Lemma col_max_spec n k a : (k < n)%nat -> let m := col_max (K := RSc) n k a in
  (forall i, (k < i)%nat -> (i < n)%nat -> Rabs (a i k) <= fst m) /\ 0 <= fst m /\
  (0 < fst m -> (k < snd m)%nat /\ (snd m < n)%nat /\ fst m = Rabs (a (snd m) k)).
Proof.
  intros Hk. unfold col_max. destruct (Nat.ltb_spec (k + 1) n) as [L|L].
  - destruct (max_abs_spec (fun t => a (k + 1 + t)%nat k) (n - k - 1) ltac:(lia)) as (M1 & M2 & M3). cbv zeta. cbn [fst snd].
    split; [|split].
    + intros i Hi Hn. specialize (M3 (i - k - 1)%nat ltac:(lia)). cbn beta in M3. replace (k + 1 + (i - k - 1))%nat with i in M3 by lia. exact M3.
    + rewrite M2. apply Rabs_pos.
    + intros _. split; [lia|]. split; [lia|]. rewrite M2 at 1. f_equal. f_equal. lia.
  - cbn [fst snd]. rs. split; [intros; lia|]. split; [lra|]. intros; lra.
Qed.
Lemma choose_spec akk c r aii : 0 <= akk -> 0 <= c -> 0 <= aii -> (0 < c -> c <= r) -> ~ (akk = 0 /\ c = 0) ->
  match choose (K := RSc) akk c r aii with
  | Keep => 0 < akk
  | Pick => 0 < c /\ 0 < aii
  | Pair => 0 < c /\ akk * aii < c * c
  end.
Proof.
  intros H1 H2 H3 H4 H5. pose proof alpha_bounds as [A1 A2]. unfold choose. rs. set (al := bk_alpha (K := RSc)) in *. change (car RSc) with R in *.
  destruct (sleb (s := RSc) (c * al) akk) eqn:E1; cbn [sleb RSc] in E1; [apply Rleb_true in E1|apply Rleb_false in E1].
  { destruct (Req_dec akk 0) as [Z|Z]; [|lra]. exfalso. apply H5. split; [exact Z|]. destruct (Req_dec c 0); [assumption|]. assert (0 < c * al) by (apply Rmult_lt_0_compat; lra). lra. }
  assert (Hc : 0 < c). { destruct (Req_dec c 0) as [Z|]; [|lra]. subst c. lra. }
  specialize (H4 Hc). assert (Hr : 0 < r) by lra.
  assert (Hq : 0 < c / r) by (apply Rdiv_lt_0_compat; lra). assert (Hm : 0 < al * c * (c / r)) by (apply Rmult_lt_0_compat; [apply Rmult_lt_0_compat; lra|exact Hq]).
  destruct (sleb (s := RSc) (al * c * (c / r)) akk) eqn:E2; cbn [sleb RSc] in E2; [apply Rleb_true in E2; lra|apply Rleb_false in E2].
  assert (Hn : 0 < al * r) by (apply Rmult_lt_0_compat; lra).
  destruct (sleb (s := RSc) (al * r) aii) eqn:E3; cbn [sleb RSc] in E3; [apply Rleb_true in E3; split; lra|apply Rleb_false in E3].
  split; [exact Hc|]. apply Rle_lt_trans with (al * c * (c / r) * (al * r)).
  - apply Rmult_le_compat; lra.
  - replace (al * c * (c / r) * (al * r)) with (al * al * (c * c)) by (field; lra). assert (al * al < 1) by (rewrite <- (Rmult_1_l 1); apply Rmult_le_0_lt_compat; lra).
    rewrite <- (Rmult_1_l (c * c)) at 2. apply Rmult_lt_compat_r; [apply Rmult_lt_0_compat; lra|assumption].
Qed.

Lemma det2_swap k imax T : (k < imax)%nat -> det2 k (psw (k + 1) imax T) = T k k * T imax imax - T imax k * T imax k.
Proof.
  intros H. unfold det2, psw. rewrite !(swp_below (k + 1) imax k) by lia. assert (E : swp (k + 1) imax (k + 1) = imax) by (unfold swp; rewrite Nat.eqb_refl; reflexivity). rewrite E. reflexivity.
Qed.
Lemma choice_ok n k (T : mx) c imax r : sym T -> 0 <= c -> (0 < c -> (k < imax)%nat /\ (imax < n)%nat /\ c = Rabs (T imax k) /\ Rabs (T imax k) <= r) -> ~ (Rabs (T k k) = 0 /\ c = 0) ->
  match choose (K := RSc) (Rabs (T k k)) c r (Rabs (T imax imax)) with
  | Keep => T k k <> 0
  | Pick => (k < imax)%nat /\ (imax < n)%nat /\ T imax imax <> 0
  | Pair => (k < imax)%nat /\ (imax < n)%nat /\ T imax k <> 0 /\ det2 k (psw (k + 1) imax T) < 0
  end.
Proof.
  intros Sy H1 H2 H3. pose proof (choose_spec (Rabs (T k k)) c r (Rabs (T imax imax)) (Rabs_pos _) H1 (Rabs_pos _)) as C.
  specialize (C ltac:(intros P; destruct (H2 P) as (_ & _ & E & G); lra) H3).
  destruct (choose (K := RSc) (Rabs (T k k)) c r (Rabs (T imax imax))).
  - intros E. rewrite E, Rabs_R0 in C. lra.
  - destruct C as [C1 C2]. destruct (H2 C1) as (I1 & I2 & _). repeat split; auto. intros E. rewrite E, Rabs_R0 in C2. lra.
  - destruct C as [C1 C2]. destruct (H2 C1) as (I1 & I2 & E & _). split; [exact I1|]. split; [exact I2|]. split.
    + intros Z. rewrite Z, Rabs_R0 in E. lra.
    + rewrite det2_swap by exact I1. rewrite E in C2. rewrite <- !Rabs_mult in C2. rewrite (Rabs_pos_eq (T imax k * T imax k)) in C2 by (apply Rle_0_sqr). pose proof (Rle_abs (T k k * T imax imax)). lra.
Qed.
Lemma alpha_root : 4 * bk_alpha (K := RSc) * bk_alpha (K := RSc) - bk_alpha (K := RSc) - 1 = 0.
Proof.
  unfold bk_alpha. rs. cbn [ssqrt sofZ RSc]. pose proof (sqrt_sqrt 17 ltac:(lra)) as E. change (IZR 17) with 17. set (q := sqrt 17) in *. replace (4 * ((1 + q) / 8) * ((1 + q) / 8)) with ((1 + 2 * q + q * q) / 16) by field. rewrite E. field.
Qed.
Lemma max_abs_le f len B : (0 < len)%nat -> (forall t, (t < len)%nat -> Rabs (f t) <= B) -> fst (max_abs (K := RSc) f len) <= B.
Proof. intros H HB. destruct (max_abs_spec f len H) as (M1 & M2 & _). rewrite M2. apply HB. exact M1. Qed.
Lemma row_max_all n k imax f : (k < imax)%nat -> (imax < n)%nat -> forall r, (k <= r)%nat -> (r < n)%nat -> r <> imax -> Rabs (f r) <= row_max (K := RSc) n k imax f.
Proof.
  intros H Hn r R1 R2 R3. unfold row_max. destruct (Nat.ltb_spec 0 (imax - k)) as [L|]; [|lia].
  destruct (max_abs_spec (fun t => f (k + t)%nat) (imax - k) L) as (_ & _ & M). destruct (Nat.lt_ge_cases r imax) as [Q|Q].
  - specialize (M (r - k)%nat ltac:(lia)). cbn beta in M. replace (k + (r - k))%nat with r in M by lia. destruct (Nat.ltb 0 (n - imax - 1)); [|exact M]. eapply Rle_trans; [exact M|apply maxi_l].
  - destruct (Nat.ltb_spec 0 (n - imax - 1)) as [L2|]; [|lia]. destruct (max_abs_spec (fun t => f (imax + 1 + t)%nat) (n - imax - 1) L2) as (_ & _ & M2).
    specialize (M2 (r - imax - 1)%nat ltac:(lia)). cbn beta in M2. replace (imax + 1 + (r - imax - 1))%nat with r in M2 by lia. eapply Rle_trans; [exact M2|apply maxi_r].
Qed.
Lemma row_max_le n k imax f B : (k < imax)%nat -> (imax < n)%nat -> (forall r, (k <= r)%nat -> (r < n)%nat -> Rabs (f r) <= B) -> row_max (K := RSc) n k imax f <= B.
Proof.
  intros H Hn HB. unfold row_max. destruct (Nat.ltb_spec 0 (imax - k)) as [L|]; [|lia].
  assert (M1 : fst (max_abs (K := RSc) (fun t => f (k + t)%nat) (imax - k)) <= B) by (apply max_abs_le; [exact L|intros; apply HB; lia]).
  destruct (Nat.ltb_spec 0 (n - imax - 1)) as [L2|]; [|exact M1].
  assert (M2 : fst (max_abs (K := RSc) (fun t => f (imax + 1 + t)%nat) (n - imax - 1)) <= B) by (apply max_abs_le; [exact L2|intros; apply HB; lia]).
  unfold maxi. destruct (sltb _ _); assumption.
Qed.
(** A pivot of one row: c bounds its column and c * c <= |pivot| * B / alpha. *)
Lemma tame_one n k p (T : mx) : (k <= p)%nat -> (p < n)%nat -> T p p <> 0 ->
  (forall B, (forall i j, (k <= i)%nat -> (i < n)%nat -> (k <= j)%nat -> (j < n)%nat -> Rabs (T i j) <= B) ->
     exists c, (forall i, (k <= i)%nat -> (i < n)%nat -> i <> p -> Rabs (T i p) <= c) /\ c * c * bk_alpha (K := RSc) <= Rabs (T p p) * B) ->
  tame n k (p, false) T.
Proof.
  intros H1 H2 Hp H B HB i j Hi1 Hi2 Hj1 Hj2. cbn [snd stepn] in *. replace (k + 1 - k)%nat with 1%nat by lia. rewrite pow_1. unfold nxt, sp, nxt1, psw. cbn [fst snd kkof].
  assert (Sk : swp k p k = p) by (unfold swp; rewrite Nat.eqb_refl; reflexivity). rewrite Sk.
  assert (In : forall x, (k + 1 <= x)%nat -> (x < n)%nat -> (k <= swp k p x)%nat /\ (swp k p x < n)%nat /\ swp k p x <> p).
  { intros x X1 X2. split; [apply swp_ge; lia|]. split; [apply swp_lt; lia|]. unfold swp. bd; lia. }
  destruct (In i Hi1 Hi2) as (I1 & I2 & I3). destruct (In j Hj1 Hj2) as (J1 & J2 & J3). destruct (H B HB) as (c & C1 & C2).
  pose proof (C1 _ I1 I2 I3) as U. pose proof (C1 _ J1 J2 J3) as V. pose proof (HB _ _ I1 I2 J1 J2) as W.
  set (u := T (swp k p i) p) in *. set (v := T (swp k p j) p) in *. set (w := T (swp k p i) (swp k p j)) in *. set (d := T p p) in *.
  pose proof alpha_bounds as [A1 A2]. change (car RSc) with R in *. set (al := bk_alpha (K := RSc)) in *.
  assert (Hd : 0 < Rabs d) by (apply Rabs_pos_lt; exact Hp).
  assert (Q : Rabs (u * (/ d * v)) <= / al * B).
  { rewrite !Rabs_mult, Rabs_Rinv by exact Hp. apply Rmult_le_reg_l with (al * Rabs d); [apply Rmult_lt_0_compat; lra|].
    replace (al * Rabs d * (Rabs u * (/ Rabs d * Rabs v))) with (Rabs u * Rabs v * al) by (field; lra). replace (al * Rabs d * (/ al * B)) with (Rabs d * B) by (field; lra).
    apply Rle_trans with (c * c * al); [|exact C2]. apply Rmult_le_compat_r; [lra|]. apply Rmult_le_compat; try apply Rabs_pos; assumption. }
  eapply Rle_trans; [apply Rabs_triang|]. rewrite Rabs_Ropp. lra.
Qed.
Lemma pair_bound al c r x z y u v u' v' B : 0 < al < 1 -> 4 * al * al - al - 1 = 0 -> 0 < c -> c <= r -> r <= B -> Rabs x * r <= al * c * c -> Rabs z <= al * r -> Rabs y = c -> let D := x * z - y * y in
  D < 0 -> Rabs u <= c -> Rabs u' <= c -> Rabs v <= r -> Rabs v' <= r ->
  Rabs (u * (u' * (z / D) + v' * (- y / D)) + v * (u' * (- y / D) + v' * (x / D))) <= ((1 + / al) ^ 2 - 1) * B.
Proof.
  intros [A1 A2] Ar Hc Hr HB Hx Hz Hy D HD U U' V V'.
  replace (u * (u' * (z / D) + v' * (- y / D)) + v * (u' * (- y / D) + v' * (x / D))) with ((u * u' * z - (u * v' + v * u') * y + v * v' * x) * / D) by (field; lra).
  rewrite Rabs_mult, Rabs_Rinv by lra.
  assert (Eg : (1 + / al) ^ 2 - 1 = 2 / (1 - al)).
  { apply Rmult_eq_reg_r with (al * al * (1 - al)). 2:{ intros E. apply Rmult_integral in E. destruct E as [E|E]; [apply Rmult_integral in E; lra|lra]. }
    replace (((1 + / al) ^ 2 - 1) * (al * al * (1 - al))) with ((2 * al + 1) * (1 - al)) by (field; lra). replace (2 / (1 - al) * (al * al * (1 - al))) with (2 * al * al) by (field; lra). lra. }
  rewrite Eg.
  assert (Hrp : 0 < r) by lra. assert (Hcc : 0 < c * c) by (apply Rmult_lt_0_compat; lra).
  (* the determinant *)
  assert (Hxz : Rabs (x * z) <= al * al * (c * c)).
  { rewrite Rabs_mult. apply Rmult_le_reg_r with r; [lra|]. replace (Rabs x * Rabs z * r) with (Rabs x * r * Rabs z) by ring. replace (al * al * (c * c) * r) with (al * c * c * (al * r)) by ring.
    apply Rmult_le_compat; try assumption; try apply Rabs_pos. apply Rmult_le_pos; [apply Rabs_pos|lra]. }
  assert (Hyy : y * y = c * c) by (rewrite <- Hy, <- Rabs_mult; symmetry; apply Rabs_pos_eq, Rle_0_sqr).
  assert (HDa : (1 - al * al) * (c * c) <= Rabs D).
  { rewrite Rabs_left by exact HD. unfold D. rewrite Hyy. pose proof (Rle_abs (x * z)). lra. }
  assert (Hal : 0 < 1 - al * al) by (replace (1 - al * al) with ((1 - al) * (1 + al)) by ring; apply Rmult_lt_0_compat; lra).
  assert (HDp : 0 < Rabs D) by (apply Rabs_pos_lt; lra).
  (* the numerator *)
  assert (N : Rabs (u * u' * z - (u * v' + v * u') * y + v * v' * x) <= c * c * r * (2 * al + 2)).
  { assert (N1 : Rabs (u * u' * z) <= c * c * (al * r)) by (rewrite !Rabs_mult; apply Rmult_le_compat; try assumption; try apply Rabs_pos; [apply Rmult_le_pos; apply Rabs_pos|apply Rmult_le_compat; try apply Rabs_pos; assumption]).
    assert (N2 : Rabs ((u * v' + v * u') * y) <= 2 * (c * r) * c).
    { rewrite Rabs_mult, Hy. apply Rmult_le_compat_r; [lra|]. eapply Rle_trans; [apply Rabs_triang|]. rewrite !Rabs_mult.
      assert (Rabs u * Rabs v' <= c * r) by (apply Rmult_le_compat; try apply Rabs_pos; assumption). assert (Rabs v * Rabs u' <= r * c) by (apply Rmult_le_compat; try apply Rabs_pos; assumption). lra. }
    assert (N3 : Rabs (v * v' * x) <= r * (al * c * c)).
    { rewrite !Rabs_mult. apply Rle_trans with (r * r * Rabs x).
      - apply Rmult_le_compat_r; [apply Rabs_pos|]. apply Rmult_le_compat; try apply Rabs_pos; assumption.
      - replace (r * r * Rabs x) with (r * (Rabs x * r)) by ring. apply Rmult_le_compat_l; lra. }
    eapply Rle_trans; [apply Rabs_triang|]. eapply Rle_trans; [apply Rplus_le_compat_r, Rabs_triang|]. rewrite Rabs_Ropp. lra. }
  apply Rmult_le_reg_r with (Rabs D); [exact HDp|]. rewrite Rmult_assoc, Rinv_l, Rmult_1_r by lra.
  apply Rle_trans with (c * c * r * (2 * al + 2)); [exact N|].
  apply Rle_trans with (2 / (1 - al) * B * ((1 - al * al) * (c * c))).
  - replace (2 / (1 - al) * B * ((1 - al * al) * (c * c))) with (c * c * B * (2 * al + 2)) by (field; lra). apply Rmult_le_compat_r; [lra|]. apply Rmult_le_compat_l; lra.
  - apply Rmult_le_compat_l; [|exact HDa]. apply Rmult_le_pos; [|lra]. apply Rlt_le, Rdiv_lt_0_compat; lra.
Qed.
Lemma tame_two n k p (T : mx) c r : sym T -> (k < p)%nat -> (p < n)%nat -> 0 < c -> c <= r ->
  (forall i, (k < i)%nat -> (i < n)%nat -> Rabs (T i k) <= c) -> c = Rabs (T p k) ->
  (forall i, (k <= i)%nat -> (i < n)%nat -> i <> p -> Rabs (T i p) <= r) ->
  (forall B, (forall i, (k <= i)%nat -> (i < n)%nat -> Rabs (T i p) <= B) -> r <= B) ->
  Rabs (T k k) * r <= bk_alpha (K := RSc) * c * c -> Rabs (T p p) <= bk_alpha (K := RSc) * r -> det2 k (psw (k + 1) p T) < 0 ->
  tame n k (p, true) T.
Proof.
  intros Sy H1 H2 Hc Hcr C1 C2 R1 R2 X Z Dn B HB i j Hi1 Hi2 Hj1 Hj2. cbn [snd stepn] in *. replace (k + 2 - k)%nat with 2%nat by lia.
  unfold nxt, sp. cbn [fst snd kkof]. unfold nxt2, e11, e21, e22. set (D := det2 k (psw (k + 1) p T)) in *.
  assert (Sk : swp (k + 1) p (k + 1) = p) by (unfold swp; rewrite Nat.eqb_refl; reflexivity). assert (Sk' : swp (k + 1) p k = k) by (apply swp_below; lia).
  assert (In : forall x, (k + 2 <= x)%nat -> (x < n)%nat -> (k + 1 <= swp (k + 1) p x)%nat /\ (swp (k + 1) p x < n)%nat /\ swp (k + 1) p x <> p).
  { intros x X1 X2. split; [apply swp_ge; lia|]. split; [apply swp_lt; lia|]. unfold swp. bd; lia. }
  assert (ED : D = T k k * T p p - T p k * T p k) by (apply det2_swap; exact H1).
  unfold psw. rewrite Sk, Sk'. destruct (In i Hi1 Hi2) as (I1 & I2 & I3). destruct (In j Hj1 Hj2) as (J1 & J2 & J3).
  set (i' := swp (k + 1) p i) in *. set (j' := swp (k + 1) p j) in *.
  pose proof (pair_bound (bk_alpha (K := RSc)) c r (T k k) (T p p) (T p k) (T i' k) (T i' p) (T j' k) (T j' p) B alpha_bounds alpha_root Hc Hcr) as PB.
  specialize (PB ltac:(apply R2; intros; apply HB; lia) X Z ltac:(auto)). cbv zeta in PB. rewrite <- ED in PB.
  specialize (PB Dn ltac:(apply C1; lia) ltac:(apply C1; lia) ltac:(apply R1; lia) ltac:(apply R1; lia)).
  pose proof (HB i' j' ltac:(lia) I2 ltac:(lia) J2) as W. eapply Rle_trans; [apply Rabs_triang|]. rewrite Rabs_Ropp. lra.
Qed.
(** The choice of the pivot. *)
Lemma tame_first n k (T : mx) c : (k < n)%nat -> T k k <> 0 -> (forall i, (k < i)%nat -> (i < n)%nat -> Rabs (T i k) <= c) -> 0 <= c -> (0 < c -> exists p, (k < p)%nat /\ (p < n)%nat /\ c = Rabs (T p k)) ->
  c * bk_alpha (K := RSc) <= Rabs (T k k) -> tame n k (k, false) T.
Proof.
  intros Hk H0 C1 C0 C2 H. apply tame_one; [lia|exact Hk|exact H0|]. intros B HB. exists c. split; [intros i I1 I2 I3; apply C1; lia|].
  assert (B0 : 0 <= B) by (eapply Rle_trans; [apply Rabs_pos|apply (HB k k); lia]).
  assert (CB : c <= B). { destruct (Rle_lt_or_eq_dec 0 c C0) as [P|P]; [|lra]. destruct (C2 P) as (p & P1 & P2 & ->). apply HB; lia. }
  replace (c * c * bk_alpha (K := RSc)) with (c * bk_alpha (K := RSc) * c) by (cbn; ring). apply Rmult_le_compat; try assumption. pose proof alpha_bounds. apply Rmult_le_pos; cbn in *; lra.
Qed.
Lemma choice_tame n k (T : mx) c p r : (k < n)%nat -> sym T -> 0 <= c -> (forall i, (k < i)%nat -> (i < n)%nat -> Rabs (T i k) <= c) ->
  (0 < c -> (k < p)%nat /\ (p < n)%nat /\ c = Rabs (T p k) /\ (forall i, (k <= i)%nat -> (i < n)%nat -> i <> p -> Rabs (T i p) <= r) /\
     forall B, (forall i, (k <= i)%nat -> (i < n)%nat -> Rabs (T i p) <= B) -> r <= B) -> ~ (Rabs (T k k) = 0 /\ c = 0) ->
  match choose (K := RSc) (Rabs (T k k)) c r (Rabs (T p p)) with
  | Keep => tame n k (k, false) T
  | Pick => tame n k (p, false) T
  | Pair => tame n k (p, true) T
  end.
Proof.
  intros Hk Sy C0 C1 CP NZ.
  pose proof (choice_ok n k T c p r Sy C0 ltac:(intros P; destruct (CP P) as (P1 & P2 & P3 & P4 & _); repeat split; auto; rewrite (Sy p k); apply P4; lia) NZ) as OK.
  unfold choose in *. rs. pose proof alpha_bounds as [A1 A2]. change (car RSc) with R in *. set (al := bk_alpha (K := RSc)) in *.
  destruct (sleb (s := RSc) (c * al) (Rabs (T k k))) eqn:E1; cbn [sleb RSc] in E1; [apply Rleb_true in E1|apply Rleb_false in E1].
  { apply (tame_first n k T c); auto. intros P. destruct (CP P) as (P1 & P2 & P3 & _). eauto. }
  assert (Hc : 0 < c). { destruct (Req_dec c 0) as [Z|]; [|lra]. subst c. rewrite Rmult_0_l in E1. pose proof (Rabs_pos (T k k)). lra. }
  destruct (CP Hc) as (P1 & P2 & P3 & P4 & P5).
  assert (Hcr : c <= r) by (rewrite P3, (Sy p k); apply P4; lia). assert (Hr : 0 < r) by lra.
  destruct (sleb (s := RSc) (al * c * (c / r)) (Rabs (T k k))) eqn:E2; cbn [sleb RSc] in E2; [apply Rleb_true in E2|apply Rleb_false in E2].
  { apply tame_one; [lia|exact Hk|exact OK|]. intros B HB. exists c. split; [intros i I1 I2 I3; apply C1; lia|]. fold al.
    apply Rle_trans with (Rabs (T k k) * r).
    - replace (c * c * al) with (al * c * (c / r) * r) by (field; lra). apply Rmult_le_compat_r; lra.
    - apply Rmult_le_compat_l; [apply Rabs_pos|]. apply P5. intros i I1 I2. apply HB; lia. }
  destruct (sleb (s := RSc) (al * r) (Rabs (T p p))) eqn:E3; cbn [sleb RSc] in E3; [apply Rleb_true in E3|apply Rleb_false in E3].
  - destruct OK as (_ & _ & OK). apply tame_one; [lia|exact P2|exact OK|]. intros B HB. exists r. split; [exact P4|]. fold al.
    replace (r * r * al) with (al * r * r) by ring. apply Rmult_le_compat; try lra; [apply Rmult_le_pos; lra|]. apply P5. intros i I1 I2. apply HB; lia.
  - destruct OK as (_ & _ & _ & OK). apply (tame_two n k p T c r); auto; fold al; try lra.
    apply Rle_trans with (al * c * (c / r) * r); [apply Rmult_le_compat_r; lra|]. right. field. lra.
Qed.
Lemma maxi_zero x y : 0 <= x -> 0 <= y -> maxi (K := RSc) x y = 0 -> x = 0 /\ y = 0.
Proof. intros H1 H2 E. pose proof (maxi_l x y). pose proof (maxi_r x y). cbn [car RSc] in *. lra. Qed.
Lemma maxi_nonzero x y : maxi (K := RSc) x y <> 0 -> ~ (x = 0 /\ y = 0).
Proof. intros H [-> ->]. apply H. unfold maxi. destruct (sltb (s := RSc) 0 0); reflexivity. Qed.

Lemma sym_swap_low n k b kp a S : sym S -> low n k a S -> (kkof k b <= kp)%nat -> (kp < n)%nat -> low n k (sym_swap (K := RSc) n k (kkof k b) kp b a) (psw (kkof k b) kp S).
Proof.
  intros Sy L H1 H2 r c Hc Hr Hn. unfold sym_swap. destruct (Nat.eqb_spec kp (kkof k b)) as [->|Ne].
  - unfold psw. rewrite !swp_same. apply L; assumption.
  - unfold psw, swp. destruct b; cbn [kkof] in *; bd; subst; first [reflexivity | apply L; lia | rewrite Sy; apply L; lia].
Qed.
Lemma sym_swap_left n k b kp a r c : (c < k)%nat -> (kkof k b <= kp)%nat -> sym_swap (K := RSc) n k (kkof k b) kp b a r c = a r c.
Proof. intros H H1. pose proof (kkof_ge k b). unfold sym_swap. destruct (Nat.eqb_spec kp (kkof k b)) as [->|Ne]; [reflexivity|]. destruct b; cbn [kkof] in *; bd; reflexivity. Qed.

(** The pivot of two rows. *)
Lemma pair_ok x y z : y <> 0 -> x * z - y * y <> 0 -> let D := x * z - y * y in let co := pair_coeffs (K := RSc) x y z in
  pair_inverse (K := RSc) co = (z / D, - y / D, x / D) /\
  (forall u v, pair_wk (K := RSc) co u v = u * (z / D) + v * (- y / D)) /\ (forall u v, pair_wkp1 (K := RSc) co u v = u * (- y / D) + v * (x / D)).
Proof.
  intros Hy HD. unfold pair_coeffs, pair_inverse, pair_wk, pair_wkp1. rs. cbv zeta beta iota.
  pose proof (Rabs_no_R0 y Hy) as Hs. assert (Hss : Rabs y * Rabs y = y * y) by (rewrite <- Rabs_mult; apply Rabs_pos_eq, Rle_0_sqr).
  set (s := Rabs y) in *. set (D := x * z - y * y) in *.
  assert (Ed : 1 / (1 / s * z * (1 / s * x) - 1) * (1 / s) = s / D).
  { unfold D. rewrite <- Hss. assert (x * z - s * s <> 0) by (rewrite Hss; exact HD). field. repeat split; auto; intros E; apply H; lra. }
  rewrite Ed. split; [|split].
  - f_equal; [f_equal|]; field; auto.
  - intros u v. field. auto.
  - intros u v. field. auto.
Qed.

Lemma elim_one_ok n k a S : low n k a S -> (k < n)%nat -> S k k <> 0 ->
  let a' := elim_one (K := RSc) n k a in
  low n (k + 1) a' (nxt1 k S) /\ (forall r c, (c < k)%nat -> a' r c = a r c) /\ a' k k = / S k k /\ forall i, (k < i)%nat -> (i < n)%nat -> a' i k = S i k * / S k k.
Proof.
  intros L Hk HS. unfold elim_one. rs. split; [|split; [|split]].
  - intros r c H1 H2 H3. unfold nxt1. bd. rs. rewrite !L by lia. field. exact HS.
  - intros r c H. bd; reflexivity.
  - bd. rewrite L by lia. field. exact HS.
  - intros i H1 H2. bd. rewrite !L by lia. field. exact HS.
Qed.
Lemma elim_two_ok n k a S : low n k a S -> (k + 1 < n)%nat -> S (k + 1)%nat k <> 0 -> det2 k S <> 0 ->
  let a' := elim_two (K := RSc) n k a in
  low n (k + 2) a' (nxt2 k S) /\ (forall r c, (c < k)%nat -> a' r c = a r c) /\ a' k k = e11 k S /\ a' (k + 1)%nat k = e21 k S /\ a' (k + 1)%nat (k + 1)%nat = e22 k S /\
  forall i, (k + 1 < i)%nat -> (i < n)%nat -> a' i k = S i k * e11 k S + S i (k + 1)%nat * e21 k S /\ a' i (k + 1)%nat = S i k * e21 k S + S i (k + 1)%nat * e22 k S.
Proof.
  intros L Hk Hy HD. unfold elim_two. destruct (pair_ok (S k k) (S (k + 1)%nat k) (S (k + 1)%nat (k + 1)%nat) Hy HD) as (P1 & P2 & P3).
  rewrite !L by lia. set (co := pair_coeffs (K := RSc) (S k k) (S (k + 1)%nat k) (S (k + 1)%nat (k + 1)%nat)) in *. rewrite P1. cbv zeta.
  fold (det2 k S) in *. split; [|split; [|split; [|split; [|split]]]].
  - intros r c H1 H2 H3. bd. rewrite P2, P3. rs. rewrite !L by lia. unfold nxt2, e11, e21, e22. reflexivity.
  - intros r c H. bd; reflexivity.
  - bd. reflexivity.
  - bd. reflexivity.
  - bd. reflexivity.
  - intros i H1 H2. bd. rewrite P2, P3. rewrite !L by lia. split; reflexivity.
Qed.

(** What a run from row k on leaves: the steps done, and either all rows are done or the next column of
    the remaining matrix is zero. *)
Definition ran (n k : nat) (S : mx) (a a' : mx) (piv piv' : nat -> Z) (ok : bool) (st : list (nat * bool)) : Prop :=
  good n k st S a' piv' /\ (forall r c, (c < k)%nat -> a' r c = a r c) /\ (forall i, (i < k)%nat \/ (fin k st <= i)%nat -> piv' i = piv i) /\
  low n (fin k st) a' (after k st S) /\ (fin k st <= n)%nat /\
  if ok then fin k st = n else (fin k st < n)%nat /\ forall i, (fin k st <= i)%nat -> (i < n)%nat -> after k st S i (fin k st) = 0.
Lemma record_at piv k kp b i : (k <= i)%nat -> (i < stepn k b)%nat -> record_piv piv k kp b i = if b then (-1 - Z.of_nat kp)%Z else Z.of_nat kp.
Proof. destruct b; cbn [stepn]; intros H1 H2; unfold record_piv, set_piv; bd; reflexivity. Qed.
Lemma record_off piv k kp b i : (i < k)%nat \/ (stepn k b <= i)%nat -> record_piv piv k kp b i = piv i.
Proof. destruct b; cbn [stepn]; intros H; unfold record_piv, set_piv; bd; reflexivity. Qed.

Lemma good1_make n k p b S a piv : (kkof k b <= p)%nat -> (p < n)%nat -> tame n k (p, b) S ->
  (if b then psw (kkof k b) p S (k + 1)%nat k <> 0 /\ det2 k (psw (kkof k b) p S) < 0 else psw (kkof k b) p S k k <> 0) ->
  (let S1 := psw (kkof k b) p S in
   if b then a k k = e11 k S1 /\ a (k + 1)%nat k = e21 k S1 /\ a (k + 1)%nat (k + 1)%nat = e22 k S1 /\
    forall i, (k + 1 < i)%nat -> (i < n)%nat -> a i k = S1 i k * e11 k S1 + S1 i (k + 1)%nat * e21 k S1 /\ a i (k + 1)%nat = S1 i k * e21 k S1 + S1 i (k + 1)%nat * e22 k S1
   else a k k = / S1 k k /\ forall i, (k < i)%nat -> (i < n)%nat -> a i k = S1 i k * / S1 k k) ->
  good1 n k (p, b) S a (record_piv piv k p b).
Proof.
  intros H1 H2 TM H3 H4. unfold good1, sp. cbn [fst snd]. split; [exact H1|]. split; [exact H2|]. split; [exact TM|]. destruct b; cbv zeta in H4.
  - destruct H4 as (A & B & C & D). destruct H3. rewrite !record_at by (cbn [stepn]; lia). repeat split; auto; apply D; auto.
  - destruct H4 as (A & D). rewrite !record_at by (cbn [stepn]; lia). repeat split; auto.
Qed.

Lemma unb_ok n : forall fuel k a piv S, (n - k <= fuel)%nat -> (k <= n)%nat -> sym S -> low n k a S ->
  exists a' piv' ok st, unb_loop (K := RSc) fuel n k a piv = Ret (a', piv', ok) /\ ran n k S a a' piv piv' ok st.
Proof.
  induction fuel as [|f IH]; intros k a piv S Hf Hk Sy L.
  { exists a, piv, true, []. cbn [unb_loop]. destruct (Nat.ltb_spec k n); [lia|]. split; [reflexivity|]. unfold ran. cbn [good fin after]. repeat split; auto; lia. }
  cbn [unb_loop]. destruct (Nat.ltb_spec k n) as [Hkn|]; [|exists a, piv, true, []; split; [reflexivity|]; unfold ran; cbn [good fin after]; repeat split; auto; lia].
  pose proof (col_max_spec n k a Hkn) as CM. destruct (col_max (K := RSc) n k a) as [c imax] eqn:EC. cbv zeta in CM. cbn [fst snd] in CM. destruct CM as (C1 & C2 & C3).
  change (sabs (s := RSc)) with Rabs. rewrite (L k k) by lia.
  destruct (seqb (s := RSc) (maxi (Rabs (S k k)) c) s0) eqn:EZ.
  { cbn [seqb s0 RSc] in EZ. apply Reqb_true in EZ. apply maxi_zero in EZ; [|apply Rabs_pos|exact C2]. destruct EZ as [Z1 Z2].
    exists a, piv, false, []. split; [reflexivity|]. unfold ran. cbn [good fin after]. repeat split; auto; try lia.
    intros i H1 H2. rewrite <- L by lia. destruct (Nat.eq_dec i k) as [->|].
    - rewrite L by lia. destruct (Req_dec (S k k) 0) as [|N]; [assumption|]. apply Rabs_no_R0 in N. contradiction.
    - specialize (C1 i ltac:(lia) H2). rewrite Z2 in C1. destruct (Req_dec (a i k) 0) as [|N]; [assumption|]. apply Rabs_pos_lt in N. lra. }
  cbn [seqb s0 RSc] in EZ. apply Reqb_false in EZ. apply maxi_nonzero in EZ.
  set (rm := row_max (K := RSc) n k imax (row_entry (K := RSc) imax a)).
  assert (Im : 0 < c -> (k < imax)%nat /\ (imax < n)%nat /\ c = Rabs (S imax k) /\ Rabs (S imax k) <= rm).
  { intros P. destruct (C3 P) as (I1 & I2 & I3). rewrite (L imax k) in I3 by lia. repeat split; auto. unfold rm.
    pose proof (row_max_spec n k imax (row_entry (K := RSc) imax a) I1) as RM. unfold row_entry in RM at 1. destruct (Nat.ltb_spec k imax); [|lia]. rewrite L in RM by lia. exact RM. }
  assert (Ai : 0 < c -> a imax imax = S imax imax) by (intros P; destruct (C3 P) as (I1 & I2 & _); apply L; lia).
  pose proof (choice_ok n k S c imax rm Sy C2 Im EZ) as CH.
  assert (CE : choose (K := RSc) (Rabs (S k k)) c rm (Rabs (a imax imax)) = choose (K := RSc) (Rabs (S k k)) c rm (Rabs (S imax imax))).
  { destruct (Rlt_dec 0 c) as [P|P]; [rewrite (Ai P); reflexivity|]. assert (c = 0) as -> by lra. unfold choose. rs.
    destruct (sleb (s := RSc) (0 * bk_alpha (K := RSc)) (Rabs (S k k))) eqn:E; [reflexivity|]. cbn [sleb RSc] in E. apply Rleb_false in E. pose proof (Rabs_pos (S k k)). rewrite Rmult_0_l in E. lra. }
  assert (TMc : match choose (K := RSc) (Rabs (S k k)) c rm (Rabs (S imax imax)) with Keep => tame n k (k, false) S | Pick => tame n k (imax, false) S | Pair => tame n k (imax, true) S end).
  { apply choice_tame; auto.
    - intros i I1 I2. rewrite <- L by lia. apply C1; lia.
    - intros P. destruct (Im P) as (I1 & I2 & I3 & _). split; [exact I1|]. split; [exact I2|]. split; [exact I3|].
      assert (RE : forall i, (k <= i)%nat -> (i < n)%nat -> row_entry (K := RSc) imax a i = S i imax) by (intros i J1 J2; unfold row_entry; bd; [rewrite (Sy i imax)|]; apply L; lia).
      split; [intros i J1 J2 J3; rewrite <- RE by assumption; apply row_max_all; assumption|]. intros B HB. apply row_max_le; [exact I1|exact I2|]. intros i J1 J2. rewrite RE by assumption. apply HB; assumption. }
  rewrite CE. set (ch := choose (K := RSc) (Rabs (S k k)) c rm (Rabs (S imax imax))) in *. cbv zeta.
  set (kp := match ch with Keep => k | _ => imax end). set (b := match ch with Pair => true | _ => false end).
  fold (kkof k b). fold (stepn k b).
  assert (K1 : (kkof k b <= kp)%nat) by (unfold kp, b; destruct ch; cbn [kkof]; lia).
  assert (K2 : (kp < n)%nat) by (unfold kp; destruct ch; lia).
  assert (K3 : if b then psw (kkof k b) kp S (k + 1)%nat k <> 0 /\ det2 k (psw (kkof k b) kp S) < 0 else psw (kkof k b) kp S k k <> 0).
  { unfold b, kp. destruct ch; cbn [kkof].
    - unfold psw. rewrite swp_same. exact CH.
    - unfold psw, swp. rewrite Nat.eqb_refl. apply CH.
    - destruct CH as (I1 & I2 & I3 & I4). split; [|exact I4]. unfold psw. rewrite (swp_below (k + 1) imax k) by lia. unfold swp. rewrite Nat.eqb_refl. exact I3. }
  assert (TM : tame n k (kp, b) S) by (unfold kp, b; destruct ch; exact TMc).
  set (a1 := freeze n n (sym_swap (K := RSc) n k (kkof k b) kp b a)).
  assert (L1 : low n k a1 (psw (kkof k b) kp S)).
  { intros r q H1 H2 H3. unfold a1. rewrite freeze_id. apply sym_swap_low; assumption. }
  assert (P1 : forall r q, (q < k)%nat -> a1 r q = a r q) by (intros r q H; unfold a1; rewrite freeze_id; apply sym_swap_left; assumption).
  set (a2 := freeze n n (if b then elim_two (K := RSc) n k a1 else elim_one (K := RSc) n k a1)).
  assert (L2 : low n (stepn k b) a2 (nxt k (kp, b) S) /\ (forall r q, (q < k)%nat -> a2 r q = a r q) /\ good1 n k (kp, b) S a2 (record_piv piv k kp b) /\ (stepn k b <= n)%nat).
  { unfold nxt, sp. cbn [fst snd]. unfold a2. clearbody b kp a1. destruct b.
    - destruct K3 as [Y D]. cbn [kkof stepn] in *. destruct (elim_two_ok n k a1 (psw (k + 1) kp S) L1 ltac:(lia) Y ltac:(lra)) as (E1 & E2 & E3 & E4 & E5 & E6).
      split; [intros r q H1 H2 H3; rewrite freeze_id; apply E1; assumption|]. split; [intros r q H; rewrite freeze_id; rewrite E2 by exact H; apply P1; exact H|]. split; [|lia].
      apply good1_make; cbn [kkof]; try assumption; [split; assumption|]. cbv zeta. rewrite !freeze_id. split; [exact E3|]. split; [exact E4|]. split; [exact E5|]. intros i H1 H2. rewrite !freeze_id. apply E6; assumption.
    - cbn [kkof stepn] in *. destruct (elim_one_ok n k a1 (psw k kp S) L1 ltac:(lia) K3) as (E1 & E2 & E3 & E6).
      split; [intros r q H1 H2 H3; rewrite freeze_id; apply E1; assumption|]. split; [intros r q H; rewrite freeze_id; rewrite E2 by exact H; apply P1; exact H|]. split; [|lia].
      apply good1_make; cbn [kkof]; try assumption. cbv zeta. rewrite !freeze_id. split; [exact E3|]. intros i H1 H2. rewrite !freeze_id. apply E6; assumption. }
  destruct L2 as (L2 & P2 & G & Hs). pose proof (stepn_le k b) as Sl.
  destruct (IH (stepn k b) a2 (record_piv piv k kp b) (nxt k (kp, b) S) ltac:(lia) Hs (nxt_sym _ _ _ Sy) L2) as (a' & piv' & ok & st & E & R1 & R2 & R3 & R4 & R5 & R6).
  exists a', piv', ok, ((kp, b) :: st). split; [exact E|]. unfold ran. cbn [good fin after snd]. pose proof (fin_ge st (stepn k b)). split; [|split; [|split; [|split; [|split]]]]; try assumption.
  - split; [|exact R1]. revert G. apply good1_ext; cbn [snd]; [intros; apply R2; assumption|intros; apply R3; left; assumption].
  - intros r q H0. rewrite R2 by lia. apply P2. exact H0.
  - intros i H0. rewrite R3 by lia. apply record_off. lia.
Qed.
Lemma unblocked_bk n a piv S : sym S -> low n 0 a S -> (n = 1%nat -> piv 0%nat = 0%Z) -> exists a' piv' ok st, bk_unblocked (K := RSc) n a piv = Ret (a', piv', ok) /\ ran n 0 S a a' piv piv' ok st.
Proof.
  intros Sy L Hp. unfold bk_unblocked. destruct (Nat.eqb_spec n 0) as [->|N0].
  { exists a, piv, true, []. split; [reflexivity|]. unfold ran. cbn. repeat split; auto; lia. }
  destruct (Nat.eqb_spec n 1) as [->|N1]; [|apply unb_ok; auto; lia].
  change (sabs (s := RSc)) with Rabs. rewrite (L 0%nat 0%nat) by lia. specialize (Hp eq_refl). destruct (seqb (s := RSc) (Rabs (S 0%nat 0%nat)) s0) eqn:E; cbn [seqb s0 RSc] in E.
  - apply Reqb_true in E. exists a, piv, false, []. split; [reflexivity|]. unfold ran. cbn [good fin after]. repeat split; auto; try lia.
    intros i _ Hi. replace i with 0%nat by lia. destruct (Req_dec (S 0%nat 0%nat) 0) as [|N]; [assumption|]. apply Rabs_no_R0 in N. contradiction.
  - apply Reqb_false in E. assert (NZ : S 0%nat 0%nat <> 0) by (intros Z; rewrite Z, Rabs_R0 in E; auto).
    eexists _, piv, true, [(0%nat, false)]. split; [reflexivity|]. unfold ran. cbn [good fin after snd stepn kkof]. unfold good1, sp, psw. cbn [fst snd kkof]. rewrite !swp_same. rs.
    split; [|split; [|split; [|split; [|split]]]]; try reflexivity; try lia; try (intros; lia).
    + split; [|exact I]. split; [lia|]. split; [lia|]. split; [intros B HB i j Hi1 Hi2; cbn [snd stepn] in Hi1; lia|]. split; [exact NZ|]. split; [|split; [exact Hp|intros; lia]]. cbn. field. exact NZ.
    + intros r c; lia.
Qed.
