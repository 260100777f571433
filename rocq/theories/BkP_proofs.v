(** Bunch-Kaufman: the panel factorisation and the sequence of panels. *)
From Coq Require Import Reals ZArith List Bool Arith Lia Lra.
From Verif Require Import Scalar Problem_model Lin_spec Lin_proofs Ldlt_model Ldlt_spec Ldlt_proofs Bk_model Bk_proofs.
Import ListNotations.
Local Open Scope R_scope.
Local Notation mx := (nat -> nat -> R).

(** All swaps of the steps, first to last; and those of the steps after column c. *)
Fixpoint fperm (k : nat) (st : list (nat * bool)) (i : nat) : nat := match st with [] => i | s :: r => swp (kkof k (snd s)) (fst s) (fperm (stepn k (snd s)) r i) end.
Fixpoint tperm (k : nat) (st : list (nat * bool)) (c i : nat) : nat :=
  match st with [] => i | s :: r => let j := tperm (stepn k (snd s)) r c i in if Nat.ltb c k then swp (kkof k (snd s)) (fst s) j else j end.
Lemma fperm_snoc st s : forall k i, fperm k (st ++ [s]) i = fperm k st (swp (kkof (fin k st) (snd s)) (fst s) i).
Proof. induction st as [|t st IH]; intros k i; [reflexivity|]. cbn. rewrite IH. reflexivity. Qed.
Lemma tperm_snoc st s : forall k c i, tperm k (st ++ [s]) c i = tperm k st c (if Nat.ltb c (fin k st) then swp (kkof (fin k st) (snd s)) (fst s) i else i).
Proof. induction st as [|t st IH]; intros k c i; [reflexivity|]. cbn. rewrite IH. reflexivity. Qed.
Lemma tperm_ge st : forall k c i, (fin k st <= c)%nat -> tperm k st c i = i.
Proof.
  induction st as [|t st IH]; intros k c i H; [reflexivity|]. cbn [fin tperm] in *. rewrite IH by exact H. cbv zeta. pose proof (stepn_le k (snd t)). pose proof (fin_ge st (stepn k (snd t))). bd.
Qed.
Lemma fin_snoc st s k : fin k (st ++ [s]) = stepn (fin k st) (snd s). Proof. rewrite fin_app. reflexivity. Qed.
Lemma after_snoc st s k S : after k (st ++ [s]) S = nxt (fin k st) s (after k st S). Proof. rewrite after_app. reflexivity. Qed.

Section Panel.
  Variables (n : nat) (S : mx).
  Hypothesis Sy : sym S.
  Definition pinv (k : nat) (a w : mx) (piv : nat -> Z) (st : list (nat * bool)) (g : mx) : Prop :=
    good n 0 st S g piv /\ fin 0 st = k /\ (k <= n)%nat /\
    (forall r c, (c < k)%nat -> a r c = g (tperm 0 st c r) c) /\
    (forall r c, (k <= c)%nat -> (c <= r)%nat -> (r < n)%nat -> a r c = S (fperm 0 st r) (fperm 0 st c)) /\
    (forall i j, (k <= i)%nat -> (i < n)%nat -> (k <= j)%nat -> (j < n)%nat -> after 0 st S i j = S (fperm 0 st i) (fperm 0 st j) - rsum k (fun c => a i c * w j c)).

  Lemma pan_swap_left k b kp a r c : (c < k)%nat -> (kkof k b <= kp)%nat -> pan_swap_a (K := RSc) n k (kkof k b) kp a r c = a (swp (kkof k b) kp r) c.
  Proof.
    intros H H1. pose proof (kkof_ge k b). unfold pan_swap_a. destruct (Nat.eqb_spec kp (kkof k b)) as [->|Ne]; [rewrite swp_same; reflexivity|].
    unfold swp. bd; subst; reflexivity.
  Qed.
  Lemma pan_swap_right k b kp a (Q : nat -> nat -> R) r c : sym Q -> (forall r c, (k <= c)%nat -> (c <= r)%nat -> (r < n)%nat -> a r c = Q r c) ->
    (kkof k b <= kp)%nat -> (kp < n)%nat -> (stepn k b <= c)%nat -> (c <= r)%nat -> (r < n)%nat -> pan_swap_a (K := RSc) n k (kkof k b) kp a r c = psw (kkof k b) kp Q r c.
  Proof.
    intros SQ H H1 H2 Hc Hr Hn. rewrite kkof_step in Hc. pose proof (kkof_ge k b). unfold pan_swap_a. destruct (Nat.eqb_spec kp (kkof k b)) as [->|Ne].
    - unfold psw. rewrite !swp_same. apply H; lia.
    - unfold psw, swp. bd; subst; first [reflexivity | apply H; lia | rewrite SQ; apply H; lia].
  Qed.
  Lemma pan_swap_w_eq kk kp w r c : (c <= kk)%nat -> (kk <= kp)%nat -> pan_swap_w (K := RSc) kk kp w r c = w (swp kk kp r) c.
  Proof. intros H H1. unfold pan_swap_w. destruct (Nat.eqb_spec kp kk) as [->|Ne]; [rewrite swp_same; reflexivity|]. unfold swp. bd; subst; reflexivity. Qed.

  (** One step of the panel. *)
  Lemma pan_step k a w piv st g b kp w4 : pinv k a w piv st g -> (kkof k b <= kp)%nat -> (kp < n)%nat -> tame n k (kp, b) (after 0 st S) ->
    (let T1 := psw (kkof k b) kp (after 0 st S) in
     (if b then T1 (k + 1)%nat k <> 0 /\ det2 k T1 < 0 else T1 k k <> 0) /\
     (forall r c, (k <= c)%nat -> (c <= kkof k b)%nat -> (k <= r)%nat -> (r < n)%nat -> w4 r c = T1 r c)) ->
    (forall r c, (c < k)%nat -> w4 r c = w (swp (kkof k b) kp r) c) ->
    let a1 := pan_swap_a (K := RSc) n k (kkof k b) kp a in
    forall a2, (forall r c, a2 r c = (if b then pan_two (K := RSc) n k a1 w4 else pan_one (K := RSc) n k a1 w4) r c) ->
    pinv (stepn k b) a2 w4 (record_piv piv k kp b) (st ++ [(kp, b)]) (fun r c => if Nat.ltb c k then g r c else a2 r c).
  Proof.
    intros (G & Fk & Hk & I2 & I3 & I4) K1 K2 TM (K3 & W1) W2 a1 a2 A2. set (T := after 0 st S) in *. set (T1 := psw (kkof k b) kp T) in *.
    pose proof (kkof_ge k b) as Kg. pose proof (stepn_le k b) as Ks. pose proof (kkof_step k b) as Ke.
    assert (ST : sym T) by (apply after_sym; exact Sy).
    (* the new columns *)
    assert (New : if b then a2 k k = e11 k T1 /\ a2 (k + 1)%nat k = e21 k T1 /\ a2 (k + 1)%nat (k + 1)%nat = e22 k T1 /\
        forall i, (k + 1 < i)%nat -> (i < n)%nat -> a2 i k = T1 i k * e11 k T1 + T1 i (k + 1)%nat * e21 k T1 /\ a2 i (k + 1)%nat = T1 i k * e21 k T1 + T1 i (k + 1)%nat * e22 k T1
      else a2 k k = / T1 k k /\ forall i, (k < i)%nat -> (i < n)%nat -> a2 i k = T1 i k * / T1 k k).
    { clear I2 I3 I4 G. destruct b; cbn [kkof] in *.
      - destruct K3 as [Y D]. destruct (pair_ok (T1 k k) (T1 (k + 1)%nat k) (T1 (k + 1)%nat (k + 1)%nat) Y ltac:(fold (det2 k T1); lra)) as (Q1 & Q2 & Q3).
        assert (A2' := A2). unfold pan_two in A2'. rewrite !W1 in A2' by lia.
        set (co := pair_coeffs (K := RSc) (T1 k k) (T1 (k + 1)%nat k) (T1 (k + 1)%nat (k + 1)%nat)) in *. rewrite Q1 in A2'. fold (det2 k T1) in *.
        split; [rewrite A2'; bd; reflexivity|]. split; [rewrite A2'; bd; reflexivity|]. split; [rewrite A2'; bd; reflexivity|].
        intros i H1 H2. split.
        + rewrite A2'. bd. rewrite Q2. rewrite !W1 by lia. reflexivity.
        + rewrite A2'. bd. rewrite Q3. rewrite !W1 by lia. reflexivity.
      - assert (A2' := A2). unfold pan_one in A2'. split.
        + rewrite A2'. bd. rs. rewrite W1 by lia. field. exact K3.
        + intros i H1 H2. rewrite A2'. bd. rs. rewrite !W1 by lia. field. exact K3. }
    assert (Lft : forall r c, (c < k)%nat -> a2 r c = a (swp (kkof k b) kp r) c).
    { intros r c H. rewrite A2. rewrite <- (pan_swap_left k b kp a r c H K1). fold a1. destruct b; [unfold pan_two|unfold pan_one]; [destruct (pair_inverse _) as [[x y] z]|]; cbv zeta; bd; reflexivity. }
    assert (Rgt : forall r c, (stepn k b <= c)%nat -> (c <= r)%nat -> (r < n)%nat -> a2 r c = a1 r c).
    { intros r c H1 H2 H3. rewrite A2. destruct b; cbn [stepn] in H1; [unfold pan_two|unfold pan_one]; [destruct (pair_inverse _) as [[x y] z]|]; cbv zeta; bd; reflexivity. }
    unfold pinv. rewrite good_app, fin_snoc, after_snoc, Fk. cbn [good fst snd]. fold T.
    split; [|split; [reflexivity|split; [rewrite Ke; lia|split; [|split]]]].
    - split.
      + revert G. apply good_ext; rewrite Fk.
        * intros r c _ H _ _. bd. reflexivity.
        * intros i _ H. apply record_off. lia.
      + split; [|exact I]. apply good1_make; [exact K1|exact K2|exact TM| |].
        * fold T1. exact K3.
        * cbv zeta. fold T1. clear -New. destruct b.
          { destruct New as (N1 & N2 & N3 & N4). bd. repeat split; auto; apply N4; auto. }
          { destruct New as (N1 & N2). bd. repeat split; auto. }
    - intros r c Hc. rewrite tperm_snoc, Fk. cbn [fst snd]. destruct (Nat.ltb_spec c k) as [H|H].
      + rewrite Lft by exact H. apply I2. exact H.
      + rewrite tperm_ge by lia. reflexivity.
    - intros r c Hc Hr Hn. rewrite Rgt by assumption. rewrite !fperm_snoc, Fk. cbn [fst snd].
      refine (eq_trans (pan_swap_right k b kp a (fun r c => S (fperm 0 st r) (fperm 0 st c)) r c _ I3 K1 K2 Hc Hr Hn) _); [intros x y; apply Sy|]. reflexivity.
    - intros i j Hi1 Hi2 Hj1 Hj2. rewrite !fperm_snoc, Fk. cbn [fst snd]. set (i' := swp (kkof k b) kp i). set (j' := swp (kkof k b) kp j).
      assert (R : (k <= i')%nat /\ (i' < n)%nat /\ (k <= j')%nat /\ (j' < n)%nat) by (unfold i', j'; repeat split; try (apply swp_ge; lia); apply swp_lt; lia).
      assert (E : T1 i j = S (fperm 0 st i') (fperm 0 st j') - rsum k (fun c => a2 i c * w4 j c)).
      { unfold T1, psw. fold i' j'. unfold T. rewrite I4 by lia. f_equal. apply rsum_ext. intros t Ht. rewrite Lft, W2 by exact Ht. reflexivity. }
      assert (ST1 : sym T1) by (apply psw_sym, ST).
      unfold nxt, sp. cbn [fst snd]. fold T1. destruct b; cbn [stepn kkof] in *.
      + replace (k + 2)%nat with (Datatypes.S (Datatypes.S k)) by lia. cbn [rsum]. replace (Datatypes.S k) with (k + 1)%nat by lia. rewrite !W1 by lia.
        destruct New as (_ & _ & _ & N). destruct (N i ltac:(lia) Hi2) as [-> ->]. unfold nxt2. rewrite E. ring.
      + replace (k + 1)%nat with (Datatypes.S k) by lia. cbn [rsum]. rewrite !W1 by lia. destruct New as (_ & N). rewrite N by lia. unfold nxt1. rewrite E. ring.
  Qed.

  Lemma pan_loop_ok nb : forall fuel k a w piv st g, (n - k <= fuel)%nat -> pinv k a w piv st g ->
    exists a' w' piv' k' ok st' g', pan_loop (K := RSc) fuel n nb k a w piv = Ret (a', w', piv', k', ok) /\ pinv k' a' w' piv' st' g' /\ (k <= k')%nat /\
      (forall i, (k' <= i)%nat -> piv' i = piv i) /\
      if ok then (n <= k' \/ nb <= k' + 1)%nat else (k' < n)%nat /\ forall i, (k' <= i)%nat -> (i < n)%nat -> after 0 st' S i k' = 0.
  Proof.
    induction fuel as [|f IH]; intros k a w piv st g Hf PI.
    { assert (n <= k)%nat by lia. exists a, w, piv, k, true, st, g. cbn [pan_loop]. destruct (Nat.ltb_spec k n); [lia|]. cbn [andb]. repeat split; auto; try apply PI. }
    cbn [pan_loop]. destruct (Nat.ltb_spec k n) as [Hkn|Hkn]; cbn [andb]; [|exists a, w, piv, k, true, st, g; repeat split; auto; apply PI].
    destruct (Nat.ltb_spec (k + 1) nb) as [Hnb|Hnb]; [|exists a, w, piv, k, true, st, g; repeat split; auto; apply PI].
    assert (PI' := PI). destruct PI' as (G & Fk & Hk & I2 & I3 & I4). set (T := after 0 st S) in *. assert (ST : sym T) by (apply after_sym; exact Sy).
    set (w1 := freeze n nb (pan_col (K := RSc) n k a w)). cbv zeta.
    assert (W1 : forall r, (k <= r)%nat -> (r < n)%nat -> w1 r k = T r k).
    { intros r H1 H2. unfold w1. rewrite freeze_id. unfold pan_col. bd. rs. rewrite ssum_rsum. rewrite I4 by lia. rewrite I3 by lia. reflexivity. }
    assert (W1l : forall r c, c <> k -> w1 r c = w r c) by (intros r c H; unfold w1; rewrite freeze_id; unfold pan_col; bd; reflexivity).
    pose proof (col_max_spec n k w1 Hkn) as CM. destruct (col_max (K := RSc) n k w1) as [c imax] eqn:EC. cbv zeta in CM. cbn [fst snd] in CM. destruct CM as (C1 & C2 & C3).
    change (sabs (s := RSc)) with Rabs. rewrite (W1 k) by lia.
    destruct (seqb (s := RSc) (maxi (Rabs (T k k)) c) s0) eqn:EZ; cbn [seqb s0 RSc] in EZ.
    { apply Reqb_true in EZ. apply maxi_zero in EZ; [|apply Rabs_pos|exact C2]. destruct EZ as [Z1 Z2].
      exists a, w1, piv, k, false, st, g. split; [reflexivity|]. split.
      - split; [exact G|]. split; [exact Fk|]. split; [exact Hk|]. split; [exact I2|]. split; [exact I3|]. intros i j Hi1 Hi2 Hj1 Hj2. fold T. rewrite I4 by lia. f_equal. apply rsum_ext. intros t Ht. rewrite W1l by lia. reflexivity.
      - split; [lia|]. split; [auto|]. split; [exact Hkn|]. intros i H1 H2. fold T. destruct (Nat.eq_dec i k) as [->|].
        + destruct (Req_dec (T k k) 0) as [|N]; [assumption|]. apply Rabs_no_R0 in N. contradiction.
        + specialize (C1 i ltac:(lia) H2). rewrite W1, Z2 in C1 by lia. destruct (Req_dec (T i k) 0) as [|N]; [assumption|]. apply Rabs_pos_lt in N. lra. }
    apply Reqb_false in EZ. apply maxi_nonzero in EZ.
    set (first := sleb (s := RSc) (smul c bk_alpha) (Rabs (T k k))).
    set (w2 := if first then w1 else freeze n nb (pan_row (K := RSc) n k imax a w1)).
    set (rm := row_max (K := RSc) n k imax (fun r => w2 r (k + 1)%nat)).
    assert (Fc : first = false -> 0 < c).
    { unfold first. cbn [sleb RSc]. intros E. apply Rleb_false in E. rs. destruct (Rle_lt_or_eq_dec 0 c C2) as [P|P]; [exact P|]. rewrite <- P in E. rewrite Rmult_0_l in E. pose proof (Rabs_pos (T k k)). lra. }
    assert (W2l : forall r q, q <> k -> q <> (k + 1)%nat -> w2 r q = w r q).
    { intros r q H1 H2. unfold w2. destruct first; [apply W1l; exact H1|]. rewrite freeze_id. unfold pan_row. bd; apply W1l; exact H1. }
    assert (W2k : forall r, w2 r k = w1 r k).
    { intros r. unfold w2. destruct first; [reflexivity|]. rewrite freeze_id. unfold pan_row. bd; reflexivity. }
    assert (W2i : first = false -> forall r, (k <= r)%nat -> (r < n)%nat -> w2 r (k + 1)%nat = T r imax).
    { intros Ff r H1 H2. destruct (C3 (Fc Ff)) as (J1 & J2 & _). unfold w2. rewrite Ff, freeze_id. unfold pan_row. bd. rs. rewrite ssum_rsum, I4 by lia.
      rewrite (rsum_ext k (fun t => a r t * w1 imax t) (fun t => a r t * w imax t)) by (intros t Ht; rewrite W1l by lia; reflexivity). f_equal.
      unfold row_entry. bd; [rewrite Sy|]; apply I3; lia. }
    set (ch := if first then Keep else choose (K := RSc) (Rabs (T k k)) c rm (Rabs (w2 imax (k + 1)%nat))).
    assert (CH : match ch with
      | Keep => T k k <> 0
      | Pick => (k < imax)%nat /\ (imax < n)%nat /\ T imax imax <> 0 /\ first = false
      | Pair => (k < imax)%nat /\ (imax < n)%nat /\ T imax k <> 0 /\ det2 k (psw (k + 1) imax T) < 0 /\ first = false
      end).
    { unfold ch. destruct first eqn:Ff.
      - unfold first in Ff. cbn [sleb RSc] in Ff. apply Rleb_true in Ff. rs. intros Z. apply EZ. rewrite Z, Rabs_R0 in *. split; [reflexivity|]. pose proof alpha_bounds as [A1 A2]. change (car RSc) with R in *.
        destruct (Rle_lt_or_eq_dec 0 c C2) as [P|P]; [|auto]. assert (0 < c * bk_alpha (K := RSc)) by (apply Rmult_lt_0_compat; lra). lra.
      - specialize (Fc eq_refl). specialize (W2i eq_refl). destruct (C3 Fc) as (J1 & J2 & J3). rewrite W1 in J3 by lia.
        assert (RM : Rabs (T imax k) <= rm). { unfold rm. pose proof (row_max_spec n k imax (fun r => w2 r (k + 1)%nat) J1) as Q. cbv beta in Q. rewrite W2i in Q at 1 by lia. rewrite (ST imax k). exact Q. }
        pose proof (choice_ok n k T c imax rm ST C2 ltac:(intros _; auto) EZ) as Q. rewrite W2i by lia.
        destruct (choose (K := RSc) (Rabs (T k k)) c rm (Rabs (T imax imax))); [exact Q| |].
        + destruct Q as (Q1 & Q2 & Q3). auto.
        + destruct Q as (Q1 & Q2 & Q3 & Q4). auto. }
    assert (TMc : match ch with Keep => tame n k (k, false) T | Pick => tame n k (imax, false) T | Pair => tame n k (imax, true) T end).
    { assert (Cb : forall i, (k < i)%nat -> (i < n)%nat -> Rabs (T i k) <= c) by (intros i J1 J2; rewrite <- W1 by lia; apply C1; lia).
      unfold ch in *. destruct first eqn:Ff.
      - apply (tame_first n k T c); auto.
        + intros P. destruct (C3 P) as (J1 & J2 & J3). rewrite W1 in J3 by lia. eauto.
        + unfold first in Ff. cbn [sleb RSc] in Ff. apply Rleb_true in Ff. exact Ff.
      - specialize (W2i eq_refl). destruct (C3 (Fc eq_refl)) as (J1 & J2 & J3). rewrite W1 in J3 by lia. rewrite W2i by lia. apply choice_tame; auto. intros _. split; [exact J1|]. split; [exact J2|]. split; [exact J3|]. split.
        + intros i Q1 Q2 Q3. rewrite <- W2i by assumption. apply (row_max_all n k imax (fun r => w2 r (k + 1)%nat)); assumption.
        + intros B HB. apply row_max_le; [exact J1|exact J2|]. intros i Q1 Q2. rewrite W2i by assumption. apply HB; assumption. }
    set (kp := match ch with Keep => k | _ => imax end). set (b := match ch with Pair => true | _ => false end).
    set (w3 := match ch with Pick => pan_pick (K := RSc) n k w2 | _ => w2 end).
    fold (kkof k b). fold (stepn k b).
    assert (K1 : (kkof k b <= kp)%nat) by (unfold kp, b; destruct ch; cbn [kkof]; lia).
    assert (K2 : (kp < n)%nat) by (unfold kp; destruct ch; lia).
    set (w4 := freeze n nb (pan_swap_w (K := RSc) (kkof k b) kp w3)).
    assert (W4 : forall r q, (q <= kkof k b)%nat -> w4 r q = w3 (swp (kkof k b) kp r) q) by (intros r q H; unfold w4; rewrite freeze_id; apply pan_swap_w_eq; assumption).
    assert (K3 : let T1 := psw (kkof k b) kp T in (if b then T1 (k + 1)%nat k <> 0 /\ det2 k T1 < 0 else T1 k k <> 0) /\
       (forall r q, (k <= q)%nat -> (q <= kkof k b)%nat -> (k <= r)%nat -> (r < n)%nat -> w4 r q = T1 r q)).
    { cbv zeta. assert (Rr : forall r, (k <= r)%nat -> (r < n)%nat -> (k <= swp (kkof k b) kp r)%nat /\ (swp (kkof k b) kp r < n)%nat).
      { intros r H1 H2. pose proof (kkof_ge k b). split; [apply swp_ge; lia|apply swp_lt; lia]. }
      split.
      - unfold b, kp. destruct ch; cbn [kkof].
        + unfold psw. rewrite swp_same. exact CH.
        + unfold psw, swp. rewrite Nat.eqb_refl. apply CH.
        + destruct CH as (J1 & J2 & J3 & J4 & _). split; [|exact J4]. unfold psw. rewrite (swp_below (k + 1) imax k) by lia. unfold swp. rewrite Nat.eqb_refl. exact J3.
      - intros r q H1 H2 H3 H4. rewrite W4 by exact H2. destruct (Rr r H3 H4) as [R1 R2]. unfold psw. set (r' := swp (kkof k b) kp r) in *. clearbody r'. unfold b, kp, w3 in *. destruct ch; cbn [kkof] in *.
        + replace q with k by lia. rewrite W2k, W1 by lia. rewrite swp_same. reflexivity.
        + replace q with k by lia. destruct CH as (J1 & J2 & J3 & J4). unfold pan_pick. bd. rewrite W2i by (assumption || lia). f_equal. unfold swp. rewrite Nat.eqb_refl. reflexivity.
        + destruct CH as (J1 & J2 & J3 & J4 & J5). destruct (Nat.eq_dec q k) as [->|].
          * rewrite W2k, W1 by lia. f_equal. symmetry. apply swp_below; lia.
          * replace q with (k + 1)%nat by lia. rewrite W2i by (assumption || lia). f_equal. unfold swp. rewrite Nat.eqb_refl. reflexivity. }
    assert (W4l : forall r q, (q < k)%nat -> w4 r q = w (swp (kkof k b) kp r) q).
    { intros r q H. pose proof (kkof_ge k b). rewrite W4 by lia. unfold w3. destruct ch; try (apply W2l; lia). unfold pan_pick. bd; apply W2l; lia. }
    set (a1 := freeze n n (pan_swap_a (K := RSc) n k (kkof k b) kp a)).
    set (a2 := freeze n n (if b then pan_two (K := RSc) n k a1 w4 else pan_one (K := RSc) n k a1 w4)).
    assert (TM : tame n k (kp, b) T) by (unfold kp, b; destruct ch; exact TMc).
    pose proof (pan_step k a w piv st g b kp w4 PI K1 K2 TM K3 W4l a2) as ST4. cbv zeta in ST4. specialize (ST4 ltac:(
      intros r q; unfold a2; rewrite freeze_id; unfold pan_two, pan_one; destruct b; [destruct (pair_inverse _) as [[x y] z]|]; unfold a1; rewrite ?freeze_id; reflexivity)).
    pose proof (stepn_le k b) as Sl.
    destruct (IH (stepn k b) a2 w4 (record_piv piv k kp b) (st ++ [(kp, b)]) _ ltac:(lia) ST4) as (a' & w' & piv' & k' & ok & st' & g' & E & P & Q & V & Z).
    exists a', w', piv', k', ok, st', g'. split; [exact E|]. split; [exact P|]. split; [lia|]. split; [|exact Z]. intros i Hi. rewrite V by exact Hi. apply record_off. lia.
  Qed.
End Panel.

(** ** Undoing the row swaps of the panel *)
Lemma fin_zero st : fin 0 st = 0%nat -> st = [].
Proof. destruct st as [|s st]; [reflexivity|]. cbn. pose proof (fin_ge st (stepn 0 (snd s))). pose proof (stepn_le 0 (snd s)). lia. Qed.
Lemma fin_one st : fin 0 st = 1%nat -> exists p, st = [(p, false)].
Proof.
  destruct st as [|[p []] st]; cbn; intros H; [discriminate|pose proof (fin_ge st 2); lia|]. destruct st as [|s st]; [exists p; reflexivity|]. cbn in H. pose proof (fin_ge st (stepn 1 (snd s))). pose proof (stepn_le 1 (snd s)). lia.
Qed.
Lemma good1_piv n k s S a piv : good1 n k s S a piv -> piv (kkof k (snd s)) = (if snd s then -1 - Z.of_nat (fst s) else Z.of_nat (fst s))%Z.
Proof. unfold good1. destruct s as [p []]; cbn [fst snd kkof]; intros (_ & _ & _ & H); apply H. Qed.
Lemma piv_decode (b : bool) p v : v = (if b then -1 - Z.of_nat p else Z.of_nat p)%Z -> (v <? 0)%Z = b /\ Z.to_nat (if b then -1 - v else v)%Z = p.
Proof. intros ->. destruct b; split; try lia. - apply Z.ltb_lt. lia. - apply Z.ltb_ge. lia. Qed.
Lemma row_swap_eq i j m (a : nat -> nat -> R) r c : row_swap (K := RSc) i j m a r c = if Nat.ltb c m then a (swp j i r) c else a r c.
Proof. unfold row_swap, swp. bd; subst; try reflexivity. Qed.
Lemma undo_ok n S piv g st : forall fuel a, st <> [] -> good n 0 st S g piv -> (fin 0 st <= fuel)%nat -> (forall r c, (c < fin 0 st)%nat -> a r c = g (tperm 0 st c r) c) ->
  exists a', pan_undo (K := RSc) fuel n piv (fin 0 st - 1) a = Ret a' /\ (forall r c, (c < fin 0 st)%nat -> a' r c = g r c) /\ forall r c, (fin 0 st <= c)%nat -> a' r c = a r c.
Proof.
  induction st as [|[p b] st0 IH] using rev_ind; intros fuel a Hne G Hf H; [contradiction|]. clear Hne.
  rewrite good_app in G. destruct G as [G0 [G1 _]]. rewrite fin_snoc in *. cbn [fst snd] in *. set (k0 := fin 0 st0) in *.
  destruct fuel as [|f]; [pose proof (stepn_le k0 b); lia|]. cbn [pan_undo].
  replace (stepn k0 b - 1)%nat with (kkof k0 b) by (rewrite kkof_step; lia).
  destruct (piv_decode b p _ (good1_piv _ _ _ _ _ _ G1)) as [D1 D2]. cbn [snd fst] in D1, D2. rewrite D1, D2.
  destruct (b && Nat.eqb (kkof k0 b) 0) eqn:E0.
  { destruct b; [|discriminate]. cbn in E0. apply Nat.eqb_eq in E0. lia. }
  replace (if b then (kkof k0 b - 1)%nat else kkof k0 b) with k0 by (destruct b; cbn; lia).
  assert (Hin : forall r c, (c < stepn k0 b)%nat -> (k0 <= c)%nat -> a r c = g r c).
  { intros r c Hc Hk. rewrite H by exact Hc. rewrite tperm_snoc. fold k0. bd. rewrite tperm_ge by (fold k0; lia). reflexivity. }
  destruct (Nat.eqb_spec k0 0) as [Z|NZ].
  { exists a. split; [reflexivity|]. split; [|auto]. intros r c Hc. apply Hin; lia. }
  set (a1 := if Nat.eqb p (kkof k0 b) then a else freeze n n (row_swap (K := RSc) p (kkof k0 b) (k0 - 1 + 1) a)).
  assert (A1 : forall r c, a1 r c = if Nat.ltb c k0 then a (swp (kkof k0 b) p r) c else a r c).
  { intros r c. unfold a1. destruct (Nat.eqb_spec p (kkof k0 b)) as [->|]; [rewrite swp_same; destruct (Nat.ltb c k0); reflexivity|]. rewrite freeze_id, row_swap_eq. replace (k0 - 1 + 1)%nat with k0 by lia. reflexivity. }
  assert (Hl : forall r c, (c < k0)%nat -> a1 r c = g (tperm 0 st0 c r) c).
  { intros r c Hc. rewrite A1. bd. rewrite H by (pose proof (stepn_le k0 b); lia). rewrite tperm_snoc. fold k0. bd. cbn [fst snd]. rewrite swp_inv. reflexivity. }
  assert (Hr : forall r c, (k0 <= c)%nat -> a1 r c = a r c) by (intros r c Hc; rewrite A1; bd; reflexivity).
  destruct (Nat.eqb_spec (k0 - 1) 0) as [E1|E1].
  - exists a1. split; [reflexivity|]. pose proof (stepn_le k0 b). split.
    + intros r c Hc. destruct (Nat.lt_ge_cases c k0) as [L|L]; [|rewrite Hr by exact L; apply Hin; assumption].
      rewrite Hl by exact L. destruct (fin_one st0 ltac:(fold k0; lia)) as [q ->]. replace c with 0%nat by lia. reflexivity.
    + intros r c Hc. apply Hr. lia.
  - destruct (IH f a1) as (a' & E & R1 & R2); auto.
    + intros ->. cbn in k0. lia.
    + fold k0. pose proof (stepn_le k0 b). lia.
    + fold k0 in E, R1, R2. exists a'. split; [exact E|]. pose proof (stepn_le k0 b). split.
      * intros r c Hc. destruct (Nat.lt_ge_cases c k0) as [L|L]; [apply R1; exact L|]. rewrite R2, Hr by exact L. apply Hin; assumption.
      * intros r c Hc. rewrite R2, Hr by lia. reflexivity.
Qed.

(** ** One panel *)
Lemma one_block_ok n nb a w piv S : (0 < n)%nat -> (1 < nb)%nat -> sym S -> low n 0 a S ->
  exists a' w' piv' kb ok st g, bk_one_block (K := RSc) n nb a w piv = Ret (a', w', piv', kb, ok) /\ good n 0 st S g piv' /\ (fin 0 st <= n)%nat /\ (forall i, (fin 0 st <= i)%nat -> piv' i = piv i) /\
    if ok then kb = fin 0 st /\ (0 < kb)%nat /\ low n kb a' (after 0 st S) /\ (forall r c, (c < kb)%nat -> a' r c = g r c)
    else (fin 0 st < n)%nat /\ forall i, (fin 0 st <= i)%nat -> (i < n)%nat -> after 0 st S i (fin 0 st) = 0.
Proof.
  intros Hn Hnb Sy L. unfold bk_one_block. destruct (Nat.eqb_spec n 0); [lia|].
  assert (P0 : pinv n S 0 a w piv [] a).
  { split; [exact I|]. split; [reflexivity|]. split; [lia|]. split; [intros; lia|]. split; [intros r c H1 H2 H3; exact (L r c H1 H2 H3)|]. intros. cbn. lra. }
  destruct (pan_loop_ok n S Sy nb n 0 a w piv [] a ltac:(lia) P0) as (a1 & w1 & piv1 & k & ok & st & g & E & PI & _ & PV & R). rewrite E. cbn [bind].
  destruct PI as (G & Fk & Hk & I2 & I3 & I4). destruct ok.
  - destruct (Nat.eqb_spec k 0); [lia|].
    set (a2 := freeze n n (pan_finish (K := RSc) n k a1 w1)).
    assert (A2 : forall r c, a2 r c = pan_finish (K := RSc) n k a1 w1 r c) by (intros; apply freeze_id).
    rewrite <- Fk in I2. destruct (undo_ok n S piv1 g st k a2) as (a3 & E3 & R1 & R2).
    + intros ->. cbn in Fk. lia.
    + exact G.
    + lia.
    + intros r c Hc. rewrite A2. unfold pan_finish. bd; apply I2; lia.
    + rewrite Fk in *. rewrite E3. cbn [bind]. exists a3, w1, piv1, k, true, st, g. split; [reflexivity|]. split; [exact G|]. rewrite Fk. split; [exact Hk|]. split; [exact PV|]. split; [reflexivity|]. split; [lia|]. split; [|exact R1].
      intros r c H1 H2 H3. rewrite R2 by lia. rewrite A2. unfold pan_finish. bd. rs. rewrite ssum_rsum, I4, I3 by lia. reflexivity.
  - exists a1, w1, piv1, 0%nat, false, st, g. split; [reflexivity|]. rewrite Fk. split; [exact G|]. split; [exact Hk|]. split; [exact PV|]. exact R.
Qed.

(** ** Steps in a view *)
Definition sh (K : nat) (st : list (nat * bool)) : list (nat * bool) := map (fun s => ((K + fst s)%nat, snd s)) st.
Lemma swp_shift K q p i : swp (K + q) (K + p) (K + i) = (K + swp q p i)%nat.
Proof. unfold swp. bd; reflexivity. Qed.
Lemma kkof_shift K k b : kkof (K + k) b = (K + kkof k b)%nat. Proof. destruct b; cbn; lia. Qed.
Lemma stepn_shift K k b : stepn (K + k) b = (K + stepn k b)%nat. Proof. destruct b; cbn; lia. Qed.
Definition viewed (K : nat) (S' S : mx) : Prop := forall i j, S' i j = S (K + i)%nat (K + j)%nat.
Lemma sp_shift K k s S' S : viewed K S' S -> viewed K (sp k s S') (sp (K + k) ((K + fst s)%nat, snd s) S).
Proof. intros H i j. unfold sp, psw. cbn [fst snd]. rewrite kkof_shift, !swp_shift. apply H. Qed.
Lemma e_shift K k S' S : viewed K S' S -> det2 k S' = det2 (K + k) S /\ e11 k S' = e11 (K + k) S /\ e21 k S' = e21 (K + k) S /\ e22 k S' = e22 (K + k) S.
Proof.
  intros H. assert (D : det2 k S' = det2 (K + k) S) by (unfold det2; rewrite !H, !Nat.add_assoc; reflexivity).
  unfold e11, e21, e22. rewrite D, !H, !Nat.add_assoc. auto.
Qed.
Lemma nxt_shift K k s S' S : viewed K S' S -> viewed K (nxt k s S') (nxt (K + k) ((K + fst s)%nat, snd s) S).
Proof.
  intros H0. pose proof (sp_shift K k s S' S H0) as H. intros i j. unfold nxt. cbn [snd]. destruct (snd s).
  - unfold nxt2. destruct (e_shift K k _ _ H) as (_ & -> & -> & ->). rewrite !H, !Nat.add_assoc. reflexivity.
  - unfold nxt1. rewrite !H. reflexivity.
Qed.
Lemma tame_shift n K k s S' S : viewed K S' S -> tame n k s S' -> tame (K + n) (K + k) ((K + fst s)%nat, snd s) S.
Proof.
  intros H TM B HB i j Hi1 Hi2 Hj1 Hj2. cbn [snd] in *. rewrite stepn_shift in *. replace (K + stepn k (snd s) - (K + k))%nat with (stepn k (snd s) - k)%nat by lia.
  pose proof (nxt_shift K k s S' S H (i - K)%nat (j - K)%nat) as E. replace (K + (i - K))%nat with i in E by lia. replace (K + (j - K))%nat with j in E by lia. rewrite <- E.
  apply TM; try lia. intros a b A1 A2 B1 B2. rewrite H. apply HB; lia.
Qed.
Lemma fin_shift K st : forall k, fin (K + k) (sh K st) = (K + fin k st)%nat.
Proof. induction st as [|s st IH]; intros k; [reflexivity|]. cbn. rewrite stepn_shift. apply IH. Qed.
Lemma after_shift K st : forall k S' S, viewed K S' S -> viewed K (after k st S') (after (K + k) (sh K st) S).
Proof. induction st as [|s st IH]; intros k S' S H; [exact H|]. cbn. rewrite stepn_shift. apply IH. apply nxt_shift. exact H. Qed.
Lemma good_shift n K st : forall k S' S a A piv PIV, viewed K S' S -> viewed K a A -> (forall i, (k <= i)%nat -> (i < fin k st)%nat -> PIV (K + i)%nat = if 0 <=? piv i then piv i + Z.of_nat K else piv i - Z.of_nat K)%Z ->
  good n k st S' a piv -> good (K + n) (K + k) (sh K st) S A PIV.
Proof.
  induction st as [|s st IH]; intros k S' S a A piv PIV HS HA HP G; [exact I|]. cbn [good sh map fin] in *. destruct G as [G1 G2]. pose proof (stepn_le k (snd s)). pose proof (fin_ge st (stepn k (snd s))). split.
  - unfold good1 in *. pose proof (sp_shift K k s S' S HS) as HT. destruct (e_shift K k _ _ HT) as (X1 & X2 & X3 & X4). cbn [fst snd]. rewrite kkof_shift. destruct G1 as (Q1 & Q2 & TM & Q3). split; [lia|]. split; [lia|]. split; [apply (tame_shift n K k s S' S HS TM)|]. destruct s as [p []]; cbn [fst snd stepn] in *.
    + rewrite X1, X2, X3, X4, (HT (k + 1)%nat k), Nat.add_assoc in Q3. destruct Q3 as (Y & D & A1 & A2 & A3 & P1 & P2 & C). rewrite HA in A1, A2, A3. rewrite Nat.add_assoc in A2, A3.
      pose proof (HP k ltac:(lia) ltac:(lia)) as V1. pose proof (HP (k + 1)%nat ltac:(lia) ltac:(lia)) as V2. rewrite P1 in V1. rewrite P2 in V2. rewrite Nat.add_assoc in V2.
      destruct (Z.leb_spec 0 (-1 - Z.of_nat p)); [lia|].
      do 5 (split; [assumption|]). split; [rewrite V1; lia|]. split; [rewrite V2; lia|].
      intros i H2 H3. destruct (C (i - K)%nat ltac:(lia) ltac:(lia)) as [C1 C2]. rewrite HA, !HT in C1, C2. rewrite !Nat.add_assoc in C1, C2. replace (K + (i - K))%nat with i in C1, C2 by lia. split; assumption.
    + destruct Q3 as (D & A1 & P1 & C). rewrite !HT in *. rewrite HA in A1. pose proof (HP k ltac:(lia) ltac:(lia)) as V1. rewrite P1 in V1. destruct (Z.leb_spec 0 (Z.of_nat p)); [|lia].
      do 2 (split; [assumption|]). split; [rewrite V1; lia|]. intros i H2 H3. specialize (C (i - K)%nat ltac:(lia) ltac:(lia)). rewrite HA, HT in C. replace (K + (i - K))%nat with i in C by lia. exact C.
  - cbn [snd]. rewrite stepn_shift. eapply IH; [apply nxt_shift; exact HS|exact HA| |exact G2]. intros i H2 H3. apply HP; lia.
Qed.

(** ** The sequence of panels *)
Lemma block_case n nb a w piv S : (nb = 0 \/ 1 < nb)%nat -> (0 < n)%nat -> sym S -> low n 0 a S -> (forall i, piv i = 0%Z) ->
  exists a' w' piv' kb ok st g,
    (if negb (Nat.eqb nb 0) && Nat.ltb nb n then bk_one_block (K := RSc) n nb a w piv
     else (do u <- bk_unblocked (K := RSc) n a piv; let '(a', piv', ok) := u in Ret (a', w, piv', n, ok))%out) = Ret (a', w', piv', kb, ok) /\
    good n 0 st S g piv' /\ (fin 0 st <= n)%nat /\ (forall i, (fin 0 st <= i)%nat -> piv' i = piv i) /\
    if ok then kb = fin 0 st /\ (0 < kb)%nat /\ low n kb a' (after 0 st S) /\ (forall r c, (c < kb)%nat -> a' r c = g r c)
    else (fin 0 st < n)%nat /\ forall i, (fin 0 st <= i)%nat -> (i < n)%nat -> after 0 st S i (fin 0 st) = 0.
Proof.
  intros Hnb Hn Sy L Hp. destruct (negb (Nat.eqb nb 0) && Nat.ltb nb n) eqn:E.
  - apply one_block_ok; auto. destruct (Nat.eqb_spec nb 0); [discriminate|]. lia.
  - destruct (unblocked_bk n a piv S Sy L ltac:(auto)) as (a' & piv' & ok & st & Eu & R1 & R2 & R3 & R4 & R5 & R6). rewrite Eu. cbn [bind].
    exists a', w, piv', n, ok, st, a'. split; [reflexivity|]. split; [exact R1|]. split; [exact R5|]. split; [auto|]. destruct ok; [|exact R6]. rewrite R6 in *. auto.
Qed.
Lemma blocks_ok n nb : (nb = 0 \/ 1 < nb)%nat -> forall fuel k a w piv S, (n - k <= fuel)%nat -> (k <= n)%nat -> sym S -> low n k a S -> (forall i, (k <= i)%nat -> piv i = 0%Z) ->
  exists a' piv' ok st g pv, bk_blocks (K := RSc) fuel n nb k a w piv = Ret (a', piv', ok) /\ good n k st S g pv /\ (fin k st <= n)%nat /\
    (forall r c, (c < k)%nat -> a' r c = a r c) /\ (forall i, (i < k)%nat -> piv' i = piv i) /\
    if ok then fin k st = n /\ good n k st S a' piv' else (fin k st < n)%nat /\ forall i, (fin k st <= i)%nat -> (i < n)%nat -> after k st S i (fin k st) = 0.
Proof.
  intros Hnb. induction fuel as [|f IH]; intros k a w piv S Hf Hk Sy L Hp.
  { exists a, piv, true, [], a, piv. cbn [bk_blocks]. destruct (Nat.ltb_spec k n); [lia|]. cbn. repeat split; auto; lia. }
  cbn [bk_blocks]. destruct (Nat.ltb_spec k n) as [Hkn|]; [|exists a, piv, true, [], a, piv; cbn; repeat split; auto; lia].
  cbv zeta. set (pl := fun i => piv (k + i)%nat).
  assert (SyV : sym (view (K := RSc) k S)) by (intros i j; apply Sy).
  destruct (block_case (n - k) nb (view (K := RSc) k a) w pl (view (K := RSc) k S) Hnb ltac:(lia) SyV) as (a1 & w1 & pv1 & kb & ok & st & g & E & G & Hfin & PV & R).
  { intros r c _ H1 H2. unfold view. apply L; lia. }
  { intros i. apply Hp. lia. }
  rewrite E. cbn [bind]. clear E.
  set (a2 := freeze n n (paste (K := RSc) k (n - k) a1 a)). set (pv2 := fun i => if Nat.leb k i && Nat.ltb i n then pv1 (i - k)%nat else piv i).
  assert (A2 : forall r c, a2 r c = paste (K := RSc) k (n - k) a1 a r c) by (intros; apply freeze_id).
  assert (VW : viewed k (view (K := RSc) k S) S) by (intros i j; reflexivity).
  pose proof (fin_shift k st 0) as FS. rewrite Nat.add_0_r in FS.
  pose proof (after_shift k st 0 _ _ VW) as AS. rewrite Nat.add_0_r in AS.
  (* the steps of this block, in the whole matrix *)
  assert (GS : forall A PIV, (forall r c, (c < fin 0 st)%nat -> (r < n - k)%nat -> A (k + r)%nat (k + c)%nat = g r c) ->
    (forall i, (i < fin 0 st)%nat -> PIV (k + i)%nat = if 0 <=? pv1 i then pv1 i + Z.of_nat k else pv1 i - Z.of_nat k)%Z -> good n k (sh k st) S A PIV).
  { intros A PIV H1 H2. replace n with (k + (n - k))%nat at 1 by lia. replace k with (k + 0)%nat at 3 by lia. apply good_shift with (S' := view (K := RSc) k S) (a := view (K := RSc) k A) (piv := pv1).
    - exact VW.
    - intros i j. reflexivity.
    - intros i _ Hi. apply H2. exact Hi.
    - revert G. apply good_ext; [|auto]. intros r c _ Hc _ Hr. unfold view. apply H1; assumption. }
  destruct ok.
  - destruct R as (-> & Hkb & RL & RG). set (kb := fin 0 st) in *. set (pv3 := shift_piv k kb pv2).
    assert (A2g : forall r c, (c < kb)%nat -> (r < n - k)%nat -> a2 (k + r)%nat (k + c)%nat = g r c).
    { intros r c Hc Hr. rewrite A2. unfold paste. bd. rewrite <- RG by exact Hc. f_equal; lia. }
    assert (P3 : forall i, (i < kb)%nat -> pv3 (k + i)%nat = (if 0 <=? pv1 i then pv1 i + Z.of_nat k else pv1 i - Z.of_nat k)%Z).
    { intros i Hi. unfold pv3, shift_piv, pv2. bd. replace (k + i - k)%nat with i by lia. reflexivity. }
    destruct (IH (k + kb)%nat a2 w1 pv3 (after k (sh k st) S)) as (a' & piv' & ok & st2 & g2 & pvx & E2 & H1 & H2 & H3 & H4 & H5).
    + lia.
    + lia.
    + apply after_sym. exact Sy.
    + intros r c Q1 Q2 Q3. rewrite A2. unfold paste. bd. rewrite RL by lia. rewrite AS. f_equal; lia.
    + intros i Hi. unfold pv3, shift_piv, pv2. bd; [rewrite PV by (fold kb; lia); unfold pl; apply Hp; lia|apply Hp; lia].
    + exists a', piv', ok, (sh k st ++ st2), (fun r c => if Nat.ltb c (k + kb) then a2 r c else g2 r c), (fun i => if Nat.ltb i (k + kb) then pv3 i else pvx i).
      split; [exact E2|]. rewrite good_app, fin_app, after_app, FS. fold kb. split; [|split; [exact H2|split; [|split]]].
      * split.
        { apply GS; intros; bd; auto. }
        { revert H1. apply good_ext; intros; bd; reflexivity. }
      * intros r c Hc. rewrite H3 by lia. rewrite A2. unfold paste. bd; reflexivity.
      * intros i Hi. rewrite H4 by lia. unfold pv3, shift_piv, pv2. bd; reflexivity.
      * destruct ok; [|exact H5]. destruct H5 as [H5 H6]. split; [exact H5|]. rewrite good_app, FS. fold kb. split; [|exact H6].
        apply GS; [intros r c Hc Hr; rewrite H3 by lia; apply A2g; assumption|intros i Hi; rewrite H4 by lia; apply P3; exact Hi].
  - exists a2, pv2, false, (sh k st), (fun r c => g (r - k)%nat (c - k)%nat), (fun i => let v := pv1 (i - k)%nat in if 0 <=? v then v + Z.of_nat k else v - Z.of_nat k)%Z.
    split; [reflexivity|]. rewrite FS. split; [|split; [lia|split; [|split]]].
    + apply GS.
      * intros r c _ _. f_equal; lia.
      * intros i _. cbv zeta. replace (k + i - k)%nat with i by lia. reflexivity.
    + intros r c Hc. rewrite A2. unfold paste. bd; reflexivity.
    + intros i Hi. unfold pv2. bd; reflexivity.
    + destruct R as [R1 R2]. split; [lia|]. intros i Q1 Q2. specialize (R2 (i - k)%nat ltac:(lia) ltac:(lia)). rewrite AS in R2. replace (k + (i - k))%nat with i in R2 by lia. exact R2.
Qed.
