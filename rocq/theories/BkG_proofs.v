(** Growth of the entries during the Bunch-Kaufman elimination, on top of Bk_proofs. *)
From Coq Require Import Reals ZArith List Bool Arith Lia Lra Psatz.
From Verif Require Import Scalar Problem_model Lin_spec Lin_proofs Ldlt_model Ldlt_spec Ldlt_proofs Bk_model Bk_spec Bk_proofs BkP_proofs BkS_proofs BkV_proofs.
Import ListNotations.
Local Open Scope R_scope.

Fixpoint startl (k : nat) (st : list (nat * bool)) (c : nat) : Prop :=
  match st with [] => False | s :: st' => c = k \/ startl (stepn k (snd s)) st' c end.
Lemma startl_ge st : forall k c, startl k st c -> (k <= c)%nat.
Proof. induction st as [|s st IH]; intros k c H; [destruct H|]. destruct H as [->|H]; [lia|]. apply IH in H. pose proof (stepn_le k (snd s)). lia. Qed.
Lemma startl_here st k : (k < fin k st)%nat -> startl k st k.
Proof. destruct st; cbn; [lia|auto]. Qed.
Lemma startl_next n a pv st : forall k S c, good n k st S a pv -> startl k st c ->
  let d := if (0 <=? pv c)%Z then (c + 1)%nat else (c + 2)%nat in (d < fin k st)%nat -> startl k st d.
Proof.
  induction st as [|[p b] st IH]; intros k S c G H d Hd; [destruct H|]. cbn [good startl fin snd] in *. destruct G as [G1 G2]. right. destruct H as [->|H].
  - destruct (good1_dec _ _ _ _ _ _ G1) as (D1 & _). cbn [snd] in D1. assert (E : d = stepn k b).
    { unfold d. destruct b; cbn [stepn]; [destruct (Z.leb_spec 0 (pv k)) as [L|]|destruct (Z.leb_spec 0 (pv k)) as [|L]]; try reflexivity; exfalso.
      - apply Z.ltb_lt in D1. lia.
      - apply Z.ltb_ge in D1. lia. }
    rewrite E in *. apply startl_here. exact Hd.
  - apply (IH _ _ c G2 H). exact Hd.
Qed.
Lemma pivot_row_startl n a pv st S c : good n 0 st S a pv -> pivot_row pv c -> (c < fin 0 st)%nat -> startl 0 st c.
Proof.
  intros G H. induction H as [|k H IH L|k H IH L]; intros Hc.
  - apply startl_here. exact Hc.
  - pose proof (startl_next n a pv st 0 S k G (IH ltac:(lia))) as N. cbv zeta in N. destruct (Z.leb_spec 0 (pv k)); [auto|lia].
  - pose proof (startl_next n a pv st 0 S k G (IH ltac:(lia))) as N. cbv zeta in N. destruct (Z.leb_spec 0 (pv k)); [lia|auto].
Qed.
Notation gr := (1 + / bk_alpha (K := RSc)).
Lemma gr_eq : gr = growth.
Proof. unfold growth, bk_alpha. rs. cbn [ssqrt sofZ RSc]. pose proof (sqrt_pos 17). change (car RSc) with R. field. lra. Qed.
Lemma gr_pos : 1 < gr.
Proof. pose proof alpha_bounds as [A _]. apply Rinv_0_lt_compat in A. cbn in *. lra. Qed.
Lemma growth_ok n a pv st : forall k S c B, good n k st S a pv -> (forall i j, (k <= i)%nat -> (i < n)%nat -> (k <= j)%nat -> (j < n)%nat -> Rabs (S i j) <= B) -> startl k st c ->
  if (pv c <? 0)%Z then two_at k st c = true /\ (c + 1 < n)%nat /\ let d := a c c * a (c + 1)%nat (c + 1)%nat - a (c + 1)%nat c * a (c + 1)%nat c in d < 0 /\
    Rabs (a c c / d) <= gr ^ (c - k) * B /\ Rabs (a (c + 1)%nat c / d) <= gr ^ (c - k) * B /\ Rabs (a (c + 1)%nat (c + 1)%nat / d) <= gr ^ (c - k) * B
  else (c < n)%nat /\ a c c <> 0 /\ Rabs (/ a c c) <= gr ^ (c - k) * B.
Proof.
  induction st as [|[p b] st IH]; intros k S c B G HB H; [destruct H|]. cbn [good startl snd] in *. destruct G as [G1 G2]. destruct H as [->|H].
  - destruct (good1_dec _ _ _ _ _ _ G1) as (D1 & _). cbn [snd] in D1. rewrite D1. destruct G1 as (Q1 & Q2 & _ & G1). cbn [fst snd] in *. replace (k - k)%nat with 0%nat by lia. rewrite pow_O, Rmult_1_l.
    assert (HS : forall i j, (k <= i)%nat -> (i < n)%nat -> (k <= j)%nat -> (j < n)%nat -> Rabs (sp k (p, b) S i j) <= B).
    { intros i j I1 I2 J1 J2. unfold sp, psw. cbn [fst snd]. assert (K : (k <= kkof k b)%nat /\ (kkof k b < n)%nat) by (split; [destruct b; cbn [kkof]; lia|lia]).
      assert (In : forall x, (k <= x)%nat -> (x < n)%nat -> (k <= swp (kkof k b) p x)%nat /\ (swp (kkof k b) p x < n)%nat) by (intros x X1 X2; unfold swp; bd; lia).
      destruct (In i I1 I2), (In j J1 J2). apply HB; assumption. }
    destruct b; cbn [kkof] in *.
    + destruct G1 as (Y & D & A1 & A2 & A3 & _). split; [cbn [two_at snd]; rewrite Nat.eqb_refl; reflexivity|]. split; [lia|]. rewrite A1, A2, A3. set (S1 := sp k (p, true) S) in *. cbv zeta.
      assert (DD : e11 k S1 * e22 k S1 - e21 k S1 * e21 k S1 = / det2 k S1) by (unfold e11, e21, e22, det2 in *; field; lra). rewrite DD.
      split; [apply Rinv_lt_0_compat, D|]. unfold e11, e21, e22. split; [|split].
      * replace (S1 (k + 1)%nat (k + 1)%nat / det2 k S1 / / det2 k S1) with (S1 (k + 1)%nat (k + 1)%nat) by (field; lra). apply HS; lia.
      * replace (- S1 (k + 1)%nat k / det2 k S1 / / det2 k S1) with (- S1 (k + 1)%nat k) by (field; lra). rewrite Rabs_Ropp. apply HS; lia.
      * replace (S1 k k / det2 k S1 / / det2 k S1) with (S1 k k) by (field; lra). apply HS; lia.
    + destruct G1 as (D & A1 & _). split; [lia|]. rewrite A1. split; [apply Rinv_neq_0_compat; exact D|]. rewrite Rinv_involutive by exact D. apply HS; lia.
  - destruct G1 as (_ & _ & TM & _). specialize (TM B HB). cbn [snd] in TM. specialize (IH _ _ c _ G2 TM H). pose proof (startl_ge _ _ _ H) as Hc. pose proof (stepn_le k b) as Hs.
    rewrite <- Rmult_assoc, <- Rdef_pow_add in IH. replace (c - stepn k b + (stepn k b - k))%nat with (c - k)%nat in IH by lia. destruct (pv c <? 0)%Z.
    + destruct IH as (T2 & I). split; [|exact I]. cbn [two_at snd]. rewrite T2. apply orb_true_r.
    + exact IH.
Qed.
Lemma bk_growth : forall n A s B k, bk_compute (K := RSc) n A = Ret s -> bk_ok s = true -> (forall i j, (j <= i)%nat -> (i < n)%nat -> Rabs (A i j) <= B) ->
  pivot_row (bk_piv s) k -> (k < n)%nat ->
  if (bk_piv s k <? 0)%Z then
    (k + 1 < n)%nat /\ let p := bk_mat s k k in let q := bk_sub s k in let r := bk_mat s (k + 1)%nat (k + 1)%nat in let d := p * r - q * q in
    d < 0 /\ Rabs (p / d) <= growth ^ k * B /\ Rabs (q / d) <= growth ^ k * B /\ Rabs (r / d) <= growth ^ k * B
  else bk_mat s k k <> 0 /\ Rabs (/ bk_mat s k k) <= growth ^ k * B.
Proof.
  intros n A s B k E Ok HB PR Hk. destruct (compute_ok n A) as (s' & st & g & pv & E' & C). rewrite E in E'. injection E' as <-. pose proof C as C0. destruct C as (_ & G & Hf & R). rewrite Ok in R. destruct R as (F & -> & _ & Sb).
  destruct (computed_lower n A s st g C0 Ok) as [Dg _].
  pose proof (pivot_row_startl n g (bk_piv s) st (mirror A) k G PR ltac:(lia)) as Sl.
  pose proof (growth_ok n g (bk_piv s) st 0 (mirror A) k B G ltac:(intros i j _ I2 _ J2; unfold mirror; bd; apply HB; lia) Sl) as Q. rewrite Nat.sub_0_r, gr_eq in Q.
  destruct (bk_piv s k <? 0)%Z.
  - destruct Q as (T2 & Q1 & Q2). split; [exact Q1|]. rewrite !Dg, Sb, T2 by lia. exact Q2.
  - destruct Q as (_ & Q1 & Q2). rewrite Dg by lia. auto.
Qed.
