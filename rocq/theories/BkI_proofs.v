(** Bunch-Kaufman: the signature. *)
From Coq Require Import Reals ZArith List Bool Arith Lia Lra.
From Verif Require Import Scalar Problem_model Lin_spec Lin_proofs Ldlt_model Ldlt_spec Ldlt_proofs Bk_model Bk_spec Bk_proofs BkP_proofs BkS_proofs BkV_proofs.
Import ListNotations.
Local Open Scope R_scope.
Local Notation mx := (nat -> nat -> R).

Lemma isign_pos x : 0 < x -> isign (K := RSc) x = 1%Z.
Proof. intros H. unfold isign. destruct (sltb (s := RSc) s0 x) eqn:E; [reflexivity|]. apply Rltb_false in E. cbn [s0 RSc] in E. lra. Qed.
Lemma isign_neg x : x < 0 -> isign (K := RSc) x = (-1)%Z.
Proof.
  intros H. unfold isign. destruct (sltb (s := RSc) s0 x) eqn:E; [apply Rltb_true in E; cbn [s0 RSc] in E; lra|].
  destruct (sltb (s := RSc) x s0) eqn:E2; [reflexivity|]. apply Rltb_false in E2. cbn [s0 RSc] in E2. lra.
Qed.
Lemma isign_zero : isign (K := RSc) 0 = 0%Z.
Proof.
  unfold isign. destruct (sltb (s := RSc) s0 0) eqn:E; [apply Rltb_true in E; cbn [s0 RSc] in E; lra|].
  destruct (sltb (s := RSc) 0 s0) eqn:E2; [apply Rltb_true in E2; cbn [s0 RSc] in E2; lra|reflexivity].
Qed.
(** A number is its sign times a square. *)
Lemma one_form x : x <> 0 -> exists g, g <> 0 /\ x = g * IZR (isign (K := RSc) (/ x)) * g.
Proof.
  intros H. exists (sqrt (Rabs x)). pose proof (Rabs_pos_lt x H) as P. pose proof (sqrt_lt_R0 _ P). split; [lra|]. pose proof (sqrt_sqrt (Rabs x) (Rlt_le _ _ P)) as Q.
  destruct (Rtotal_order x 0) as [L|[L|L]]; [|lra|].
  - rewrite isign_neg by (apply Rinv_lt_0_compat, L). rewrite Rabs_left in * by exact L. lra.
  - rewrite isign_pos by (apply Rinv_0_lt_compat, L). rewrite Rabs_right in * by lra. lra.
Qed.
(** An indefinite form in two variables is a difference of two squares. *)
Lemma pair_form x y z : x * z - y * y < 0 -> y <> 0 -> exists g11 g12 g21 g22,
  x = g12 * g12 - g11 * g11 /\ y = g12 * g22 - g11 * g21 /\ z = g22 * g22 - g21 * g21 /\ g11 * g22 - g12 * g21 <> 0.
Proof.
  intros D Y. assert (Q : exists g11 g12 g21 g22, x = g12 * g12 - g11 * g11 /\ y = g12 * g22 - g11 * g21 /\ z = g22 * g22 - g21 * g21).
  { destruct (Rtotal_order x 0) as [L|[L|L]].
    - set (r := sqrt (- x)). assert (R1 : 0 < r) by (apply sqrt_lt_R0; lra). assert (R2 : r * r = - x) by (apply sqrt_sqrt; lra).
      assert (P : 0 < (y * y - x * z) / - x) by (apply Rdiv_lt_0_compat; lra). pose proof (sqrt_sqrt _ (Rlt_le _ _ P)) as Q. set (q := sqrt ((y * y - x * z) / - x)) in *.
      exists r, 0, (- y / r), q. split; [lra|]. split; [field; lra|]. rewrite Q. replace (- y / r * (- y / r)) with (y * y / (r * r)) by (field; lra). rewrite R2. field. lra.
    - subst x. exists 1, 1, ((z / y - y) / 2), ((z / y + y) / 2). split; [lra|]. split; [field; exact Y|]. field. exact Y.
    - set (r := sqrt x). assert (R1 : 0 < r) by (apply sqrt_lt_R0; lra). assert (R2 : r * r = x) by (apply sqrt_sqrt; lra).
      assert (P : 0 < (y * y - x * z) / x) by (apply Rdiv_lt_0_compat; lra). pose proof (sqrt_sqrt _ (Rlt_le _ _ P)) as Q. set (q := sqrt ((y * y - x * z) / x)) in *.
      exists 0, r, q, (y / r). split; [lra|]. split; [field; lra|]. rewrite Q. replace (y / r * (y / r)) with (y * y / (r * r)) by (field; lra). rewrite R2. field. lra. }
  destruct Q as (g11 & g12 & g21 & g22 & E1 & E2 & E3). exists g11, g12, g21, g22. repeat split; try assumption. intros Z.
  assert (x * z - y * y = - ((g11 * g22 - g12 * g21) * (g11 * g22 - g12 * g21))) by (rewrite E1, E2, E3; ring). rewrite Z in H. lra.
Qed.
Definition gform (n k : nat) (E G : mx) (l : list Z) : Prop :=
  (forall c d, (c < k \/ d < k)%nat -> G c d = 0) /\
  (forall c d, (c < n)%nat -> (d < n)%nat -> E c d = rsum n (fun e => G c e * IZR (nth (e - k) l 0%Z) * G d e)) /\
  (forall y, exists z, forall c, (k <= c)%nat -> (c < n)%nat -> rsum n (fun e => G c e * z e) = y c).

Lemma sig_good n a piv (s : bk RSc) st : forall fuel k S, good n k st S a piv -> fin k st = n -> (n - k <= fuel)%nat -> sym S -> piv = bk_piv s ->
  (forall c, (k <= c)%nat -> (c < n)%nat -> bk_mat s c c = a c c) -> (forall c, two_at k st c = true -> bk_sub s c = a (c + 1)%nat c) ->
  exists l, sig_loop fuel n k s = Ret l /\ length l = (n - k)%nat /\ (~ In 0%Z l -> exists G, gform n k (emat n k st S) G l).
Proof.
  induction st as [|[p b] st IH]; intros fuel k S G F Hf Sy Pv Hm Hs.
  - cbn in F. subst k. exists []. split; [destruct fuel; cbn [sig_loop]; rewrite Nat.ltb_irrefl; reflexivity|]. split; [rewrite Nat.sub_diag; reflexivity|]. intros _. exists (fun _ _ => 0). split; [reflexivity|]. split.
    + intros c d Hc Hd. cbn [emat]. rewrite rsum_zero by (intros; ring). bd; reflexivity.
    + intros y. exists (fun _ => 0). intros; lia.
  - cbn [good fin snd] in *. destruct G as [G1 G2]. destruct (good1_dec _ _ _ _ _ _ G1) as (D1 & D2 & D3 & D4). cbn [fst snd] in *. pose proof (stepn_le k b). pose proof (fin_ge st (stepn k b)).
    destruct fuel as [|f]; [lia|]. cbn [sig_loop]. destruct (Nat.ltb_spec k n); [|lia]. rewrite <- Pv, D1. unfold good1 in G1. cbn [fst snd] in G1. set (S1 := sp k (p, b) S) in *.
    assert (SS : sym S1) by (apply psw_sym, Sy). pose proof (nxt_sym k (p, b) S Sy) as SN. destruct b; cbn [stepn kkof] in *.
    + destruct (Nat.leb_spec n (k + 1)); [lia|]. destruct G1 as (_ & _ & _ & Y & D & A1 & A2 & A3 & _ & _ & _).
      destruct (IH f (k + 2)%nat _ G2 F ltac:(lia) SN Pv) as (l & E & Ln & Q); [intros; apply Hm; lia|intros c Hc; apply Hs; cbn [two_at snd stepn]; rewrite Hc; apply orb_true_r|].
      rewrite E. cbn [bind]. rewrite !Hm, Hs by (try lia; cbn [two_at snd]; rewrite Nat.eqb_refl; reflexivity). rewrite A1, A2, A3. rs.
      assert (DD : e11 k S1 * e22 k S1 - e21 k S1 * e21 k S1 = / det2 k S1) by (unfold e11, e21, e22, det2 in *; field; lra).
      assert (DI : / det2 k S1 < 0) by (apply Rinv_lt_0_compat, D). rewrite DD. set (t := isign _).
      eexists. split; [reflexivity|]. destruct (sleb (s := RSc) (Rabs (/ det2 k S1)) eps).
      { split; [cbn [length]; lia|]. intros N. exfalso. apply N. left. reflexivity. }
      destruct (sltb (s := RSc) 0 (/ det2 k S1)) eqn:E0; [apply Rltb_true in E0; lra|]. split; [cbn [length]; lia|]. intros N.
      destruct Q as (G' & Z' & F' & O'); [intros HI; apply N; right; right; exact HI|].
      destruct (pair_form (S1 k k) (S1 (k + 1)%nat k) (S1 (k + 1)%nat (k + 1)%nat) D Y) as (g11 & g12 & g21 & g22 & X1 & X2 & X3 & X4).
      set (g := fun c e : nat => if Nat.eqb c k then (if Nat.eqb e k then g11 else g12) else (if Nat.eqb e k then g21 else g22)).
      exists (fun c e => if Nat.leb k c && Nat.ltb c (k + 2) && Nat.leb k e && Nat.ltb e (k + 2) then g c e else G' c e). split; [|split].
      * intros c d Hcd. rewrite Z' by lia. bd; reflexivity.
      * intros c d Hc Hd. cbn [emat snd stepn]. fold S1. rewrite F' by assumption.
        rewrite (rsum_ext n (fun e => _ * IZR (nth (e - k) ((-1)%Z :: 1%Z :: l) 0%Z) * _) (fun e => (if Nat.leb k c && Nat.ltb c (k + 2) && (Nat.leb k d && Nat.ltb d (k + 2)) && (Nat.leb k e && Nat.ltb e (k + 2)) then g c e * (if Nat.eqb e k then -1 else 1) * g d e else 0) + G' c e * IZR (nth (e - (k + 2)) l 0%Z) * G' d e)).
        { rewrite rsum_plus. f_equal. rewrite (rsum_two n _ k ltac:(lia)); [|intros e _ N1 N2; bd; reflexivity]. unfold g.
          destruct (Nat.lt_ge_cases c k); [bd; lra|]. destruct (Nat.lt_ge_cases d k); [bd; lra|]. destruct (Nat.le_gt_cases (k + 2) c); [bd; lra|]. destruct (Nat.le_gt_cases (k + 2) d); [bd; lra|].
          assert (C : c = k \/ c = (k + 1)%nat) by lia. assert (C' : d = k \/ d = (k + 1)%nat) by lia. destruct C as [-> | ->], C' as [-> | ->]; bd; rewrite ?(SS k (k + 1)%nat); lra. }
        { intros e He. destruct (Nat.lt_ge_cases e k); [rewrite !(Z' _ e) by lia; bd; ring|]. destruct (Nat.le_gt_cases (k + 2) e).
          - replace (e - k)%nat with (Datatypes.S (Datatypes.S (e - (k + 2)))) by lia. cbn [nth]. bd; ring.
          - rewrite !(Z' _ e) by lia. assert (C : e = k \/ e = (k + 1)%nat) by lia. destruct C as [-> | ->]; [rewrite Nat.sub_diag|replace (k + 1 - k)%nat with 1%nat by lia]; cbn [nth]; bd; ring. }
      * intros y. destruct (O' y) as [z Hz]. set (dt := g11 * g22 - g12 * g21) in *.
        exists (fun e => if Nat.eqb e k then (g22 * y k - g12 * y (k + 1)%nat) / dt else if Nat.eqb e (k + 1) then (g11 * y (k + 1)%nat - g21 * y k) / dt else z e). intros c Hc1 Hc2.
        destruct (Nat.le_gt_cases (k + 2) c) as [Hc|Hc].
        { rewrite <- (Hz c) by lia. apply rsum_ext. intros e He. destruct (Nat.lt_ge_cases e (k + 2)); [rewrite (Z' c e) by lia; bd; ring|bd; reflexivity]. }
        { rewrite (rsum_two n _ k ltac:(lia)); [|intros e _ N1 N2; rewrite (Z' c e) by lia; bd; ring]. unfold g. assert (C : c = k \/ c = (k + 1)%nat) by lia. destruct C as [-> | ->]; bd; unfold dt in *; field; exact X4. }
    + destruct G1 as (_ & _ & _ & D & A1 & _ & _).
      destruct (IH f (k + 1)%nat _ G2 F ltac:(lia) SN Pv) as (l & E & Ln & Q); [intros; apply Hm; lia|intros c Hc; apply Hs; cbn [two_at snd stepn]; rewrite Hc; apply orb_true_r|].
      rewrite E. cbn [bind]. rewrite Hm, A1 by lia. eexists. split; [reflexivity|]. split; [cbn [length]; lia|]. intros N.
      destruct Q as (G' & Z' & F' & O'); [intros HI; apply N; right; exact HI|]. destruct (one_form _ D) as (g & Hg & X). set (sg := isign _) in *.
      exists (fun c e => if Nat.eqb c k && Nat.eqb e k then g else G' c e). split; [|split].
      * intros c d Hcd. rewrite Z' by lia. bd; reflexivity.
      * intros c d Hc Hd. cbn [emat snd stepn]. fold S1. rewrite F' by assumption.
        rewrite (rsum_ext n (fun e => _ * IZR (nth (e - k) (sg :: l) 0%Z) * _) (fun e => (if Nat.eqb c k && Nat.eqb d k && Nat.eqb e k then g * IZR sg * g else 0) + G' c e * IZR (nth (e - (k + 1)) l 0%Z) * G' d e)).
        { rewrite rsum_plus. f_equal. rewrite (rsum_one n _ k ltac:(lia)); [|intros e _ N1; bd; reflexivity]. bd; try lra. subst. exact X. }
        { intros e He. destruct (Nat.lt_ge_cases e k); [rewrite !(Z' _ e) by lia; bd; ring|]. destruct (Nat.le_gt_cases (k + 1) e).
          - replace (e - k)%nat with (Datatypes.S (e - (k + 1))) by lia. cbn [nth]. bd; ring.
          - rewrite !(Z' _ e) by lia. assert (e = k) by lia. subst e. rewrite Nat.sub_diag. cbn [nth]. bd; ring. }
      * intros y. destruct (O' y) as [z Hz]. exists (fun e => if Nat.eqb e k then y k / g else z e). intros c Hc1 Hc2.
        destruct (Nat.le_gt_cases (k + 1) c) as [Hc|Hc].
        { rewrite <- (Hz c) by lia. apply rsum_ext. intros e He. destruct (Nat.lt_ge_cases e (k + 1)); [rewrite (Z' c e) by lia; bd; ring|bd; reflexivity]. }
        { assert (c = k) by lia. subst c. rewrite (rsum_one n _ k ltac:(lia)); [|intros e _ N1; rewrite (Z' k e) by lia; bd; ring]. bd. field. exact Hg. }
Qed.

Lemma isign_range x : (isign (K := RSc) x = 1 \/ isign (K := RSc) x = -1 \/ isign (K := RSc) x = 0)%Z.
Proof. unfold isign. destruct (sltb s0 x); [auto|]. destruct (sltb x s0); auto. Qed.
Lemma sig_range n (s : bk RSc) : forall fuel k l, sig_loop fuel n k s = Ret l -> Forall (fun z => z = 1 \/ z = -1 \/ z = 0)%Z l.
Proof.
  induction fuel as [|f IH]; intros k l; cbn [sig_loop]; (destruct (Nat.ltb k n); [|intros H; injection H as <-; constructor]); [discriminate|].
  destruct (bk_piv s k <? 0)%Z; [destruct (Nat.leb n (k + 1)); [discriminate|]|].
  - destruct (sig_loop f n (k + 2) s) as [r| | |] eqn:E; try discriminate. cbn [bind]. intros H. injection H as <-. specialize (IH _ _ E).
    match goal with |- context[if ?c then _ else _] => destruct c end; [|match goal with |- context[if ?c then _ else _] => destruct c end]; repeat apply Forall_cons; auto using isign_range.
  - destruct (sig_loop f n (k + 1) s) as [r| | |] eqn:E; try discriminate. cbn [bind]. intros H. injection H as <-. constructor; [apply isign_range|eauto].
Qed.
Lemma bk_signature_ok n A s : bk_compute (K := RSc) n A = Ret s -> bk_ok s = true -> exists sig, bk_signature s = Ret sig /\ length sig = n /\ (~ In 0%Z sig -> congruent n A sig).
Proof.
  intros E Ok. destruct (compute_ok n A) as (s' & st & g & pv & E' & C). rewrite E in E'. injection E' as <-. pose proof C as C0. destruct C as (N & G & _ & R). rewrite Ok in R. destruct R as (F & -> & Mt & Sd).
  destruct (computed_lower n A s st g C0 Ok) as [LD LL]. unfold bk_signature. rewrite N.
  destruct (sig_good n g (bk_piv s) s st n 0%nat (mirror A) G F ltac:(lia) (mirror_sym A) eq_refl) as (l & E1 & Ln & Q); [intros; apply LD; lia|intros c Hc; pose proof (two_at_range _ _ _ Hc); rewrite Sd by lia; rewrite Hc; reflexivity|].
  exists l. split; [exact E1|]. rewrite Nat.sub_0_r in Ln. split; [exact Ln|]. intros NZ. destruct (Q NZ) as (H & _ & HF & HO). split; [exact Ln|]. split; [eapply sig_range; exact E1|].
  set (L := lmat 0 st g). exists (fun i e => rsum n (fun c => L (iperm 0 st i) c * H c e)). split.
  - intros b. destruct (lower_solution n L (fun i => b (fperm 0 st i)) (lmat_unit n 0 st g)) as [y Hy]. destruct (HO y) as [z Hz]. exists z. intros i Hi. pose proof (iperm_lt n _ _ _ st 0 i G Hi) as Hi'.
    rewrite <- (fperm_iperm st 0 i) at 2. rewrite (Hy _ Hi'). unfold mvec.
    rewrite (rsum_ext n (fun j => rsum n (fun c => L (iperm 0 st i) c * H c j) * z j) (fun j => rsum n (fun c => L (iperm 0 st i) c * H c j * z j))) by (intros; rewrite rsum_scale_r; reflexivity).
    rewrite rsum_swap. apply rsum_ext. intros c Hc. rewrite <- Hz by lia. rewrite <- rsum_scale. apply rsum_ext. intros; ring.
  - intros i j Hi Hj. pose proof (iperm_lt n _ _ _ st 0 i G Hi) as Hi'. pose proof (iperm_lt n _ _ _ st 0 j G Hj) as Hj'.
    rewrite <- (fperm_iperm st 0 i) at 1. rewrite <- (fperm_iperm st 0 j) at 1.
    rewrite (factor_product n g (bk_piv s) L st 0 (mirror A) G ltac:(lia) (mirror_sym A) (lmat_lcol n 0 st g) _ _) by lia. set (i' := iperm 0 st i) in *. set (j' := iperm 0 st j) in *. unfold lel.
    rewrite (rsum_ext n _ (fun c => rsum n (fun e => L i' c * H c e * IZR (nth e l 0%Z) * rsum n (fun d => L j' d * H d e)))).
    + rewrite rsum_swap. apply rsum_ext. intros e He.
      rewrite (rsum_ext n _ (fun c => L i' c * H c e * (IZR (nth e l 0%Z) * rsum n (fun d => L j' d * H d e)))) by (intros; ring). rewrite rsum_scale_r. ring.
    + intros c Hc. rewrite (rsum_ext n _ (fun d => rsum n (fun e => L i' c * H c e * IZR (nth e l 0%Z) * (L j' d * H d e)))).
      * rewrite rsum_swap. apply rsum_ext. intros e He. apply rsum_scale.
      * intros d Hd. rewrite HF by assumption. rewrite <- rsum_scale. rewrite <- rsum_scale_r. apply rsum_ext. intros e He. rewrite Nat.sub_0_r. ring.
Qed.

(** ** Failed factorisations of at most 32 rows *)
Lemma sig_tail n (s : bk RSc) : forall fuel k, (n - k <= fuel)%nat -> (forall i, (k <= i)%nat -> (bk_piv s i <? 0)%Z = false) -> exists l, sig_loop fuel n k s = Ret l /\ length l = (n - k)%nat.
Proof.
  induction fuel as [|f IH]; intros k Hf Hp; cbn [sig_loop]; (destruct (Nat.ltb_spec k n); [|exists []; split; [reflexivity|cbn; lia]]); [lia|]. rewrite Hp by lia.
  destruct (IH (k + 1)%nat ltac:(lia) ltac:(intros; apply Hp; lia)) as (l & E & Ln). rewrite E. cbn [bind]. eexists. split; [reflexivity|]. cbn [length]. lia.
Qed.
Lemma sig_failed n a (s : bk RSc) st : forall fuel k S, good n k st S a (bk_piv s) -> (fin k st < n)%nat -> (n - k <= fuel)%nat ->
  bk_mat s (fin k st) (fin k st) = 0 -> (forall i, (fin k st <= i)%nat -> (bk_piv s i <? 0)%Z = false) ->
  exists l, sig_loop fuel n k s = Ret l /\ length l = (n - k)%nat /\ In 0%Z l.
Proof.
  induction st as [|[p b] st IH]; intros fuel k S G F Hf Hm Hp.
  - cbn [fin] in *. destruct fuel as [|f]; [lia|]. cbn [sig_loop]. destruct (Nat.ltb_spec k n); [|lia]. rewrite Hp by lia.
    destruct (sig_tail n s f (k + 1) ltac:(lia) ltac:(intros; apply Hp; lia)) as (l & E & Ln). rewrite E. cbn [bind]. rewrite Hm, isign_zero. eexists. split; [reflexivity|]. split; [cbn [length]; lia|left; reflexivity].
  - cbn [good fin snd] in *. destruct G as [G1 G2]. destruct (good1_dec _ _ _ _ _ _ G1) as (D1 & D2 & D3 & D4). cbn [fst snd] in *. pose proof (stepn_le k b). pose proof (fin_ge st (stepn k b)).
    destruct fuel as [|f]; [lia|]. cbn [sig_loop]. destruct (Nat.ltb_spec k n); [|lia]. rewrite D1.
    destruct (IH f (stepn k b) _ G2 F ltac:(lia) Hm Hp) as (l & E & Ln & I0). destruct b; cbn [stepn kkof] in *.
    + destruct (Nat.leb_spec n (k + 1)); [lia|]. rewrite E. cbn [bind]. eexists. split; [reflexivity|].
      match goal with |- context[if ?c then _ else _] => destruct c end; [|match goal with |- context[if ?c then _ else _] => destruct c end]; (split; [cbn [length]; lia|right; right; exact I0]).
    + rewrite E. cbn [bind]. eexists. split; [reflexivity|]. split; [cbn [length]; lia|right; exact I0].
Qed.
Lemma bk_failed_signature n A s : (n <= 32)%nat -> bk_compute (K := RSc) n A = Ret s -> bk_ok s = false -> exists sig, bk_signature s = Ret sig /\ length sig = n /\ In 0%Z sig.
Proof.
  intros H32 E Ok. unfold bk_compute, bk_in_place, blocksize in E. rewrite (proj2 (Nat.leb_le n 32) H32) in E. set (a0 := freeze n n _) in E.
  assert (L0 : low n 0 (view (K := RSc) 0 a0) (mirror A)) by (intros r c _ H1 H2; unfold view, a0; rewrite freeze_id; unfold mirror; cbn [Nat.add]; bd; reflexivity).
  destruct (Nat.eq_dec n 0) as [->|Hn]; [cbn in E; injection E as <-; discriminate Ok|].
  replace (bk_blocks (K := RSc) n n 0 0 a0 (fun _ _ => s0) (fun _ => 0%Z)) with (bk_blocks (K := RSc) (S (n - 1)) n 0 0 a0 (fun _ _ => s0) (fun _ => 0%Z)) in E by (f_equal; lia).
  cbn [bk_blocks] in E. destruct (Nat.ltb_spec 0 n); [|lia]. cbn [Nat.eqb negb andb] in E. rewrite !Nat.sub_0_r in E.
  destruct (unblocked_bk n (view (K := RSc) 0 a0) (fun i => (fun _ => 0%Z) (0 + i)%nat) (mirror A) (mirror_sym A) L0 ltac:(reflexivity)) as (a1 & piv1 & ok & st & Eu & R1 & R2 & R3 & R4 & R5 & R6).
  rewrite Eu in E. cbn [bind] in E. destruct ok.
  - exfalso. cbn [Nat.add] in E. destruct (n - 1)%nat; cbn [bk_blocks] in E; rewrite Nat.ltb_irrefl in E; cbn [bind] in E;
      (match type of E with context[sub_pass ?f ?n ?k ?p ?x ?y] => destruct (sub_pass f n k p x y) as [[a2 sd]| | |]; try discriminate E end; cbn [bind] in E;
       match type of E with context[row_pass ?f ?n ?k ?p ?x] => destruct (row_pass f n k p x) as [a3| | |]; try discriminate E end; cbn [bind] in E; injection E as <-; discriminate Ok).
  - injection E as <-. clear Ok. destruct R6 as [Hf Z]. unfold bk_signature. cbn [bk_n]. set (s := mkBk _ _ _ _ _).
    assert (PV : forall i, bk_piv s i = piv1 i).
    { intros i. unfold s. cbn [bk_piv]. cbn [Nat.leb andb]. rewrite Nat.sub_0_r. destruct (Nat.ltb_spec i n); [reflexivity|]. rewrite R3 by lia. reflexivity. }
    destruct (sig_failed n a1 s st n 0%nat (mirror A)) as (l & E1 & Ln & I0).
    + revert R1. apply good_ext; intros; [reflexivity|apply PV].
    + exact Hf.
    + lia.
    + unfold s. cbn [bk_mat]. rewrite freeze_id. unfold paste. rewrite Nat.sub_0_r. cbn [Nat.add]. rewrite (R4 (fin 0 st) (fin 0 st)) by lia. rewrite Z by lia. bd. reflexivity.
    + intros i Hi. rewrite PV, R3 by lia. reflexivity.
    + exists l. rewrite Nat.sub_0_r in Ln. auto.
Qed.
