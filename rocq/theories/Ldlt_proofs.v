From Coq Require Import Reals List Bool Arith Lia Lra Permutation.
From Verif Require Import Scalar Problem_model Symb_model Lin_spec Lin_proofs Symb_spec Ldlt_model Ldlt_spec.
Import ListNotations.
Local Open Scope R_scope.

(** Split on the index tests of the goal. *)
Ltac bd := repeat match goal with
  | |- context[Nat.eqb ?x ?y] => destruct (Nat.eqb_spec x y); cbn [andb orb negb]; try lia
  | |- context[Nat.ltb ?x ?y] => destruct (Nat.ltb_spec x y); cbn [andb orb negb]; try lia
  | |- context[Nat.leb ?x ?y] => destruct (Nat.leb_spec x y); cbn [andb orb negb]; try lia
  end.
Ltac rs := cbn [car s0 s1 sadd ssub smul sdiv sopp sabs RSc] in *.

Lemma fold_seq_inv {S : Type} (P : nat -> S -> Prop) (f : S -> nat -> S) m : forall k s, P k s -> (forall j s', (k <= j)%nat -> (j < k + m)%nat -> P j s' -> P (Datatypes.S j) (f s' j)) -> P (k + m)%nat (fold_left f (seq k m) s).
Proof.
  induction m as [|m IH]; intros k s H G; [rewrite Nat.add_0_r; exact H|]. cbn [seq fold_left].
  replace (k + Datatypes.S m)%nat with (Datatypes.S k + m)%nat by lia. apply IH; [apply G; auto; lia|]. intros j s' H1 H2. apply G; lia.
Qed.

(** ** Unblocked factorisation *)
Section Dense.
  Variables (n : nat) (A L : nat -> nat -> R) (D : nat -> R).
  Hypothesis F : factor_of n A L D.
  Hypothesis DN : forall i, (S i < n)%nat -> D i <> 0.
  Definition uinv (j : nat) (a : nat -> nat -> R) : Prop :=
    (forall r c, (c < j)%nat -> (c < r)%nat -> (r < n)%nat -> a r c = L r c) /\
    (forall c, (c < j)%nat -> a c c = D c) /\
    (forall r c, (j <= c)%nat -> (c <= r)%nat -> (r < n)%nat -> a r c = A r c).
  Lemma entry r c : (c <= r)%nat -> (r < n)%nat -> A r c = rsum c (fun t => L r t * D t * L c t) + L r c * D c.
  Proof. intros H1 H2. destruct F as [U E]. rewrite E by assumption. apply ldl_entry; assumption. Qed.
  Lemma unb_step_ok j a sg : (j < n)%nat -> uinv j a -> uinv (S j) (fst (unb_step (K := RSc) n (a, sg) j)) /\ snd (unb_step (K := RSc) n (a, sg) j) = update_sign (K := RSc) sg (D j).
  Proof.
    intros Hj (H1 & H2 & H3). destruct F as [[U1 U2] _].
    set (a1 := unb_work (K := RSc) n j a).
    assert (W : forall t, (t < j)%nat -> a1 t (n - 1)%nat = L j t * D t).
    { intros t Ht. unfold a1, unb_work. bd. rs. rewrite H1, H2 by lia. reflexivity. }
    assert (Lo : forall r c, (c <= r)%nat -> (r < n)%nat -> a1 r c = a r c).
    { intros r c Hc Hr. unfold a1, unb_work. bd; reflexivity. }
    set (a2 := freeze n n (unb_pivot (K := RSc) n j a1)).
    assert (P2 : a2 j j = D j).
    { unfold a2. rewrite freeze_id. unfold unb_pivot. bd. rs. rewrite ssum_rsum, Lo by lia. rewrite H3 by lia. rewrite (entry j j) by lia. rewrite U1 by lia.
      rewrite (rsum_ext j (fun t => a1 t (n - 1)%nat * a1 j t) (fun t => L j t * D t * L j t)); [lra|]. intros t Ht. rewrite W by exact Ht. rewrite Lo by lia. rewrite H1 by lia. reflexivity. }
    assert (O2 : forall r c, ~ (r = j /\ c = j) -> a2 r c = a1 r c).
    { intros r c X. unfold a2. rewrite freeze_id. unfold unb_pivot. bd; reflexivity. }
    unfold unb_step. fold a1. fold a2. rewrite P2. destruct (Nat.eqb_spec (j + 1) n) as [En|En]; cbn [fst snd].
    - split; [|reflexivity]. split; [|split].
      + intros r c Hc Hr Hn. rewrite O2 by lia. rewrite Lo by lia. destruct (Nat.eq_dec c j); [lia|]. apply H1; lia.
      + intros c Hc. destruct (Nat.eq_dec c j) as [->|]; [exact P2|]. rewrite O2 by lia. rewrite Lo by lia. apply H2; lia.
      + intros r c Hc Hr Hn. lia.
    - split; [|reflexivity]. assert (C : forall r c, freeze n n (unb_col (K := RSc) n j a2) r c = unb_col (K := RSc) n j a2 r c) by (intros; apply freeze_id).
      split; [|split].
      + intros r c Hc Hr Hn. rewrite C. unfold unb_col. destruct (Nat.eq_dec c j) as [->|Nj].
        * bd. rs. rewrite ssum_rsum, P2, O2, Lo by lia. rewrite H3 by lia. rewrite (entry r j) by lia.
          rewrite (rsum_ext j (fun t => a2 r t * a2 t (n - 1)%nat) (fun t => L r t * D t * L j t)).
          { unfold Rdiv. rewrite Rmult_1_l. field. apply DN. lia. }
          intros t Ht. rewrite !O2 by lia. rewrite W, Lo by lia. rewrite H1 by lia. lra.
        * bd. rewrite O2, Lo by lia. apply H1; lia.
      + intros c Hc. rewrite C. unfold unb_col. bd; (destruct (Nat.eq_dec c j) as [->|]; [exact P2|]; rewrite O2, Lo by lia; apply H2; lia).
      + intros r c Hc Hr Hn. rewrite C. unfold unb_col. bd; rewrite O2, Lo by lia; apply H3; lia.
  Qed.
  Lemma unblocked_ok a sg : (forall r c, (c <= r)%nat -> (r < n)%nat -> a r c = A r c) -> stores n (fst (unblocked (K := RSc) n a sg)) L D /\
    snd (unblocked (K := RSc) n a sg) = if Nat.leb n 1 then small_sign (K := RSc) n a else fold_left (update_sign (K := RSc)) (map D (seq 0 n)) sg.
  Proof.
    intros H. unfold unblocked. destruct (Nat.leb_spec n 1) as [Hn|Hn].
    - cbn [fst snd]. split; [|reflexivity]. split; [intros; lia|]. intros i Hi. rewrite H by lia. rewrite (entry i i) by lia. destruct F as [[U1 _] _]. rewrite U1 by lia. replace i with 0%nat by lia. cbn. lra.
    - destruct (fold_seq_inv (fun j st => uinv j (fst st) /\ snd st = fold_left (update_sign (K := RSc)) (map D (seq 0 j)) sg) (unb_step (K := RSc) n) n 0 (a, sg)) as [(H1 & H2 & _) Hs].
      + split; [|reflexivity]. split; [intros; lia|]. split; [intros; lia|]. intros r c _ Hc Hr. apply H; auto.
      + intros j [a' sg'] _ Hj [I1 I2]. cbn [fst snd] in *. destruct (unb_step_ok j a' sg' ltac:(lia) I1) as [J1 J2]. split; [exact J1|]. refine (eq_trans J2 _). rewrite I2, seq_S, map_app, fold_left_app. reflexivity.
      + split; [|exact Hs]. split; [intros; apply H1; lia|intros; apply H2; lia].
  Qed.
End Dense.

(** ** Solve from the right *)
Lemma solve_right_ok o bs r0 m a X : (o + bs <= r0)%nat ->
  (forall r q, (r0 <= r)%nat -> (r < r0 + m)%nat -> (q < bs)%nat -> a r (o + q)%nat = rsum q (fun t => X r t * a (o + q)%nat (o + t)%nat) + X r q) ->
  (forall r q, (r0 <= r)%nat -> (r < r0 + m)%nat -> (q < bs)%nat -> solve_right (K := RSc) o bs r0 m a r (o + q)%nat = X r q) /\
  (forall r c, ~ ((r0 <= r < r0 + m)%nat /\ (o <= c < o + bs)%nat) -> solve_right (K := RSc) o bs r0 m a r c = a r c).
Proof.
  intros Ho H. unfold solve_right.
  match goal with |- context[fold_left ?g _ _] => set (f := g) end.
  destruct (fold_seq_inv (fun k b => (forall r q, (r0 <= r)%nat -> (r < r0 + m)%nat -> (q < k)%nat -> b r (o + q)%nat = X r q) /\
    (forall r c, ~ ((r0 <= r < r0 + m)%nat /\ (o <= c < o + k)%nat) -> b r c = a r c)) f bs 0 a) as [G1 G2].
  - split; [intros; lia|reflexivity].
  - intros q b _ Hq [I1 I2]. split.
    + intros r c Hr Hr' Hc. unfold f. rewrite freeze_id. destruct (Nat.eq_dec c q) as [->|].
      * bd. rs. rewrite ssum_rsum. rewrite (I2 r (o + q)%nat) by lia. rewrite H by lia. rewrite (rsum_ext q (fun t => b r (o + t)%nat * b (o + q)%nat (o + t)%nat) (fun t => X r t * a (o + q)%nat (o + t)%nat)); [lra|].
        intros t Ht. rewrite I1 by lia. rewrite (I2 (o + q)%nat) by lia. reflexivity.
      * bd; apply I1; lia.
    + intros r c Hrc. unfold f. rewrite freeze_id. bd; apply I2; lia.
  - split; [exact G1|exact G2].
Qed.

(** ** Recursion *)
Lemma seq_off k m : seq k m = map (fun i => (k + i)%nat) (seq 0 m).
Proof. induction k as [|k IH]; [rewrite map_id; reflexivity|]. rewrite <- seq_shift, IH, map_map. apply map_ext. intros; lia. Qed.
Lemma ldl_head bs n L D i j : (bs <= n)%nat -> unit_lower n L -> (j < bs)%nat -> (i < bs)%nat -> ldl n L D i j = ldl bs L D i j.
Proof. intros H [_ U] Hj Hi. unfold ldl. apply rsum_cut; [exact H|]. intros t H1 H2. rewrite (U i t) by lia. lra. Qed.
Lemma unit_head bs n L : (bs <= n)%nat -> unit_lower n L -> unit_lower bs L.
Proof. intros H [U1 U2]. split; intros; [apply U1; lia|apply U2; lia]. Qed.
Lemma unit_tail o m L : unit_lower (o + m) L -> unit_lower m (fun i j => L (o + i)%nat (o + j)%nat).
Proof. intros [U1 U2]. split; intros; [apply U1; lia|apply U2; lia]. Qed.
Lemma ldl_tail o m L D i j : ldl (o + m) L D (o + i)%nat (o + j)%nat = rsum o (fun t => L (o + i)%nat t * D t * L (o + j)%nat t) + ldl m (fun i j => L (o + i)%nat (o + j)%nat) (fun i => D (o + i)%nat) i j.
Proof. unfold ldl. apply rsum_split. Qed.

Lemma dense_ok : forall fuel n a sg L D, (n < fuel)%nat -> factor_of n a L D -> (forall i, (S i < n)%nat -> D i <> 0) ->
  exists a' sg', dense_in_place (K := RSc) fuel n a sg = Ret (a', sg') /\ stores n a' L D /\
    sg' = if Nat.leb n 1 then small_sign (K := RSc) n a else fold_left (update_sign (K := RSc)) (map D (seq 0 n)) sg.
Proof.
  induction fuel as [|f IH]; intros n a sg L D Hf F DN; [lia|]. cbn [dense_in_place]. destruct (Nat.leb_spec n threshold) as [Hn|Hn].
  - destruct (unblocked_ok n a L D F DN a sg ltac:(reflexivity)) as [S1 S2]. destruct (unblocked n a sg) as [a' sg'] eqn:E. exists a', sg'. cbn [fst snd] in *. auto.
  - unfold threshold in Hn. set (bs := Nat.div (n + 1) 2).
    assert (B1 : (bs <= n - 2)%nat /\ (2 <= bs)%nat).
    { unfold bs. pose proof (Nat.div_mod (n + 1) 2 ltac:(lia)). pose proof (Nat.mod_upper_bound (n + 1) 2 ltac:(lia)). lia. }
    clearbody bs. destruct B1 as [B1 B2]. destruct F as [U F].
    destruct (IH bs (view (K := RSc) 0 a) sg L D ltac:(lia)) as (l00 & sg1 & E1 & [S1 S2] & G1).
    { split; [apply (unit_head bs n); [lia|exact U]|]. intros i j Hj Hi. unfold view. cbn [Nat.add]. rewrite F by lia. apply ldl_head; [lia|exact U|lia|lia]. }
    { intros i Hi. apply DN. lia. }
    rewrite E1. cbn [bind].
    set (p := paste (K := RSc) 0 bs l00 a). set (a1 := solve_right (K := RSc) 0 bs bs (n - bs) p).
    assert (P1 : forall i j, (j < bs)%nat -> (i < bs)%nat -> p i j = l00 i j). { intros i j Hj Hi. unfold p, paste. bd. rewrite !Nat.sub_0_r. reflexivity. }
    assert (P2 : forall i j, (bs <= i)%nat \/ (bs <= j)%nat -> p i j = a i j). { intros i j H. unfold p, paste. bd; reflexivity. }
    destruct (solve_right_ok 0 bs bs (n - bs) p (fun r q => L r q * D q)) as [R1 R2]; [lia| |].
    { intros r q Hr Hr' Hq. cbn [Nat.add]. rewrite P2 by lia. rewrite F by lia. rewrite (ldl_entry n L D r q U) by lia. f_equal. apply rsum_ext. intros t Ht. rewrite P1 by lia. rewrite S1 by lia. lra. }
    fold a1 in R1, R2. cbn [Nat.add] in R1, R2.
    set (a2 := rec_scale (K := RSc) bs n (rec_work (K := RSc) bs n a1)). set (a3 := rec_update (K := RSc) bs n a2).
    assert (V1 : forall i j, (j <= i)%nat -> (i < bs)%nat -> a3 i j = l00 i j).
    { intros i j Hj Hi. unfold a3, rec_update. bd. unfold a2, rec_scale. bd. unfold rec_work. bd; rewrite R2 by lia; apply P1; lia. }
    assert (V2 : forall r c, (c < bs)%nat -> (bs <= r)%nat -> (r < n)%nat -> a2 r c = L r c).
    { intros r c Hc Hr Hn'. unfold a2, rec_scale. bd. rs. assert (E : rec_work (K := RSc) bs n a1 r c = L r c * D c) by (unfold rec_work; bd; apply R1; lia). rewrite E.
      assert (E' : rec_work (K := RSc) bs n a1 c c = D c) by (unfold rec_work; bd; rewrite R2 by lia; rewrite P1 by lia; apply S2; lia). rewrite E'. field. apply DN. lia. }
    assert (V3 : forall t c, (t < bs)%nat -> (bs <= c)%nat -> (c < n)%nat -> a2 t c = L c t * D t).
    { intros t c Ht Hc Hn'. unfold a2, rec_scale. bd. unfold rec_work. bd. apply R1; lia. }
    assert (V4 : forall r c, (bs <= c)%nat -> (c <= r)%nat -> (r < n)%nat -> a3 r c = a r c - rsum bs (fun t => L r t * D t * L c t)).
    { intros r c Hc Hr Hn'. unfold a3, rec_update. bd. rs. rewrite ssum_rsum. assert (E : a2 r c = a r c). { unfold a2, rec_scale. bd. unfold rec_work. bd. rewrite R2 by lia. apply P2. lia. } rewrite E. f_equal.
      apply rsum_ext. intros t Ht. rewrite V2, V3 by lia. lra. }
    assert (V5 : forall r c, (c < bs)%nat -> (bs <= r)%nat -> (r < n)%nat -> a3 r c = L r c). { intros r c Hc Hr Hn'. unfold a3, rec_update. bd. apply V2; lia. }
    fold a2. fold a3. destruct (IH (n - bs)%nat (view (K := RSc) bs a3) sg1 (fun i j => L (bs + i)%nat (bs + j)%nat) (fun i => D (bs + i)%nat) ltac:(lia)) as (l11 & sg2 & E2 & [T1 T2] & G2).
    { split; [apply unit_tail; replace (bs + (n - bs))%nat with n by lia; exact U|]. intros i j Hj Hi. unfold view. rewrite V4 by lia. rewrite F by lia. replace n with (bs + (n - bs))%nat at 1 by lia. rewrite ldl_tail. lra. }
    { intros i Hi. apply DN. lia. }
    rewrite E2. cbn [bind]. eexists _, _. split; [reflexivity|]. split.
    + split.
      * intros i j Hj Hi. unfold paste. destruct (Nat.leb_spec bs j).
        { bd. rewrite T1 by lia. replace (bs + (i - bs))%nat with i by lia. replace (bs + (j - bs))%nat with j by lia. reflexivity. }
        destruct (Nat.leb_spec bs i); bd; try (rewrite V5 by lia; reflexivity). rewrite V1 by lia. apply S1; lia.
      * intros i Hi. unfold paste. destruct (Nat.leb_spec bs i).
        { bd. rewrite T2 by lia. replace (bs + (i - bs))%nat with i by lia. reflexivity. }
        bd. rewrite V1 by lia. apply S2; lia.
    + destruct (Nat.leb_spec n 1) as [Hx|Hx]; [lia|]. destruct (Nat.leb_spec (n - bs) 1) as [Hy|Hy]; [lia|]. destruct (Nat.leb_spec bs 1) as [Hz|Hz]; [lia|]. rewrite G2, G1, <- fold_left_app.
      f_equal. replace n with (bs + (n - bs))%nat at 2 by lia. rewrite seq_app, map_app. f_equal. rewrite (seq_off bs), map_map. reflexivity.
Qed.

(** ** Triangular solves *)
Lemma fold_rev_inv {S : Type} (P : nat -> S -> Prop) (f : S -> nat -> S) m : forall s, P m s -> (forall j s', (j < m)%nat -> P (Datatypes.S j) s' -> P j (f s' j)) -> P 0%nat (fold_left f (rev (seq 0 m)) s).
Proof.
  induction m as [|m IH]; intros s H G; [exact H|]. rewrite seq_S, rev_app_distr. cbn [rev app fold_left Nat.add]. apply IH; [apply G; auto|]. intros j s' Hj. apply G; lia.
Qed.
Lemma fwd_ok o n0 T b y : (forall q, (q < n0)%nat -> b (o + q)%nat = rsum q (fun t => T (o + q)%nat (o + t)%nat * y t) + y q) ->
  (forall q, (q < n0)%nat -> fwd (K := RSc) o n0 T b (o + q)%nat = y q) /\ (forall i, ~ (o <= i < o + n0)%nat -> fwd (K := RSc) o n0 T b i = b i).
Proof.
  intros H. unfold fwd. match goal with |- context[fold_left ?g _ _] => set (f := g) end.
  destruct (fold_seq_inv (fun k v => (forall q, (q < k)%nat -> v (o + q)%nat = y q) /\ (forall i, ~ (o <= i < o + k)%nat -> v i = b i)) f n0 0 b) as [G1 G2].
  - split; [intros; lia|reflexivity].
  - intros q v _ Hq [I1 I2]. split.
    + intros p Hp. unfold f. rewrite freezev_id. destruct (Nat.eq_dec p q) as [->|].
      * bd. rs. rewrite ssum_rsum, I2, H by lia. rewrite (rsum_ext q (fun t => T (o + q)%nat (o + t)%nat * v (o + t)%nat) (fun t => T (o + q)%nat (o + t)%nat * y t)); [lra|]. intros t Ht. rewrite I1 by lia. reflexivity.
      * bd; apply I1; lia.
    + intros i Hi. unfold f. rewrite freezev_id. bd; apply I2; lia.
  - split; [exact G1|exact G2].
Qed.
Lemma bwd_ok o n0 T b y : (forall q, (q < n0)%nat -> b (o + q)%nat = y q + rsum (n0 - 1 - q) (fun t => T (o + q)%nat (o + (q + 1 + t))%nat * y (q + 1 + t)%nat)) ->
  (forall q, (q < n0)%nat -> bwd (K := RSc) o n0 T b (o + q)%nat = y q) /\ (forall i, ~ (o <= i < o + n0)%nat -> bwd (K := RSc) o n0 T b i = b i).
Proof.
  intros H. unfold bwd. match goal with |- context[fold_left ?g _ _] => set (f := g) end.
  destruct (fold_rev_inv (fun k v => (forall q, (k <= q)%nat -> (q < n0)%nat -> v (o + q)%nat = y q) /\ (forall i, ~ (o + k <= i < o + n0)%nat -> v i = b i)) f n0 b) as [G1 G2].
  - split; [intros; lia|reflexivity].
  - intros q v Hq [I1 I2]. split.
    + intros p Hp Hn. unfold f. rewrite freezev_id. destruct (Nat.eq_dec p q) as [->|].
      * bd. rs. rewrite ssum_rsum, I2, H by lia. rewrite (rsum_ext (n0 - 1 - q) (fun t => T (o + q)%nat (o + (q + 1 + t))%nat * v (o + (q + 1 + t))%nat) (fun t => T (o + q)%nat (o + (q + 1 + t))%nat * y (q + 1 + t)%nat)); [lra|]. intros t Ht. rewrite I1 by lia. reflexivity.
      * bd; apply I1; lia.
    + intros i Hi. unfold f. rewrite freezev_id. bd; apply I2; lia.
  - split; [intros; apply G1; lia|]. intros i Hi. apply G2. lia.
Qed.
(** L y = b has a solution, found from the first row on; L' x = z likewise. *)
Lemma lower_solution n L b : unit_lower n L -> exists y, forall i, (i < n)%nat -> b i = rsum n (fun t => L i t * y t).
Proof.
  intros [U1 U2]. assert (H : forall k, (k <= n)%nat -> exists y, forall i, (i < k)%nat -> b i = rsum n (fun t => L i t * y t)).
  { induction k as [|k IH]; intros Hk; [exists (fun _ => 0); intros; lia|]. destruct (IH ltac:(lia)) as [y Hy].
    exists (fun t => if Nat.eqb t k then b k - rsum k (fun t => L k t * y t) else y t). intros i Hi.
    rewrite (rsum_cut n (S i)); [|lia|intros t H1 H2; rewrite (U2 i t) by lia; lra]. cbn [rsum].
    assert (E : rsum i (fun t => L i t * (if Nat.eqb t k then b k - rsum k (fun t => L k t * y t) else y t)) = rsum i (fun t => L i t * y t)) by (apply rsum_ext; intros t Ht; bd; reflexivity).
    rewrite E. rewrite U1 by lia. bd; [subst i; lra|]. rewrite (Hy i) by lia. rewrite (rsum_cut n (S i)); [|lia|intros t H1 H2; rewrite (U2 i t) by lia; lra]. cbn [rsum]. rewrite U1 by lia. lra. }
  destruct (H n (le_n n)) as [y Hy]. exists y. exact Hy.
Qed.
Lemma upper_solution n L b : unit_lower n L -> exists x, forall i, (i < n)%nat -> b i = rsum n (fun t => L t i * x t).
Proof.
  intros [U1 U2]. assert (H : forall m k, (k + m = n)%nat -> exists x, forall i, (k <= i)%nat -> (i < n)%nat -> b i = rsum n (fun t => L t i * x t)).
  { induction m as [|m IH]; intros k Hk; [exists (fun _ => 0); intros; lia|]. destruct (IH (S k) ltac:(lia)) as [x Hx].
    exists (fun t => if Nat.eqb t k then b k - rsum n (fun t => if Nat.eqb t k then 0 else L t k * x t) else x t). intros i Hi Hn.
    destruct (Nat.eq_dec i k) as [->|Ni].
    - rewrite (rsum_ext n _ (fun t => (if Nat.eqb t k then b k - rsum n (fun t => if Nat.eqb t k then 0 else L t k * x t) else 0) + (if Nat.eqb t k then 0 else L t k * x t))).
      + rewrite rsum_plus. rewrite (rsum_one n _ k); [|lia|intros t _ Ht; bd; reflexivity]. rewrite Nat.eqb_refl. lra.
      + intros t Ht. bd; [subst t; rewrite U1 by lia; lra|lra].
    - rewrite (Hx i) by lia. apply rsum_ext. intros t Ht. bd; [subst t; rewrite (U2 k i) by lia; lra|reflexivity]. }
  destruct (H n 0%nat ltac:(lia)) as [x Hx]. exists x. intros i Hi. apply Hx; lia.
Qed.
Lemma tiny_pos : 0 < tiny (K := RSc).
Proof. unfold tiny, slit. cbn. apply Rdiv_lt_0_compat; [lra|]. apply IZR_lt. reflexivity. Qed.
Lemma dsolve_ok n a b D : (forall i, (i < n)%nat -> a i i = D i) -> (forall i, (i < n)%nat -> tiny (K := RSc) < Rabs (D i)) -> forall i, (i < n)%nat -> D i * dsolve (K := RSc) n a b i = b i.
Proof.
  intros Hd Ht i Hi. unfold dsolve. bd. rewrite Hd by exact Hi. specialize (Ht i Hi). rs. cbn [sltb RSc]. rewrite (proj2 (Rltb_true _ _) Ht). field.
  intros E. rewrite E, Rabs_R0 in Ht. pose proof tiny_pos. lra.
Qed.
(** From the three solves to the system. *)
Lemma ldl_solves n L D x y z b : (forall i, (i < n)%nat -> b i = rsum n (fun t => L i t * y t)) -> (forall i, (i < n)%nat -> D i * z i = y i) ->
  (forall i, (i < n)%nat -> z i = rsum n (fun t => L t i * x t)) -> forall i, (i < n)%nat -> rsum n (fun j => ldl n L D i j * x j) = b i.
Proof.
  intros Hy Hz Hx i Hi. rewrite Hy by exact Hi. unfold ldl.
  rewrite (rsum_ext n _ (fun j => rsum n (fun t => L i t * D t * L j t * x j))) by (intros j Hj; rewrite rsum_scale_r; reflexivity).
  rewrite rsum_swap. apply rsum_ext. intros t Ht. rewrite <- Hz by exact Ht. rewrite Hx by exact Ht. rewrite <- !rsum_scale. apply rsum_ext. intros j Hj. lra.
Qed.
Lemma mirror_ldl n A L D : factor_of n A L D -> forall i j, (i < n)%nat -> (j < n)%nat -> mirror A i j = ldl n L D i j.
Proof. intros [U F] i j Hi Hj. unfold mirror. bd; [apply F; lia|]. rewrite F by lia. apply ldl_sym. Qed.
Lemma mvec_factor n A L D x i : factor_of n A L D -> (i < n)%nat -> mvec n (mirror A) x i = rsum n (fun j => ldl n L D i j * x j).
Proof. intros F Hi. unfold mvec. apply rsum_ext. intros j Hj. rewrite (mirror_ldl n A L D F) by assumption. reflexivity. Qed.
(** The two triangular systems in the form of the loops. *)
Lemma lower_rows n L y i : unit_lower n L -> (i < n)%nat -> rsum n (fun t => L i t * y t) = rsum i (fun t => L i t * y t) + y i.
Proof. intros [U1 U2] Hi. rewrite (rsum_cut n (S i)); [|lia|intros t H1 H2; rewrite (U2 i t) by lia; lra]. cbn [rsum]. rewrite U1 by lia. lra. Qed.
Lemma upper_rows n L x i : unit_lower n L -> (i < n)%nat -> rsum n (fun t => L t i * x t) = x i + rsum (n - 1 - i) (fun t => L (i + 1 + t)%nat i * x (i + 1 + t)%nat).
Proof.
  intros [U1 U2] Hi. replace n with ((i + 1) + (n - 1 - i))%nat at 1 by lia. rewrite rsum_split. f_equal. rewrite Nat.add_1_r. cbn [rsum]. rewrite rsum_zero; [|intros t Ht; rewrite (U2 t i) by lia; lra]. rewrite U1 by lia. lra.
Qed.
Lemma dense_solve_ok n A L D a b : factor_of n A L D -> stores n a L D -> (forall i, (i < n)%nat -> tiny (K := RSc) < Rabs (D i)) -> solves n A (dense_solve (K := RSc) n a b) b.
Proof.
  intros F [S1 S2] HT i Hi. rewrite (mvec_factor n A L D _ i F Hi). destruct F as [U F]. unfold dense_solve.
  destruct (lower_solution n L b U) as [y Hy]. set (y' := fwd (K := RSc) 0 n a b).
  assert (Y : forall i, (i < n)%nat -> y' i = y i).
  { intros q Hq. destruct (fwd_ok 0 n a b y) as [G _]; [|exact (G q Hq)]. intros p Hp. cbn [Nat.add]. rewrite Hy by exact Hp. rewrite (lower_rows n L y p U Hp). f_equal. apply rsum_ext. intros t Ht. rewrite S1 by lia. reflexivity. }
  set (z := dsolve (K := RSc) n a y'). destruct (upper_solution n L z U) as [x Hx].
  assert (X : forall i, (i < n)%nat -> bwd (K := RSc) 0 n (fun r c => a c r) z i = x i).
  { intros q Hq. destruct (bwd_ok 0 n (fun r c => a c r) z x) as [G _]; [|exact (G q Hq)]. intros p Hp. cbn [Nat.add]. rewrite Hx by exact Hp. rewrite (upper_rows n L x p U Hp). f_equal. apply rsum_ext. intros t Ht. rewrite S1 by lia. reflexivity. }
  rewrite (rsum_ext n _ (fun j => ldl n L D i j * x j)) by (intros j Hj; rewrite X by exact Hj; reflexivity).
  apply (ldl_solves n L D x y z b); auto. intros q Hq. rewrite <- Y by exact Hq. apply dsolve_ok; assumption.
Qed.
Lemma reconstruct_ok n a L D : unit_lower n L -> stores n a L D -> forall i j, (i < n)%nat -> (j < n)%nat -> reconstruct (K := RSc) n a (ident (K := RSc)) i j = ldl n L D i j.
Proof.
  intros [U1 U2] [S1 S2] i j Hi Hj. unfold reconstruct. rs. rewrite ssum_rsum. unfold ldl. apply rsum_ext. intros t Ht. rewrite freeze_id, ssum_rsum. rewrite (rsum_one n _ j Hj).
  - unfold ident. rewrite Nat.eqb_refl. rs.
    assert (E1 : (if Nat.eqb i t then 1 else if Nat.ltb t i then a i t else 0) = L i t).
    { destruct (Nat.eqb_spec i t) as [->|]; [rewrite U1 by lia; reflexivity|]. destruct (Nat.ltb_spec t i); [apply S1; lia|rewrite (U2 i t) by lia; reflexivity]. }
    assert (E2 : (if Nat.eqb t j then 1 else if Nat.ltb t j then a j t else 0) = L j t).
    { destruct (Nat.eqb_spec t j) as [->|]; [rewrite U1 by lia; reflexivity|]. destruct (Nat.ltb_spec t j); [apply S1; lia|rewrite (U2 j t) by lia; reflexivity]. }
    rewrite E1, E2, S2 by exact Ht. lra.
  - intros u Hu Nu. unfold ident. rs. bd; lra.
Qed.
(** ** Signs *)
Lemma sign_fold D n : sign_is n D (fold_left (update_sign (K := RSc)) (map D (seq 0 n)) ZeroSign).
Proof.
  induction n as [|n IH]; [cbn; intros; lia|]. rewrite seq_S, map_app, fold_left_app. cbn [map fold_left Nat.add].
  destruct (fold_left _ _ _); cbn [update_sign sign_is] in *; cbn [sltb RSc s0] in *.
  - destruct IH as [[i [Hi Hp]] H]. destruct (Rltb (D n) 0) eqn:E.
    + apply Rltb_true in E. split; [exists i; split; [lia|exact Hp]|exists n; split; [lia|exact E]].
    + apply Rltb_false in E. split; [exists i; split; [lia|exact Hp]|]. intros k Hk. destruct (Nat.eq_dec k n) as [->|]; [exact E|apply H; lia].
  - destruct IH as [[i [Hi Hp]] H]. destruct (Rltb 0 (D n)) eqn:E.
    + apply Rltb_true in E. split; [exists n; split; [lia|exact E]|exists i; split; [lia|exact Hp]].
    + apply Rltb_false in E. split; [exists i; split; [lia|exact Hp]|]. intros k Hk. destruct (Nat.eq_dec k n) as [->|]; [exact E|apply H; lia].
  - destruct (Rltb 0 (D n)) eqn:E; [|destruct (Rltb (D n) 0) eqn:E2].
    + apply Rltb_true in E. split; [exists n; split; [lia|exact E]|]. intros k Hk. destruct (Nat.eq_dec k n) as [->|]; [lra|rewrite IH by lia; lra].
    + apply Rltb_true in E2. split; [exists n; split; [lia|exact E2]|]. intros k Hk. destruct (Nat.eq_dec k n) as [->|]; [lra|rewrite IH by lia; lra].
    + apply Rltb_false in E. apply Rltb_false in E2. intros k Hk. destruct (Nat.eq_dec k n) as [->|]; [lra|apply IH; lia].
  - destruct IH as [[i [Hi Hp]] [k [Hk Hn]]]. split; [exists i; split; [lia|exact Hp]|exists k; split; [lia|exact Hn]].
Qed.
Lemma sign_small n a D : (n <= 1)%nat -> (forall i, (i < n)%nat -> a i i = D i) -> sign_is n D (small_sign (K := RSc) n a).
Proof.
  intros Hn H. unfold small_sign. bd; [cbn; intros; lia|]. replace n with 1%nat by lia. rewrite H by lia. cbn [sltb RSc s0].
  destruct (Rltb 0 (D 0%nat)) eqn:E; [|destruct (Rltb (D 0%nat) 0) eqn:E2]; cbn [sign_is].
  - apply Rltb_true in E. split; [exists 0%nat; split; [lia|exact E]|]. intros i Hi. replace i with 0%nat by lia. lra.
  - apply Rltb_true in E2. split; [exists 0%nat; split; [lia|exact E2]|]. intros i Hi. replace i with 0%nat by lia. lra.
  - apply Rltb_false in E. apply Rltb_false in E2. intros i Hi. replace i with 0%nat by lia. lra.
Qed.
(** ** DenseLDLT *)
Lemma compute_ok d n A L D : factor_of n A L D -> (forall i, (S i < n)%nat -> D i <> 0) ->
  exists d', dldlt_compute (K := RSc) d n A = Ret d' /\ dl_n d' = n /\ stores n (dl_mat d') L D /\ dl_ok d' = Some true /\
    (forall i j, (i < n)%nat -> (j < n)%nat -> dldlt_reconstruct (K := RSc) d' i j = mirror A i j) /\
    ((forall i, (i < n)%nat -> tiny (K := RSc) < Rabs (D i)) -> forall b, solves n A (dldlt_solve (K := RSc) d' b) b) /\
    ((n <= 1)%nat \/ dl_sign d = ZeroSign -> sign_is n D (dl_sign d')).
Proof.
  intros F DN. destruct (dense_ok (n + 1) n A (dl_sign d) L D ltac:(lia) F DN) as (a' & sg' & E & S & G).
  unfold dldlt_compute. rewrite E. cbn [bind fst snd]. eexists. split; [reflexivity|]. cbn [dl_n dl_mat dl_ok dl_sign]. split; [reflexivity|]. split; [exact S|]. split; [reflexivity|]. split; [|split].
  - intros i j Hi Hj. unfold dldlt_reconstruct. cbn [dl_n dl_mat]. rewrite (reconstruct_ok n a' L D (proj1 F) S) by assumption. symmetry. apply mirror_ldl; assumption.
  - intros HT b. unfold dldlt_solve. cbn [dl_n dl_mat]. apply (dense_solve_ok n A L D); assumption.
  - intros H. rewrite G. destruct (Nat.leb_spec n 1) as [Hn|Hn].
    + apply sign_small; [exact Hn|]. intros i Hi. destruct F as [U F]. rewrite F by lia. rewrite (ldl_entry n L D i i U) by lia. destruct U as [U1 _]. rewrite U1 by lia. replace i with 0%nat by lia. cbn. lra.
    + destruct H as [H|H]; [lia|]. rewrite H. apply sign_fold.
Qed.
