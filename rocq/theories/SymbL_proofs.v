From Coq Require Import Reals List Bool Arith Lia Lra Permutation.
From Verif Require Import Scalar Problem_model Symb_model Lin_spec Lin_proofs Symb_spec Symb_proofs.
Import ListNotations.

(** ** Arrays *)
Lemma put_length {A} (d : list A) p v : length (put d p v) = length d.
Proof. revert p. induction d as [|x d IH]; intros [|p]; cbn; auto. Qed.
Lemma nth_put {A} (d : list A) p v q : p < length d -> nth_error (put d p v) q = if Nat.eqb q p then Some v else nth_error d q.
Proof.
  revert p q. induction d as [|x d IH]; intros [|p] [|q] H; cbn in *; try lia; auto. apply IH. lia.
Qed.
Lemma for_each_sim {S T : Type} (Rl : S -> T -> Prop) (l : list nat) f (g : nat -> T -> T) :
  (forall i s t, In i l -> Rl s t -> exists s', f i s = Ret s' /\ Rl s' (g i t)) ->
  forall s t, Rl s t -> exists s', for_each l f s = Ret s' /\ Rl s' (fold_left (fun t i => g i t) l t).
Proof.
  induction l as [|i l IH]; intros H s t H0; [exists s; split; [reflexivity|exact H0]|].
  destruct (H i s t (or_introl eq_refl) H0) as (s1 & E & H1). cbn [for_each fold_left]. rewrite E. cbn [bind].
  apply IH; [|exact H1]. intros; apply H; [right; assumption|assumption].
Qed.
Lemma in_range a b i : In i (range a b) <-> a <= i < b.
Proof. unfold range. rewrite in_seq. lia. Qed.
(** Induction on the number of iterations. *)
Lemma fold_inv {T} (g : nat -> T -> T) (Inv : nat -> T -> Prop) a b t0 : a <= b -> Inv a t0 ->
  (forall i t, a <= i < b -> Inv i t -> Inv (S i) (g i t)) -> Inv b (fold_left (fun t i => g i t) (range a b) t0).
Proof.
  intros Hab H0 HS. unfold range. replace b with (a + (b - a)) at 1 by lia.
  assert (G : forall m, a + m <= b -> Inv (a + m) (fold_left (fun t i => g i t) (seq a m) t0)).
  { induction m as [|m IH]; intros Hm; [rewrite Nat.add_0_r; exact H0|]. rewrite seq_S, fold_left_app. cbn [fold_left]. rewrite Nat.add_succ_r. apply HS; [lia|]. apply IH. lia. }
  apply G. lia.
Qed.

(** The array of n columns of length stride holds B. *)
Definition holds (n stride : nat) (d : list kind) (B : nat -> nat -> kind) : Prop :=
  n <= stride /\ length d = n * stride /\ forall i j, i < n -> j < n -> nth_error d (i + j * stride) = Some (B i j).
Definition upd {A} (B : nat -> nat -> A) i j v : nat -> nat -> A := fun a b => if Nat.eqb a i && Nat.eqb b j then v else B a b.
Lemma upd_same {A} (B : nat -> nat -> A) i j v : upd B i j v i j = v.
Proof. unfold upd. rewrite !Nat.eqb_refl. reflexivity. Qed.
Lemma upd_other {A} (B : nat -> nat -> A) i j v a b : a <> i \/ b <> j -> upd B i j v a b = B a b.
Proof. intros H. unfold upd. destruct (Nat.eqb_spec a i), (Nat.eqb_spec b j); cbn; try reflexivity. lia. Qed.
Lemma index_in n stride i j : i < n -> j < n -> n <= stride -> i + j * stride < n * stride.
Proof. intros. nia. Qed.
Lemma index_inj stride i j i' j' : i < stride -> i' < stride -> i + j * stride = i' + j' * stride -> i = i' /\ j = j'.
Proof.
  intros H1 H2 E. assert (j = j'); [|subst; lia].
  destruct (Nat.lt_trichotomy j j') as [H|[H|H]]; [exfalso; nia|exact H|exfalso; nia].
Qed.
Lemma load_holds n stride d B i j : holds n stride d B -> i < n -> j < n -> load d (i + j * stride) = Ret (B i j).
Proof. intros (_ & _ & H) Hi Hj. unfold load. rewrite H by assumption. reflexivity. Qed.
Lemma store_holds n stride d B i j v : holds n stride d B -> i < n -> j < n -> exists d', store d (i + j * stride) v = Ret d' /\ holds n stride d' (upd B i j v).
Proof.
  intros (H1 & H2 & H3) Hi Hj. unfold store. pose proof (index_in n stride i j Hi Hj H1) as Hin. rewrite <- H2 in Hin.
  rewrite (proj2 (Nat.ltb_lt _ _) Hin). eexists. split; [reflexivity|]. split; [exact H1|]. split; [rewrite put_length; exact H2|].
  intros a b Ha Hb. rewrite nth_put by exact Hin. destruct (Nat.eqb_spec (a + b * stride) (i + j * stride)) as [E|E].
  - apply index_inj in E; [|lia|lia]. destruct E as [-> ->]. rewrite upd_same. reflexivity.
  - rewrite H3 by assumption. f_equal. symmetry. apply upd_other. destruct (Nat.eq_dec a i) as [->|]; [|auto]. right. intros ->. apply E. reflexivity.
Qed.

(** ** One elimination step on the abstract structure (absolute block indices, pivot k of N). *)
Definition fillk (k : kind) : kind := match k with Zero | Diag => TriU | TriL => Dense | _ => k end.
Definition gzero k (j : nat) (B : nat -> nat -> kind) := upd B k (k + j) Zero.
Definition gfill k (i : nat) (B : nat -> nat -> kind) := upd B (k + i) k (fillk (B (k + i) k)).
Definition gpair k (i j : nat) (B : nat -> nat -> kind) :=
  let v := kadd (B (k + i) (k + j)) (kmul (B (k + i) k) (trans (B (k + j) k))) in upd (upd B (k + i) (k + j) v) (k + j) (k + i) (trans v).
Definition grow k n (i : nat) (B : nat -> nat -> kind) :=
  fold_left (fun B j => gpair k i j B) (range (S i) n) (upd B (k + i) (k + i) (kadd (B (k + i) (k + i)) (kmul (B (k + i) k) (trans (B (k + i) k))))).
Fixpoint pllt (n k : nat) (B : nat -> nat -> kind) : (nat -> nat -> kind) * bool :=
  match n with
  | O => (B, true)
  | S m =>
    let B1 := fold_left (fun B j => gzero k j B) (range 1 n) B in
    match B1 k k with
    | Dense => let B2 := fold_left (fun B i => gfill k i B) (range 1 n) (upd B1 k k TriL) in
               pllt m (S k) (fold_left (fun B i => grow k n i B) (range 1 n) B2)
    | Diag => pllt m (S k) (fold_left (fun B i => grow k n i B) (range 1 n) B1)
    | _ => (B1, false)
    end
  end.
Lemma at_view k stride i j : at_ (k * (1 + stride)) stride i j = (k + i) + (k + j) * stride.
Proof. unfold at_. ring. Qed.
Lemma at_view' k stride i : at_ (k * (1 + stride)) stride i 0 = (k + i) + k * stride.
Proof. rewrite at_view, Nat.add_0_r. reflexivity. Qed.
Lemma at_view0 k stride j : at_ (k * (1 + stride)) stride 0 j = k + (k + j) * stride.
Proof. rewrite at_view, Nat.add_0_r. reflexivity. Qed.
Lemma at_view00 k stride : at_ (k * (1 + stride)) stride 0 0 = k + k * stride.
Proof. rewrite at_view, !Nat.add_0_r. reflexivity. Qed.
Lemma sim_fill N stride k i d B : holds N stride d B -> k + i < N -> exists d', fill_column (k * (1 + stride)) stride i d = Ret d' /\ holds N stride d' (gfill k i B).
Proof.
  intros H Hi. unfold fill_column. rewrite at_view', (load_holds N stride d B) by (auto; lia). cbn [bind].
  unfold gfill. destruct (B (k + i) k) eqn:E; cbn [fillk]; try (apply (store_holds N stride d B); auto; lia).
  - exists d. split; [reflexivity|]. destruct H as (H1 & H2 & H3). repeat split; auto. intros a b Ha Hb. rewrite H3 by assumption. f_equal. unfold upd.
    destruct (Nat.eqb_spec a (k + i)), (Nat.eqb_spec b k); cbn; congruence.
  - exists d. split; [reflexivity|]. destruct H as (H1 & H2 & H3). repeat split; auto. intros a b Ha Hb. rewrite H3 by assumption. f_equal. unfold upd.
    destruct (Nat.eqb_spec a (k + i)), (Nat.eqb_spec b k); cbn; congruence.
Qed.
Lemma sim_pair N stride k i j d B : holds N stride d B -> k + i < N -> k + j < N -> exists d', update_pair (k * (1 + stride)) stride i j d = Ret d' /\ holds N stride d' (gpair k i j B).
Proof.
  intros H Hi Hj. unfold update_pair. rewrite !at_view', !at_view. rewrite !(load_holds N stride d B) by (auto; lia). cbn [bind].
  destruct (store_holds N stride d B (k + i) (k + j) (kadd (B (k + i) (k + j)) (kmul (B (k + i) k) (trans (B (k + j) k)))) H Hi Hj) as (d1 & E & H1).
  rewrite E. cbn [bind]. apply (store_holds N stride d1 _ (k + j) (k + i)); auto.
Qed.
Lemma sim_row N stride k n i d B : holds N stride d B -> k + n = N -> i < n -> exists d', update_row (k * (1 + stride)) stride n i d = Ret d' /\ holds N stride d' (grow k n i B).
Proof.
  intros H Hn Hi. unfold update_row. rewrite !at_view', !at_view. rewrite !(load_holds N stride d B) by (auto; lia). cbn [bind].
  destruct (store_holds N stride d B (k + i) (k + i) (kadd (B (k + i) (k + i)) (kmul (B (k + i) k) (trans (B (k + i) k)))) H ltac:(lia) ltac:(lia)) as (d1 & E & H1).
  rewrite E. cbn [bind]. unfold grow. apply (for_each_sim (holds N stride) _ _ (fun j B => gpair k i j B)); [|exact H1].
  intros j s t Hj Hs. apply in_range in Hj. apply sim_pair; [exact Hs|lia|lia].
Qed.
Lemma sim_llt N stride : forall n k d B, holds N stride d B -> k + n = N ->
  exists d', llt_view n (k * (1 + stride)) stride d = Ret (d', snd (pllt n k B)) /\ holds N stride d' (fst (pllt n k B)).
Proof.
  induction n as [|m IH]; intros k d B H Hn; [exists d; split; [reflexivity|exact H]|].
  cbn [llt_view pllt].
  destruct (for_each_sim (holds N stride) (range 1 (S m)) (fun j d' => store d' (at_ (k * (1 + stride)) stride 0 j) Zero) (fun j B => gzero k j B)) with (s := d) (t := B) as (d1 & E1 & H1).
  - intros j s t Hj Hs. apply in_range in Hj. rewrite at_view0. apply store_holds; auto; lia.
  - exact H.
  - rewrite E1. cbn [bind]. set (B1 := fold_left (fun B j => gzero k j B) (range 1 (S m)) B) in *.
    rewrite at_view00, (load_holds N stride d1 B1) by (auto; lia). cbn [bind].
    assert (ST : forall d B, holds N stride d B -> exists d', (do d0 <- for_each (range 1 (S m)) (fun i d'0 => update_row (k * (1 + stride)) stride (S m) i d'0) d; llt_view m (at_ (k * (1 + stride)) stride 1 1) stride d0)%out
       = Ret (d', snd (pllt m (S k) (fold_left (fun B i => grow k (S m) i B) (range 1 (S m)) B))) /\
       holds N stride d' (fst (pllt m (S k) (fold_left (fun B i => grow k (S m) i B) (range 1 (S m)) B)))).
    { intros d0 B0 H0. destruct (for_each_sim (holds N stride) (range 1 (S m)) (fun i d'0 => update_row (k * (1 + stride)) stride (S m) i d'0) (fun i B => grow k (S m) i B)) with (s := d0) (t := B0) as (d2 & E2 & H2).
      - intros i s t Hi Hs. apply in_range in Hi. apply (sim_row N); [exact Hs|exact Hn|lia].
      - exact H0.
      - rewrite E2. cbn [bind]. replace (at_ (k * (1 + stride)) stride 1 1) with (S k * (1 + stride)) by (rewrite at_view; ring). apply IH; [exact H2|lia]. }
    destruct (B1 k k) eqn:P.
    1, 3, 4: exists d1; split; [reflexivity|exact H1].
    + cbn [bind]. apply ST. exact H1.
    + destruct (store_holds N stride d1 B1 k k TriL H1 ltac:(lia) ltac:(lia)) as (d2 & E2 & H2). rewrite E2. cbn [bind].
      destruct (for_each_sim (holds N stride) (range 1 (S m)) (fun i d' => fill_column (k * (1 + stride)) stride i d') (fun i B => gfill k i B)) with (s := d2) (t := upd B1 k k TriL) as (d3 & E3 & H3).
      * intros i s t Hi Hs. apply in_range in Hi. apply (sim_fill N); [exact Hs|lia].
      * exact H2.
      * rewrite E3. cbn [bind]. apply ST. exact H3.
Qed.

(** ** What one step does. *)
Definition colk (p c : kind) : kind := match p with Dense => fillk c | _ => c end.
Definition topk (p : kind) : kind := match p with Dense => TriL | _ => p end.
Definition elim (k N : nat) (B B' : nat -> nat -> kind) : Prop :=
  (forall j, k < j < N -> B' k j = Zero) /\
  B' k k = topk (B k k) /\
  (forall i, k < i < N -> B' i k = colk (B k k) (B i k)) /\
  (forall i j, k < i -> i <= j -> j < N -> B' i j = kadd (B i j) (kmul (B' i k) (trans (B' j k)))) /\
  (forall i j, k < i -> i < j -> j < N -> B' j i = trans (B' i j)) /\
  (forall i j, i < k \/ j < k -> B' i j = B i j).
Lemma gzero_loop k n B : 1 <= n -> let B' := fold_left (fun B j => gzero k j B) (range 1 n) B in
  (forall j, k < j < k + n -> B' k j = Zero) /\ (forall i j, i <> k \/ j <= k -> B' i j = B i j).
Proof.
  intros Hn. cbn zeta.
  assert (G : (fun b B' => (forall j, k < j < k + b -> B' k j = Zero) /\ (forall i j, i <> k \/ j <= k -> B' i j = B i j)) n (fold_left (fun B j => gzero k j B) (range 1 n) B)); [|exact G].
  apply (fold_inv (fun j B => gzero k j B) (fun b B' => (forall j, k < j < k + b -> B' k j = Zero) /\ (forall i j, i <> k \/ j <= k -> B' i j = B i j))); [lia| |].
  - split; [intros; lia|reflexivity].
  - intros b B' Hb [H1 H2]. split.
    + intros j Hj. unfold gzero. destruct (Nat.eq_dec j (k + b)) as [->|]; [apply upd_same|]. rewrite upd_other by lia. apply H1. lia.
    + intros i j Hij. unfold gzero. rewrite upd_other by lia. apply H2. exact Hij.
Qed.
Lemma gfill_loop k n B : 1 <= n -> let B' := fold_left (fun B i => gfill k i B) (range 1 n) B in
  (forall i, k < i < k + n -> B' i k = fillk (B i k)) /\ (forall i j, i <= k \/ j <> k -> B' i j = B i j).
Proof.
  intros Hn. cbn zeta.
  enough (G : (fun b B' => (forall i, k < i < k + b -> B' i k = fillk (B i k)) /\ (forall i j, i <= k \/ k + b <= i \/ j <> k -> B' i j = B i j)) n (fold_left (fun B i => gfill k i B) (range 1 n) B)).
  { destruct G as [G1 G2]. split; [exact G1|]. intros i j H. apply G2. lia. }
  apply (fold_inv (fun i B => gfill k i B) (fun b B' => (forall i, k < i < k + b -> B' i k = fillk (B i k)) /\ (forall i j, i <= k \/ k + b <= i \/ j <> k -> B' i j = B i j))); [lia| |].
  - split; [intros; lia|reflexivity].
  - intros b B' Hb [H1 H2]. split.
    + intros i Hi. unfold gfill. destruct (Nat.eq_dec i (k + b)) as [->|]; [rewrite upd_same, H2 by lia; reflexivity|]. rewrite upd_other by lia. apply H1. lia.
    + intros i j Hij. unfold gfill. rewrite upd_other by lia. apply H2. lia.
Qed.
Definition pairv k (B : nat -> nat -> kind) a b := kadd (B a b) (kmul (B a k) (trans (B b k))).
Lemma grow_loop k n i B : 1 <= i < n -> let B' := grow k n i B in
  (forall b, k + i <= b < k + n -> B' (k + i) b = pairv k B (k + i) b) /\ (forall b, k + i < b < k + n -> B' b (k + i) = trans (B' (k + i) b)) /\
  (forall a b, (a <> k + i \/ b < k + i) -> (b <> k + i \/ a < k + i) -> B' a b = B a b).
Proof.
  intros Hi. cbn zeta. unfold grow. set (B0 := upd B (k + i) (k + i) _).
  enough (G : (fun b B' => (forall c, k + i <= c < k + b -> B' (k + i) c = pairv k B (k + i) c) /\ (forall c, k + i < c < k + b -> B' c (k + i) = trans (B' (k + i) c)) /\
     (forall a c, (a <> k + i \/ c < k + i \/ k + b <= c) -> (c <> k + i \/ a < k + i \/ k + b <= a) -> B' a c = B a c)) n (fold_left (fun B j => gpair k i j B) (range (S i) n) B0)).
  { destruct G as (G1 & G2 & G3). split; [exact G1|]. split; [exact G2|]. intros a b H1 H2. apply G3; lia. }
  apply (fold_inv (fun j B => gpair k i j B) (fun b B' => (forall c, k + i <= c < k + b -> B' (k + i) c = pairv k B (k + i) c) /\ (forall c, k + i < c < k + b -> B' c (k + i) = trans (B' (k + i) c)) /\
     (forall a c, (a <> k + i \/ c < k + i \/ k + b <= c) -> (c <> k + i \/ a < k + i \/ k + b <= a) -> B' a c = B a c))); [lia| |].
  - unfold B0. repeat split.
    + intros c Hc. replace c with (k + i) by lia. rewrite upd_same. reflexivity.
    + intros c Hc. lia.
    + intros a c H1 H2. apply upd_other. lia.
  - intros j B' Hj (H1 & H2 & H3). unfold gpair. cbn zeta.
    assert (V : kadd (B' (k + i) (k + j)) (kmul (B' (k + i) k) (trans (B' (k + j) k))) = pairv k B (k + i) (k + j)).
    { rewrite !H3 by lia. reflexivity. }
    rewrite V. repeat split.
    + intros c Hc. rewrite upd_other by lia. destruct (Nat.eq_dec c (k + j)) as [->|]; [apply upd_same|]. rewrite upd_other by lia. apply H1. lia.
    + intros c Hc. destruct (Nat.eq_dec c (k + j)) as [->|].
      * rewrite upd_same. rewrite upd_other by lia. rewrite upd_same. reflexivity.
      * rewrite !upd_other by lia. apply H2. lia.
    + intros a c Ha Hc. rewrite !upd_other by lia. apply H3; lia.
Qed.
Lemma rows_loop k n B : 1 <= n -> let B' := fold_left (fun B i => grow k n i B) (range 1 n) B in
  (forall a b, k < a -> a <= b -> b < k + n -> B' a b = pairv k B a b) /\ (forall a b, k < a -> a < b -> b < k + n -> B' b a = trans (B' a b)) /\
  (forall a b, a <= k \/ b <= k -> B' a b = B a b).
Proof.
  intros Hn. cbn zeta.
  enough (G : (fun i B' => (forall a b, k < a < k + i -> a <= b -> b < k + n -> B' a b = pairv k B a b) /\ (forall a b, k < a < k + i -> a < b -> b < k + n -> B' b a = trans (B' a b)) /\
     (forall a b, a <= k \/ b <= k \/ (k + i <= a /\ k + i <= b) -> B' a b = B a b)) n (fold_left (fun B i => grow k n i B) (range 1 n) B)).
  { destruct G as (G1 & G2 & G3). split; [|split]; [intros a b H1 H2 H3; apply G1; lia|intros a b H1 H2 H3; apply G2; lia|intros a b H; apply G3; tauto]. }
  apply (fold_inv (fun i B => grow k n i B) (fun i B' => (forall a b, k < a < k + i -> a <= b -> b < k + n -> B' a b = pairv k B a b) /\ (forall a b, k < a < k + i -> a < b -> b < k + n -> B' b a = trans (B' a b)) /\
     (forall a b, a <= k \/ b <= k \/ (k + i <= a /\ k + i <= b) -> B' a b = B a b))); [lia| |].
  - split; [intros; lia|split; [intros; lia|reflexivity]].
  - intros i B' Hi (H1 & H2 & H3). destruct (grow_loop k n i B' Hi) as (G1 & G2 & G3). repeat split.
    + intros a b Ha Hab Hb. destruct (Nat.eq_dec a (k + i)) as [->|].
      * rewrite G1 by lia. unfold pairv. rewrite !H3 by lia. reflexivity.
      * rewrite G3 by lia. apply H1; lia.
    + intros a b Ha Hab Hb. destruct (Nat.eq_dec a (k + i)) as [->|].
      * apply G2. lia.
      * rewrite !G3 by lia. apply H2; lia.
    + intros a b Hab. rewrite G3 by lia. apply H3. lia.
Qed.
Lemma pllt_step m k B : pivot (B k k) -> exists B', elim k (k + S m) B B' /\ pllt (S m) k B = pllt m (S k) B'.
Proof.
  intros P. cbn [pllt]. destruct (gzero_loop k (S m) B ltac:(lia)) as [Z1 Z2]. set (B1 := fold_left (fun B j => gzero k j B) (range 1 (S m)) B) in *.
  assert (E : B1 k k = B k k) by (apply Z2; lia). rewrite E. destruct P as [P|P]; rewrite P.
  - destruct (rows_loop k (S m) B1 ltac:(lia)) as (R1 & R2 & R3). eexists. split; [|reflexivity]. unfold elim. rewrite P. cbn [topk colk]. repeat split.
    + intros j Hj. rewrite R3 by lia. apply Z1. lia.
    + rewrite R3 by lia. rewrite E. exact P.
    + intros i Hi. rewrite R3 by lia. apply Z2. lia.
    + intros i j H1 H2 H3. rewrite R1 by lia. unfold pairv. rewrite (R3 i k), (R3 j k) by lia. rewrite (Z2 i j) by lia. reflexivity.
    + intros i j H1 H2 H3. apply R2; lia.
    + intros i j Hij. rewrite R3 by lia. apply Z2. lia.
  - destruct (gfill_loop k (S m) (upd B1 k k TriL) ltac:(lia)) as [F1 F2]. set (B2 := fold_left (fun B i => gfill k i B) (range 1 (S m)) (upd B1 k k TriL)) in *.
    destruct (rows_loop k (S m) B2 ltac:(lia)) as (R1 & R2 & R3). eexists. split; [|reflexivity]. unfold elim. rewrite P. cbn [topk colk]. repeat split.
    + intros j Hj. rewrite R3 by lia. rewrite F2 by lia. rewrite upd_other by lia. apply Z1. lia.
    + rewrite R3 by lia. rewrite F2 by lia. apply upd_same.
    + intros i Hi. rewrite R3 by lia. rewrite F1 by lia. rewrite upd_other by lia. f_equal. apply Z2. lia.
    + intros i j H1 H2 H3. rewrite R1 by lia. unfold pairv. rewrite (R3 i k), (R3 j k) by lia. rewrite (F2 i j) by lia. rewrite upd_other by lia. rewrite (Z2 i j) by lia. reflexivity.
    + intros i j H1 H2 H3. apply R2; lia.
    + intros i j Hij. rewrite R3 by lia. rewrite F2 by lia. rewrite upd_other by lia. apply Z2. lia.
Qed.
Lemma pllt_refuse m k B : ~ pivot (B k k) -> snd (pllt (S m) k B) = false.
Proof.
  intros P. cbn [pllt]. destruct (gzero_loop k (S m) B ltac:(lia)) as [Z1 Z2]. set (B1 := fold_left (fun B j => gzero k j B) (range 1 (S m)) B) in *.
  assert (E : B1 k k = B k k) by (apply Z2; lia). rewrite E. destruct (B k k) eqn:Q; try reflexivity; exfalso; apply P; [left|right]; reflexivity.
Qed.
