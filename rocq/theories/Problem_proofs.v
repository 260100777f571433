From Coq Require Import List Bool Arith Lia.
From Verif Require Import Scalar Cset_model Problem_model Problem_spec.
Import ListNotations.

Definition total (l : list nat) := fold_right Nat.add 0 l.

Lemma total_app a b : total (a ++ b) = total a + total b.
Proof. unfold total. induction a; cbn; lia. Qed.

Fixpoint starts (c : nat) (l : list nat) : list nat :=
  match l with [] => [] | n :: r => c :: starts (c + n) r end.

Lemma reset_loop_spec l : forall c ncs idx,
  reset_loop l c ncs idx = (ncs ++ l, idx ++ starts c l, c + total l).
Proof.
  induction l as [|n r IH]; intros; cbn.
  - rewrite !app_nil_r, Nat.add_0_r. reflexivity.
  - rewrite IH, <- !app_assoc. cbn. rewrite <- Nat.add_assoc. reflexivity.
Qed.

Lemma starts_nth l : forall c i, i < length l -> nth_error (starts c l) i = Some (c + total (firstn i l)).
Proof.
  induction l as [|n r IH]; intros c i Hi; cbn in *; [lia|].
  destruct i; cbn; [f_equal; lia|]. rewrite IH by lia. f_equal. unfold total. lia.
Qed.
Lemma starts_len l : forall c, length (starts c l) = length l.
Proof. induction l; intros; cbn; congruence. Qed.

Lemma built_form dims p : built dims p -> p = mkLayout dims dims (starts 0 dims) (total dims).
Proof.
  intros H. induction H as [dims|dims p nr H IH].
  - unfold mk_layout, reset_dims. cbn [ly_dims]. rewrite reset_loop_spec. reflexivity.
  - subst p. unfold add_constraint, reset_dims. cbn [ly_dims]. rewrite reset_loop_spec. reflexivity.
Qed.

Lemma firstn_S_nth (l : list nat) : forall i n, nth_error l i = Some n -> total (firstn (S i) l) = total (firstn i l) + n.
Proof.
  induction l as [|a r IH]; intros [|i] n E; cbn in *; try discriminate.
  - injection E as ->. lia.
  - specialize (IH i n E). unfold total in *. cbn in *. lia.
Qed.

Lemma tile_exists l : forall k, k < total l -> exists i n, nth_error l i = Some n /\ total (firstn i l) <= k < total (firstn i l) + n.
Proof.
  induction l as [|a r IH]; intros k Hk; cbn in *; [lia|].
  destruct (Nat.lt_ge_cases k a) as [H|H].
  - exists 0, a. cbn. split; [reflexivity|lia].
  - destruct (IH (k - a)) as (i & n & E & Hi); [unfold total in *; lia|].
    exists (S i), n. cbn. split; [exact E|]. unfold total in *. cbn. lia.
Qed.

Lemma firstn_mono l : forall i j n, i < j -> nth_error l i = Some n -> total (firstn i l) + n <= total (firstn j l).
Proof.
  induction l as [|a r IH]; intros [|i] [|j] n H E; cbn in *; try discriminate; try lia.
  - injection E as ->. unfold total. lia.
  - specialize (IH i j n ltac:(lia) E). unfold total in *. cbn. lia.
Qed.

Lemma tile_unique l i j n m k : nth_error l i = Some n -> nth_error l j = Some m ->
  total (firstn i l) <= k < total (firstn i l) + n -> total (firstn j l) <= k < total (firstn j l) + m -> i = j.
Proof.
  intros Ei Ej Hi Hj. destruct (Nat.lt_trichotomy i j) as [H|[H|H]]; [|exact H|].
  - pose proof (firstn_mono l i j n H Ei). lia.
  - pose proof (firstn_mono l j i m H Ej). lia.
Qed.

Lemma lem_layout dims p : built dims p ->
  num_constraints p = length dims /\ ly_total p = total dims /\
  (forall i n, nth_error dims i = Some n ->
     get_dim p i = Some n /\ get_index p i = Some (total (firstn i dims))) /\
  (forall i, length dims <= i -> get_dim p i = None /\ get_index p i = None).
Proof.
  intros H. rewrite (built_form _ _ H). cbn. repeat split; auto.
  - unfold get_index. cbn. apply starts_nth. apply nth_error_Some. congruence.
  - apply nth_error_None. exact H0.
  - unfold get_index. cbn. apply nth_error_None. rewrite starts_len. exact H0.
Qed.

Lemma lem_tiling dims p : built dims p ->
  forall k, k < ly_total p -> exists i, i < num_constraints p /\ belongs p k i /\ forall j, belongs p k j -> j = i.
Proof.
  intros H k Hk. destruct (lem_layout _ _ H) as (Hn & Ht & Hi & Ho). rewrite Ht in Hk.
  destruct (tile_exists _ _ Hk) as (i & n & E & Hr). exists i.
  assert (Li : i < length dims) by (apply nth_error_Some; congruence).
  split; [lia|]. split.
  - exists (total (firstn i dims)), n. destruct (Hi i n E). auto.
  - intros j (s & m & Es & Em & Hj).
    destruct (Nat.lt_ge_cases j (length dims)) as [Lj|Lj].
    + destruct (nth_error dims j) as [m'|] eqn:Ej; [|apply nth_error_None in Ej; lia].
      destruct (Hi j m' Ej) as [A B]. rewrite A in Em. rewrite B in Es. injection Em as <-. injection Es as <-.
      symmetry. eapply tile_unique; eassumption.
    + destruct (Ho j Lj). congruence.
Qed.

Lemma lem_bounds dims p : built dims p -> forall i s n,
  get_index p i = Some s -> get_dim p i = Some n ->
  s + n <= ly_total p /\ (i = 0 -> s = 0) /\
  (S i < num_constraints p -> get_index p (S i) = Some (s + n)) /\
  (S i = num_constraints p -> s + n = ly_total p).
Proof.
  intros H i s n Es En. destruct (lem_layout _ _ H) as (Hn & Ht & Hi & Ho).
  destruct (nth_error dims i) as [m|] eqn:E; [|apply nth_error_None in E; destruct (Ho i E); congruence].
  destruct (Hi i m E) as [A B]. rewrite A in En. rewrite B in Es. injection En as <-. injection Es as <-.
  rewrite Ht, Hn. assert (Li : i < length dims) by (apply nth_error_Some; congruence).
  pose proof (firstn_mono dims i (length dims) m Li E) as Hm. rewrite firstn_all in Hm.
  split; [exact Hm|]. split; [intros ->; reflexivity|]. split.
  - intros HS. destruct (nth_error dims (S i)) as [m'|] eqn:E'; [|apply nth_error_None in E'; lia].
    destruct (Hi _ _ E') as [_ B']. rewrite B', (firstn_S_nth _ _ _ E). reflexivity.
  - intros HS. rewrite <- (firstn_S_nth _ _ _ E), HS, firstn_all. reflexivity.
Qed.

(** ** Packing *)
Lemma skipn_cons {A} (l : list A) : forall i x t, skipn i l = x :: t ->
  skipn (S i) l = t /\ firstn (S i) l = firstn i l ++ [x].
Proof.
  induction l as [|a r IH]; intros [|i] x t E; cbn in *; try discriminate.
  - injection E as -> ->. split; [reflexivity|]. destruct t; reflexivity.
  - destruct (IH i x t E) as [H1 H2]. split; [exact H1|]. f_equal. exact H2.
Qed.
Lemma nth_error_ext {A} (l : list A) : forall m, (forall i, nth_error l i = nth_error m i) -> l = m.
Proof.
  induction l as [|a r IH]; intros [|b m] H; try reflexivity.
  - discriminate (H 0).
  - discriminate (H 0).
  - pose proof (H 0) as H0. cbn in H0. injection H0 as ->. f_equal. apply IH. intros i. exact (H (S i)).
Qed.
Lemma pack_loop_spec {A} dims p (z : A) : built dims p ->
  forall rest done i l0, i = length done ->
  map (@length A) done = firstn i dims -> map (@length A) rest = skipn i dims ->
  l0 = concat done ++ repeat z (total (skipn i dims)) ->
  pack_loop p i rest l0 = Ret (concat done ++ concat rest).
Proof.
  intros H. destruct (lem_layout _ _ H) as (Hn & Ht & Hi & Ho).
  induction rest as [|l r IH]; intros done i l0 Ei Hd Hr El.
  - cbn in *. rewrite <- Hr in El. subst l0. cbn. reflexivity.
  - cbn [map] in Hr. assert (Edim : nth_error dims i = Some (length l)).
    { rewrite <- (firstn_skipn i dims). rewrite nth_error_app2; rewrite firstn_length_le.
      - rewrite <- Hr. rewrite Nat.sub_diag. reflexivity.
      - apply (f_equal (@length nat)) in Hd. rewrite map_length, firstn_length in Hd. lia.
      - lia.
      - apply (f_equal (@length nat)) in Hd. rewrite map_length, firstn_length in Hd. lia. }
    destruct (Hi _ _ Edim) as [A1 A2]. cbn [pack_loop]. rewrite A1, A2, Nat.eqb_refl. cbn [andb].
    assert (Lc : forall ls : list (list A), length (concat ls) = total (map (@length A) ls)).
    { induction ls; cbn; [reflexivity|]. rewrite app_length. unfold total in *. cbn. lia. }
    assert (Eskip : skipn i dims = length l :: skipn (S i) dims) by (rewrite (proj1 (skipn_cons _ _ _ _ (eq_sym Hr))); symmetry; exact Hr).
    assert (Ltot : length l0 = total (firstn i dims) + (length l + total (skipn (S i) dims))).
    { subst l0. rewrite app_length, repeat_length, Lc, Hd, Eskip. reflexivity. }
    replace (total (firstn i dims) + length l <=? length l0) with true by (symmetry; apply Nat.leb_le; lia).
    rewrite (IH (done ++ [l]) (S i) (write_segment (total (firstn i dims)) l l0)).
    + rewrite concat_app. cbn. rewrite app_nil_r, <- app_assoc. reflexivity.
    + rewrite app_length. cbn. lia.
    + rewrite map_app, Hd. cbn [map]. symmetry. exact (proj2 (skipn_cons _ _ _ _ (eq_sym Hr))).
    + rewrite Eskip in Hr. injection Hr as E. exact E.
    + unfold write_segment. subst l0.
      assert (Ld : length (concat done) = total (firstn i dims)) by (rewrite Lc, Hd; reflexivity).
      rewrite <- Ld. rewrite firstn_app, firstn_all, Nat.sub_diag, firstn_O, app_nil_r.
      rewrite skipn_app, skipn_all2, Nat.add_comm, Nat.add_sub by lia. cbn [app].
      rewrite concat_app. cbn [concat]. rewrite app_nil_r, <- app_assoc. f_equal. f_equal.
      rewrite Eskip. cbn. rewrite repeat_app, skipn_app, repeat_length, Nat.sub_diag.
      rewrite skipn_all2 by (rewrite repeat_length; lia). reflexivity.
Qed.

Lemma segment_concat {A} (lams : list (list A)) : forall i l, nth_error lams i = Some l ->
  segment (total (firstn i (map (@length A) lams))) (length l) (concat lams) = Some l.
Proof.
  intros i l E. unfold segment.
  assert (Lc : forall ls : list (list A), length (concat ls) = total (map (@length A) ls)).
  { induction ls; cbn; [reflexivity|]. rewrite app_length. unfold total in *. cbn. lia. }
  assert (Em : nth_error (map (@length A) lams) i = Some (length l)) by (rewrite nth_error_map, E; reflexivity).
  pose proof (firstn_mono (map (@length A) lams) i (length lams) _ ltac:(apply nth_error_Some; congruence) Em) as Hm.
  rewrite <- (map_length (@length A) lams), firstn_all in Hm.
  replace (_ <=? _) with true by (symmetry; apply Nat.leb_le; rewrite Lc; exact Hm).
  f_equal. clear Hm. revert i E Em. induction lams as [|a r IH]; intros [|i] E Em; cbn in *; try discriminate.
  - injection E as ->. rewrite firstn_app, firstn_all, Nat.sub_diag, firstn_O, app_nil_r. reflexivity.
  - rewrite skipn_app, skipn_all2 by (unfold total; lia). cbn [app].
    fold (total (firstn i (map (@length A) r))).
    replace (length a + total (firstn i (map (@length A) r)) - length a) with (total (firstn i (map (@length A) r))) by lia.
    apply IH; assumption.
Qed.

Lemma lem_pack {A} dims p (z : A) lams : built dims p -> map (@length A) lams = dims ->
  exists flat, pack_lams z p lams = Ret flat /\ flat = concat lams /\ length flat = ly_total p /\
    views p flat = Some lams /\
    forall i l, nth_error lams i = Some l -> get_segment p flat i = Some l.
Proof.
  intros H Hl. destruct (lem_layout _ _ H) as (Hn & Ht & Hi & Ho).
  assert (Lc : forall ls : list (list A), length (concat ls) = total (map (@length A) ls)).
  { induction ls; cbn; [reflexivity|]. rewrite app_length. unfold total in *. cbn. lia. }
  assert (Seg : forall i l, nth_error lams i = Some l -> get_segment p (concat lams) i = Some l).
  { intros i l E. unfold get_segment.
    assert (Em : nth_error dims i = Some (length l)) by (rewrite <- Hl, nth_error_map, E; reflexivity).
    destruct (Hi _ _ Em) as [-> ->]. rewrite <- Hl. apply segment_concat. exact E. }
  exists (concat lams). split; [|split; [reflexivity|split; [|split; [|exact Seg]]]].
  - unfold pack_lams. rewrite Hn, <- Hl, map_length, Nat.eqb_refl.
    rewrite (pack_loop_spec dims p z H lams [] 0 _ eq_refl eq_refl); [reflexivity| |].
    + exact Hl.
    + cbn. rewrite Ht. reflexivity.
  - rewrite Lc, Hl, Ht. reflexivity.
  - unfold views. rewrite Hn. assert (L : length dims = length lams) by (rewrite <- Hl; apply map_length). rewrite L.
    assert (G : forall k, k <= length lams ->
       fold_right (fun i acc => match get_segment p (concat lams) i, acc with Some s, Some l => Some (s :: l) | _, _ => None end)
             (Some []) (seq (length lams - k) k) = Some (skipn (length lams - k) lams)).
    { induction k as [|k IH]; intros Hk.
      - cbn. rewrite Nat.sub_0_r, skipn_all. reflexivity.
      - cbn [seq fold_right]. replace (S (length lams - S k)) with (length lams - k) by lia. rewrite IH by lia.
        destruct (nth_error lams (length lams - S k)) as [l|] eqn:E; [|apply nth_error_None in E; lia].
        rewrite (Seg _ _ E). f_equal.
        replace (length lams - k) with (S (length lams - S k)) by lia.
        revert E. generalize (length lams - S k). clear. intros n. revert n.
        induction lams as [|a r IH]; intros [|n] E; cbn in *; try discriminate.
        + injection E as ->. reflexivity.
        + apply IH. exact E. }
    specialize (G (length lams) (le_n _)). rewrite Nat.sub_diag in G. exact G.
Qed.

Lemma lem_pack_count {A} p (z : A) lams : length lams <> num_constraints p -> pack_lams z p lams = Throw ErrCount.
Proof. intros H. unfold pack_lams. destruct (Nat.eqb_spec (num_constraints p) (length lams)); [congruence|reflexivity]. Qed.

Lemma pack_loop_ub {A} dims p : built dims p -> forall lams i (v : list A) flat,
  pack_loop p i lams v = Ret flat -> forall j l, nth_error lams j = Some l -> get_dim p (i + j) = Some (length l).
Proof.
  intros H. induction lams as [|a r IH]; intros i v flat E j l Ej; [destruct j; discriminate|].
  cbn in E. destruct (get_index p i) as [s|]; [|discriminate]. destruct (get_dim p i) as [n|] eqn:En; [|discriminate].
  destruct (Nat.eqb_spec (length a) n) as [Hn|]; [|discriminate]. cbn in E.
  destruct (Nat.leb _ _); [|discriminate]. destruct j as [|j]; cbn in Ej.
  - injection Ej as <-. rewrite Nat.add_0_r, En, Hn. reflexivity.
  - replace (i + S j) with (S i + j) by lia. eapply IH; eassumption.
Qed.

Lemma lem_pack_sizes {A} dims p (z : A) lams flat : built dims p -> pack_lams z p lams = Ret flat ->
  map (@length A) lams = dims.
Proof.
  intros H E. destruct (lem_layout _ _ H) as (Hn & Ht & Hi & Ho).
  unfold pack_lams in E. destruct (Nat.eqb_spec (num_constraints p) (length lams)) as [L|]; [|discriminate].
  apply nth_error_ext. intros i. rewrite nth_error_map.
  destruct (nth_error lams i) as [l|] eqn:El; cbn.
  - pose proof (pack_loop_ub dims p H lams 0 _ _ E i l El) as G. change (0 + i) with i in G.
    destruct (nth_error dims i) as [n|] eqn:En.
    + destruct (Hi _ _ En) as [G' _]. congruence.
    + apply nth_error_None in En. destruct (Ho _ En). congruence.
  - symmetry. apply nth_error_None. apply nth_error_None in El. lia.
Qed.

Lemma cut {A} dims : forall v : list A, length v = total dims -> exists parts, concat parts = v /\ map (@length A) parts = dims.
Proof.
  induction dims as [|n r IH]; intros v L; cbn in L.
  - exists []. destruct v; [split; reflexivity|discriminate].
  - destruct (IH (skipn n v)) as (ps & E & M). { rewrite skipn_length. unfold total in *. lia. }
    exists (firstn n v :: ps). cbn. rewrite E, firstn_skipn, firstn_length, M. split; [reflexivity|]. f_equal. lia.
Qed.
Lemma lem_views {A} dims p (v : list A) : built dims p -> length v = ly_total p ->
  exists parts, views p v = Some parts /\ concat parts = v /\ map (@length A) parts = dims.
Proof.
  intros H L. destruct (lem_layout _ _ H) as (Hn & Ht & Hi & _). rewrite Ht in L. destruct (cut dims v L) as (ps & E & M).
  exists ps. split; [|split; assumption].
  assert (F : forall i, (i < length ps)%nat -> get_segment p v i = nth_error ps i).
  { intros i Hi'. destruct (nth_error ps i) as [l|] eqn:El; [|apply nth_error_None in El; lia].
    unfold get_segment. assert (Em : nth_error dims i = Some (length l)) by (rewrite <- M, nth_error_map, El; reflexivity).
    destruct (Hi _ _ Em) as [-> ->]. rewrite <- M, <- E. apply segment_concat. exact El. }
  unfold views. rewrite Hn, <- M, map_length. revert F. clear. intros F.
  assert (G : forall done todo, done ++ todo = ps -> fold_right (fun i acc => match get_segment p v i, acc with Some s, Some l => Some (s :: l) | _, _ => None end)
         (Some []) (seq (length done) (length todo)) = Some todo).
  { intros done todo. revert done. induction todo as [|t todo IH]; intros done Ed; [reflexivity|]. cbn [length seq fold_right].
    specialize (IH (done ++ [t])). rewrite <- app_assoc in IH. specialize (IH Ed). rewrite app_length, Nat.add_comm in IH. cbn [length Nat.add] in IH. rewrite IH.
    rewrite F by (rewrite <- Ed, app_length; cbn; lia). rewrite <- Ed, nth_error_app2, Nat.sub_diag by lia. reflexivity. }
  exact (G [] ps eq_refl).
Qed.
