(** C22: a call of solve does not depend on the calls before. *)
From Coq Require Import List Bool Arith ZArith Lia.
From Verif Require Import Scalar Cset_model Armijo_model Problem_model Solver_model Cset_proofs Solver_proofs Det_spec.
Import ListNotations.

Section Loop.
  Context {C A B : Type} (f : C -> list A -> list B -> option (list B)).
  Definition fresh (cn : C * nat) : Prop := forall z o o', length o = snd cn -> length o' = snd cn ->
    f (fst cn) z o = f (fst cn) z o' /\ (forall b, f (fst cn) z o = Some b -> length b = snd cn).
  Lemma write_len st (b v : list B) : st + length b <= length v -> length (write_segment st b v) = length v.
  Proof. intros H. unfold write_segment. rewrite !app_length, firstn_length, skipn_length. lia. Qed.
  Lemma write_first st (b v : list B) : st + length b <= length v -> firstn (st + length b) (write_segment st b v) = firstn st v ++ b.
  Proof.
    intros H. unfold write_segment. rewrite app_assoc, firstn_app.
    assert (L : length (firstn st v ++ b) = st + length b) by (rewrite app_length, firstn_length; lia).
    rewrite L, Nat.sub_diag, firstn_O, app_nil_r. rewrite <- L. apply firstn_all.
  Qed.
  Lemma segment_some {D} st n (v b : list D) : segment st n v = Some b -> st + n <= length v /\ length b = n.
  Proof. unfold segment. destruct (Nat.leb_spec (st + n) (length v)); [|discriminate]. intros E. injection E as <-. rewrite firstn_length, skipn_length. lia. Qed.
  Lemma loop_fresh z cs : Forall fresh cs -> forall st o o', length o = length o' -> firstn st o = firstn st o' ->
    match prod_loop f (fun _ => z) cs st o, prod_loop f (fun _ => z) cs st o' with
    | Some r, Some r' => length r = length o /\ length r' = length o /\ firstn (st + fold_right (fun cn s => snd cn + s) 0 cs) r = firstn (st + fold_right (fun cn s => snd cn + s) 0 cs) r'
    | None, None => True
    | _, _ => False
    end.
  Proof.
    induction 1 as [|[c n] cs F Fs IH]; intros st o o' L E; cbn [prod_loop fold_right snd].
    - rewrite Nat.add_0_r. auto.
    - assert (Sn : (segment st n o = None <-> segment st n o' = None)).
      { unfold segment. rewrite L. destruct (Nat.leb _ _); split; congruence. }
      destruct (segment st n z) as [zi|]; [|exact I].
      destruct (segment st n o) as [oi|] eqn:Eo, (segment st n o') as [oi'|] eqn:Eo'.
      2: { destruct Sn as [_ Sn]. discriminate (Sn eq_refl). } 2: { destruct Sn as [Sn _]. discriminate (Sn eq_refl). } 2: exact I.
      apply segment_some in Eo as [Lo Lb]. apply segment_some in Eo' as [Lo' Lb'].
      destruct (F zi oi oi' Lb Lb') as [Ef El]. cbn [fst snd] in Ef, El. rewrite <- Ef. destruct (f c zi oi) as [b|] eqn:Eb; [|exact I].
      specialize (El b eq_refl). clear Lb Lb' F Ef Eb Sn. subst n.
      assert (W : length (write_segment st b o) = length o) by (apply write_len; lia).
      assert (W' : length (write_segment st b o') = length o') by (apply write_len; lia).
      specialize (IH (st + length b) (write_segment st b o) (write_segment st b o')).
      rewrite !write_first in IH by lia. rewrite E in IH. specialize (IH ltac:(congruence) eq_refl).
      change (prod_loop f (fun _ => z) cs) with ((fix go (comps : list (C * nat)) (start : nat) (zout : list B) {struct comps} :=
        match comps with [] => Some zout | (c, n) :: r => match segment start n z, segment start n zout with
          | Some zi, Some oi => match f c zi oi with Some b => go r (start + n) (write_segment start b zout) | None => None end | _, _ => None end end) cs) in IH.
      rewrite Nat.add_assoc. rewrite W in IH. exact IH.
  Qed.
End Loop.

Section Sets.
  Context {K : Sc}.
  Lemma whole_go (cs : list (cset K * nat)) : (fix go (l : list (cset K * nat)) : Prop := match l with [] => True | (c', k) :: r => whole c' k /\ go r end) cs <-> Forall (fun cn => whole (fst cn) (snd cn)) cs.
  Proof. induction cs as [|[c k] r IH]; [split; constructor|]. split; intros H; [constructor; [apply H|apply IH, H]|]. inversion H; subst. split; [assumption|apply IH; assumption]. Qed.
  Lemma prod_fresh {A B} (f : cset K -> list A -> list B -> option (list B)) cs z n o o' :
    Forall (fun cn => whole (fst cn) (snd cn)) cs -> Forall (fun cn => forall n, whole (fst cn) n -> fresh f (fst cn, n)) cs ->
    fold_right (fun cn s => snd cn + s) 0 cs = n -> length o = n -> length o' = n ->
    prod_loop f (fun _ => z) cs 0 o = prod_loop f (fun _ => z) cs 0 o' /\ (forall b, prod_loop f (fun _ => z) cs 0 o = Some b -> length b = n).
  Proof.
    intros W F T L L'. assert (G : Forall (fresh f) cs). { clear - W F. induction W as [|[c k] cs Wc W IH]; constructor; inversion F; subst; [apply H1, Wc|apply IH; assumption]. }
    pose proof (loop_fresh f z cs G 0 o o' ltac:(congruence) eq_refl) as H.
    destruct (prod_loop f _ cs 0 o) as [r|], (prod_loop f _ cs 0 o') as [r'|]; try contradiction; [|split; [reflexivity|discriminate]].
    destruct H as (H1 & H2 & H3). cbn [Nat.add] in H3. rewrite T in H3. rewrite <- L in H3 at 1. rewrite <- H1 in H3. rewrite firstn_all in H3.
    rewrite firstn_all2 in H3 by lia. subst r'. split; [reflexivity|]. intros b Eb. injection Eb as <-. congruence.
  Qed.
  Lemma same_len_eq {A B C} (z : list A) (o : list B) (o' : list C) : length o = length o' -> same_len z o = same_len z o'.
  Proof. unfold same_len. congruence. Qed.
  Lemma same_len_inv {A B} (z : list A) (o : list B) : same_len z o = true -> length z = length o.
  Proof. apply Nat.eqb_eq. Qed.
  Lemma cone_fresh (c : cset K) : forall n, whole c n -> fresh normal_cone (c, n).
  Proof.
    induction c as [m|m|m l u|m|m cs IH] using cset_ind'; intros n W z o o' L L'; cbn [fst snd] in *; cbn [normal_cone].
    1,2,4: rewrite (same_len_eq z o o') by congruence; split; [reflexivity|]; destruct (same_len z o') eqn:E; [|discriminate]; intros b Eb; injection Eb as <-; apply same_len_inv in E; unfold vsub; rewrite ?map2_length, ?map_length; lia.
    - rewrite (same_len_eq z o o') by congruence. split; [reflexivity|]. destruct (same_len z o') eqn:E, (same_len l z) eqn:E1, (same_len u z) eqn:E2; try discriminate. cbn [andb].
      intros b Eb. injection Eb as <-. apply same_len_inv in E, E1, E2. unfold vsub. rewrite map2_length, map3_length. lia.
    - destruct W as [T W]. apply whole_go in W. apply prod_fresh; assumption.
  Qed.
  Lemma active_fresh (c : cset K) : forall n, whole c n -> fresh active_set (c, n).
  Proof.
    induction c as [m|m|m l u|m|m cs IH] using cset_ind'; intros n W z o o' L L'; cbn [fst snd] in *; cbn [active_set].
    - split; [|intros b Eb; injection Eb as <-; rewrite map_length; exact L]. f_equal. clear - L L'. subst n. revert o' L'. induction o as [|x o IH]; intros [|y o']; try discriminate; [reflexivity|]. intros E. cbn. f_equal. apply IH. injection E. auto.
    - rewrite (same_len_eq z o o') by congruence; split; [reflexivity|]; destruct (same_len z o') eqn:E; [|discriminate]; intros b Eb; injection Eb as <-; apply same_len_inv in E; rewrite map_length; lia.
    - rewrite (same_len_eq z o o') by congruence. split; [reflexivity|]. destruct (same_len z o') eqn:E, (same_len l z) eqn:E1, (same_len u z) eqn:E2; try discriminate. cbn [andb].
      intros b Eb. injection Eb as <-. apply same_len_inv in E, E1, E2. rewrite map3_length. lia.
    - rewrite (same_len_eq z o o') by congruence; split; [reflexivity|]; destruct (same_len z o') eqn:E; [|discriminate]; intros b Eb; injection Eb as <-; apply same_len_inv in E; rewrite map_length; lia.
    - destruct W as [T W]. apply whole_go in W. apply prod_fresh; assumption.
  Qed.
  Lemma cone_any (c : cset K) n z o o' : whole c n -> length o = n -> length o' = n -> normal_cone c z o = normal_cone c z o'.
  Proof. intros W L L'. apply (proj1 (cone_fresh c n W z o o' L L')). Qed.
  Lemma cone_len (c : cset K) n z o b : whole c n -> length o = n -> normal_cone c z o = Some b -> length b = n.
  Proof. intros W L. apply (proj2 (cone_fresh c n W z o o L L)). Qed.
  Lemma active_any (c : cset K) n z o o' : whole c n -> length o = n -> length o' = n -> active_set c z o = active_set c z o'.
  Proof. intros W L L'. apply (proj1 (active_fresh c n W z o o' L L')). Qed.
  Lemma active_len (c : cset K) n z o b : whole c n -> length o = n -> active_set c z o = Some b -> length b = n.
  Proof. intros W L. apply (proj2 (active_fresh c n W z o o L L)). Qed.
  Lemma set_prox_twice m m' (c : cset K) : set_prox m (set_prox m' c) = set_prox m c.
  Proof. destruct c; reflexivity. Qed.
  Lemma set_prox_whole m (c : cset K) n : whole (set_prox m c) n <-> whole c n.
  Proof. destruct c; reflexivity. Qed.
End Sets.
