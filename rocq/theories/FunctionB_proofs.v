(** Construction of cost expressions. *)
From Coq Require Import Reals List Arith Bool Lia Lra.
From Verif Require Import Scalar Cset_spec Cset_proofs Problem_model Merit_proofs Manifold_model Manifold_spec Manifold_proofs ManifoldR_proofs
  Function_model Function_spec Function_proofs FunctionE_proofs FunctionJ_proofs.
Import ListNotations.
Local Open Scope R_scope.

Definition ext_heap (h h' : heap RSc) : Prop := forall i o, nth_error h i = Some o -> nth_error h' i = Some o.
Lemma repr_ext h h' e : ext_heap h h' -> forall r, repr h r e -> repr h' r e.
Proof.
  intros X. induction e as [o|f g IHf IHg|f IHf|dx dv cs IHc|q W b c f IHf] using fx_ind'; intros r R.
  - destruct R as [R El]. split; auto.
  - destruct R as (l & q & E & Rf & Rg). exists l, q. auto.
  - destruct R as (q & E & Rf). exists q. auto.
  - apply repr_sum in R. destruct R as (rs & ws & E & Rs). apply repr_sum. exists rs, ws. split; [auto|].
    clear E. revert rs ws Rs. induction IHc as [|[a f] cs Hf IHc IH]; intros [|p rs] [|w ws] Rs; try exact Rs.
    destruct Rs as (A & Ic & B & C). split; [exact A|]. split; [exact Ic|]. split; [apply Hf; exact B|apply IH; exact C].
  - destruct R as (Q & p & gn & ca & E & J & H & Rf). split; [exact Q|]. exists p, gn, ca. auto 6.
Qed.
Lemma repr_all_ext h h' cs : ext_heap h h' -> forall rs ws, repr_all h rs ws cs -> repr_all h' rs ws cs.
Proof.
  intros X. induction cs as [|[a f] cs IH]; intros [|p rs] [|w ws] R; try exact R.
  destruct R as (A & Ic & B & C). split; [exact A|]. split; [exact Ic|]. split; [eapply repr_ext; eassumption|apply IH; exact C].
Qed.
Lemma repr_fun h e : forall r e', repr h r e -> repr h r e' -> e = e'.
Proof.
  induction e as [o|f g IHf IHg|f IHf|dx dv cs IHc|q W b c f IHf] using fx_ind'; intros r e' R R'.
  - destruct R as [R El]. destruct e' as [o'|f' g'|f'|dx' dv' cs'|q' W' b' c' f'].
    + destruct R' as [R' _]. congruence.
    + destruct R' as (l & q & E & _). rewrite R in E. injection E as ->. destruct El.
    + destruct R' as (q & E & _). rewrite R in E. injection E as ->. destruct El.
    + destruct R' as (rs & ws & E & _). rewrite R in E. injection E as ->. destruct El.
    + destruct R' as (_ & p & gn & ca & E & _). rewrite R in E. injection E as ->. destruct El.
  - destruct R as (l & p & E & Rf & Rg). destruct e' as [o'|f' g'|f'|dx' dv' cs'|q' W' b' c' f'].
    + destruct R' as [R' El]. rewrite E in R'. injection R' as <-. destruct El.
    + destruct R' as (l' & p' & E' & Rf' & Rg'). rewrite E in E'. injection E' as _ _ _ <- <-. f_equal; eauto.
    + destruct R' as (p' & E' & _). congruence.
    + destruct R' as (rs & ws & E' & _). congruence.
    + destruct R' as (_ & p' & gn & ca & E' & _). congruence.
  - destruct R as (p & E & Rf). destruct e' as [o'|f' g'|f'|dx' dv' cs'|q' W' b' c' f'].
    + destruct R' as [R' El]. rewrite E in R'. injection R' as <-. destruct El.
    + destruct R' as (l' & p' & E' & Rf' & Rg'). congruence.
    + destruct R' as (p' & E' & R'). rewrite E in E'. injection E' as _ _ <-. f_equal; eauto.
    + destruct R' as (rs & ws & E' & _). congruence.
    + destruct R' as (_ & p' & gn & ca & E' & _). congruence.
  - apply repr_sum in R. destruct R as (rs & ws & E & Rs). destruct e' as [o'|f' g'|f'|dx' dv' cs'|q' W' b' c' f'].
    + destruct R' as [R' El]. rewrite E in R'. injection R' as <-. destruct El.
    + destruct R' as (l' & p' & E' & Rf' & Rg'). congruence.
    + destruct R' as (p' & E' & R'). congruence.
    + apply repr_sum in R'. destruct R' as (rs' & ws' & E' & Rs'). rewrite E in E'. injection E' as <- <- <- <-. f_equal.
      clear E. revert rs ws cs' Rs Rs'. induction IHc as [|[a f] cs Hf _ IH]; intros [|p rs] [|w ws] [|[a' f'] cs'] Rs Rs'; try contradiction; [reflexivity|].
      destruct Rs as (-> & _ & A & B). destruct Rs' as (<- & _ & A' & B'). f_equal; [f_equal; eapply Hf; eassumption|eapply IH; eassumption].
    + destruct R' as (_ & p' & gn & ca & E' & _). congruence.
  - destruct R as (-> & p & gn & ca & E & _ & _ & Rf). destruct e' as [o'|f' g'|f'|dx' dv' cs'|q' W' b' c' f'].
    + destruct R' as [R' El]. rewrite E in R'. injection R' as <-. destruct El.
    + destruct R' as (l' & p' & E' & Rf' & Rg'). congruence.
    + destruct R' as (p' & E' & R'). congruence.
    + destruct R' as (rs & ws & E' & _). congruence.
    + destruct R' as (<- & p' & gn' & ca' & E' & _ & _ & R'). rewrite E in E'. injection E' as _ _ <- <- <- <- _ _. f_equal; eauto.
Qed.
(** Objects that represent lower expressions do not use s. *)
Lemma removed_other h s i : i <> s -> nth_error (removed h s) i = nth_error h i.
Proof. intros N. unfold removed. rewrite nth_update. apply Nat.eqb_neq in N. now rewrite N. Qed.
Lemma repr_avoid h s e : repr h s e -> forall f, (ht f < ht e)%nat -> forall p, repr h p f -> repr (removed h s) p f.
Proof.
  intros Rs. assert (N : forall f p, (ht f < ht e)%nat -> repr h p f -> p <> s).
  { intros f p H R ->. rewrite (repr_fun h e s f Rs R) in H. lia. }
  induction f as [o|f g IHf IHg|f IHf|dx dv cs IHc|q W b c f IHf] using fx_ind'; intros H p R; pose proof (N _ _ H R) as Np.
  - destruct R as [R El]. split; [rewrite removed_other|]; assumption.
  - destruct R as (l & q & E & Rf & Rg). cbn [ht] in H. exists l, q. rewrite removed_other by exact Np. split; [exact E|]. split; [apply IHf|apply IHg]; try assumption; lia.
  - destruct R as (q & E & Rf). cbn [ht] in H. exists q. rewrite removed_other by exact Np. split; [exact E|]. apply IHf; [lia|assumption].
  - apply repr_sum in R. destruct R as (rs & ws & E & R). apply repr_sum. exists rs, ws. rewrite removed_other by exact Np. split; [exact E|].
    rewrite ht_sum in H. assert (Hc : (ht_all cs < ht e)%nat) by lia. clear - IHc R Hc. revert rs ws R. induction IHc as [|[a f] cs Hf _ IH]; intros [|p rs] [|w ws] R; try exact R.
    cbn [ht_all] in Hc. destruct R as (A & Ic & B & C). split; [exact A|]. split; [exact Ic|]. split; [apply Hf; [cbn; lia|exact B]|apply IH; [lia|exact C]].
  - destruct R as (Q & q' & gn & ca & E & J & H' & Rf). split; [exact Q|]. exists q', gn, ca. rewrite removed_other by exact Np. cbn [ht] in H.
    split; [exact E|]. split; [exact J|]. split; [exact H'|]. apply IHf; [lia|exact Rf].
Qed.
Lemma repr_all_avoid h s dx dv cs : repr h s (XSum dx dv cs) -> forall rs ws, repr_all h rs ws cs -> repr_all (removed h s) rs ws cs.
Proof.
  intros Rs. assert (H : (ht_all cs < ht (XSum dx dv cs))%nat) by (rewrite ht_sum; lia). revert H. generalize cs at 1 3 4. intros l.
  induction l as [|[a f] l IH]; intros H [|p rs] [|w ws] R; try exact R. cbn [ht_all] in H.
  destruct R as (A & Ic & B & C). split; [exact A|]. split; [exact Ic|]. split; [eapply repr_avoid; [exact Rs|lia|exact B]|apply IH; [lia|exact C]].
Qed.
(** What is represented without s does not see updates of s. *)
Lemma removed_update h s g e : forall r, repr (removed h s) r e -> repr (update h s g) r e.
Proof.
  assert (X : forall r o, nth_error (removed h s) r = Some o -> o <> gone -> nth_error (update h s g) r = Some o).
  { intros r o E N. unfold removed in E. rewrite nth_update in *. destruct (Nat.eqb r s); [|exact E]. destruct (nth_error h r); [|discriminate]. cbn in E. congruence. }
  induction e as [o|f g' IHf IHg|f IHf|dx dv cs IHc|q W b c f IHf] using fx_ind'; intros r R.
  - destruct R as [R El]. split; [|exact El]. apply X; [exact R|]. intros ->. exact El.
  - destruct R as (l & q & E & Rf & Rg). exists l, q. split; [apply X; [exact E|discriminate]|auto].
  - destruct R as (q & E & Rf). exists q. split; [apply X; [exact E|discriminate]|auto].
  - apply repr_sum in R. destruct R as (rs & ws & E & Rs). apply repr_sum. exists rs, ws. split; [apply X; [exact E|discriminate]|].
    clear E. revert rs ws Rs. induction IHc as [|[a f] cs Hf IHc IH]; intros [|p rs] [|w ws] Rs; try exact Rs.
    destruct Rs as (A & Ic & B & C). split; [exact A|]. split; [exact Ic|]. split; [apply Hf; exact B|apply IH; exact C].
  - destruct R as (Q & p & gn & ca & E & J & H & Rf). split; [exact Q|]. exists p, gn, ca. split; [apply X; [exact E|discriminate]|auto].
Qed.
Lemma removed_update_all h s g cs : forall rs ws, repr_all (removed h s) rs ws cs -> repr_all (update h s g) rs ws cs.
Proof.
  induction cs as [|[a f] cs IH]; intros [|p rs] [|w ws] R; try exact R.
  destruct R as (A & Ic & B & C). split; [exact A|]. split; [exact Ic|]. split; [apply removed_update; exact B|apply IH; exact C].
Qed.
Lemma repr_all_app h cs cs' : forall rs ws rs' ws', repr_all h rs ws cs -> repr_all h rs' ws' cs' -> repr_all h (rs ++ rs') (ws ++ ws') (cs ++ cs').
Proof.
  induction cs as [|[a f] cs IH]; intros [|p rs] [|w ws] rs' ws' R R'; try contradiction; [exact R'|].
  destruct R as (A & Ic & B & C). split; [exact A|]. split; [exact Ic|]. split; [exact B|apply IH; assumption].
Qed.

(** * Operators that change a sum in place *)
Lemma add_comp_repr h s c w dx dv cs f : repr h s (XSum dx dv cs) -> repr (removed h s) c f -> is_cost f ->
  exists h', add_comp (K := RSc) h s c w = Ret h' /\ repr h' s (XSum dx dv (cs ++ [(w, f)])) /\
    (forall i, i <> s -> nth_error h' i = nth_error h i) /\ length h' = length h.
Proof.
  intros R Rc Ic. pose proof R as R0. apply repr_sum in R. destruct R as (rs & ws & E & Rs).
  pose proof (repr_all_avoid h s dx dv cs R0 rs ws Rs) as Ra.
  unfold add_comp. rewrite E. cbn [ub bind]. eexists. split; [reflexivity|]. split; [|split].
  - apply repr_sum. exists (rs ++ [c]), (ws ++ [w]). split.
    + rewrite nth_update, Nat.eqb_refl, E. reflexivity.
    + apply repr_all_app; [apply removed_update_all; exact Ra|]. split; [reflexivity|]. split; [exact Ic|]. split; [apply removed_update; exact Rc|exact I].
  - intros i N. rewrite nth_update. apply Nat.eqb_neq in N. now rewrite N.
  - clear. revert s. induction h as [|o h IH]; intros [|s]; cbn; try reflexivity. now rewrite IH.
Qed.
Lemma add_sum_repr h s t dx dv cs dx' dv' cs' : s <> t -> repr h s (XSum dx dv cs) -> repr (removed h s) t (XSum dx' dv' cs') ->
  exists h', add_sum (K := RSc) h s t = Ret h' /\ repr h' s (XSum dx dv (cs ++ cs')) /\ forall i, i <> s -> nth_error h' i = nth_error h i.
Proof.
  intros N R Rc. pose proof R as R0. apply repr_sum in R. destruct R as (rs & ws & E & Rs). apply repr_sum in Rc. destruct Rc as (rs' & ws' & E' & Rs').
  rewrite removed_other in E' by auto. pose proof (repr_all_avoid h s dx dv cs R0 rs ws Rs) as Ra.
  unfold add_sum. rewrite E, E'. cbn [ub bind]. apply Nat.eqb_neq in N. rewrite N. cbn [andb]. eexists. split; [reflexivity|]. split.
  - apply repr_sum. exists (rs ++ rs'), (ws ++ ws'). split.
    + rewrite nth_update, Nat.eqb_refl, E. reflexivity.
    + apply repr_all_app; apply removed_update_all; assumption.
  - intros i Ni. rewrite nth_update. apply Nat.eqb_neq in Ni. now rewrite Ni.
Qed.
Lemma repr_all_scale h a cs : forall rs ws, repr_all h rs ws cs -> repr_all h rs (map (fun w => a * w) ws) (map (fun p => (a * fst p, snd p)) cs).
Proof.
  induction cs as [|[c f] cs IH]; intros [|p rs] [|w ws] R; try exact R.
  destruct R as (-> & Ic & B & C). split; [reflexivity|]. split; [exact Ic|]. split; [exact B|apply IH; exact C].
Qed.
Lemma scale_sum_repr h s a dx dv cs : repr h s (XSum dx dv cs) ->
  exists h', scale_sum (K := RSc) h s a = Ret h' /\ repr h' s (XSum dx dv (map (fun p => (a * fst p, snd p)) cs)) /\
    (forall i, i <> s -> nth_error h' i = nth_error h i) /\ length h' = length h.
Proof.
  intros R. pose proof R as R0. apply repr_sum in R. destruct R as (rs & ws & E & Rs). pose proof (repr_all_avoid h s dx dv cs R0 rs ws Rs) as Ra.
  unfold scale_sum. rewrite E. cbn [ub bind]. eexists. split; [reflexivity|]. split; [|split].
  - apply repr_sum. exists rs, (map (fun w => a * w) ws). split.
    + rewrite nth_update, Nat.eqb_refl, E. reflexivity.
    + apply repr_all_scale. apply removed_update_all. exact Ra.
  - intros i Ni. rewrite nth_update. apply Nat.eqb_neq in Ni. now rewrite Ni.
  - clear. revert s. induction h as [|o h IH]; intros [|s]; cbn; try reflexivity. now rewrite IH.
Qed.

(** * Values of the results *)
Lemma sum_val_app cs cs' x v v' : sum_val cs x = Ret v -> sum_val cs' x = Ret v' -> sum_val (cs ++ cs') x = Ret (v + v').
Proof.
  revert v. induction cs as [|[w f] cs IH]; intros v A B; cbn in *; [injection A as <-; rewrite Rplus_0_l; exact B|].
  destruct (sem f x) as [y| | |]; try discriminate. cbn [bind] in *. destruct y as [|a [|? ?]]; try discriminate.
  destruct (sum_val cs x) as [u| | |]; try discriminate. injection A as <-. rewrite (IH u eq_refl B). cbn [bind]. f_equal. ring.
Qed.
Lemma sum_val_scale c cs x v : sum_val cs x = Ret v -> sum_val (map (fun p => (c * fst p, snd p)) cs) x = Ret (c * v).
Proof.
  revert v. induction cs as [|[w f] cs IH]; intros v A; cbn in *; [injection A as <-; now rewrite Rmult_0_r|].
  destruct (sem f x) as [y| | |]; try discriminate. cbn [bind] in *. destruct y as [|a [|? ?]]; try discriminate.
  destruct (sum_val cs x) as [u| | |]; try discriminate. injection A as <-. rewrite (IH u eq_refl). cbn [bind]. f_equal. ring.
Qed.
Lemma sem_sum_val dx dv cs x v : sem (XSum dx dv cs) x = Ret [v] <-> sum_val cs x = Ret v.
Proof. rewrite sem_sum. destruct (sum_val cs x); cbn; split; congruence. Qed.

(** * Expressions *)
Fixpoint hide_from (i : nat) (P : nat -> bool) (h : heap RSc) : heap RSc :=
  match h with [] => [] | o :: t => (if P i then gone else o) :: hide_from (S i) P t end.
Definition hide := hide_from 0.
Lemma nth_hide P h i : nth_error (hide P h) i = if P i then option_map (fun _ => gone) (nth_error h i) else nth_error h i.
Proof.
  assert (G : forall k, nth_error (hide_from k P h) i = if P (k + i)%nat then option_map (fun _ => gone) (nth_error h i) else nth_error h i); [|apply (G 0%nat)].
  revert i. induction h as [|o h IH]; intros [|i] k; cbn; try (destruct (P _); reflexivity).
  - rewrite Nat.add_0_r. destruct (P k); reflexivity.
  - rewrite IH. replace (S k + i)%nat with (k + S i)%nat by lia. reflexivity.
Qed.
Lemma hide_ext P h h' : ext_heap h h' -> ext_heap (hide P h) (hide P h').
Proof.
  intros X i o. rewrite !nth_hide. destruct (P i); [|apply X]. destruct (nth_error h i) as [q|] eqn:E; [|discriminate]. rewrite (X i q E). auto.
Qed.
Lemma repr_new P h dx dv rs ws cs : P (length h) = false -> repr_all (hide P h) rs ws cs ->
  repr (hide P (h ++ [OSum dx dv rs ws])) (length h) (XSum dx dv cs).
Proof.
  intros HP R. apply repr_sum. exists rs, ws. split.
  - rewrite nth_hide, HP, nth_error_app2, Nat.sub_diag by lia. reflexivity.
  - eapply repr_all_ext; [|exact R]. apply hide_ext. intros i o E. rewrite nth_error_app1; [exact E|]. apply nth_error_Some. congruence.
Qed.
Lemma update_last (h : heap RSc) o f : update (h ++ [o]) (length h) f = h ++ [f o].
Proof. induction h as [|p h IH]; [reflexivity|]. cbn. now rewrite IH. Qed.
Lemma nth_last (h : heap RSc) o : nth_error (h ++ [o]) (length h) = Some o.
Proof. rewrite nth_error_app2, Nat.sub_diag by lia. reflexivity. Qed.
Lemma ext_app (h : heap RSc) l : ext_heap h (h ++ l).
Proof. intros i o E. rewrite nth_error_app1; [exact E|]. apply nth_error_Some. congruence. Qed.
Lemma ext_trans a b c : ext_heap a b -> ext_heap b c -> ext_heap a c.
Proof. intros A B i o E. auto. Qed.
Lemma hide_none h i : nth_error (hide (fun _ => false) h) i = nth_error h i.
Proof. now rewrite nth_hide. Qed.

Section Build.
  Variables (env : nat -> option fx) (h0 : heap RSc) (a b : nat).
  Hypothesis Henv : forall r f, env r = Some f -> repr h0 r f.
  Definition built (h : heap RSc) (e : cexp) : Prop := exists h' r' t,
    build h e = Ret (h', r') /\ ext_heap h h' /\ (length h <= length h')%nat /\ (r' < length h')%nat /\ (is_tmp e -> (length h <= r')%nat) /\
    is_cost t /\ xdim t = (a, b, 1%nat) /\ (is_sum env e -> exists cs, t = XSum a b cs) /\
    (forall P, (forall i, P i = true -> (length h0 <= i < length h)%nat) -> repr (hide P h') r' t) /\
    (forall x v, (forall r f, env r = Some f -> sem f x = Ret [v r]) -> sem t x = Ret [meaning v e]).
  Lemma built_repr (h h' : heap RSc) r t : (forall P, (forall i, P i = true -> (length h0 <= i < length h)%nat) -> repr (hide P h') r t) -> repr h' r t.
  Proof. intros H. eapply repr_ext; [|apply (H (fun _ => false)); discriminate]. intros i o. rewrite hide_none. auto. Qed.
  Lemma scaled c p h : built h p -> is_sum env p -> exists h' r' t,
    (do (h1, r) <- build h p; mul_sum h1 r c)%out = Ret (h', r') /\ ext_heap h h' /\ (length h <= length h')%nat /\ (r' < length h')%nat /\ (length h <= r')%nat /\
    is_cost t /\ xdim t = (a, b, 1%nat) /\ (exists cs, t = XSum a b cs) /\
    (forall P, (forall i, P i = true -> (length h0 <= i < length h)%nat) -> repr (hide P h') r' t) /\
    (forall x v, (forall r f, env r = Some f -> sem f x = Ret [v r]) -> sem t x = Ret [c * meaning v p]).
  Proof.
    intros (h1 & r & tp & B1 & X1 & L1 & R1 & _ & I1 & D1 & S1 & P1 & V1) Sp. destruct (S1 Sp) as [cs ->].
    pose proof (built_repr _ _ _ _ P1) as Rp. apply repr_sum in Rp. destruct Rp as (rs & ws & E & Rs).
    exists (h1 ++ [OSum a b rs (map (fun w => c * w) ws)]), (length h1), (XSum a b (map (fun q => (c * fst q, snd q)) cs)).
    split; [|split; [|split; [|split; [|split; [|split; [|split; [|split; [|split]]]]]]]].
    + rewrite B1. cbn [bind]. unfold mul_sum. rewrite E. cbn [ub bind]. unfold new, scale_sum. rewrite nth_last. cbn [ub bind]. rewrite update_last. reflexivity.
    + eapply ext_trans; [exact X1|apply ext_app].
    + rewrite app_length. lia.
    + rewrite app_length. cbn. lia.
    + lia.
    + exact I.
    + reflexivity.
    + eauto.
    + intros P HP. apply repr_new; [destruct (P (length h1)) eqn:Q; [apply HP in Q; lia|reflexivity]|]. apply repr_all_scale.
      specialize (P1 P HP). apply repr_sum in P1. destruct P1 as (rs' & ws' & E' & Rs'). rewrite nth_hide in E'. destruct (P r); rewrite E in E'; [discriminate|]. injection E' as <- <-. exact Rs'.
    + intros x v Hv. apply sem_sum_val. apply sum_val_scale. apply (sem_sum_val a b). auto.
  Qed.
  Lemma build_ok e : typed env a b e -> forall h, ext_heap h0 h -> (length h0 <= length h)%nat -> built h e.
  Proof.
    induction e as [r|p IHp q IHq|p IHp q IHq|c p IHp|c p IHp|p IHp]; intros T h X Lh.
    - destruct T as (f & Ef & Ic & Df). exists h, r, f. split; [reflexivity|]. split; [intros i o E; exact E|]. split; [lia|].
      assert (Hr : (r < length h)%nat). { apply nth_error_Some. pose proof (dims_repr h0 r f (Henv r f Ef)) as Q. unfold dims_at in Q. destruct (nth_error h0 r) eqn:E; [|discriminate]. rewrite (X _ _ E). discriminate. }
      split; [exact Hr|]. split; [intros []|]. split; [exact Ic|]. split; [exact Df|]. split; [|split].
      + intros (dx & dv & cs & E). rewrite Ef in E. injection E as ->. cbn in Df. injection Df as -> ->. eauto.
      + intros P HP. eapply repr_ext; [|apply Henv; exact Ef]. intros i o E. rewrite nth_hide. destruct (P i) eqn:Q; [|auto].
        specialize (HP i Q). assert (i < length h0)%nat by (apply nth_error_Some; congruence). lia.
      + intros x v Hv. apply Hv. exact Ef.
    - destruct T as [Tp Tq]. destruct (IHp Tp h X Lh) as (h1 & r & tp & B1 & X1 & L1 & R1 & _ & I1 & D1 & _ & P1 & V1).
      destruct (IHq Tq h1 (ext_trans _ _ _ X X1) ltac:(lia)) as (h2 & s & tq & B2 & X2 & L2 & R2 & _ & I2 & D2 & _ & P2 & V2).
      pose proof (repr_ext _ _ _ X2 _ (built_repr _ _ _ _ P1)) as Rp. pose proof (built_repr _ _ _ _ P2) as Rq.
      exists (h2 ++ [OSum a b [r; s] [1; 1]]), (length h2), (XSum a b [(1, tp); (1, tq)]). split; [|split; [|split; [|split; [|split; [|split; [|split; [|split; [|split]]]]]]]].
      + cbn [build]. rewrite B1. cbn [bind]. rewrite B2. cbn [bind]. unfold add_costs. rewrite (dims_repr _ _ _ Rp), (dims_repr _ _ _ Rq), D1, D2. cbn [bind].
        rewrite !Nat.eqb_refl. cbn [chk andb bind]. unfold new_sum, new, add_comp. rewrite nth_last. cbn [ub bind]. rewrite update_last. rewrite nth_last. cbn [ub bind]. rewrite update_last. reflexivity.
      + eapply ext_trans; [exact X1|]. eapply ext_trans; [exact X2|apply ext_app].
      + rewrite app_length. lia.
      + rewrite app_length. cbn. lia.
      + intros _. lia.
      + exact I.
      + reflexivity.
      + intros _. eauto.
      + intros P HP. apply repr_new; [destruct (P (length h2)) eqn:Q; [apply HP in Q; lia|reflexivity]|].
        split; [reflexivity|]. split; [exact I1|]. split; [eapply repr_ext; [apply hide_ext; exact X2|apply P1; exact HP]|]. split; [reflexivity|]. split; [exact I2|]. split; [|exact I].
        apply P2. intros i Hi. apply HP in Hi. lia.
      + intros x v Hv. apply sem_sum_val. cbn [sum_val]. rewrite (V1 x v Hv). cbn [bind]. rewrite (V2 x v Hv). cbn [bind meaning]. f_equal. ring.
    - destruct T as (Tm & Tp & Tq). destruct (IHp Tp h X Lh) as (h1 & r & tp & B1 & X1 & L1 & R1 & F1 & I1 & D1 & S1 & P1 & V1).
      destruct S1 as [cs ->]; [destruct p; try contradiction; exact I|]. specialize (F1 Tm).
      destruct (IHq Tq h1 (ext_trans _ _ _ X X1) ltac:(lia)) as (h2 & s & tq & B2 & X2 & L2 & R2 & _ & I2 & D2 & _ & P2 & V2).
      pose proof (repr_ext _ _ _ X2 _ (built_repr _ _ _ _ P1)) as Rp.
      assert (Rm : forall P, (forall i, P i = true -> (length h0 <= i < length h)%nat) -> repr (removed (hide P h2) r) s tq).
      { intros P HP. eapply repr_ext; [|apply (P2 (fun i => P i || Nat.eqb i r))].
        - intros i o. unfold removed. rewrite nth_hide, nth_update, nth_hide. destruct (Nat.eqb i r); rewrite ?orb_true_r, ?orb_false_r; destruct (P i); auto. destruct (nth_error h2 i); auto.
        - intros i Hi. apply orb_true_iff in Hi. destruct Hi as [Hi|Hi]; [apply HP in Hi; lia|apply Nat.eqb_eq in Hi; lia]. }
      assert (Rn : repr (removed h2 r) s tq).
      { eapply repr_ext; [|apply (Rm (fun _ => false)); discriminate]. intros i o. unfold removed. rewrite !nth_update, hide_none. auto. }
      destruct (add_comp_repr h2 r s 1 a b cs tq Rp Rn I2) as (h3 & E3 & R3 & N3 & L3).
      exists h3, r, (XSum a b (cs ++ [(1, tq)])). split; [|split; [|split; [|split; [|split; [|split; [|split; [|split; [|split]]]]]]]].
      + cbn [build]. rewrite B1. cbn [bind]. rewrite B2. cbn [bind]. unfold add_rvalue. refine (eq_trans (f_equal (fun o => bind o _) E3) _). reflexivity.
      + intros i o E. assert (Hi : (i < length h)%nat) by (apply nth_error_Some; congruence). rewrite N3 by lia. auto.
      + lia.
      + lia.
      + intros _. exact F1.
      + exact I.
      + reflexivity.
      + intros _. eauto.
      + intros P HP. assert (Pr : P r = false) by (destruct (P r) eqn:Q; [apply HP in Q; lia|reflexivity]).
        assert (Rp' : repr (hide P h2) r (XSum a b cs)) by (eapply repr_ext; [apply hide_ext; exact X2|apply P1; exact HP]).
        destruct (add_comp_repr (hide P h2) r s 1 a b cs tq Rp' (Rm P HP) I2) as (h4 & E4 & R4 & N4 & _).
        eapply repr_ext; [|exact R4]. intros i o E. rewrite nth_hide. destruct (Nat.eq_dec i r) as [->|Ni].
        * rewrite Pr. unfold add_comp in E3, E4. rewrite nth_hide, Pr in E4. destruct (nth_error h2 r) as [o2|] eqn:E2; [|discriminate]. cbn [ub bind] in E3, E4. destruct o2; try discriminate.
          injection E3 as <-. injection E4 as <-. rewrite nth_update, Nat.eqb_refl, nth_hide, Pr, E2 in E. rewrite nth_update, Nat.eqb_refl, E2. exact E.
        * rewrite N4, nth_hide in E by exact Ni. rewrite N3 by exact Ni. exact E.
      + intros x v Hv. apply sem_sum_val. cbn [meaning]. specialize (V1 x v Hv). apply sem_sum_val in V1. apply sum_val_app; [exact V1|].
        cbn [sum_val]. rewrite (V2 x v Hv). cbn [bind]. f_equal. ring.
    - cbn [typed] in T. destruct (IHp T h X Lh) as (h1 & r & tp & B1 & X1 & L1 & R1 & _ & I1 & D1 & _ & P1 & V1). pose proof (built_repr _ _ _ _ P1) as Rp.
      exists (h1 ++ [OSum a b [r] [c]]), (length h1), (XSum a b [(c, tp)]). split; [|split; [|split; [|split; [|split; [|split; [|split; [|split; [|split]]]]]]]].
      + cbn [build]. rewrite B1. cbn [bind]. unfold mul_cost. rewrite (dims_repr _ _ _ Rp), D1. cbn [bind]. unfold new_sum, new, add_comp. rewrite nth_last. cbn [ub bind]. rewrite update_last. reflexivity.
      + eapply ext_trans; [exact X1|apply ext_app].
      + rewrite app_length. lia.
      + rewrite app_length. cbn. lia.
      + intros _. lia.
      + exact I.
      + reflexivity.
      + intros _. eauto.
      + intros P HP. apply repr_new; [destruct (P (length h1)) eqn:Q; [apply HP in Q; lia|reflexivity]|].
        split; [reflexivity|]. split; [exact I1|]. split; [apply P1; exact HP|exact I].
      + intros x v Hv. apply sem_sum_val. cbn [sum_val]. rewrite (V1 x v Hv). cbn [bind meaning]. f_equal. ring.
    - destruct T as [Sp T]. destruct (scaled c p h (IHp T h X Lh) Sp) as (h' & r' & t & A1 & A2 & A3 & A4 & A5 & A6 & A7 & A8 & A9 & A10). exists h', r', t. auto 12.
    - destruct T as [Sp T]. destruct (scaled (-1) p h (IHp T h X Lh) Sp) as (h' & r' & t & A1 & A2 & A3 & A4 & A5 & A6 & A7 & A8 & A9 & A10). exists h', r', t.
      split; [exact A1|]. do 8 (split; [auto|]). intros x v Hv. rewrite (A10 x v Hv). cbn [meaning]. do 2 f_equal. ring.
  Qed.
End Build.
