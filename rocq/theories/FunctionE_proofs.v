(** Values of function objects; effect of evaluations on the heap. *)
From Coq Require Import Reals List Arith Bool Lia Lra.
From Verif Require Import Scalar Cset_spec Cset_proofs Problem_model Merit_proofs Manifold_model Manifold_spec Manifold_proofs ManifoldR_proofs
  Function_model Function_spec Function_proofs.
Import ListNotations.
Local Open Scope R_scope.

Lemma fx_ind' (P : fx -> Prop) :
  (forall o, P (XBase o)) -> (forall f g, P f -> P g -> P (XComp f g)) -> (forall f, P f -> P (XCost f)) ->
  (forall dx dv cs, Forall (fun p => P (snd p)) cs -> P (XSum dx dv cs)) ->
  (forall q W b c f, P f -> P (XQuad q W b c f)) -> forall e, P e.
Proof.
  intros H1 H2 H3 H4 H5. fix IH 1. intros [o|f g|f|dx dv cs|q W b c f]; [apply H1|apply H2; apply IH|apply H3; apply IH| |apply H5; apply IH].
  apply H4. induction cs as [|[w f] cs IHc]; constructor; [apply IH|exact IHc].
Qed.

(** The components of a sum. *)
Fixpoint repr_all (h : heap RSc) (rs : list nat) (ws : list R) (cs : list (R * fx)) {struct cs} : Prop :=
  match rs, ws, cs with
  | [], [], [] => True
  | p :: rs', w :: ws', (a, f) :: cs' => w = a /\ is_cost f /\ repr h p f /\ repr_all h rs' ws' cs'
  | _, _, _ => False
  end.
Lemma repr_sum h r dx dv cs : repr h r (XSum dx dv cs) <->
  exists rs ws, nth_error h r = Some (OSum dx dv rs ws) /\ repr_all h rs ws cs.
Proof.
  assert (E : forall cs rs ws, (fix go (rs : list nat) (ws : list R) (cs : list (R * fx)) {struct cs} : Prop := match rs, ws, cs with
       | [], [], [] => True
       | p :: rs', w :: ws', (a, f) :: cs' => w = a /\ is_cost f /\ repr h p f /\ go rs' ws' cs'
       | _, _, _ => False end) rs ws cs <-> repr_all h rs ws cs).
  { clear. induction cs as [|[a f] cs IH]; intros [|p rs] [|w ws]; try tauto; cbn; rewrite IH; tauto. }
  split; intros (rs & ws & A & B); exists rs, ws; (split; [exact A|]); [apply (proj1 (E cs rs ws)); exact B|exact (proj2 (E cs rs ws) B)].
Qed.
Fixpoint sum_val (cs : list (R * fx)) (x : rvec) : outcome R :=
  match cs with
  | [] => Ret 0
  | (w, f) :: r => (do y <- sem f x; match y with [a] => do s <- sum_val r x; Ret (w * a + s) | _ => UB end)%out
  end.
Lemma sem_sum dx dv cs x : sem (XSum dx dv cs) x = (do v <- sum_val cs x; Ret [v])%out.
Proof.
  cbn. f_equal. induction cs as [|[w f] cs IH]; [reflexivity|]. cbn. destruct (sem f x) as [y| | |]; cbn; try reflexivity.
  destruct y as [|a [|? ?]]; try reflexivity. rewrite IH. reflexivity.
Qed.
Fixpoint visits_all (cs : list (R * fx)) (x : rvec) : list (nat * rvec) :=
  match cs with [] => [] | (_, f) :: r => visits f x ++ visits_all r x end.
Lemma visits_sum dx dv cs x : visits (XSum dx dv cs) x = visits_all cs x.
Proof. cbn. induction cs as [|[w f] cs IH]; [reflexivity|]. cbn. now rewrite IH. Qed.
Fixpoint good_all D k x (cs : list (R * fx)) : Prop :=
  match cs with [] => True | (_, f) :: r => is_cost f /\ good D k x f 1 /\ good_all D k x r end.
Lemma good_sum D k x dx dv cs dr : good D k x (XSum dx dv cs) dr <-> dr = 1%nat /\ dv = pk_dim k /\ good_all D k x cs.
Proof.
  cbn. assert (E : (fix go cs := match cs with [] => True | (_, f) :: r => is_cost f /\ good D k x f 1 /\ go r end) cs <-> good_all D k x cs).
  { induction cs as [|[w f] cs IH]; cbn; [tauto|]. rewrite IH. tauto. }
  rewrite E. tauto.
Qed.

(** * Heaps that differ in cached values only *)
Definition quad_like (keep_err : bool) (o o' : obj RSc) : Prop :=
  o = o' \/ exists dx dv p W s c gn ca ca',
    o = OQuad dx dv p W s c gn ca /\ o' = OQuad dx dv p W s c gn ca' /\
    map (@length R) (c_J ca') = map (@length R) (c_J ca) /\ map (@length R) (c_H ca') = map (@length R) (c_H ca) /\
    (keep_err = true -> c_err ca' = c_err ca).
Definition sim_gen (b : bool) (h h' : heap RSc) : Prop :=
  forall r, match nth_error h r, nth_error h' r with
            | Some o, Some o' => quad_like b o o'
            | None, None => True
            | _, _ => False
            end.
Notation skel := (sim_gen false).
Notation sim := (sim_gen true).
Lemma quad_like_refl b o : quad_like b o o.
Proof. left. reflexivity. Qed.
Lemma quad_like_trans b o1 o2 o3 : quad_like b o1 o2 -> quad_like b o2 o3 -> quad_like b o1 o3.
Proof.
  intros [->|H1] [<-|H2]; [left; reflexivity|right; assumption|right; assumption|].
  destruct H1 as (dx & dv & p & W & s & c & gn & ca & ca' & -> & -> & J1 & H1 & E1).
  destruct H2 as (dx' & dv' & p' & W' & s' & c' & gn' & cb & cb' & E & -> & J2 & H2 & E2).
  injection E as <- <- <- <- <- <- <- <-.
  right. exists dx, dv, p, W, s, c, gn, ca, cb'. repeat split; try congruence. intros Hb. rewrite E2, E1; auto.
Qed.
Lemma sim_refl b h : sim_gen b h h.
Proof. intros r. destruct (nth_error h r); [apply quad_like_refl|exact I]. Qed.
Lemma sim_trans b h1 h2 h3 : sim_gen b h1 h2 -> sim_gen b h2 h3 -> sim_gen b h1 h3.
Proof.
  intros A B r. specialize (A r). specialize (B r).
  destruct (nth_error h1 r), (nth_error h2 r), (nth_error h3 r); try contradiction; try exact I. eapply quad_like_trans; eassumption.
Qed.
Lemma sim_skel h h' : sim h h' -> skel h h'.
Proof.
  intros A r. specialize (A r). destruct (nth_error h r), (nth_error h' r); try exact A. destruct A as [->|(dx & dv & p & W & s & c & gn & ca & ca' & H1 & H2 & H3 & H4 & _)]; [left; reflexivity|].
  right. exists dx, dv, p, W, s, c, gn, ca, ca'. repeat split; try assumption. discriminate.
Qed.
Lemma nth_update (h : heap RSc) r f i : nth_error (update h r f) i = if Nat.eqb i r then option_map f (nth_error h i) else nth_error h i.
Proof.
  revert r i. induction h as [|o h IH]; intros [|r] [|i]; try reflexivity; try (cbn; destruct (Nat.eqb _ _); reflexivity).
  cbn. apply IH.
Qed.
Lemma update_sim b h r f : (forall o, nth_error h r = Some o -> quad_like b o (f o)) -> sim_gen b h (update h r f).
Proof.
  intros H i. rewrite nth_update. destruct (Nat.eqb_spec i r) as [->|N].
  - destruct (nth_error h r) as [o|]; cbn; [apply H; reflexivity|exact I].
  - destruct (nth_error h i); [apply quad_like_refl|exact I].
Qed.
Lemma set_err_like v o : quad_like false o (set_err (K := RSc) v o).
Proof. destruct o; try apply quad_like_refl. right. cbn. do 9 eexists. split; [reflexivity|]. split; [reflexivity|]. cbn. repeat split. discriminate. Qed.
Lemma repr_skel h h' e : skel h h' -> forall r, repr h r e -> repr h' r e.
Proof.
  intros S. assert (N : forall r o, nth_error h r = Some o -> (forall a b c W s d gn ca, o <> OQuad a b c W s d gn ca) -> nth_error h' r = Some o).
  { intros r o E Hq. specialize (S r). rewrite E in S. destruct (nth_error h' r) as [o'|]; [|contradiction].
    destruct S as [->|(a & b & c & W & s & d & gn & ca & ca' & -> & _)]; [reflexivity|]. exfalso. eapply Hq. reflexivity. }
  induction e as [o|f g IHf IHg|f IHf|dx dv cs IHc|q W b c f IHf] using fx_ind'; intros r R.
  - destruct R as [R El]. split; [|exact El]. apply N; [exact R|]. intros. intros ->. exact El.
  - destruct R as (l & q & E & Rf & Rg). exists l, q. split; [|split; auto]. apply N; [exact E|]. discriminate.
  - destruct R as (q & E & Rf). exists q. split; auto. apply N; [exact E|]. discriminate.
  - apply repr_sum in R. destruct R as (rs & ws & E & Rs). apply repr_sum. exists rs, ws. split; [apply N; [exact E|discriminate]|].
    clear E. revert rs ws Rs. induction IHc as [|[a f] cs Hf IHc IH]; intros [|p rs] [|w ws] Rs; try exact Rs.
    destruct Rs as (A & Ic & B & C). split; [exact A|]. split; [exact Ic|]. split; [apply Hf; exact B|apply IH; exact C].
  - destruct R as (Q & p & gn & ca & E & J & H & Rf). split; [exact Q|]. specialize (S r). rewrite E in S.
    destruct (nth_error h' r) as [o'|] eqn:E'; [|contradiction].
    destruct S as [<-|(a & b' & p' & W' & s & d & gn' & ca1 & ca' & E1 & -> & EJ & EH & _)].
    + exists p, gn, ca. auto.
    + injection E1 as <- <- <- <- <- <- <- <-. exists p, gn, ca'. split; [reflexivity|]. split; [|split; [|auto]].
      * apply mat_of_len. etransitivity; [exact EJ|]. apply map_len_mat. exact J.
      * apply mat_of_len. etransitivity; [exact EH|]. apply map_len_mat. exact H.
Qed.
Lemma repr_all_skel h h' cs : skel h h' -> forall rs ws, repr_all h rs ws cs -> repr_all h' rs ws cs.
Proof.
  intros S. induction cs as [|[a f] cs IH]; intros [|p rs] [|w ws] R; try exact R.
  destruct R as (A & Ic & B & C). split; [exact A|]. split; [exact Ic|]. split; [eapply repr_skel; eassumption|apply IH; exact C].
Qed.

(** Heap after a list of cache writes. *)
Definition after (h : heap RSc) (l : list (nat * rvec)) : heap RSc := fold_left (fun h p => update h (fst p) (set_err (K := RSc) (snd p))) l h.
Lemma after_app h a b : after h (a ++ b) = after (after h a) b.
Proof. apply fold_left_app. Qed.
Lemma after_skel l : forall h, skel h (after h l).
Proof.
  induction l as [|[q v] l IH]; intros h; [apply sim_refl|]. cbn. eapply sim_trans; [|apply IH].
  apply update_sim. intros o _. apply set_err_like.
Qed.
Lemma dims_repr h r e : repr h r e -> dims_at h r = Ret (xdim e).
Proof.
  unfold dims_at. destruct e as [o|f g|f|dx dv cs|q W b c f]; intros R.
  - destruct R as [R _]. rewrite R. reflexivity.
  - destruct R as (l & q & E & _). rewrite E. reflexivity.
  - destruct R as (q & E & _). rewrite E. reflexivity.
  - destruct R as (rs & ws & E & _). rewrite E. reflexivity.
  - destruct R as (Q & p & gn & ca & E & _). rewrite E. reflexivity.
Qed.

(** * Values *)
Fixpoint ht (e : fx) : nat :=
  match e with
  | XBase _ => 2%nat
  | XComp f g => (2 + Nat.max (ht f) (ht g))%nat
  | XCost f | XQuad _ _ _ _ f => (2 + ht f)%nat
  | XSum _ _ cs => (2 + (fix go cs := match cs with [] => 0 | (_, f) :: r => Nat.max (ht f) (go r) end) cs)%nat
  end.
Fixpoint ht_all (cs : list (R * fx)) : nat := match cs with [] => 0%nat | (_, f) :: r => Nat.max (ht f) (ht_all r) end.
Lemma ht_sum dx dv cs : ht (XSum dx dv cs) = (2 + ht_all cs)%nat.
Proof. reflexivity. Qed.
Lemma ht_pos e : (2 <= ht e)%nat.
Proof. destruct e; cbn; lia. Qed.

Definition eval_ok (e : fx) : Prop := forall n h r x v, (ht e <= n)%nat -> repr h r e -> sem e x = Ret v ->
  eval n h r x = Ret (v, after h (visits e x)).
Definition call_ok (e : fx) : Prop := forall n h r x v, (ht e <= S n)%nat -> is_cost e -> repr h r e -> sem e x = Ret v ->
  exists c, v = [c] /\ call n h r x = Ret (c, after h (visits e x)).
Lemma call_eval e n h r x v : call_ok e -> is_cost e -> (ht e <= n)%nat -> repr h r e -> sem e x = Ret v ->
  eval n h r x = Ret (v, after h (visits e x)).
Proof.
  intros C Ic Hn R S. destruct n as [|n]; [pose proof (ht_pos e); lia|]. destruct (C n h r x v Hn Ic R S) as (c & -> & Ec).
  assert (exists o, nth_error h r = Some o /\ match o with OCost _ _ _ | OSum _ _ _ _ | OQuad _ _ _ _ _ _ _ _ => True | _ => False end) as (o & Eo & Ho).
  { destruct e as [o|f g|f|dx dv cs|q W b c' f]; try contradiction.
    - destruct R as (q & E & _). eauto.
    - destruct R as (rs & ws & E & _). eauto.
    - destruct R as (Q & p & gn & ca & E & _). eauto. }
  rewrite eval_S, Eo. cbn [ub bind]. destruct o; try contradiction; rewrite Ec; reflexivity.
Qed.
Lemma base_eval o n h r x v : elementary o -> nth_error h r = Some o -> base_val o x = Ret v -> eval (S n) h r x = Ret (v, h).
Proof.
  intros El E B. rewrite eval_S, E. cbn [ub bind]. destruct o; try contradiction; cbn [base_val] in B.
  - rewrite B. reflexivity.
  - destruct (forallb _ A && Nat.eqb _ _) eqn:C; [|discriminate]. apply andb_true_iff in C. destruct C as [C1 C2]. apply Nat.eqb_eq in C2.
    rewrite mv_ok by (apply forallb_len; exact C1). cbn [bind]. rewrite vop_ok by (rewrite mat_vec_len; exact C2). cbn [bind]. injection B as <-. reflexivity.
  - rewrite B. reflexivity.
  - rewrite B. reflexivity.
Qed.
Lemma eval_sem e : eval_ok e /\ call_ok e.
Proof.
  induction e as [o|f g [IHf _] [IHg _]|f [IHf _]|dx dv cs IHc|q W b c f [IHf _]] using fx_ind'.
  - split; [|intros ? ? ? ? ? ? []]. intros n h r x v Hn R S. destruct n as [|n]; [cbn in Hn; lia|].
    destruct R as [R El]. cbn. apply base_eval with (o := o); assumption.
  - split; [|intros ? ? ? ? ? ? []]. intros n h r x v Hn R S. destruct n as [|n]; [cbn in Hn; lia|].
    destruct R as (l & q & E & Rf & Rg). cbn [ht] in Hn. rewrite eval_S, E. cbn [ub bind].
    cbn [sem] in S. destruct (sem g x) as [y| | |] eqn:Sg; try discriminate. cbn [bind] in S.
    rewrite (IHg n h q x y) by (try assumption; lia). cbn [bind].
    rewrite (IHf n _ l y v) by (first [assumption|lia|apply (repr_skel h); [apply after_skel|assumption]]).
    cbn [visits]. rewrite Sg, after_app. reflexivity.
  - assert (C : call_ok (XCost f)).
    { intros n h r x v Hn _ R S. destruct n as [|n]; [cbn in Hn; lia|]. destruct R as (q & E & Rf). cbn [ht] in Hn.
      cbn [sem] in S. destruct (sem f x) as [y| | |] eqn:Sf; try discriminate. cbn [bind] in S.
      destruct y as [|a y]; [discriminate|]. injection S as <-. exists a. split; [reflexivity|].
      rewrite call_S, E. cbn [ub bind]. rewrite (IHf n h q x (a :: y)) by (try assumption; lia). reflexivity. }
    split; [|exact C]. intros n h r x v Hn R S. apply call_eval; auto. exact I.
  - assert (C : call_ok (XSum dx dv cs)).
    { intros n h r x v Hn _ R S. rewrite ht_sum in Hn. destruct n as [|n]; [lia|]. apply repr_sum in R. destruct R as (rs & ws & E & Rs).
      rewrite sem_sum in S. destruct (sum_val cs x) as [s| | |] eqn:Sv; try discriminate. injection S as <-. exists s. split; [reflexivity|].
      rewrite visits_sum. rewrite call_S, E. cbn [ub bind].
      assert (G : forall acc rs ws h s, (ht_all cs <= S n)%nat -> repr_all h rs ws cs -> sum_val cs x = Ret s ->
        sum_call (K := RSc) (call n) x rs ws acc h = Ret (acc + s, after h (visits_all cs x))).
      { clear - IHc. induction IHc as [|[a f] cs [_ Hf] IHc IH]; intros acc [|p rs] [|w ws] h s Hn Rs Sv; try contradiction.
        - cbn in *. injection Sv as <-. rewrite Rplus_0_r. reflexivity.
        - destruct Rs as (-> & Ic & Rf & Rs). cbn [ht_all] in Hn. cbn [sum_val] in Sv. destruct (sem f x) as [y| | |] eqn:Sf; try discriminate. cbn [bind] in Sv.
          destruct y as [|v [|? ?]]; try discriminate. destruct (sum_val cs x) as [s'| | |] eqn:Sv'; try discriminate. injection Sv as <-.
          destruct (Hf n h p x [v]) as (c & Ec & Hc); try assumption; [cbn [snd]; lia|]. injection Ec as <-. cbn [snd] in *.
          cbn [sum_call]. rewrite Hc. cbn [bind]. cbn [visits_all]. rewrite after_app.
          refine (eq_trans (IH (acc + a * v) rs ws (after h (visits f x)) s' _ _ eq_refl) _); [lia|eapply repr_all_skel; [apply after_skel|exact Rs]|].
          do 2 f_equal. ring. }
      transitivity (Ret (0 + s, after h (visits_all cs x))); [|do 2 f_equal; ring]. apply G; auto; lia. }
    split; [|exact C]. intros n h r x v Hn R S. apply call_eval; auto. exact I.
  - assert (C : call_ok (XQuad q W b c f)).
    { intros n h r x v Hn _ R S. destruct n as [|n]; [cbn in Hn; lia|]. destruct R as (-> & p & gn & ca & E & _ & _ & Rf). cbn [ht] in Hn.
      cbn [sem] in S. destruct (sem f x) as [y| | |] eqn:Sf; try discriminate. cbn [bind] in S.
      destruct (forallb _ W && _ && _) eqn:C; [|discriminate]. apply andb_true_iff in C. destruct C as [C C3]. apply andb_true_iff in C. destruct C as [C1 C2].
      apply Nat.eqb_eq in C2, C3. injection S as <-. eexists. split; [reflexivity|].
      rewrite call_S, E. cbn [ub bind]. rewrite (IHf n h p x y) by (try assumption; lia). cbn [bind].
      rewrite mv_ok by (apply forallb_len; exact C1). cbn [bind]. rewrite dot_ok by (rewrite mat_vec_len; auto). cbn [bind].
      rewrite dot_ok by auto. cbn [bind visits]. rewrite Sf, after_app. cbn [after fold_left fst snd]. do 2 f_equal.
      rewrite (inner_comm y b). cbn. lra. }
    split; [|exact C]. intros n h r x v Hn R S. apply call_eval; auto. exact I.
Qed.
