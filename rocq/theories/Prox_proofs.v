(** Proofs for C92: the proximal penalty of the solver. *)
From Coq Require Import Reals List Arith Bool Lia Lra.
From Verif Require Import Scalar Cset_spec Cset_proofs Cset_model Armijo_model Problem_model Solver_model Merit_proofs Manifold_model Manifold_spec Manifold_proofs ManifoldR_proofs
  Function_model Function_spec Function_proofs FunctionE_proofs FunctionJ_proofs FunctionH_proofs FunctionX_proofs Bfgs_proofs Merit_spec Objects_model Objects_spec Objects_proofs.
Import ListNotations.
Local Open Scope R_scope.

(** rho times the identity. *)
Definition diag_mat (rho : R) (n : nat) : list rvec := map (fun i => map (fun j => if Nat.eqb i j then rho else 0) (seq 0 n)) (seq 0 n).
Lemma diag_is_mat rho n : mat n n (diag_mat rho n).
Proof.
  split; [unfold diag_mat; now rewrite map_length, seq_length|]. apply Forall_forall. intros row I. apply in_map_iff in I. destruct I as (i & <- & _). now rewrite map_length, seq_length.
Qed.
Lemma diag_nth rho n i j : nth j (nth i (diag_mat rho n) []) 0 = if (i <? n)%nat && (j <? n)%nat && (i =? j)%nat then rho else 0.
Proof.
  unfold diag_mat. destruct (Nat.ltb_spec i n) as [Hi|Hi].
  - rewrite (nth_indep _ [] (map (fun j => if Nat.eqb 0 j then rho else 0) (seq 0 n))) by (rewrite map_length, seq_length; exact Hi).
    rewrite (map_nth (fun i => map (fun j => if Nat.eqb i j then rho else 0) (seq 0 n)) (seq 0 n) 0%nat i), seq_nth by exact Hi. cbn [Nat.add andb].
    destruct (Nat.ltb_spec j n) as [Hj|Hj].
    + rewrite (nth_indep _ 0 (if Nat.eqb i 0 then rho else 0)) by (rewrite map_length, seq_length; exact Hj).
      rewrite (map_nth (fun j => if Nat.eqb i j then rho else 0) (seq 0 n) 0%nat j), seq_nth by exact Hj. reflexivity.
    + apply nth_overflow. rewrite map_length, seq_length. exact Hj.
  - cbn [andb]. rewrite (nth_overflow _ []) by (rewrite map_length, seq_length; exact Hi). destruct j; reflexivity.
Qed.
Lemma diag_sym rho n : symmetric (diag_mat rho n).
Proof.
  intros i j. rewrite !diag_nth, (Nat.eqb_sym j i), (andb_comm (j <? n)%nat). reflexivity.
Qed.
Lemma mat_entries r c (A B : list rvec) : mat r c A -> mat r c B -> (forall i j, (i < r)%nat -> (j < c)%nat -> nth j (nth i A []) 0 = nth j (nth i B []) 0) -> A = B.
Proof.
  intros [LA FA] [LB FB] H. rewrite Forall_forall in FA, FB. apply (nth_ext A B [] []); [congruence|]. intros i Hi.
  assert (La : length (nth i A []) = c) by (apply FA, nth_In; exact Hi). assert (Lb : length (nth i B []) = c) by (apply FB, nth_In; congruence).
  apply (nth_ext _ _ 0 0); [congruence|]. intros j Hj. apply H; congruence.
Qed.
Lemma diag_vec rho (w : rvec) : mat_vec (diag_mat rho (length w)) w = map (fun a => rho * a) w.
Proof.
  replace (diag_mat rho (length w)) with (eye_scaled (K := RSc) rho (length w)); [apply mat_vec_eye|].
  destruct (eye_identity rho (length w)) as [[A B] C]. apply (mat_entries (length w) (length w)); [split; assumption|apply diag_is_mat|].
  intros i j Hi Hj. etransitivity; [exact (C i j Hi Hj)|]. rewrite diag_nth. rewrite (proj2 (Nat.ltb_lt _ _) Hi), (proj2 (Nat.ltb_lt _ _) Hj). reflexivity.
Qed.

(** The expression that the penalty represents. *)
Definition prox_fx (r : nat) (s : rspace) (rho : R) (t : rvec) : fx := XQuad r (diag_mat rho (ndx s)) (repeat 0 (ndx s)) 0 (XBase (ODiff s t)).
Definition prox_inv (h : heap RSc) (r : nat) (s : rspace) (rho : R) (t : rvec) : Prop := repr h r (prox_fx r s rho t) /\ gn_flag h r = Some true.
Lemma prox_inv_skel h h' r s rho t : skel h h' -> prox_inv h r s rho t -> prox_inv h' r s rho t.
Proof. intros S [A B]. split; [eapply repr_skel; eassumption|rewrite (gn_flag_skel _ _ _ S); exact B]. Qed.
Lemma inner_zeros n (v : rvec) : inner (repeat 0 n) v = 0.
Proof. revert v. induction n as [|n IH]; intros [|a v]; try reflexivity. cbn. rewrite IH. ring. Qed.
Lemma inner_scaled rho (u v : rvec) : inner u (map (fun a => rho * a) v) = rho * inner u v.
Proof. revert v. induction u as [|a u IH]; intros [|b v]; cbn; try ring. rewrite IH. ring. Qed.
Lemma prox_sem r s rho t x v : sem (prox_fx r s rho t) x = Ret v -> penalty s rho t x = Ret v.
Proof.
  unfold prox_fx, penalty. cbn [sem base_val]. cbn [car RSc] in *. destruct (difference s t x) as [y| | |]; try discriminate. cbn [bind]. intros H.
  destruct (forallb _ _ && _ && _) eqn:E; [|discriminate]. apply andb_prop in E. destruct E as [_ E]. apply Nat.eqb_eq in E. rewrite repeat_length in E.
  rewrite E, diag_vec, inner_scaled, inner_zeros in H. rewrite <- H. f_equal. f_equal. field.
Qed.
Lemma bind_mono {A B} (m : outcome A) (f g : A -> outcome B) z : bind m f = Ret z -> (forall y, f y = Ret z -> g y = Ret z) -> bind m g = Ret z.
Proof. intros E H. destruct m; try discriminate. apply H. exact E. Qed.
Lemma prox_good D r s rho t x : leaves (leaf_sized D) s -> leaves (leaf_inverse D) s -> leaves (leaf_jacobians D) s -> near D s t x -> good D (Geo s) x (prox_fx r s rho t) 1.
Proof.
  intros A B C N. split; [reflexivity|]. split; [apply diag_is_mat|]. split; [apply diag_sym|]. split; [apply repeat_length|]. split; [reflexivity|]. auto.
Qed.
Lemma prox_weights h r s rho t rho' : prox_inv h r s rho t -> exists h', set_prox_weights (K := RSc) h r rho' = Ret h' /\ prox_inv h' r s rho' t.
Proof.
  intros [(_ & p & gn & ca & E & MJ & MH & Ep & _) Fl]. unfold set_prox_weights. cbn [car RSc] in *. rewrite E. cbn [ub bind]. eexists. split; [reflexivity|].
  assert (N : Nat.eqb p r = false) by (apply Nat.eqb_neq; intros ->; rewrite E in Ep; discriminate). split.
  - split; [reflexivity|]. exists p, gn, ca. split; [|split; [exact MJ|]; split; [exact MH|]; split; [|exact I]].
    + rewrite nth_update, Nat.eqb_refl, E. cbn [option_map]. f_equal. f_equal.
      destruct (diag_is_mat rho (ndx s)) as [L F]. rewrite Forall_forall in F.
      cbn [car RSc] in *. rewrite L. unfold diag_mat. apply map_ext_in. intros i Hi. apply in_seq in Hi. fold (diag_mat rho (ndx s)).
      rewrite (F (nth i (diag_mat rho (ndx s)) [])) by (apply nth_In; rewrite L; lia). reflexivity.
    + rewrite nth_update, N. exact Ep.
  - unfold gn_flag in *. rewrite nth_update, Nat.eqb_refl, E in *. exact Fl.
Qed.
Lemma prox_target h r s rho t y : prox_inv h r s rho t -> exists h', update_target (K := RSc) h r y = Ret h' /\ prox_inv h' r s rho y.
Proof.
  intros [R Fl]. destruct (distance_target h r _ _ _ s t y R) as (h' & E & R'). exists h'. split; [exact E|]. split; [exact R'|].
  destruct R as (_ & p & gn & ca & Er & _ & _ & Ep & _). unfold update_target in E. cbn [car RSc] in *. rewrite Er in E. cbn [ub bind] in E. injection E as <-.
  unfold gn_flag in *. rewrite nth_update. destruct (Nat.eqb_spec r p) as [->|_]; [rewrite Er in Ep; discriminate|exact Fl].
Qed.
Lemma prox_sequence junk D s : leaves (leaf_sized D) s -> leaves (leaf_inverse D) s -> leaves (leaf_jacobians D) s ->
  forall ops h r rho t n, (4 <= n)%nat -> prox_inv h r s rho t -> prox_near D s t ops ->
  exists l h', prox_run (K := RSc) junk n h r ops = Ret (l, h') /\ prox_answers s rho t ops l.
Proof.
  intros LA LB LC. induction ops as [|o ops IH]; intros h r rho t n Hn Iv Nr; [exists [], h; split; [reflexivity|exact I]|].
  destruct o as [rho'|t'|x g H|x]; cbn [prox_run prox_near] in *.
  - destruct (prox_weights h r s rho t rho' Iv) as (h1 & E1 & Iv1). destruct (IH h1 r rho' t n Hn Iv1 Nr) as (l & h' & E & A). exists l, h'. split; [|destruct l; exact A].
    cbn [car RSc] in *. rewrite E1. exact E.
  - destruct (prox_target h r s rho t t' Iv) as (h1 & E1 & Iv1). destruct (IH h1 r rho t' n Hn Iv1 Nr) as (l & h' & E & A). exists l, h'. split; [|destruct l; exact A].
    cbn [car RSc] in *. rewrite E1. exact E.
  - destruct Nr as (Nx & Lg & MH & Nr). pose proof (prox_good D r s rho t x LA LB LC Nx) as G. destruct Iv as [R Fl].
    assert (Ht : (ht (prox_fx r s rho t) <= n)%nat) by (cbn; lia). assert (Cs : consistent (visits (prox_fx r s rho t) x)).
    { intros q a b Ia Ib. cbn [visits prox_fx app] in Ia, Ib. destruct (sem _ x); [|contradiction..]. destruct Ia as [Ea|[]]. destruct Ib as [Eb|[]]. congruence. }
    destruct (good_facts _ _ _ _ _ G) as (_ & _ & v & Sv & Lv).
    destruct (proj2 (eval_sem (prox_fx r s rho t)) n h r x v ltac:(lia) I R Sv) as (c & -> & Ec). destruct (after_call h r _ x R Cs) as [Wm R1].
    destruct (proj2 (jac_grad_sem junk (prox_fx r s rho t)) D (Geo s) x n _ r g I G ltac:(lia) R1 Wm Lg) as (g' & h2 & Eg & Sg & Lg' & Vg).
    assert (R2 : repr h2 r (prox_fx r s rho t)) by (eapply repr_skel; [apply sim_skel; exact Sg|exact R1]).
    assert (S12 : skel h h2) by (eapply sim_trans; [apply after_skel|apply sim_skel; exact Sg]).
    assert (Gn : gauss_newton h2 (prox_fx r s rho t)) by (left; rewrite (gn_flag_skel _ _ r S12); exact Fl).
    destruct (hess_sem junk (prox_fx r s rho t) D (Geo s) x n h2 r H Gn G ltac:(lia) R2 (warm_sim _ _ _ Sg Wm) MH) as (H' & h3 & EH & SH & MH' & VH).
    assert (S13 : skel h h3) by (eapply sim_trans; [exact S12|apply sim_skel; exact SH]).
    destruct (IH h3 r rho t n Hn (prox_inv_skel _ _ _ _ _ _ S13 (conj R Fl)) Nr) as (l & h' & E & A). exists (APass (K := RSc) c g' H' :: l), h'. split.
    { cbn [car RSc] in *. rewrite Ec. cbn [bind]. rewrite Eg. cbn [bind]. rewrite EH. cbn [bind]. rewrite E. reflexivity. }
    cbn [prox_answers]. split; [apply (prox_sem r); exact Sv|]. split; [exact Lg'|]. split; [exact MH'|]. split; [|split; [|exact A]].
    + intros w cv Lw P. eapply velocity_weaken; [exact (Vg w cv Lw P)|]. intros a z Ez _. exact (bind_mono _ _ _ _ Ez (fun y => prox_sem r s rho t y z)).
    + intros u w cu cw du dw Lu Lw Pu Pw Vu Vw. specialize (VH u w Lu Lw cu cw du dw Pu Pw Vu Vw). etransitivity; [exact VH|].
      assert (Ld : length dw = ndx s).
      { destruct (lem_inverse D s LA LB) as [_ Li]. destruct (Li t x Nx) as (y & Ey & Ty & _). destruct Vw as (k & e & He & Hk & Lk & _).
        specialize (Hk 0 ltac:(rewrite Rabs_R0; exact He)). rewrite (proj1 Pw) in Hk. cbn [bind] in Hk. rewrite Ey in Hk. injection Hk as ->. rewrite <- (Lk 0). eapply tangent_len; eassumption. }
      rewrite <- Ld, diag_vec. apply inner_scaled.
  - destruct Nr as (Nx & Nr). pose proof (prox_good D r s rho t x LA LB LC Nx) as G. destruct Iv as [R Fl].
    destruct (good_facts _ _ _ _ _ G) as (_ & _ & v & Sv & Lv).
    destruct (proj2 (eval_sem (prox_fx r s rho t)) n h r x v ltac:(cbn; lia) I R Sv) as (c & -> & Ec).
    destruct (IH _ r rho t n Hn (prox_inv_skel _ _ _ _ _ _ (after_skel (visits (prox_fx r s rho t) x) h) (conj R Fl)) Nr) as (l & h' & E & A).
    exists (ATrial (K := RSc) c :: l), h'. split; [cbn [car RSc] in *; rewrite Ec; cbn [bind]; rewrite E; reflexivity|]. split; [apply (prox_sem r); exact Sv|exact A].
Qed.
Lemma prox_constructed h s rho : is_normalized (K := RSc) s (neutral (K := RSc) s) = Ret true ->
  exists h' r, new_prox (K := RSc) h s rho = Ret (h', r) /\ prox_inv h' r s rho (neutral (K := RSc) s) /\ forall i o, nth_error h i = Some o -> nth_error h' i = Some o.
Proof.
  intros E. unfold new_prox, new_distance, new_diff. cbn [car RSc] in *. rewrite E. cbn [bind new].
  destruct (quad_new (h ++ [ODiff s (neutral (K := RSc) s)]) (length h) (XBase (ODiff s (neutral (K := RSc) s))) (mscale (K := RSc) rho (eye_scaled (K := RSc) 1 (ndx s))) (repeat 0 (ndx s)) 0) as (h' & r & Eq & Rq & _ & Gn & X).
  - split; [|exact I]. rewrite nth_error_app2, Nat.sub_diag by lia. reflexivity.
  - exists h', r. split; [exact Eq|]. split; [|intros i o Hi; apply X; rewrite nth_error_app1; [exact Hi|apply nth_error_Some; congruence]].
    split; [|exact Gn]. replace (prox_fx r s rho (neutral (K := RSc) s)) with (XQuad r (mscale (K := RSc) rho (eye_scaled (K := RSc) 1 (ndx s))) (repeat 0 (ndx s)) 0 (XBase (ODiff s (neutral (K := RSc) s)))); [exact Rq|].
    unfold prox_fx. f_equal. destruct (eye_identity 1 (ndx s)) as [[A B] C]. cbn [car RSc] in *. apply (mat_entries (ndx s) (ndx s)); [|apply diag_is_mat|].
    + unfold mscale. split; [rewrite map_length; exact A|]. apply Forall_map. eapply Forall_impl; [|exact B]. cbn. intros row Hr. unfold vscale. rewrite map_length. exact Hr.
    + intros i j Hi Hj. specialize (C i j Hi Hj). rewrite diag_nth, (proj2 (Nat.ltb_lt _ _) Hi), (proj2 (Nat.ltb_lt _ _) Hj). cbn [andb].
      unfold mscale, vscale. change [] with (map (fun a : R => rho * a) []). rewrite (map_nth (map (fun a => rho * a))).
      replace 0 with (rho * 0) at 1 by ring. rewrite (map_nth (fun a => rho * a)). etransitivity; [exact (f_equal (Rmult rho) C)|]. destruct (i =? j)%nat; ring.
Qed.
Lemma prox_all junk D s h rho : leaves (leaf_sized D) s -> leaves (leaf_inverse D) s -> leaves (leaf_jacobians D) s ->
  is_normalized (K := RSc) s (neutral (K := RSc) s) = Ret true ->
  exists h' r, new_prox (K := RSc) h s rho = Ret (h', r) /\ (forall i o, nth_error h i = Some o -> nth_error h' i = Some o) /\
    exists N, forall n ops, (N <= n)%nat -> prox_near D s (neutral (K := RSc) s) ops ->
      exists l h'', prox_run (K := RSc) junk n h' r ops = Ret (l, h'') /\ prox_answers s rho (neutral (K := RSc) s) ops l.
Proof.
  intros A B C E. destruct (prox_constructed h s rho E) as (h' & r & En & Iv & X). exists h', r. split; [exact En|]. split; [exact X|].
  exists 4%nat. intros n ops Hn Nr. exact (prox_sequence junk D s A B C ops h' r rho _ n Hn Iv Nr).
Qed.
Lemma prox_val junk D s h0 rho0 h r rho t x : leaves (leaf_sized D) s -> leaves (leaf_inverse D) s -> leaves (leaf_jacobians D) s ->
  is_normalized (K := RSc) s (neutral (K := RSc) s) = Ret true -> new_prox (K := RSc) h0 s rho0 = Ret (h, r) -> near D s t x ->
  forall n, (4 <= n)%nat -> penalty s rho t x = Ret [object_val junk n h r rho t x].
Proof.
  intros A B C E En N n Hn. destruct (prox_constructed h0 s rho0 E) as (h' & r' & En' & Iv & _). rewrite En in En'. injection En' as <- <-.
  destruct (prox_sequence junk D s A B C [XRho (K := RSc) rho; XTarget (K := RSc) t; XTrial (K := RSc) x] h r rho0 _ n Hn Iv (conj N I)) as (l & h'' & El & An).
  unfold object_val. cbn [car RSc] in *. rewrite El. destruct l as [|[v g H|v] l]; try contradiction. destruct An as [An Al]. destruct l as [|? ?]; [exact An|contradiction].
Qed.
Lemma prox_curve junk D s h0 rho0 h r rho t x dx curve : leaves (leaf_sized D) s -> leaves (leaf_inverse D) s -> leaves (leaf_jacobians D) s ->
  is_normalized (K := RSc) s (neutral (K := RSc) s) = Ret true -> new_prox (K := RSc) h0 s rho0 = Ret (h, r) ->
  length dx = ndx s -> curve 0 = x -> (forall a, integrate (K := RSc) s x (line dx a) = Ret (curve a)) -> (forall a, near D s t (curve a)) ->
  forall n, (4 <= n)%nat -> prox_along rho (object_val junk n h r rho t) (object_grad junk n (ndx s) h r rho t) x dx curve.
Proof.
  intros A B C E En Ld C0 Ci Nc n Hn. pose proof (fun a => prox_val junk D s h0 rho0 h r rho t (curve a) A B C E En (Nc a) n Hn) as V. split.
  - intros -> a. specialize (V a). unfold penalty in V. destruct (difference s t (curve a)); try discriminate. cbn [bind] in V. injection V as V. rewrite <- V. field.
  - intros _. destruct (prox_constructed h0 s rho0 E) as (h' & r' & En' & Iv & _). rewrite En in En'. injection En' as <- <-.
    assert (Nx : near D s t x) by (rewrite <- C0; apply Nc).
    destruct (prox_sequence junk D s A B C [XRho (K := RSc) rho; XTarget (K := RSc) t; XPass (K := RSc) x (repeat 0 (ndx s)) (repeat (repeat 0 (ndx s)) (ndx s))] h r rho0 _ n Hn Iv) as (l & h'' & El & An).
    { split; [exact Nx|]. split; [apply repeat_length|]. split; [apply zero_mat|exact I]. }
    unfold object_grad. cbn [car RSc] in *. rewrite El. destruct l as [|[v g H|v] l]; try contradiction. destruct An as (_ & Lg & _ & Vg & _ & An). destruct l as [|? ?]; [|contradiction].
    split; [exact (eq_trans Lg (eq_sym Ld))|]. assert (P : path (Geo s) x dx (fun a => Ret (curve a))).
    { split; [rewrite C0; reflexivity|]. split; [intros a; symmetry; apply Ci|]. exists 1. split; [lra|eauto]. }
    destruct (Vg dx _ Ld P) as (k & e & He & Hk & Lk & Dk). specialize (Dk 0%nat ltac:(cbn; lia)). cbn [nth] in Dk.
    apply (lim_local _ (fun a => nth 0 (k a) 0)); [|exact Dk]. exists e. split; [exact He|]. intros y Hy. rewrite Rminus_0_r in Hy. specialize (Hk y Hy). cbn [bind] in Hk.
    rewrite V in Hk. injection Hk as <-. reflexivity.
Qed.
