(** Evaluation followed by derivatives; Hessians of quadratic costs and their sums. *)
From Coq Require Import Reals List Arith Bool Lia Lra.
From Verif Require Import Scalar Cset_spec Cset_proofs Problem_model Merit_proofs Manifold_model Manifold_spec Manifold_proofs ManifoldR_proofs
  Function_model Function_spec Function_proofs FunctionE_proofs FunctionJ_proofs.
Import ListNotations.
Local Open Scope R_scope.

Lemma velocity_unique f u w : velocity f u -> velocity f w -> u = w.
Proof.
  intros (g & e & He & Hg & Lg & Dg) (g' & e' & He' & Hg' & Lg' & Dg').
  assert (E0 : forall t, Rabs t < Rmin e e' -> g t = g' t).
  { intros t Ht. assert (A : f t = Ret (g t)) by (apply Hg; eapply Rlt_le_trans; [exact Ht|apply Rmin_l]).
    assert (B : f t = Ret (g' t)) by (apply Hg'; eapply Rlt_le_trans; [exact Ht|apply Rmin_r]). congruence. }
  assert (P : 0 < Rmin e e') by (apply Rmin_glb_lt; assumption).
  assert (L : length u = length w). { rewrite <- (Lg 0), <- (Lg' 0). rewrite E0; [reflexivity|]. rewrite Rabs_R0. exact P. }
  apply (nth_ext u w 0 0); [exact L|]. intros i Hi. eapply uniqueness_limite; [apply Dg; exact Hi|].
  intros ep Hep. destruct (Dg' i ltac:(lia) ep Hep) as [d Hd].
  assert (Q : 0 < Rmin d (Rmin e e')) by (apply Rmin_glb_lt; [apply cond_pos|exact P]). exists (mkposreal _ Q). intros k Hk Hk'. cbn in Hk'.
  assert (H1 : Rabs k < d) by (eapply Rlt_le_trans; [exact Hk'|apply Rmin_l]).
  assert (H2 : Rabs k < Rmin e e') by (eapply Rlt_le_trans; [exact Hk'|apply Rmin_r]).
  rewrite (E0 (0 + k)) by (rewrite Rplus_0_l; exact H2). rewrite (E0 0) by (rewrite Rabs_R0; exact P). apply Hd; assumption.
Qed.

Lemma after_call h r e x : repr h r e -> consistent (visits e x) -> warm (after h (visits e x)) (visits e x) /\ repr (after h (visits e x)) r e.
Proof.
  intros R C. split; [|eapply repr_skel; [apply after_skel|exact R]]. apply after_warm; [exact C|]. intros q v I. eapply visits_quad; eassumption.
Qed.
(** State reached by an evaluation at x followed by any number of derivative computations. *)
Lemma call_grad junk D s h r e x n old : (ht e <= n)%nat -> is_cost e -> repr h r e -> good D (Geo s) x e 1 -> consistent (visits e x) -> length old = ndx s ->
  exists c h1 G h2, call n h r x = Ret (c, h1) /\ sem e x = Ret [c] /\ grad (K := RSc) junk n h1 r x old = Ret (G, h2) /\ length G = ndx s /\
    forall w g, length w = ndx s -> path (Geo s) x w g -> velocity (fun t => (do y <- g t; sem e y)%out) [inner G w].
Proof.
  intros Hn Ic R G C Lo. destruct (good_facts _ _ _ _ _ G) as (_ & _ & v & Sv & Lv).
  destruct (proj2 (eval_sem e) n h r x v ltac:(lia) Ic R Sv) as (c & -> & Ec). destruct (after_call h r e x R C) as [Wm R'].
  destruct (proj2 (jac_grad_sem junk e) D (Geo s) x n _ r old Ic G ltac:(lia) R' Wm Lo) as (gr & h2 & Eg & _ & Lg & V).
  exists c, (after h (visits e x)), gr, h2. auto.
Qed.
(** * Hessians *)
Lemma gauss_sum h dx dv cs : gauss_newton h (XSum dx dv cs) <-> Forall (fun p => gauss_newton h (snd p)) cs.
Proof.
  cbn. induction cs as [|[c f] cs IH]; [split; [constructor|exact (fun _ => I)]|]. rewrite IH. split.
  - intros [A B]. constructor; assumption.
  - intros H. inversion H; subst. auto.
Qed.
Fixpoint form_all k x (cs : list (R * fx)) u w a : Prop :=
  match cs with [] => a = 0 | (c, f) :: r => exists a1 a2, gn_form k x f u w a1 /\ form_all k x r u w a2 /\ a = c * a1 + a2 end.
Lemma form_sum k x dx dv cs u w a : gn_form k x (XSum dx dv cs) u w a <-> form_all k x cs u w a.
Proof.
  cbn. revert a. induction cs as [|[c f] cs IH]; intros a; [reflexivity|]. cbn. split; intros (a1 & a2 & A & B & C); exists a1, a2; (split; [exact A|]); (split; [apply IH; exact B|exact C]).
Qed.
Lemma gn_flag_skel h h' q : skel h h' -> gn_flag h' q = gn_flag h q.
Proof.
  intros S. specialize (S q). unfold gn_flag. destruct (nth_error h q) as [o|], (nth_error h' q) as [o'|]; try contradiction; try reflexivity.
  destruct S as [->|(dx & dv & p & W & s & c & gn & ca & ca' & -> & -> & _)]; reflexivity.
Qed.
Lemma gauss_skel h h' e : skel h h' -> gauss_newton h e -> gauss_newton h' e.
Proof.
  intros S. induction e as [o|f g IHf IHg|f IHf|dx dv cs IHc|q W b c f IHf] using fx_ind'; try tauto.
  - rewrite !gauss_sum. intros G. rewrite Forall_forall in *. auto.
  - cbn. rewrite (gn_flag_skel h h' q S). tauto.
Qed.
Lemma mop_ok f r c (A B : list rvec) : mat r c A -> mat r c B -> mop (K := RSc) f A B = Ret (map2 (map2 f) A B).
Proof. intros MA MB. unfold mop. rewrite (like_ok r c A B MA MB). reflexivity. Qed.
Lemma map2_mat f r c (A B : list rvec) : mat r c A -> mat r c B -> mat r c (map2 (map2 f) A B).
Proof.
  intros [LA FA] [LB FB]. split; [rewrite map2_length; lia|]. revert r B LA LB FB. induction A as [|a A IH]; intros r [|b B] LA LB FB; try constructor.
  - inversion FA; inversion FB; subst. rewrite map2_length. lia.
  - inversion FA; inversion FB; subst. cbn in *. eapply IH; try eassumption; [reflexivity|lia].
Qed.
Lemma mat_vec_plus r c (A B : list rvec) w : mat r c A -> mat r c B -> length w = c ->
  mat_vec (map2 (map2 Rplus) A B) w = map2 Rplus (mat_vec A w) (mat_vec B w).
Proof.
  intros [LA FA] [LB FB] Hw. revert r B LA LB FB. induction A as [|a A IH]; intros r [|b B] LA LB FB; cbn in *; try reflexivity.
  inversion FA; inversion FB; subst. f_equal; [apply inner_add_l; congruence|]. eapply IH; try eassumption; [reflexivity|lia].
Qed.
Lemma mat_vec_zero (Z : list rvec) w : mat_vec (map (map (fun _ => 0)) Z) w = map (fun _ => 0) (mat_vec Z w).
Proof. unfold mat_vec. rewrite !map_map. apply map_ext. intros row. apply inner_zero_r. Qed.
Lemma zero_mat r c (Z : list rvec) : mat r c Z -> mat r c (map (map (fun _ => 0)) Z).
Proof.
  intros [L F]. split; [now rewrite map_length|]. rewrite Forall_forall in *. intros row H. apply in_map_iff in H. destruct H as (z & <- & Hz). rewrite map_length. auto.
Qed.
Lemma scale_mat r c a (Z : list rvec) : mat r c Z -> mat r c (mscale (K := RSc) a Z).
Proof.
  intros [L F]. split; [unfold mscale; now rewrite map_length|]. rewrite Forall_forall in *. intros row H. apply in_map_iff in H. destruct H as (z & <- & Hz). unfold vscale. rewrite map_length. auto.
Qed.
Lemma mat_vec_scale a (Z : list rvec) w : mat_vec (mscale (K := RSc) a Z) w = map (fun q => a * q) (mat_vec Z w).
Proof. unfold mat_vec, mscale. rewrite !map_map. apply map_ext. intros row. apply inner_scale_l. Qed.
Lemma inner_add_r u v w : length v = length u -> length w = length u -> inner u (map2 Rplus v w) = inner u v + inner u w.
Proof. intros. rewrite !(inner_comm u). apply inner_add_l; assumption. Qed.

Section Hess.
  Variable junk : nat -> nat -> R.
  Definition hess_ok (e : fx) : Prop := forall D k x n h r old,
    gauss_newton h e -> good D k x e 1 -> (ht e <= S n)%nat -> repr h r e -> warm h (visits e x) -> mat (pk_dim k) (pk_dim k) old ->
    exists H h', hess (K := RSc) junk n h r x old = Ret (H, h') /\ sim h h' /\ mat (pk_dim k) (pk_dim k) H /\
      forall u w, length u = pk_dim k -> length w = pk_dim k -> gn_form k x e u w (inner u (mat_vec H w)).
  Lemma quad_hess q W b c f : hess_ok (XQuad q W b c f).
  Proof.
    intros D k x n h r old Gn (_ & MW & SW & Lb & G) Hn R Wm Mo. destruct n as [|n]; [cbn in Hn; lia|]. cbn [ht] in Hn.
    pose proof R as R0. destruct R as (-> & p & gn & ca & E & MJ & MH & Rf).
    destruct (good_facts _ _ _ _ _ G) as (Dk & _ & y & Sy & Ly). cbn [xdim fst snd] in E. fold (xndx f) in *. rewrite Dk in *.
    rewrite hess_S, E. cbn [ub bind].
    cbn [visits] in Wm. rewrite Sy in Wm. apply warm_app in Wm. destruct Wm as [Wf Wq].
    assert (Ey : c_err ca = y). { specialize (Wq q y (or_introl eq_refl)). unfold err_at in Wq. rewrite E in Wq. congruence. }
    rewrite Ey. rewrite mv_ok by (rewrite Ly; exact (proj2 MW)). cbn [bind].
    rewrite vop_ok by (rewrite mat_vec_len; exact (eq_trans (proj1 MW) (eq_sym Lb))). cbn [bind].
    assert (Z : exists Z h1, (if gn then Ret (map (map (fun _ => 0)) old, h)
                              else do (H, h1) <- vhp junk n h p x (map2 Rplus (mat_vec W y) b) (c_H ca);
                                   do out <- like (K := RSc) old H; Ret (out, update h1 q (set_H (K := RSc) H)))%out = Ret (map (map (fun _ => 0)) Z, h1) /\ mat (pk_dim k) (pk_dim k) Z /\ sim h h1).
    { unfold gauss_newton, gn_flag in Gn. rewrite E in Gn. destruct gn.
      - exists old, h. split; [reflexivity|]. split; [exact Mo|apply sim_refl].
      - destruct Gn as [Gn|[_ Df]]; [discriminate|]. exists (c_H ca), (update h q (set_H (K := RSc) (map (map (fun _ => 0)) (c_H ca)))).
        assert (EV : vhp (K := RSc) junk n h p x (map2 Rplus (mat_vec W y) b) (c_H ca) = Ret (map (map (fun _ => 0)) (c_H ca), h)).
        { destruct n as [|n]; [pose proof (ht_pos f); lia|]. destruct f as [o|f g| | |]; try contradiction.
          - destruct Rf as [Rf _]. rewrite vhp_S, Rf. cbn [ub bind]. destruct o; try contradiction; try reflexivity; destruct G.
          - destruct Rf as (l & p' & Rf & _). rewrite vhp_S, Rf. reflexivity. }
        cbn [car RSc] in *. rewrite EV. cbn [bind]. rewrite (like_ok (pk_dim k) (pk_dim k)) by (try assumption; apply zero_mat; assumption). cbn [bind].
        split; [reflexivity|]. split; [exact MH|]. eapply set_H_sim; [apply zero_mat; exact MH|]. intros o a0 a1 a2 a3 a4 a5 a6 a7 Eo ->.
        rewrite Eo in E. injection E as _ _ _ _ _ _ _ ->. exact MH. }
    destruct Z as (Z & h1 & EZ & MZ & S1). cbn [car RSc] in *. refine (eq_ind_r (fun o => exists H h', bind o _ = Ret (H, h') /\ _) _ EZ). cbn [bind].
    destruct (proj1 (jac_grad_sem junk f) D k x (xnr f) n h1 p (map (map (fun _ => 0)) (c_J ca))) as (J & h2 & EJ & S & MJ' & V); try assumption; [lia| | |apply zero_mat; exact MJ|].
    { eapply repr_skel; [apply sim_skel; exact S1|exact Rf]. } { eapply warm_sim; eassumption. }
    refine (eq_ind_r (fun o => exists H h', bind o _ = Ret (H, h') /\ _) _ EJ). cbn [bind]. pose proof (transp_mat _ _ _ MJ') as MT.
    destruct (mm_ok (pk_dim k) (xnr f) (xnr f) _ W MT MW) as (P & EP & MP & VP & _). rewrite (proj1 MW), EP. cbn [bind].
    destruct (mm_ok (pk_dim k) (xnr f) (pk_dim k) P J MP MJ') as (Q & EQ & MQ & VQ & _). rewrite EQ. cbn [bind].
    rewrite (mop_ok _ (pk_dim k) (pk_dim k)) by (try assumption; apply zero_mat; assumption). cbn [bind].
    eexists _, _. split; [reflexivity|]. split; [|split].
    - eapply sim_trans; [exact S1|]. eapply sim_trans; [exact S|]. eapply set_J_sim; [exact MJ'|]. intros o a0 a1 a2 a3 a4 a5 a6 a7 Eo ->.
      pose proof (repr_skel h h2 _ (sim_skel _ _ (sim_trans _ _ _ _ S1 S)) q R0) as (_ & p' & gn' & ca' & E' & M' & _). rewrite Eo in E'. injection E' as _ _ _ _ _ _ _ ->. rewrite Dk in M'. exact M'.
    - apply map2_mat; [apply zero_mat|]; assumption.
    - intros u w Lu Lw gu gw du dw Pu Pw Vu Vw.
      rewrite (velocity_unique _ _ _ Vu (V u gu Lu Pu)), (velocity_unique _ _ _ Vw (V w gw Lw Pw)).
      change (inner u (mat_vec (map2 (map2 Rplus) (map (map (fun _ : R => 0)) Z) Q) w) = inner (mat_vec J u) (mat_vec W (mat_vec J w))). rewrite (mat_vec_plus (pk_dim k) (pk_dim k)) by (try assumption; apply zero_mat; assumption).
      rewrite mat_vec_zero. rewrite inner_add_r by (rewrite ?map_length, mat_vec_len, Lu; first [exact (proj1 MZ)|exact (proj1 MQ)]).
      rewrite (inner_comm u (map _ _)), inner_zero_r. rewrite VQ by exact Lw. rewrite VP by (rewrite mat_vec_len; exact (proj1 MJ')).
      rewrite (inner_comm u). rewrite (transp_adjoint (xnr f) (pk_dim k)) by (try assumption; rewrite mat_vec_len; exact (proj1 MW)).
      rewrite (inner_comm (mat_vec W _)). lra.
  Qed.
  Lemma sum_hess' dx dv cs : Forall (fun p => hess_ok (snd p)) cs -> hess_ok (XSum dx dv cs).
  Proof.
    intros IHc D k x n h r old Gn G Hn R Wm Mo. rewrite ht_sum in Hn. destruct n as [|n]; [lia|].
    apply gauss_sum in Gn. apply good_sum in G. destruct G as (_ & -> & G). apply repr_sum in R. destruct R as (rs & ws & E & Rs). rewrite visits_sum in Wm.
    rewrite hess_S, E. cbn [ub bind]. set (dv := pk_dim k) in *.
    assert (L : forall rs ws h acc, Forall (fun p => gauss_newton h (snd p)) cs -> good_all D k x cs -> (ht_all cs <= S n)%nat -> repr_all h rs ws cs -> warm h (visits_all cs x) -> mat dv dv acc ->
      exists H h', sum_hess (K := RSc) (fun h c x => (do (_, dv, _) <- dims_at h c; hess junk n h c x (alloc junk dv dv))%out) x rs ws acc h = Ret (H, h') /\
        sim h h' /\ mat dv dv H /\
        forall u w, length u = dv -> length w = dv -> exists a, form_all k x cs u w a /\ inner u (mat_vec H w) = inner u (mat_vec acc w) + a).
    { clear - IHc. induction IHc as [|[a f] cs Hf _ IH]; intros [|p rs] [|w ws] h acc Gn G Hn Rs Wm La; try contradiction.
      - exists acc, h. cbn [sum_hess]. split; [reflexivity|]. split; [apply sim_refl|]. split; [exact La|]. intros u w _ _. exists 0. split; [reflexivity|ring].
      - destruct Rs as (-> & Ic & Rf & Rs). destruct G as (_ & Gf & G). cbn [ht_all visits_all] in *. apply warm_app in Wm. destruct Wm as [Wf Wm].
        inversion Gn as [|? ? Gn1 Gn2]; subst. cbn [snd] in *. destruct (good_facts _ _ _ _ _ Gf) as (Df & _ & _). pose proof (xdim_eta f) as Xf. rewrite Df in Xf. fold dv in Xf.
        destruct (Hf D k x n h p (alloc junk dv dv)) as (H1 & h1 & E1 & S1 & M1 & V1); try assumption; [lia|apply alloc_mat|].
        assert (M1' : mat dv dv (mscale (K := RSc) a H1)) by (apply scale_mat; exact M1).
        destruct (IH rs ws h1 (map2 (map2 Rplus) acc (mscale (K := RSc) a H1))) as (H2 & h2 & E2 & S2 & M2 & V2); try assumption; [|lia| | | |].
        { eapply Forall_impl; [|exact Gn2]. intros z. apply gauss_skel, sim_skel. exact S1. }
        { eapply repr_all_skel; [apply sim_skel; exact S1|exact Rs]. } { eapply warm_sim; eassumption. } { apply map2_mat; assumption. }
        exists H2, h2. split; [|split; [exact (sim_trans _ _ _ _ S1 S2)|split; [exact M2|]]].
        + cbn [sum_hess]. rewrite (dims_repr _ _ _ Rf), Xf. cbn [bind]. cbn [car RSc] in *. rewrite E1. cbn [bind].
          rewrite (mop_ok _ dv dv) by assumption. cbn [bind]. exact E2.
        + intros u w Lu Lw. destruct (V2 u w Lu Lw) as (a2 & F2 & E2'). exists (a * inner u (mat_vec H1 w) + a2). split.
          * exists (inner u (mat_vec H1 w)), a2. auto.
          * rewrite E2'. rewrite (mat_vec_plus dv dv) by assumption. rewrite inner_add_r by (rewrite mat_vec_len, Lu; first [exact (proj1 La)|exact (proj1 M1')]).
            rewrite mat_vec_scale, (inner_comm u (map _ _)), inner_scale_l, (inner_comm u (mat_vec H1 w)). ring. }
    destruct (L rs ws h (map (map (fun _ => 0)) old)) as (H & h' & EH & S & MH & V); try assumption; [lia|apply zero_mat; exact Mo|].
    exists H, h'. split; [exact EH|]. split; [exact S|]. split; [exact MH|]. intros u w Lu Lw. apply form_sum.
    destruct (V u w Lu Lw) as (a & Fa & Ea). rewrite Ea, mat_vec_zero, (inner_comm u (map _ _)), inner_zero_r. replace (0 + a) with a by ring. exact Fa.
  Qed.
  Lemma hess_sem e : hess_ok e.
  Proof.
    induction e as [o|f g IHf IHg|f IHf|dx dv cs IHc|q W b c f IHf] using fx_ind'.
    - intros ? ? ? ? ? ? ? [].
    - intros ? ? ? ? ? ? ? [].
    - intros ? ? ? ? ? ? ? [].
    - apply sum_hess'. exact IHc.
    - apply quad_hess.
  Qed.
  Lemma call_hess D s h r e x n old : (ht e <= n)%nat -> gauss_newton h e -> repr h r e -> good D (Geo s) x e 1 -> consistent (visits e x) -> mat (ndx s) (ndx s) old ->
    exists c h1 H h2, call n h r x = Ret (c, h1) /\ hess (K := RSc) junk n h1 r x old = Ret (H, h2) /\ mat (ndx s) (ndx s) H /\
      forall u w, length u = ndx s -> length w = ndx s -> gn_form (Geo s) x e u w (inner u (mat_vec H w)).
  Proof.
    intros Hn Gn R G C Lo. destruct (good_facts _ _ _ _ _ G) as (_ & _ & v & Sv & Lv).
    assert (Ic : is_cost e) by (destruct e; try contradiction; exact I).
    destruct (proj2 (eval_sem e) n h r x v ltac:(lia) Ic R Sv) as (c & -> & Ec). destruct (after_call h r e x R C) as [Wm R'].
    destruct (hess_sem e D (Geo s) x n (after h (visits e x)) r old) as (H & h2 & EH & _ & MH & V); try assumption; [|lia|].
    { eapply gauss_skel; [apply after_skel|exact Gn]. }
    exists c, (after h (visits e x)), H, h2. auto.
  Qed.
End Hess.
(** The form is non-negative when the weights are. *)
Lemma form_nonneg D k x e : forall dr h r u a, weights_nonneg e -> good D k x e dr -> repr h r e -> warm h (visits e x) ->
  (exists g, path k x u g) -> length u = pk_dim k -> gn_form k x e u u a -> 0 <= a.
Proof.
  induction e as [o|f g IHf IHg|f IHf|dx dv cs IHc|q W b c f IHf] using fx_ind'; intros dr h r u a Wn G R Wm P Lu F; try contradiction.
  - apply form_sum in F. apply good_sum in G. destruct G as (_ & _ & G). apply repr_sum in R. destruct R as (rs & ws & _ & R). rewrite visits_sum in Wm. revert a rs ws R F. cbn in Wn.
    induction IHc as [|[c f] cs Hf _ IH]; intros a [|p rs] [|w ws] R F; try contradiction; [cbn in F; subst; lra|].
    destruct R as (_ & _ & Rf & Rs). cbn [visits_all] in Wm. apply warm_app in Wm. destruct Wm as [Wf Wm].
    destruct F as (a1 & a2 & F1 & F2 & ->). destruct Wn as (Hc & Wf' & Wn). destruct G as (_ & Gf & G).
    specialize (IH Wn G Wm a2 rs ws Rs F2). specialize (Hf 1%nat h p u a1 Wf' Gf Rf Wf P Lu F1). pose proof (Rmult_le_pos _ _ Hc Hf). lra.
  - destruct P as [gu P]. destruct G as (_ & MW & _ & _ & G). destruct R as (-> & p & gn & ca & _ & MJ & _ & Rf).
    cbn [visits] in Wm. apply warm_app in Wm. destruct Wm as [Wf _]. destruct (good_facts _ _ _ _ _ G) as (Dk & _ & _). rewrite Dk in MJ.
    destruct (proj1 (jac_grad_sem (fun _ _ => 0) f) D k x (xnr f) (ht f) h p (c_J ca) G (le_n _) Rf Wf MJ) as (J & h' & _ & _ & MJ' & V).
    cbn [gn_form] in F. rewrite (F gu gu _ _ P P (V u gu Lu P) (V u gu Lu P)). apply Wn. rewrite mat_vec_len. exact (proj1 MJ').
Qed.
