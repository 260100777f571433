(** Proofs for C90: the exact Hessian of a quadratic cost. *)
From Coq Require Import Reals List Arith Lia Lra.
From Verif Require Import Scalar Cset_spec Cset_proofs Problem_model Merit_proofs Manifold_model Manifold_spec Manifold_proofs ManifoldR_proofs
  Function_model Function_spec Function_proofs FunctionE_proofs FunctionJ_proofs FunctionH_proofs FunctionQ_proofs FunctionX_proofs Ctor_spec.
Import ListNotations.
Local Open Scope R_scope.

Lemma der_shift f t l : derivable_pt_lim (fun s => f (t + s)) 0 l <-> derivable_pt_lim f t l.
Proof.
  unfold derivable_pt_lim. split; intros H eps He; destruct (H eps He) as (d & Hd); exists d; intros h H1 H2; specialize (Hd h H1 H2); revert Hd;
    rewrite ?Rplus_0_l, ?Rplus_0_r; auto.
Qed.
(** Derivative of an inner product of curves at t. *)
Lemma der_inner_at f g f1 g1 t : (forall s, length (f s) = length f1) -> (forall s, length (g s) = length f1) -> length g1 = length f1 ->
  (forall i, (i < length f1)%nat -> derivable_pt_lim (fun s => nth i (f s) 0) t (nth i f1 0)) ->
  (forall i, (i < length f1)%nat -> derivable_pt_lim (fun s => nth i (g s) 0) t (nth i g1 0)) ->
  derivable_pt_lim (fun s => inner (f s) (g s)) t (inner f1 (g t) + inner (f t) g1).
Proof.
  intros Lf Lg L1 Hf Hg. apply der_shift.
  assert (E : inner f1 (g t) + inner (f t) g1 = inner f1 (g (t + 0)) + inner (f (t + 0)) g1) by (now rewrite Rplus_0_r).
  rewrite E. apply (der_inner f1 g1 (fun s => f (t + s)) (fun s => g (t + s))); [congruence| |].
  - split; [intros; apply Lf|]. intros i Hi. apply (der_shift (fun s => nth i (f s) 0)). auto.
  - split; [intros; rewrite L1; apply Lg|]. intros i Hi. apply (der_shift (fun s => nth i (g s) 0)). rewrite L1 in Hi. auto.
Qed.
Lemma der_mat_vec_at M n f f1 t : mat n n M -> (forall s, length (f s) = n) -> length f1 = n ->
  (forall i, (i < n)%nat -> derivable_pt_lim (fun s => nth i (f s) 0) t (nth i f1 0)) ->
  forall i, (i < n)%nat -> derivable_pt_lim (fun s => nth i (mat_vec M (f s)) 0) t (nth i (mat_vec M f1) 0).
Proof.
  intros [LM FM] Lf L1 H i Hi. rewrite nth_mat_vec.
  assert (Lr : length (nth i M []) = n) by (rewrite Forall_forall in FM; apply FM, nth_In; lia).
  apply (derivable_pt_lim_ext (fun s => inner (nth i M []) (f s))); [intros s; symmetry; apply nth_mat_vec|].
  replace (inner (nth i M []) f1) with (inner (map (fun _ => 0) f1) (f t) + inner (nth i M []) f1) by (rewrite inner_zero_r; ring).
  apply (der_inner_at (fun _ => nth i M []) f (map (fun _ => 0) f1) f1); intros; rewrite ?map_length in *; try congruence.
  - replace (nth i0 (map (fun _ : R => 0) f1) 0) with 0; [apply derivable_pt_lim_const|]. symmetry. exact (map_nth (fun _ : R => 0) f1 0 i0).
  - apply H. lia.
Qed.
(** The cost along a curve p with p' = p1 and p1'(0) = p2. *)
Lemma quad_second m W b c p p1 p2 eps : 0 < eps -> mat m m W -> symmetric W -> length b = m ->
  (forall t, length (p t) = m /\ length (p1 t) = m) -> length p2 = m ->
  (forall i t, (i < m)%nat -> Rabs t < eps -> derivable_pt_lim (fun t => nth i (p t) 0) t (nth i (p1 t) 0)) ->
  (forall i, (i < m)%nat -> derivable_pt_lim (fun t => nth i (p1 t) 0) 0 (nth i p2 0)) ->
  second (fun t => 1 / 2 * inner (p t) (mat_vec W (p t)) + inner b (p t) + c)
    (inner (map2 Rplus (mat_vec W (p 0)) b) p2 + inner (p1 0) (mat_vec W (p1 0))).
Proof.
  intros He MW SW Lb L L2 H1 H2. pose proof MW as [LW FW].
  assert (Lp : forall t, length (p t) = m) by (intros; apply L). assert (Lp1 : forall t, length (p1 t) = m) by (intros; apply L).
  assert (LM : forall v, length (mat_vec W v) = m) by (intros; rewrite mat_vec_len; exact LW).
  exists (fun t => inner (p1 t) (mat_vec W (p t)) + inner b (p1 t)), eps. split; [exact He|].
  assert (Z : forall (v : rvec) i, nth i (map (fun _ : R => 0) v) 0 = 0) by (intros v i; exact (map_nth (fun _ : R => 0) v 0 i)).
  assert (DB : forall q q1 t, (forall s, length (q s) = m) -> length q1 = m -> (forall i, (i < m)%nat -> derivable_pt_lim (fun s => nth i (q s) 0) t (nth i q1 0)) ->
    derivable_pt_lim (fun s => inner b (q s)) t (inner b q1)).
  { intros q q1 t Lq Lq1 Hq. replace (inner b q1) with (inner (map (fun _ => 0) b) (q t) + inner b q1) by (rewrite inner_zero_r; ring).
    apply (der_inner_at (fun _ => b) q (map (fun _ => 0) b) q1); intros; rewrite ?map_length in *; try congruence.
    - rewrite Z. apply derivable_pt_lim_const.
    - apply Hq. lia. }
  split.
  - intros t Ht.
    replace (inner (p1 t) (mat_vec W (p t)) + inner b (p1 t)) with (1 / 2 * (inner (p1 t) (mat_vec W (p t)) + inner (p t) (mat_vec W (p1 t))) + inner b (p1 t) + 0).
    2: { rewrite (sym_inner W m MW SW (p t) (p1 t)) by auto. lra. }
    apply (derivable_pt_lim_plus (fun t => 1 / 2 * inner (p t) (mat_vec W (p t)) + inner b (p t)) (fun _ => c)); [|apply derivable_pt_lim_const].
    apply (derivable_pt_lim_plus (fun t => 1 / 2 * inner (p t) (mat_vec W (p t))) (fun t => inner b (p t))).
    + apply (derivable_pt_lim_scal (fun t => inner (p t) (mat_vec W (p t))) (1 / 2)).
      apply (der_inner_at p (fun t => mat_vec W (p t)) (p1 t) (mat_vec W (p1 t))); intros; rewrite ?LM, ?Lp, ?Lp1; auto.
      * apply H1; [rewrite Lp1 in H; exact H|exact Ht].
      * apply (der_mat_vec_at W m p (p1 t)); auto. rewrite Lp1 in H; exact H.
    + apply (DB p (p1 t)); auto.
  - replace (inner (map2 Rplus (mat_vec W (p 0)) b) p2 + inner (p1 0) (mat_vec W (p1 0)))
      with ((inner p2 (mat_vec W (p 0)) + inner (p1 0) (mat_vec W (p1 0))) + inner b p2).
    2: { rewrite inner_add_l by (rewrite ?LM; congruence). rewrite (inner_comm (mat_vec W (p 0)) p2). ring. }
    apply (derivable_pt_lim_plus (fun t => inner (p1 t) (mat_vec W (p t))) (fun t => inner b (p1 t))).
    + apply (der_inner_at p1 (fun t => mat_vec W (p t)) p2 (mat_vec W (p1 0))); intros; rewrite ?LM, ?Lp, ?Lp1, ?L2; auto.
      * apply H2. congruence.
      * apply (der_mat_vec_at W m p (p1 0)); auto; [|congruence]. intros j Hj. apply H1; [exact Hj|rewrite Rabs_R0; exact He].
    + apply (DB p1 p2); auto.
Qed.
Lemma along_0 x : forall w, length w = length x -> along x w 0 = x.
Proof. unfold along. induction x as [|a x IH]; intros [|b w] L; cbn in *; try discriminate; [reflexivity|]. rewrite IH by lia. f_equal. ring. Qed.
Lemma second_scale f d a : second f d -> second (fun t => a * f t) (a * d).
Proof.
  intros (f1 & eps & He & H1 & H2). exists (fun t => a * f1 t), eps. split; [exact He|]. split.
  - intros t Ht. apply (derivable_pt_lim_scal f a). auto.
  - apply (derivable_pt_lim_scal f1 a). exact H2.
Qed.
Lemma second_ext f g d : (forall t, f t = g t) -> second f d -> second g d.
Proof.
  intros E (f1 & eps & He & H1 & H2). exists f1, eps. split; [exact He|]. split; [|exact H2]. intros t Ht. eapply derivable_pt_lim_ext; [exact E|auto].
Qed.

Lemma exact_hessian junk u n m x J H W b c h p r dx ca k old :
  nth_error h p = Some (OExt u) -> nth_error h r = Some (OQuad (K := RSc) dx n p W b c false ca) ->
  mat m n (c_J ca) -> mat n n (c_H ca) -> mat m m W -> symmetric W -> length b = m -> length x = n ->
  (forall o, mat m n o -> e_jac u x o = Some J) -> mat m n J ->
  (forall v o, length v = m -> mat n n o -> e_vhp u x v o = Some (H v)) -> (forall v, length v = m -> mat n n (H v)) ->
  exact_second u n m x J H -> mat n n old ->
  exists val h1, call (K := RSc) (S (S k)) h r x = Ret (val, h1) /\ exists Hc h2, hess (K := RSc) junk (S (S k)) h1 r x old = Ret (Hc, h2) /\ mat n n Hc /\
    forall a, exists Ha h3, vhp (K := RSc) junk (S (S (S k))) h1 r x [a] old = Ret (Ha, h3) /\ mat n n Ha /\
    forall w, length w = n -> exists f, f 0 = val /\
      (forall t, sem (XQuad r W b c (XBase (OExt u))) (along x w t) = Ret [f t]) /\
      second f (inner w (mat_vec Hc w)) /\ second (fun t => a * f t) (inner w (mat_vec Ha w)).
Proof.
  intros Ep Er MJc MHc MW SW Lb Lx EJ MJ EH MH EX Mo.
  assert (Lz : length (repeat 0 n) = n) by apply repeat_length.
  destruct (EX (repeat 0 n) Lz) as (q & q1 & q2 & eps & _ & Eq & Lq & _).
  pose proof (Eq 0) as E0. rewrite along_0 in E0 by (cbn [car RSc] in *; lia).
  assert (Le : length (q 0) = m) by apply Lq. revert E0 Le. generalize (q 0). clear q q1 q2 Eq Lq eps. intros e E0 Le.
  pose proof MW as [LW FW].
  assert (NE : p <> r) by (intros ->; rewrite Ep in Er; discriminate).
  assert (EV1 : mv (K := RSc) W e = Ret (mat_vec W e)) by (apply mv_ok; cbn [car RSc] in *; rewrite Le; exact FW).
  set (val := 1 / 2 * inner e (mat_vec W e) + inner e b + c).
  exists val, (update h r (set_err (K := RSc) e)).
  assert (C : call (K := RSc) (S (S k)) h r x = Ret (val, update h r (set_err (K := RSc) e))).
  { cbn [call]. rewrite Er. cbn [ub bind]. cbn [eval]. rewrite Ep. cbn [ub bind]. rewrite E0. cbn [user bind]. rewrite EV1. cbn [bind].
    rewrite (dot_ok e (mat_vec W e)) by (rewrite mat_vec_len; cbn [car RSc] in *; congruence). cbn [bind]. rewrite (dot_ok e b) by (cbn [car RSc] in *; congruence). cbn [bind]. reflexivity. }
  split; [exact C|].
  set (h1 := update h r (set_err (K := RSc) e)).
  assert (E1 : nth_error h1 r = Some (OQuad (K := RSc) dx n p W b c false (mkCache (K := RSc) e (c_J ca) (c_H ca)))).
  { unfold h1. rewrite nth_update, Nat.eqb_refl, Er. reflexivity. }
  assert (E2 : nth_error h1 p = Some (OExt u)).
  { unfold h1. rewrite nth_update. apply Nat.eqb_neq in NE. rewrite NE. exact Ep. }
  set (v := map2 Rplus (mat_vec W e) b).
  assert (Lv : length v = m) by (unfold v; rewrite map2_length, mat_vec_len; cbn [car RSc] in *; lia).
  destruct (mm_ok n m m (transp (K := RSc) n J) W (transp_mat m n J MJ) MW) as (P & EP & MP & VP & _).
  destruct (mm_ok n m n P J MP MJ) as (Q & EQ & MQ & VQ & _).
  assert (HH : exists h2, hess (K := RSc) junk (S (S k)) h1 r x old = Ret (map2 (map2 Rplus) (H v) Q, h2)).
  { cbn [hess]. rewrite E1. cbn [ub bind c_err c_J c_H]. rewrite EV1. cbn [bind]. 
    assert (EV2 : vop (K := RSc) Rplus (mat_vec W e) b = Ret v) by (apply vop_ok; rewrite mat_vec_len; cbn [car RSc] in *; congruence).
    match goal with |- context [vop (K := RSc) ?f ?a ?b] => replace (vop (K := RSc) f a b) with (Ret v) by (symmetry; exact EV2) end. cbn [bind]. cbn [vhp]. rewrite E2. cbn [ub bind]. rewrite (EH v (c_H ca) Lv MHc). cbn [user bind].
    rewrite (like_ok n n (c_H ca) (H v) MHc (MH v Lv)). cbn [bind]. rewrite (like_ok n n old (H v) Mo (MH v Lv)). cbn [bind].
    cbn [jac]. rewrite nth_update. apply Nat.eqb_neq in NE. rewrite NE, E2. cbn [ub bind].
    match goal with |- context [e_jac u x ?o] => set (zo := o); assert (Mz : mat m n zo) by exact (zero_mat m n _ MJc) end.
    rewrite (EJ zo Mz). cbn [user bind]. rewrite (like_ok m n zo J Mz MJ). cbn [bind]. cbn [car RSc] in *. rewrite LW, EP. cbn [bind]. rewrite EQ. cbn [bind].
    match goal with |- context [mop (K := RSc) ?f ?a ?b] => replace (mop (K := RSc) f a b) with (Ret (map2 (map2 Rplus) (H v) Q)) by (symmetry; exact (mop_ok Rplus n n (H v) Q (MH v Lv) MQ)) end. cbn [bind]. eexists. reflexivity. }
  destruct HH as (h2 & EHc). exists (map2 (map2 Rplus) (H v) Q), h2. split; [exact EHc|].
  assert (MHH : mat n n (map2 (map2 Rplus) (H v) Q)) by (apply map2_mat; auto). split; [exact MHH|].
  intros a. set (Ha := map (map (fun s => s * a)) (map2 (map2 Rplus) (H v) Q)). exists Ha, h2. split.
  { rewrite vhp_S, E1. cbn [ub bind]. rewrite EHc. reflexivity. }
  assert (SC : Ha = mscale (K := RSc) a (map2 (map2 Rplus) (H v) Q)).
  { unfold Ha, mscale, vscale. apply map_ext. intros row. apply map_ext. intros s. cbn. ring. }
  split; [rewrite SC; apply scale_mat, MHH|].
  intros w Lw. destruct (EX w Lw) as (q & q1 & q2 & eps & He & Eq & Lq & L2 & D1 & D2 & J1 & V2).
  assert (Q0 : q 0 = e). { specialize (Eq 0). rewrite along_0 in Eq by (cbn [car RSc] in *; lia). congruence. }
  exists (fun t => 1 / 2 * inner (q t) (mat_vec W (q t)) + inner b (q t) + c). split.
  { unfold val. rewrite Q0, (inner_comm b e). reflexivity. }
  split.
  { intros t. cbn [sem base_val]. rewrite Eq. cbn [user bind]. destruct (Lq t) as [Lt _].
    pose proof (proj2 (forallb_len (length (q t)) W)) as F. cbn [car RSc] in *. rewrite F by (rewrite Lt; exact FW).
    rewrite LW, Lt, Lb, !Nat.eqb_refl. reflexivity. }
  assert (S2 : second (fun t => 1 / 2 * inner (q t) (mat_vec W (q t)) + inner b (q t) + c) (inner w (mat_vec (map2 (map2 Rplus) (H v) Q) w))).
  { replace (inner w (mat_vec (map2 (map2 Rplus) (H v) Q) w)) with (inner (map2 Rplus (mat_vec W (q 0)) b) q2 + inner (q1 0) (mat_vec W (q1 0))).
    - apply (quad_second m W b c q q1 q2 eps); auto.
    - rewrite (mat_vec_plus n n) by auto. rewrite inner_add_r by (rewrite mat_vec_len; first [rewrite (proj1 (MH v Lv))|rewrite (proj1 MQ)]; congruence).
      rewrite Q0. fold v. rewrite (V2 v Lv). f_equal. rewrite J1, (VQ w Lw), VP by (rewrite mat_vec_len; apply MJ).
      rewrite (inner_comm w). symmetry. rewrite (inner_comm (mat_vec J w)). apply (transp_adjoint m n J); auto. rewrite mat_vec_len; auto. }
  split; [exact S2|]. rewrite SC, mat_vec_scale. rewrite inner_comm, inner_scale_l, inner_comm. apply second_scale, S2.
Qed.
