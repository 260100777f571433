(** Packaged statements and counterexamples. *)
From Coq Require Import Reals List Arith Bool Lia Lra.
From Verif Require Import Scalar Cset_spec Cset_proofs Problem_model Merit_proofs Manifold_model Manifold_spec Manifold_proofs ManifoldR_proofs
  Function_model Function_spec Function_proofs FunctionE_proofs FunctionJ_proofs FunctionH_proofs FunctionQ_proofs FunctionB_proofs FunctionD_proofs.
Import ListNotations.
Local Open Scope R_scope.

Lemma value e h r x v : is_cost e -> repr h r e -> sem e x = Ret [v] ->
  exists N, forall n, (N <= n)%nat -> exists h', call (K := RSc) n h r x = Ret (v, h').
Proof.
  intros Ic R E. exists (ht e). intros n Hn. destruct (proj2 (eval_sem e) n h r x [v] ltac:(lia) Ic R E) as (c & Q & C). injection Q as <-. eauto.
Qed.
Lemma value_eval e h r x v : repr h r e -> sem e x = Ret v -> exists N, forall n, (N <= n)%nat -> exists h', eval (K := RSc) n h r x = Ret (v, h').
Proof. intros R E. exists (ht e). intros n Hn. rewrite (proj1 (eval_sem e) n h r x v Hn R E). eauto. Qed.

(** Sums of existing costs: cs lists weights and values. *)
Lemma sum_value h r dx dv cs x vs : repr h r (XSum dx dv cs) -> Forall2 (fun p v => sem (snd p) x = Ret [v]) cs vs ->
  exists N, forall n, (N <= n)%nat -> exists h', call (K := RSc) n h r x = Ret (inner (map fst cs) vs, h').
Proof.
  intros R F. apply (value (XSum dx dv cs)); [exact I|exact R|]. apply sem_sum_val. clear R.
  induction F as [|[c f] v cs vs Hf F IH]; [reflexivity|]. cbn [sum_val snd fst map inner] in *. rewrite Hf. cbn [bind]. rewrite IH. reflexivity.
Qed.
Lemma expression (env : nat -> option fx) h0 a b e : (forall r f, env r = Some f -> repr h0 r f) -> typed env a b e ->
  exists h r, build h0 e = Ret (h, r) /\ (forall i o, nth_error h0 i = Some o -> nth_error h i = Some o) /\
    exists t, repr h r t /\ is_cost t /\ xdim t = (a, b, 1%nat) /\
    forall x v, (forall r f, env r = Some f -> sem f x = Ret [v r]) -> sem t x = Ret [meaning v e] /\
      exists N, forall n, (N <= n)%nat -> exists h', call (K := RSc) n h r x = Ret (meaning v e, h').
Proof.
  intros He T. destruct (build_ok env h0 a b He e T h0 (fun i o E => E) (le_n _)) as (h & r & t & B & X & _ & _ & _ & Ic & D & _ & P & V).
  exists h, r. split; [exact B|]. split; [exact X|]. pose proof (built_repr h0 h0 h r t P) as Rt.
  exists t. split; [exact Rt|]. split; [exact Ic|]. split; [exact D|]. intros x v Hv. split; [apply V; exact Hv|]. apply (value t); [exact Ic|exact Rt|apply V; exact Hv].
Qed.

(** ** Derivatives after an evaluation *)
Lemma requests_sim junk D s n e h r x both h' : (both = true -> gauss_newton h e) -> (ht e <= n)%nat -> is_cost e -> repr h r e -> good D (Geo s) x e 1 -> warm h (visits e x) ->
  requests junk n (ndx s) both r x h h' -> sim h h'.
Proof.
  intros Gn Hn Ic R G Wm Q. induction Q as [h|h old Gr h1 h2 Lo E Q IH|h old H h1 h2 B Mo E Q IH].
  - apply sim_refl.
  - destruct (proj2 (jac_grad_sem junk e) D (Geo s) x n h r old Ic G ltac:(lia) R Wm Lo) as (gr & h' & E' & S' & _).
    cbn [car RSc] in *. rewrite E in E'. injection E' as <- <-. apply (sim_trans _ _ _ _ S'). apply IH.
    + intros Hb. eapply gauss_skel; [apply sim_skel; exact S'|auto].
    + eapply repr_skel; [apply sim_skel; exact S'|exact R].
    + eapply warm_sim; eassumption.
  - destruct (hess_sem junk e D (Geo s) x n h r old) as (Hs & h' & E' & S' & _); try assumption; [auto|lia|].
    cbn [car RSc] in *. rewrite E in E'. injection E' as <- <-. apply (sim_trans _ _ _ _ S'). apply IH.
    + intros Hb. eapply gauss_skel; [apply sim_skel; exact S'|auto].
    + eapply repr_skel; [apply sim_skel; exact S'|exact R].
    + eapply warm_sim; eassumption.
Qed.
Lemma derivatives junk D s h r e x both : (both = true -> gauss_newton h e) -> is_cost e -> repr h r e -> good D (Geo s) x e 1 -> consistent (visits e x) ->
  exists N, forall n, (N <= n)%nat -> exists c h1, call (K := RSc) n h r x = Ret (c, h1) /\ sem e x = Ret [c] /\
    forall h2, requests junk n (ndx s) both r x h1 h2 ->
      (forall old, length old = ndx s -> exists G h3, grad (K := RSc) junk n h2 r x old = Ret (G, h3) /\ length G = ndx s /\
         forall w g, length w = ndx s -> path (Geo s) x w g -> velocity (fun t => (do y <- g t; sem e y)%out) [inner G w]) /\
      (both = true -> forall old, mat (ndx s) (ndx s) old -> exists H h3, hess (K := RSc) junk n h2 r x old = Ret (H, h3) /\ mat (ndx s) (ndx s) H /\
         forall u w, length u = ndx s -> length w = ndx s -> gn_form (Geo s) x e u w (inner u (mat_vec H w))).
Proof.
  intros Gn Ic R G C. exists (ht e). intros n Hn. destruct (good_facts _ _ _ _ _ G) as (_ & _ & v & Sv & Lv).
  destruct (proj2 (eval_sem e) n h r x v ltac:(lia) Ic R Sv) as (c & -> & Ec). destruct (after_call h r e x R C) as [Wm R'].
  exists c, (after h (visits e x)). split; [exact Ec|]. split; [exact Sv|]. intros h2 Q.
  assert (Gn' : both = true -> gauss_newton (after h (visits e x)) e). { intros Hb. eapply gauss_skel; [apply after_skel|auto]. }
  pose proof (requests_sim junk D s n e _ r x both h2 Gn' Hn Ic R' G Wm Q) as Sm.
  assert (R2 : repr h2 r e) by (eapply repr_skel; [apply sim_skel; exact Sm|exact R']).
  assert (W2 : warm h2 (visits e x)) by (eapply warm_sim; eassumption). split.
  - intros old Lo. destruct (proj2 (jac_grad_sem junk e) D (Geo s) x n h2 r old Ic G ltac:(lia) R2 W2 Lo) as (gr & h3 & Eg & _ & Lg & V). exists gr, h3. auto.
  - intros Hb old Mo. destruct (hess_sem junk e D (Geo s) x n h2 r old) as (H & h3 & EH & _ & MH & V); try assumption; [|lia|].
    + eapply gauss_skel; [apply sim_skel; exact Sm|auto].
    + exists H, h3. auto.
Qed.
(** Jacobian of any function after an evaluation. *)
Lemma jacobian junk D s h r e x dr : repr h r e -> good D (Geo s) x e dr -> consistent (visits e x) ->
  exists N, forall n, (N <= n)%nat -> exists v h1, eval (K := RSc) n h r x = Ret (v, h1) /\ sem e x = Ret v /\
    forall old, mat dr (ndx s) old -> exists J h2, jac (K := RSc) junk n h1 r x old = Ret (J, h2) /\ mat dr (ndx s) J /\
      forall w g, length w = ndx s -> path (Geo s) x w g -> velocity (fun t => (do y <- g t; sem e y)%out) (mat_vec J w).
Proof.
  intros R G C. exists (ht e). intros n Hn. destruct (good_facts _ _ _ _ _ G) as (_ & _ & v & Sv & Lv).
  destruct (after_call h r e x R C) as [Wm R']. exists v, (after h (visits e x)). split; [apply (proj1 (eval_sem e)); assumption|]. split; [exact Sv|].
  intros old Mo. destruct (proj1 (jac_grad_sem junk e) D (Geo s) x dr n _ r old G Hn R' Wm Mo) as (J & h2 & EJ & _ & MJ & V). exists J, h2. auto.
Qed.

(** ** Linearity of the gradient *)
Lemma velocity_add f1 f2 f a b c : velocity f1 [a] -> velocity f2 [b] ->
  (forall t p q, f1 t = Ret [p] -> f2 t = Ret [q] -> f t = Ret [c * p + q]) -> velocity f [c * a + b].
Proof.
  intros (g1 & e1 & P1 & F1 & L1 & D1) (g2 & e2 & P2 & F2 & L2 & D2) H.
  exists (fun t => [c * nth 0 (g1 t) 0 + nth 0 (g2 t) 0]), (Rmin e1 e2). split; [now apply Rmin_glb_lt|]. split; [|split; [reflexivity|]].
  - intros t Ht. apply H.
    + rewrite F1 by (eapply Rlt_le_trans; [exact Ht|apply Rmin_l]). specialize (L1 t). destruct (g1 t) as [|p [|? ?]]; try discriminate. reflexivity.
    + rewrite F2 by (eapply Rlt_le_trans; [exact Ht|apply Rmin_r]). specialize (L2 t). destruct (g2 t) as [|p [|? ?]]; try discriminate. reflexivity.
  - intros [|i] Hi; [|cbn in Hi; lia]. cbn [nth]. specialize (D1 0%nat ltac:(cbn; lia)). specialize (D2 0%nat ltac:(cbn; lia)). cbn [nth] in D1, D2.
    apply (derivable_pt_lim_plus (fun t => c * nth 0 (g1 t) 0) (fun t => nth 0 (g2 t) 0)); [|exact D2]. apply (derivable_pt_lim_scal (fun t => nth 0 (g1 t) 0) c); exact D1.
Qed.
Lemma sum_velocity k x w g cs ds : path k x w g -> Forall2 (fun p d => velocity (fun t => (do y <- g t; sem (snd p) y)%out) [d]) cs ds ->
  velocity (fun t => (do y <- g t; (do v <- sum_val cs y; Ret [v]))%out) [inner (map fst cs) ds].
Proof.
  intros P F. induction F as [|[c f] d cs ds Hf F IH].
  - destruct (path_defined _ _ _ _ P) as (e & He & Hd). exists (fun _ => [0]), e. split; [exact He|]. split; [|split; [reflexivity|]].
    + intros t Ht. destruct (Hd t Ht) as (y & ->). reflexivity.
    + intros [|i] Hi; [|cbn in Hi; lia]. cbn. apply (derivable_pt_lim_const 0).
  - cbn [map fst snd inner] in *. eapply velocity_add; [exact Hf|exact IH|]. intros t p q E1 E2. cbv beta in *.
    destruct (g t) as [y| | |]; try discriminate. cbn [bind sum_val] in *. rewrite E1. cbn [bind]. destruct (sum_val cs y) as [z| | |]; try discriminate. injection E2 as ->. reflexivity.
Qed.
Lemma sum_gradient junk D s h r dx dv cs x : repr h r (XSum dx dv cs) -> good D (Geo s) x (XSum dx dv cs) 1 -> consistent (visits (XSum dx dv cs) x) ->
  exists N, forall n, (N <= n)%nat -> exists c h1, call (K := RSc) n h r x = Ret (c, h1) /\
    forall old, length old = ndx s -> exists G h2, grad (K := RSc) junk n h1 r x old = Ret (G, h2) /\
      forall w g ds, length w = ndx s -> path (Geo s) x w g ->
        Forall2 (fun p d => velocity (fun t => (do y <- g t; sem (snd p) y)%out) [d]) cs ds -> inner G w = inner (map fst cs) ds.
Proof.
  intros R G C. destruct (derivatives junk D s h r (XSum dx dv cs) x false ltac:(discriminate) I R G C) as (N & H). exists N. intros n Hn.
  destruct (H n Hn) as (c & h1 & Ec & _ & Q). exists c, h1. split; [exact Ec|]. intros old Lo. destruct (proj1 (Q h1 (rq_none _ _ _ _ _ _ _)) old Lo) as (Gr & h2 & Eg & _ & V).
  exists Gr, h2. split; [exact Eg|]. intros w g ds Lw P F. pose proof (V w g Lw P) as V1. pose proof (sum_velocity _ _ _ _ _ _ P F) as V2.
  assert (E : [inner Gr w] = [inner (map fst cs) ds]); [|injection E; auto].
  eapply velocity_unique; [exact V1|]. eapply velocity_ext; [|exact V2]. intros t. cbv beta. destruct (g t) as [y| | |]; cbn [bind]; try reflexivity. symmetry. apply sem_sum.
Qed.

(** ** Symmetry and sign of the Gauss-Newton Hessian *)
Lemma form_swap D k x e : forall dr u w a, good D k x e dr -> length u = pk_dim k -> length w = pk_dim k -> gn_form k x e u w a -> gn_form k x e w u a.
Proof.
  induction e as [o|f g IHf IHg|f IHf|dx dv cs IHc|q W b c f IHf] using fx_ind'; intros dr u w a G Lu Lw F; try contradiction.
  - apply form_sum in F. apply good_sum in G. destruct G as (_ & _ & G). apply form_sum. revert a F.
    induction IHc as [|[c f] cs Hf _ IH]; intros a F; [exact F|]. destruct F as (a1 & a2 & F1 & F2 & ->). destruct G as (_ & Gf & G).
    exists a1, a2. split; [eapply Hf; eassumption|]. split; [apply IH; assumption|reflexivity].
  - destruct G as (_ & [W1 W2] & Sy & _ & G). cbn [gn_form] in *. intros gw gu dw du Pw Pu Vw Vu. rewrite (F gu gw du dw Pu Pw Vu Vw).
    assert (Ln : forall (v dv : rvec) (gv : R -> outcome rvec), path k x v gv -> velocity (fun t => (do y <- gv t; sem f y)%out) dv -> length dv = xnr f).
    { intros v dv gv Pv Vv. destruct (good_facts _ _ _ _ _ G) as (_ & _ & y & Sy' & Ly). destruct Vv as (h & e & He & Hh & Lh & _).
      specialize (Hh 0 ltac:(rewrite Rabs_R0; exact He)). rewrite (proj1 Pv) in Hh. cbn [bind] in Hh. rewrite Sy' in Hh. injection Hh as ->. rewrite <- (Lh 0). exact Ly. }
    pose proof (Ln _ _ _ Pu Vu) as L1. pose proof (Ln _ _ _ Pw Vw) as L2. apply (sym_inner W (xnr f)); try assumption. split; assumption.
Qed.
Lemma has_velocity D k x f : forall dr h r u g, good D k x f dr -> repr h r f -> warm h (visits f x) -> mat dr (pk_dim k) (zeros (K := RSc) dr (pk_dim k)) ->
  path k x u g -> length u = pk_dim k -> exists d, velocity (fun t => (do y <- g t; sem f y)%out) d.
Proof.
  intros dr h r u g G R Wm Mz P Lu. destruct (proj1 (jac_grad_sem (fun _ _ => 0) f) D k x dr (ht f) h r _ G (le_n _) R Wm Mz) as (J & h' & _ & _ & _ & V). eauto.
Qed.
Lemma form_unique D k x e : forall dr h r u w a b, good D k x e dr -> repr h r e -> warm h (visits e x) ->
  (exists g, path k x u g) -> (exists g, path k x w g) -> length u = pk_dim k -> length w = pk_dim k -> gn_form k x e u w a -> gn_form k x e u w b -> a = b.
Proof.
  induction e as [o|f g IHf IHg|f IHf|dx dv cs IHc|q W s c f IHf] using fx_ind'; intros dr h r u w a b G R Wm P1 P2 Lu Lw F1 F2; try contradiction.
  - apply form_sum in F1. apply form_sum in F2. apply good_sum in G. destruct G as (_ & _ & G). apply repr_sum in R. destruct R as (rs & ws & _ & R). rewrite visits_sum in Wm.
    revert a b rs ws R F1 F2. induction IHc as [|[c f] cs Hf _ IH]; intros a b [|p rs] [|z ws] R F1 F2; try contradiction; [cbn in F1, F2; congruence|].
    destruct R as (_ & _ & Rf & Rs). cbn [visits_all] in Wm. apply warm_app in Wm. destruct Wm as [Wf Wm].
    destruct F1 as (a1 & a2 & A1 & A2 & ->). destruct F2 as (b1 & b2 & B1 & B2 & ->). destruct G as (_ & Gf & G).
    rewrite (Hf 1%nat h p u w a1 b1 Gf Rf Wf P1 P2 Lu Lw A1 B1), (IH G Wm a2 b2 rs ws Rs A2 B2). reflexivity.
  - destruct P1 as [gu Pu]. destruct P2 as [gw Pw]. destruct G as (_ & _ & _ & _ & G). destruct R as (-> & p & gn & ca & _ & _ & _ & Rf).
    cbn [visits] in Wm. apply warm_app in Wm. destruct Wm as [Wf _].
    destruct (has_velocity D k x f (xnr f) h p u gu G Rf Wf (zeros_mat _ _) Pu Lu) as (du & Vu). destruct (has_velocity D k x f (xnr f) h p w gw G Rf Wf (zeros_mat _ _) Pw Lw) as (dw & Vw).
    cbn [gn_form] in F1, F2. rewrite (F1 gu gw du dw Pu Pw Vu Vw). symmetry. exact (F2 gu gw du dw Pu Pw Vu Vw).
Qed.
Lemma gn_hessian junk D s h r e x : gauss_newton h e -> is_cost e -> repr h r e -> good D (Geo s) x e 1 -> consistent (visits e x) ->
  (forall w, length w = ndx s -> exists g, path (Geo s) x w g) ->
  exists N, forall n, (N <= n)%nat -> exists c h1, call (K := RSc) n h r x = Ret (c, h1) /\
    forall old, mat (ndx s) (ndx s) old -> exists H h2, hess (K := RSc) junk n h1 r x old = Ret (H, h2) /\ mat (ndx s) (ndx s) H /\
      (forall u w, length u = ndx s -> length w = ndx s -> inner u (mat_vec H w) = inner w (mat_vec H u)) /\
      (weights_nonneg e -> forall u, length u = ndx s -> 0 <= inner u (mat_vec H u)).
Proof.
  intros Gn Ic R G C Px. destruct (derivatives junk D s h r e x true (fun _ => Gn) Ic R G C) as (N & Hd). exists (max N (ht e)). intros n Hn.
  destruct (Hd n ltac:(lia)) as (c & h1 & Ec & Sc & Q). exists c, h1. split; [exact Ec|]. intros old Mo.
  destruct (proj2 (Q h1 (rq_none _ _ _ _ _ _ _)) eq_refl old Mo) as (H & h2 & EH & MH & F). exists H, h2. split; [exact EH|]. split; [exact MH|].
  destruct (after_call h r e x R C) as [Wm R']. split.
  - intros u w Lu Lw. apply (form_unique D (Geo s) x e 1%nat (after h (visits e x)) r u w); auto. apply (form_swap D (Geo s) x e 1%nat); auto.
  - intros Wn u Lu. apply (form_nonneg D (Geo s) x e 1%nat (after h (visits e x)) r u); auto.
Qed.
Lemma flat_paths s x : flat s -> length x = ndx s -> forall w, length w = ndx s -> exists g, path (Geo s) x w g.
Proof.
  intros F Lx w Lw. exists (fun t => integrate (K := RSc) s x (line w t)).
  assert (E : forall t, integrate (K := RSc) s x (line w t) = Ret (map2 Rplus x (line w t))) by (intros t; apply flat_int; [exact F|rewrite flat_dim; assumption|rewrite line_len; exact Lw]).
  split; [|split; [reflexivity|exists 1; split; [lra|eauto]]].
  rewrite E. f_equal. unfold line. assert (L : length x = length w) by congruence. revert L. clear. revert w.
  induction x as [|a x IH]; intros [|b w] L; try discriminate; [reflexivity|]. cbn. rewrite IH by (injection L; auto). f_equal. ring.
Qed.
Lemma quadratic_model junk D s h r e x : flat s -> length x = ndx s -> least_squares e -> gauss_newton h e -> is_cost e -> repr h r e -> good D (Geo s) x e 1 -> consistent (visits e x) ->
  exists N, forall n, (N <= n)%nat -> exists c h1, call (K := RSc) n h r x = Ret (c, h1) /\
    forall old old', length old = ndx s -> mat (ndx s) (ndx s) old' -> exists G h2 H h3, grad (K := RSc) junk n h1 r x old = Ret (G, h2) /\ hess (K := RSc) junk n h2 r x old' = Ret (H, h3) /\
      length G = ndx s /\ mat (ndx s) (ndx s) H /\
      forall w, length w = ndx s -> sem e (map2 Rplus x w) = Ret [c + inner G w + inner w (mat_vec H w) / 2].
Proof.
  intros Fs Lx Ls Gn Ic R G C. destruct (derivatives junk D s h r e x true (fun _ => Gn) Ic R G C) as (N & Hd). exists N. intros n Hn.
  destruct (Hd n Hn) as (c & h1 & Ec & Sc & Q). exists c, h1. split; [exact Ec|]. intros old old' Lo Mo.
  destruct (proj1 (Q h1 (rq_none _ _ _ _ _ _ _)) old Lo) as (Gr & h2 & Eg & Lg & V).
  destruct (proj2 (Q h2 (rq_grad _ _ _ _ _ _ _ _ _ _ _ Lo Eg (rq_none _ _ _ _ _ _ _))) eq_refl old' Mo) as (H & h3 & EH & MH & F).
  exists Gr, h2, H, h3. split; [exact Eg|]. split; [exact EH|]. split; [exact Lg|]. split; [exact MH|]. intros w Lw.
  destruct (expand D s x w Fs Lx Lw e Ls G) as (v & v' & d & Sv & Sv' & Vd & Hv). rewrite Sv in Sc. injection Sc as <-.
  destruct (flat_paths s x Fs Lx w Lw) as (g & P). pose proof (V w g Lw P) as V1.
  assert (Ed : [d] = [inner Gr w]). { eapply velocity_unique; [exact Vd|]. eapply velocity_ext; [|exact V1]. intros t. cbv beta. now rewrite (proj1 (proj2 P)). }
  injection Ed as ->. rewrite Sv'. f_equal. f_equal. apply Hv. apply F; assumption.
Qed.

(** ** Construction *)
Lemma compose_new h l g f e : repr h l f -> repr h g e -> 
  match new_compose (K := RSc) h l g with
  | Ret (h', r) => fst (fst (xdim f)) = xnr e /\ repr h' r (XComp f e)
  | Throw k => k = ErrDim /\ fst (fst (xdim f)) <> xnr e
  | _ => False
  end.
Proof.
  intros Rl Rg. unfold new_compose. rewrite (dims_repr _ _ _ Rl), (dims_repr _ _ _ Rg). destruct (xdim f) as [[xl vl] rl] eqn:Ef. unfold xnr. destruct (xdim e) as [[xg vg] rg] eqn:Ee. cbn [bind fst snd].
  destruct (Nat.eqb xl rg) eqn:E; [apply Nat.eqb_eq in E|apply Nat.eqb_neq in E]; cbn; split; auto.
  exists l, g. rewrite nth_error_app2, Nat.sub_diag by lia. cbn. rewrite Ef, Ee. split; [reflexivity|].
  assert (X : forall e r, repr h r e -> repr (h ++ [OCompose xg vg rl l g]) r e); [|split; apply X; assumption].
  intros e0 r0. apply repr_ext. intros i o Ho. rewrite nth_error_app1; [exact Ho|]. apply nth_error_Some. congruence.
Qed.
(** ** Finite differences *)
Lemma finite_jac junk (s : rspace) e p r x dr d M eps h old : 0 < eps -> nth_error h r = Some (OFd1 s d p eps) -> repr h p e -> xdim e = (nx s, ndx s, dr) ->
  (forall i, (i < ndx s)%nat -> smooth_curve dr M eps (fun t => (do z <- integrate s x (line (axis (ndx s) i) t); sem e z)%out)) -> mat dr (ndx s) old ->
  exists N, forall n, (N <= n)%nat -> exists J h', jac (K := RSc) junk n h r x old = Ret (J, h') /\ mat dr (ndx s) J /\
    forall j, (j < ndx s)%nat -> close_velocity M eps (fun t => (do z <- integrate s x (line (axis (ndx s) j) t); sem e z)%out) (column j J).
Proof.
  intros He Hr R Dm Sm Mo. exists (S (ht e)). intros n Hn. destruct n as [|n]; [lia|]. rewrite jac_S, Hr. cbn [ub bind]. rewrite (dims_repr _ _ _ R), Dm. cbn [bind].
  apply (fd_loop s e p x (ndx s) dr M eps n); try assumption; try lia.
Qed.
Lemma finite_vhp junk (s : rspace) u p r x v d M eps h old : 0 < eps -> nth_error h r = Some (OFd2 s d p eps) -> nth_error h p = Some (OExt u) -> length v = e_nr u ->
  (forall y old, mat (e_nr u) (e_ndx u) old -> exists J, e_jac u y old = Some J /\ e_jac u y (repeat (repeat 0 (e_ndx u)) (e_nr u)) = Some J /\ mat (e_nr u) (e_ndx u) J) ->
  (forall i, (i < e_ndx u)%nat -> smooth_curve (e_ndx u) M eps (vec_jac u s x v (axis (e_ndx u) i))) -> mat (e_ndx u) (e_ndx u) old ->
  exists N, forall n, (N <= n)%nat -> exists H h', vhp (K := RSc) junk n h r x v old = Ret (H, h') /\ mat (e_ndx u) (e_ndx u) H /\
    forall j, (j < e_ndx u)%nat -> close_velocity M eps (vec_jac u s x v (axis (e_ndx u) j)) (column j H).
Proof.
  intros He Hr Hp Lv Hu Sm Mo. exists 2%nat. intros n Hn. destruct n as [|n]; [lia|]. rewrite vhp_S, Hr. cbn [ub bind]. unfold dims_at. rewrite Hp. cbn [ub bind dims].
  apply (fd_vhp junk s u p x v M eps n); try assumption; try lia; try apply zeros_mat.
Qed.

(** ** Self-addition *)
Lemma add_self h s dx dv cs ws : nth_error h s = Some (OSum dx dv cs ws) -> cs <> [] -> add_sum (K := RSc) h s s = UB.
Proof. intros E N. unfold add_sum. rewrite E. cbn [ub bind]. rewrite Nat.eqb_refl. destruct cs; [contradiction|]. reflexivity. Qed.
Lemma add_pointer h s dx dv cs ws : nth_error h s = Some (OSum dx dv cs ws) -> length ws = length cs ->
  exists h', add_comp (K := RSc) h s s 1 = Ret h' /\ forall n x c h'', call (K := RSc) n h' s x <> Ret (c, h'').
Proof.
  intros E L. unfold add_comp. rewrite E. cbn [ub bind]. eexists. split; [reflexivity|]. eapply self_call.
  - rewrite nth_update, Nat.eqb_refl, E. reflexivity.
  - apply in_or_app. right. left. reflexivity.
  - rewrite !app_length. cbn. now f_equal.
Qed.
(** ** Counterexamples *)
Lemma poly_velocity (f : R -> outcome rvec) a b c : (forall t, f t = Ret [a + b * t + c * (t * t)]) -> velocity f [b].
Proof.
  intros H. exists (fun t => [a + b * t + c * (t * t)]), 1. split; [lra|]. split; [auto|]. split; [reflexivity|]. intros [|i] Hi; [|cbn in Hi; lia]. cbn [nth].
  eapply der_eq; [|shelve]. pose proof (derivable_pt_lim_id 0) as I. unfold id in I. der_auto. Unshelve. ring.
Qed.
(** 1/2 x^2 in one dimension: object 1 on the residual 0. *)
Definition id1 : obj RSc := OLinear (K := RSc) 1 [[1]] [0].
Definition half_square : heap RSc := [id1; OQuad (K := RSc) 1 1 0%nat [[1]] [0] 0 true (mkCache (K := RSc) [0] [[0]] [[0]])].
Definition half_square_x : fx := XQuad 1%nat [[1]] [0] 0 (XBase id1).
Lemma half_square_made : new_quad (K := RSc) [id1] 0%nat [[1]] [0] 0 = Ret (half_square, 1%nat).
Proof. reflexivity. Qed.
Lemma half_square_repr : repr half_square 1 half_square_x.
Proof. split; [reflexivity|]. exists 0%nat, true, (mkCache (K := RSc) [0] [[0]] [[0]]). repeat split; repeat constructor. Qed.
Lemma half_square_val x : sem half_square_x [x] = Ret [x * x / 2].
Proof. cbn. f_equal. f_equal. field. Qed.
Lemma half_square_vel x w : velocity (fun t => (do y <- integrate (K := RSc) (SVec 1) [x] (line [w] t); sem half_square_x y)%out) [x * w].
Proof. apply (poly_velocity _ (x * x / 2) _ (w * w / 2)). intros t. cbn. f_equal. f_equal. field. Qed.
Lemma half_square_good D x : good D (Geo (SVec 1)) [x] half_square_x 1.
Proof.
  cbn. split; [reflexivity|]. split; [split; repeat constructor|]. split; [|split; [reflexivity|]].
  - intros [|[|i]] [|[|j]]; reflexivity.
  - repeat split; repeat constructor.
Qed.
Ltac rcalc := repeat (reflexivity || lra || (f_equal; try lra; try field)).
(** Evaluated at 3, differentiated at 1. *)
Lemma stale_gradient junk : exists h1 h2, call (K := RSc) 5 half_square 1%nat [3] = Ret (9 / 2, h1) /\
  grad (K := RSc) junk 5 h1 1%nat [1] [0] = Ret ([3], h2).
Proof. do 2 eexists. split; [cbn; f_equal; f_equal; field|]. cbn. f_equal. f_equal. f_equal. lra. Qed.
(** 1/2 x'W x with W not symmetric. *)
Definition id2 : obj RSc := OLinear (K := RSc) 2 [[1; 0]; [0; 1]] [0; 0].
Definition skew_heap : heap RSc := [id2; OQuad (K := RSc) 2 2 0%nat [[0; 1]; [0; 0]] [0; 0] 0 true (mkCache (K := RSc) [0; 0] [[0; 0]; [0; 0]] [[0; 0]; [0; 0]])].
Definition skew_x : fx := XQuad 1%nat [[0; 1]; [0; 0]] [0; 0] 0 (XBase id2).
Lemma skew_made : new_quad (K := RSc) [id2] 0%nat [[0; 1]; [0; 0]] [0; 0] 0 = Ret (skew_heap, 1%nat).
Proof. reflexivity. Qed.
Lemma skew_gradient junk : repr skew_heap 1 skew_x /\
  (exists h1 h2, call (K := RSc) 5 skew_heap 1%nat [1; 1] = Ret (1 / 2, h1) /\ grad (K := RSc) junk 5 h1 1%nat [1; 1] [0; 0] = Ret ([1; 0], h2)) /\
  velocity (fun t => (do y <- integrate (K := RSc) (SVec 2) [1; 1] (line [0; 1] t); sem skew_x y)%out) [1 / 2].
Proof.
  split; [|split].
  - split; [reflexivity|]. do 3 eexists. split; [reflexivity|]. repeat split; repeat constructor.
  - do 2 eexists. split; [cbn; f_equal; f_equal; field|]. cbn. f_equal. f_equal. f_equal; [lra|f_equal; lra].
  - apply (poly_velocity _ (1 / 2) _ 0). intros t. cbn. f_equal. f_equal. field.
Qed.
(** q(x) + q(x + 1) with one object q = 1/2 x^2. *)
Definition shared_heap : heap RSc := half_square ++
  [OLinear (K := RSc) 1 [[1]] [1]; OCompose 1 1 1 1%nat 2%nat; OCost 1 1 3%nat; OSum (K := RSc) 1 1 [1%nat; 4%nat] [1; 1]].
Definition shared_x : fx := XSum 1 1 [(1, half_square_x); (1, XCost (XComp half_square_x (XBase (OLinear (K := RSc) 1 [[1]] [1]))))].
Lemma shared_gradient junk : repr shared_heap 5 shared_x /\
  (exists h1 h2, call (K := RSc) 9 shared_heap 5%nat [0] = Ret (1 / 2, h1) /\ grad (K := RSc) junk 9 h1 5%nat [0] [0] = Ret ([2], h2)) /\
  velocity (fun t => (do y <- integrate (K := RSc) (SVec 1) [0] (line [1] t); sem shared_x y)%out) [1].
Proof.
  split; [|split].
  - exists [1%nat; 4%nat], [1; 1]. split; [reflexivity|]. split; [reflexivity|]. split; [exact I|].
    assert (Q : repr shared_heap 1 half_square_x) by (split; [reflexivity|]; do 3 eexists; split; [reflexivity|]; repeat split; repeat constructor).
    split; [exact Q|]. split; [reflexivity|]. split; [exact I|]. split; [|exact I]. exists 3%nat. split; [reflexivity|]. exists 1%nat, 2%nat. split; [reflexivity|]. split; [exact Q|]. split; [reflexivity|exact I].
  - do 2 eexists. split; [cbn; f_equal; f_equal; field|]. cbn. f_equal. f_equal. f_equal. lra.
  - apply (poly_velocity _ (1 / 2) _ 1). intros t. cbn. f_equal. f_equal. field.
Qed.
(** Composition of x^2 with the identity: the Hessian is returned as zero. *)
Definition square_fun : ext RSc := mkExt (K := RSc) 1 1 1
  (fun x => match x with [a] => Some [a * a] | _ => None end)
  (fun x _ => match x with [a] => Some [[2 * a]] | _ => None end)
  (fun x v _ => match v with [a] => Some [[2 * a]] | _ => None end).
Definition square_x : fx := XComp (XBase (OExt square_fun)) (XBase id1).
Lemma square_compose junk : exists h r, new_compose (K := RSc) [OExt square_fun; id1] 0%nat 1%nat = Ret (h, r) /\ repr h r square_x /\
  (forall x, sem square_x [x] = Ret [x * x]) /\
  (forall x, exists h1 h2, jac (K := RSc) junk 5 h r [x] [[0]] = Ret ([[2 * x]], h1) /\ vhp (K := RSc) junk 5 h r [x] [1] [[0]] = Ret ([[0]], h2)).
Proof.
  do 2 eexists. split; [reflexivity|]. split; [|split].
  - exists 0%nat, 1%nat. repeat split.
  - intros x. cbn. f_equal. f_equal. ring.
  - intros x. do 2 eexists. split; [|reflexivity]. cbn. f_equal. f_equal. f_equal. f_equal. ring.
Qed.
(** A function on SE(3) after a function with 7 outputs is accepted; its Jacobian is undefined. *)
Definition to_seven : obj RSc := OLinear (K := RSc) 1 [[0]; [0]; [0]; [0]; [0]; [0]; [0]] [0; 0; 0; 0; 0; 0; 1].
Definition seven_x : fx := XComp (XBase (ORigid (K := RSc) [1; 0; 0])) (XBase to_seven).
Lemma seven_compose junk : exists h r, new_compose (K := RSc) [ORigid (K := RSc) [1; 0; 0]; to_seven] 0%nat 1%nat = Ret (h, r) /\ repr h r seven_x /\
  sem seven_x [0] = Ret [1; 0; 0] /\ jac (K := RSc) junk 5 h r [0] [[0]; [0]; [0]] = UB.
Proof.
  do 2 eexists. split; [reflexivity|]. split; [|split].
  - exists 0%nat, 1%nat. repeat split.
  - cbn. unfold stwo; cbn. f_equal. f_equal; [ring|f_equal; [ring|f_equal; ring]].
  - reflexivity.
Qed.
(** Finite-difference Hessian of 1/2 x^2. *)
Lemma stale_fd junk eps : exists h r, new (K := RSc) half_square (OFd2 (K := RSc) (SVec 1) 1 1%nat eps) = (h, r) /\
  exists h', vhp (K := RSc) junk 5 h r [0] [1] [[0]] = Ret ([[0]], h').
Proof.
  do 2 eexists. split; [reflexivity|]. eexists. cbn. f_equal. f_equal. f_equal. f_equal. unfold Rdiv. ring.
Qed.
(** updateTarget on a distance cost, and the copy that shares its residual. *)
Lemma distance_target h r W sl c s t y : repr h r (XQuad r W sl c (XBase (ODiff s t))) ->
  exists h', update_target (K := RSc) h r y = Ret h' /\ repr h' r (XQuad r W sl c (XBase (ODiff s y))).
Proof.
  intros (_ & p & gn & ca & E & MJ & MH & Ep & _). unfold update_target. rewrite E. cbn [ub bind]. eexists. split; [reflexivity|]. split; [reflexivity|].
  exists p, gn, ca. assert (N : Nat.eqb r p = false) by (apply Nat.eqb_neq; intros ->; rewrite E in Ep; discriminate).
  split; [rewrite nth_update, N; exact E|]. split; [exact MJ|]. split; [exact MH|]. split; [|exact I]. rewrite nth_update, Nat.eqb_refl, Ep. reflexivity.
Qed.
Lemma quad_new h f e W sl c : repr h f e -> exists h' r, new_quad (K := RSc) h f W sl c = Ret (h', r) /\ repr h' r (XQuad r W sl c e) /\ (length h <= r)%nat /\ gn_flag h' r = Some true /\
  forall i o, nth_error h i = Some o -> nth_error h' i = Some o.
Proof.
  intros R. unfold new_quad. rewrite (dims_repr _ _ _ R), xdim_eta. cbn [bind new]. eexists _, _. split; [reflexivity|].
  assert (X : ext_heap h (h ++ [OQuad (K := RSc) (fst (fst (xdim e))) (xndx e) f W sl c true (mkCache (K := RSc) (repeat 0 (xnr e)) (zeros (xnr e) (xndx e)) (zeros (xndx e) (xndx e)))])) by apply ext_app.
  split; [|split; [lia|split; [|exact X]]].
  - split; [reflexivity|]. exists f, true. eexists. split; [|split; [|split]].
    + rewrite nth_error_app2, Nat.sub_diag by lia. reflexivity.
    + apply zeros_mat.
    + apply zeros_mat.
    + exact (repr_ext _ _ _ X _ R).
  - unfold gn_flag. rewrite nth_error_app2, Nat.sub_diag by lia. reflexivity.
Qed.
Lemma distance_new h s t W : is_normalized (K := RSc) s t = Ret true ->
  exists h' r, new_distance (K := RSc) h s t W = Ret (h', r) /\ repr h' r (XQuad r W (repeat 0 (ndx s)) 0 (XBase (ODiff s t))) /\
    forall i o, nth_error h i = Some o -> nth_error h' i = Some o.
Proof.
  intros E. unfold new_distance, new_diff. rewrite E. cbn [bind new].
  destruct (quad_new (h ++ [ODiff s t]) (length h) (XBase (ODiff s t)) W (repeat 0 (ndx s)) 0) as (h' & r & Eq & Rq & _ & _ & X).
  - split; [|exact I]. rewrite nth_error_app2, Nat.sub_diag by lia. reflexivity.
  - exists h', r. split; [exact Eq|]. split; [exact Rq|]. intros i o Ho. apply X. rewrite nth_error_app1; [exact Ho|]. apply nth_error_Some. congruence.
Qed.
Lemma distance_value h r s t W sl c x v : repr h r (XQuad r W sl c (XBase (ODiff s t))) -> difference (K := RSc) s t x = Ret v -> mat (length v) (length v) W -> length sl = length v ->
  exists N, forall n, (N <= n)%nat -> exists h', call (K := RSc) n h r x = Ret (1 / 2 * inner v (mat_vec W v) + inner sl v + c, h').
Proof.
  intros R E MW Ls. apply (value (XQuad r W sl c (XBase (ODiff s t))) h r x _ I R). apply quad_val; assumption.
Qed.
(** Object 1: |x - 0|^2 / 2; object 2: its copy (the copy constructor copies the shared_ptr). *)
Definition dist_heap : heap RSc := [ODiff (SVec 1) [0]; OQuad (K := RSc) 1 1 0%nat [[1]] [0] 0 true (mkCache (K := RSc) [0] [[0]] [[0]])].
Lemma dist_made : new_distance_id (K := RSc) [] (SVec 1) [0] = Ret (dist_heap, 1%nat).
Proof. reflexivity. Qed.
Lemma copy_target : exists o h2 h3 h4, nth_error dist_heap 1 = Some o /\ new dist_heap o = (h2, 2%nat) /\
  (exists h', call (K := RSc) 5 h2 1%nat [0] = Ret (0, h')) /\ update_target (K := RSc) h2 2%nat [1] = Ret h3 /\ call (K := RSc) 5 h3 1%nat [0] = Ret (1 / 2, h4).
Proof.
  do 4 eexists. split; [reflexivity|]. split; [reflexivity|]. split; [eexists; cbn; f_equal; f_equal; field|]. split; [reflexivity|]. cbn. f_equal. f_equal. field.
Qed.
(** Cubics are smooth. *)
Lemma cubic_smooth (f : R -> outcome rvec) a b c d eps : (forall t, f t = Ret [a + b * t + c * (t * t) + d * (t * t * t)]) -> smooth_curve 1 (6 * Rabs d) eps f.
Proof.
  intros H. exists (fun _ t => a + b * t + c * (t * t) + d * (t * t * t)), (fun _ t => b + 2 * c * t + 3 * d * (t * t)), (fun _ t => 2 * c + 6 * d * t), (fun _ _ => 6 * d).
  split; [intros t _; exact (H t)|]. intros k t Hk Ht. pose proof (derivable_pt_lim_id t) as I. unfold id in I. split; [|split; [|split]].
  - eapply der_eq; [der_auto|ring].
  - eapply der_eq; [der_auto|ring].
  - eapply der_eq; [der_auto|ring].
  - rewrite Rabs_mult, (Rabs_right 6) by lra. lra.
Qed.
Lemma quadratic_smooth (f : R -> outcome rvec) a b c eps : (forall t, f t = Ret [a + b * t + c * (t * t)]) -> smooth_curve 1 0 eps f.
Proof.
  intros H. replace 0 with (6 * Rabs 0) by (rewrite Rabs_R0; ring). apply (cubic_smooth f a b c 0 eps). intros t. rewrite H. f_equal. f_equal. ring.
Qed.
(** Pure rotation and translation of the pose. *)
Lemma rigid_value (p t q : rvec) : length p = 3%nat -> length t = 3%nat -> length q = 4%nat -> rigid_eval (K := RSc) p (t ++ q) = Ret (map2 Rplus t (rotate q p)).
Proof.
  intros Lp Lt Lq. destruct t as [|t1 [|t2 [|t3 [|? ?]]]]; try discriminate. destruct q as [|x [|y [|z [|w [|? ?]]]]]; try discriminate.
  destruct p as [|a [|b [|c [|? ?]]]]; try discriminate. cbn. unfold stwo. cbn. f_equal. f_equal; [ring|f_equal; [ring|f_equal; ring]].
Qed.
