(** Quadratic problems with equality constraints: one pass of the inner loop. *)
From Coq Require Import Reals List Bool Arith ZArith Lia Lra Psatz.
From Verif Require Import Scalar Cset_model Cset_spec Cset_proofs Armijo_model Problem_model Solver_model Solver_spec SolverR_proofs SolverS_proofs Merit_spec Merit_proofs
  Lin_spec Lin_proofs Ldlt_spec Ldlt_proofs Bk_spec Descent_spec Descent_proofs DescentX_proofs Qp_spec Qp_proofs.
Import ListNotations.
Local Open Scope R_scope.

Lemma tab_seq n (f : nat -> R) : map f (seq 0 n) = tab n f. Proof. reflexivity. Qed.
Lemma bad_R (v : list R) : bad_vec (K := RSc) v = false.
Proof. unfold bad_vec. induction v as [|a v IH]; cbn; [reflexivity|exact IH]. Qed.
Lemma bad_mR (M : list (list R)) : bad_mat (K := RSc) M = false.
Proof. unfold bad_mat. induction M as [|a v IH]; cbn [existsb]; [reflexivity|]. cbn [car RSc] in *. rewrite bad_R. exact IH. Qed.
Lemma cact_eq x : cact KEq x = true. Proof. reflexivity. Qed.
Lemma map3_const {A B C} (g : B -> C) n (z : list A) (o : list B) (h : coord -> A -> B -> C) : (forall a b, h KEq a b = g b) -> length z = n -> length o = n -> map3 h (repeat KEq n) z o = map g o.
Proof. intros H Hz Ho. rewrite (map3_eq h (fun _ b => g b)) by auto. apply map2_snd. congruence. Qed.
Lemma nth0_col (v : list R) : map (fun row : list R => nth 0 row 0) (map (fun a => [a]) v) = v.
Proof. rewrite map_map. apply map_id. Qed.
Lemma eqs_cons mu n A b : forall ms off, map (fun _ => CEq (K := RSc) mu) (qp_cons n A b off ms) = eqs mu ms.
Proof. induction ms as [|m r IH]; intros off; cbn; [reflexivity|]. f_equal. apply IH. Qed.
Lemma inner_tab n f g : inner (tab n f) (tab n g) = rsum n (fun i => f i * g i).
Proof. rewrite <- (vdot_inner (tab n f) (tab n g)) by (rewrite !tab_length; reflexivity). apply vdot_tab. Qed.
Lemma shifted_tab n f mu g : shifted (tab n f) mu (tab n g) = tab n (fun i => f i + mu * g i).
Proof. unfold tab. induction (seq 0 n) as [|a l IH]; cbn; [reflexivity|]. rewrite IH. reflexivity. Qed.
Lemma minus_tab n f g : minus (tab n f) (tab n g) = tab n (fun i => f i - g i).
Proof. unfold tab. induction (seq 0 n) as [|a l IH]; cbn; [reflexivity|]. rewrite IH. reflexivity. Qed.
Lemma list_tab (v : list R) n f : length v = n -> (forall k, (k < n)%nat -> nth k v 0 = f k) -> v = tab n f.
Proof. intros L H. rewrite (tab_self n v L). apply tab_ext, H. Qed.

Section Sets.
  Variables (mu : R) (ms : list nat).
  Let m := total ms.
  Let st := product_of (eqs mu ms) ms.
  Lemma st_cone z o : length z = m -> length o = m -> normal_cone st z o = Some z.
  Proof.
    intros Hz Ho. rewrite (normal_cone_coords st m z o (eqs_shape mu ms) Hz Ho). unfold st. rewrite eqs_coords. apply (f_equal Some). fold m.
    cbn [car RSc] in *. rewrite (map3_eq hcone (fun a _ => a)) by (auto; intros; unfold hcone, ccone; cbn; lra). apply map2_fst. congruence.
  Qed.
  Lemma st_pj z J : length z = m -> length J = m -> proj_jac st z J = Some (map (map (fun _ => 0)) J).
  Proof. intros Hz Ho. rewrite (proj_jac_coords st m z J (eqs_shape mu ms) Hz Ho). unfold st. rewrite eqs_coords. apply (f_equal Some). fold m. cbn [car RSc] in *. apply map3_const; auto. Qed.
  Lemma st_cj z J : length z = m -> length J = m -> cone_jac st z J = Some J.
  Proof. intros Hz Ho. rewrite (cone_jac_coords st m z J (eqs_shape mu ms) Hz Ho). unfold st. rewrite eqs_coords. apply (f_equal Some). fold m. cbn [car RSc] in *. rewrite (map3_const (fun r => r)); auto. apply map_id. Qed.
  Lemma st_pjv z v : length z = m -> length v = m -> proj_jac_vec (K := RSc) st z v = Some (tab m (fun _ => 0)).
  Proof.
    intros Hz Ho. unfold proj_jac_vec. cbn [car RSc] in *. rewrite st_pj by (rewrite ?map_length; auto). f_equal. rewrite !map_map. cbn.
    apply list_tab; [rewrite map_length; exact Ho|]. intros k _. apply nth_map0.
  Qed.
  Lemma st_cjv z v : length z = m -> length v = m -> cone_jac_vec (K := RSc) st z v = Some v.
  Proof. intros Hz Ho. unfold cone_jac_vec. cbn [car RSc] in *. rewrite st_cj by (rewrite ?map_length; auto). f_equal. apply nth0_col. Qed.
  Lemma st_act z (o : list bool) : length z = m -> length o = m -> active_set st z o = Some (map (fun _ => true) o).
  Proof. intros Hz Ho. rewrite (active_coords st m z o (eqs_shape mu ms) Hz Ho). unfold st. rewrite eqs_coords. apply (f_equal Some). fold m. cbn [car RSc] in *. apply map3_const; auto. Qed.
  Lemma st_proj z : length z = m -> projection_inplace st z = Some (tab m (fun _ => 0)).
  Proof.
    intros Hz. rewrite (projection_inplace_coords st m z (eqs_shape mu ms) Hz). unfold st. rewrite eqs_coords. apply (f_equal Some). fold m. cbn [car RSc] in *.
    rewrite (map3_const (fun _ => 0)) by auto. apply list_tab; [rewrite map_length; exact Hz|]. intros k _. apply nth_map0.
  Qed.
End Sets.

Lemma blocks_tab : forall ms (v : list R), length v = total ms -> exists l, blocks_of (K := RSc) ms v = Some l /\ length l = length ms /\ concat l = v.
Proof.
  induction ms as [|m r IH]; intros v Hv.
  - destruct v; [|discriminate]. exists []. auto.
  - cbn in Hv. cbn [blocks_of]. cbn [car RSc] in *. destruct (Nat.leb_spec m (length v)); [|lia].
    destruct (IH (skipn m v)) as (l & E & L & C); [rewrite skipn_length; lia|]. rewrite E. exists (firstn m v :: l). split; [reflexivity|]. split; [cbn; lia|].
    cbn. rewrite C. apply firstn_skipn.
Qed.

(** Problems that answer alike at the points with n entries. *)
Section Alike.
  Variables (n : nat) (p p' : @problem RSc).
  Hypothesis Hl : answers_like n p p'.
  Lemma alike_dims : dims p = dims p'.
  Proof. destruct Hl as (_ & _ & F). unfold dims. induction F as [|f f' fs fs' [E _] _ IH]; [reflexivity|]. cbn. rewrite E. f_equal. exact IH. Qed.
  Lemma alike_eval x : length x = n -> evaluate_problem p x = evaluate_problem p' x.
  Proof.
    intros Lx. destruct Hl as (_ & H & F). destruct (H x Lx) as (H1 & _). unfold evaluate_problem. cbn [car RSc] in *. rewrite H1.
    replace (eval_cons (K := RSc) (p_cons p) x) with (eval_cons (K := RSc) (p_cons p') x); [reflexivity|]. clear H H1.
    induction F as [|f f' fs fs' [E Hf] _ IH]; [reflexivity|]. cbn [eval_cons]. rewrite IH, E. cbn [car RSc] in *. rewrite (proj1 (Hf x Lx)). reflexivity.
  Qed.
  Lemma alike_derivs x : length x = n -> derivs_problem p x = derivs_problem p' x.
  Proof.
    intros Lx. destruct Hl as (En & H & F). destruct (H x Lx) as (_ & H1 & _). unfold derivs_problem. cbn [car RSc] in *. rewrite H1, En.
    replace (jac_cons (K := RSc) (p_ndx p') (p_cons p) x) with (jac_cons (K := RSc) (p_ndx p') (p_cons p') x); [reflexivity|]. clear H H1.
    induction F as [|f f' fs fs' [E Hf] _ IH]; [reflexivity|]. cbn [jac_cons]. rewrite IH, E. cbn [car RSc] in *. rewrite (proj1 (proj2 (Hf x Lx))). reflexivity.
  Qed.
  Lemma alike_hess x u ls old : length x = n -> hessians_problem p u x ls old = hessians_problem p' u x ls old.
  Proof.
    intros Lx. destruct Hl as (En & H & F). destruct (H x Lx) as (_ & _ & H1). unfold hessians_problem. cbn [car RSc] in *. rewrite H1, En.
    replace (vhp_cons (K := RSc) (p_ndx p') u (p_cons p) x ls old) with (vhp_cons (K := RSc) (p_ndx p') u (p_cons p') x ls old); [reflexivity|]. clear H H1. revert ls old.
    induction F as [|f f' fs fs' [E Hf] _ IH]; intros [|l ls] [|o os]; try reflexivity. cbn [vhp_cons]. rewrite IH. cbn [car RSc] in *. rewrite (proj2 (proj2 (Hf x Lx)) l). reflexivity.
  Qed.
End Alike.
Lemma sets_fit_dims (sets : list rset) : forall fs fs', map f_nr fs = map f_nr fs' -> sets_fit sets fs -> sets_fit sets fs'.
Proof.
  intros fs fs' E [H1 H2]. split; [|exact H2]. clear H2. revert fs' E. induction H1 as [|c f cs fs Hc _ IH]; intros [|f' fs'] E; try discriminate; constructor.
  - cbn in E. injection E as E1 E2. rewrite <- E1. exact Hc.
  - apply IH. cbn in E. injection E as E1 E2. exact E2.
Qed.

Section Pass.
  Variables (O : oracles RSc) (P : @params RSc) (n : nat) (Q : nat -> nat -> R) (q : nat -> R) (ms : list nat) (A : nat -> nat -> R) (b : nat -> R).
  Let m := total ms.
  Variable p : @problem RSc.
  Hypothesis like : answers_like n p (qp n Q q ms A b).
  Hypothesis beta : pdal_beta P = 1 / 2.
  Hypothesis hess : hess_approx P = HM_EXACT \/ hess_approx P = HM_GAUSS_NEWTON.

  (** The state holds the point x, l with previous multipliers le and parameter mu. *)
  Record holds (s : solver_state O) (mu : R) (x l le : nat -> R) : Prop := {
    h_pos : 0 < mu; h_mu : s_mu _ _ s = mu; h_inv : s_mu_inv _ _ s = 1 / mu; h_rho : s_rho _ _ s = 0; h_sets : s_sets _ _ s = eqs mu ms;
    h_x : r_x (res s) = tab n x; h_l : r_lams (res s) = tab m l; h_le : w_lams_prev _ _ (wsp s) = tab m le;
    h_plus : length (w_plus _ _ (wsp s)) = m; h_pdal : length (w_pdal _ _ (wsp s)) = m; h_act : length (r_active (res s)) = m;
    h_vhp : length (w_vhp _ _ (wsp s)) = length ms }.

  Lemma dims_p : dims p = ms. Proof. rewrite (alike_dims _ _ _ like). apply qp_dims. Qed.
  Lemma ndx_p : p_ndx p = n. Proof. exact (proj1 like). Qed.
  Lemma rows_p : rows_of (p_cons p) = m.
  Proof. unfold m. rewrite <- dims_p. unfold dims. induction (p_cons p) as [|f fs IH]; [reflexivity|]. cbn. f_equal. exact IH. Qed.
  Lemma numdual_p : numdual p = m. Proof. rewrite numdual_rows. apply rows_p. Qed.
  Lemma stack_p sets : stack p sets = product_of sets ms. Proof. unfold stack. rewrite dims_p. reflexivity. Qed.
  Lemma con_ext x y k : (forall i, (i < n)%nat -> x i = y i) -> qp_con n A b x k = qp_con n A b y k.
  Proof. intros H. unfold qp_con. f_equal. apply rsum_ext. intros j Hj. rewrite H by exact Hj. reflexivity. Qed.
  Lemma grad_ext x y k : (forall i, (i < n)%nat -> x i = y i) -> qp_grad n Q q x k = qp_grad n Q q y k.
  Proof. intros H. unfold qp_grad. f_equal. apply rsum_ext. intros j Hj. rewrite H by exact Hj. reflexivity. Qed.
  Lemma obj_ext x y : (forall i, (i < n)%nat -> x i = y i) -> qp_obj n Q q x = qp_obj n Q q y.
  Proof. intros H. unfold qp_obj. f_equal; [f_equal|]; apply rsum_ext; intros i Hi; [apply rsum_ext; intros j Hj|]; rewrite ?H by assumption; reflexivity. Qed.
  Lemma lag_ext x y l k i : (forall i, (i < n)%nat -> x i = y i) -> (forall j, (j < m)%nat -> l j = k j) -> qp_lag n m Q q A x l i = qp_lag n m Q q A y k i.
  Proof. intros H H2. unfold qp_lag. f_equal; [apply grad_ext, H|]. apply rsum_ext. intros j Hj. rewrite H2 by exact Hj. reflexivity. Qed.

  Lemma eval_p x : evaluate_problem p (tab n x) = Ret (qp_obj n Q q x, tab m (qp_con n A b x)).
  Proof.
    assert (H : forall i, (i < n)%nat -> (fun i => nth i (tab n x) 0) i = x i) by (intros i Hi; apply tab_nth, Hi).
    rewrite (alike_eval _ _ _ like) by apply tab_length. unfold evaluate_problem. cbn [p_cost qp p_cons user bind]. cbn [car RSc]. rewrite qp_eval. cbn [bind]. f_equal. f_equal; [apply obj_ext, H|].
    apply tab_ext. intros k _. apply con_ext, H.
  Qed.
  Lemma derivs_p x : derivs_problem p (tab n x) = Ret (tab n (qp_grad n Q q x), tab m (fun k => tab n (A k))).
  Proof.
    assert (H : forall i, (i < n)%nat -> (fun i => nth i (tab n x) 0) i = x i) by (intros i Hi; apply tab_nth, Hi).
    rewrite (alike_derivs _ _ _ like) by apply tab_length. unfold derivs_problem. cbn [p_grad p_ndx qp p_cons user bind]. unfold sized. cbn [car RSc]. rewrite tab_length, Nat.eqb_refl. cbn [bind]. rewrite qp_jac. cbn [bind]. f_equal. f_equal.
    apply tab_ext. intros k _. apply grad_ext, H.
  Qed.

  Lemma eqs_p mu : map (fun _ => CEq (K := RSc) mu) (p_cons p) = eqs mu ms.
  Proof. unfold eqs. rewrite <- dims_p. unfold dims. rewrite map_map. reflexivity. Qed.

  (** What computeMultipliers leaves. *)
  Definition qmults (mu : R) (le x l : nat -> R) : @mults RSc :=
    mkMults (K := RSc) (tab m (fun k => qp_con n A b x k + mu * le k)) (tab m (fun k => 1 / mu * (qp_con n A b x k + mu * le k)))
      (tab m (fun k => qp_con n A b x k + mu * le k - 1 / 2 * mu * l k)) (tab m (qp_pdal n A b mu le x l)) (tab m (fun _ => 0)) (tab m (fun _ => 0)).
  Lemma mults_p s mu x l le y k : holds s mu x l le ->
    compute_multipliers (o_fac O) (o_bfgs O) P p s (tab m (qp_con n A b y)) (tab m k) = Ret (qmults mu le y k).
  Proof.
    intros H. unfold compute_multipliers. rewrite stack_p, (h_sets _ _ _ _ _ H), (h_mu _ _ _ _ _ H), (h_inv _ _ _ _ _ H).
    change (w_lams_prev (o_fac O) (o_bfgs O) (s_ws (o_fac O) (o_bfgs O) s)) with (w_lams_prev _ _ (wsp s)). rewrite (h_le _ _ _ _ _ H).
    rewrite vscale_tab, vadd_tab. rewrite st_cone by (rewrite ?tab_length; auto; apply (h_plus _ _ _ _ _ H)). cbn [ub bind].
    rewrite !vscale_tab, vsub_tab. rewrite st_cone by (rewrite ?tab_length; auto; apply (h_pdal _ _ _ _ _ H)). cbn [ub bind].
    rewrite map_tab. cbn [car RSc] in *. rewrite !st_pjv by (rewrite ?tab_length; reflexivity). cbn [ub bind]. unfold qmults. f_equal.
    rewrite beta. f_equal; apply tab_ext; intros i _; unfold qp_pdal, shalf, slit; cbn; field; apply Rgt_not_eq, (h_pos _ _ _ _ _ H).
  Qed.
  Lemma merit_p s mu x l le y k : holds s mu x l le ->
    merit_value p (s_sets _ _ s) (qp_obj n Q q y) (m_shift_pd (qmults mu le y k)) (tab m k) = Some (qp_merit n m Q q A b mu le y k).
  Proof.
    intros H. assert (R : rows_of (p_cons p) = m) by (apply rows_p).
    destruct (merit_equality P p (o_fac O) (o_bfgs O) s (qp_obj n Q q y) (tab m (qp_con n A b y)) (tab m k)) as (m' & E1 & E2); rewrite ?R, ?tab_length; auto.
    - rewrite (h_mu _ _ _ _ _ H). apply (h_pos _ _ _ _ _ H).
    - rewrite (h_sets _ _ _ _ _ H), (h_mu _ _ _ _ _ H). symmetry. apply eqs_p.
    - change (length (w_lams_prev (o_fac O) (o_bfgs O) (wsp s)) = m). rewrite (h_le _ _ _ _ _ H). apply tab_length.
    - apply (h_plus _ _ _ _ _ H).
    - apply (h_pdal _ _ _ _ _ H).
    - pose proof (eq_trans (eq_sym E1) (mults_p _ _ _ _ _ y k H)) as E3. injection E3 as ->. etransitivity; [exact E2|]. f_equal.
      change (w_lams_prev (o_fac O) (o_bfgs O) (s_ws (o_fac O) (o_bfgs O) s)) with (w_lams_prev _ _ (wsp s)). rewrite (h_le _ _ _ _ _ H), (h_mu _ _ _ _ _ H).
      rewrite minus_tab, !shifted_tab, !inner_tab. reflexivity.
  Qed.

  Definition zmat : list (list R) := tab n (fun _ => tab n (fun _ => 0)).
  Lemma sized2_tab (B : nat -> nat -> R) : sized2 n n (tab n (fun i => tab n (B i))) = Ret (tab n (fun i => tab n (B i))).
  Proof.
    unfold sized2. rewrite tab_length, Nat.eqb_refl.
    replace (forallb _ _) with true by (symmetry; apply forallb_forall; intros row Hr; unfold tab in Hr at 1; apply in_map_iff in Hr as (k & <- & _); rewrite tab_length; apply Nat.eqb_refl).
    reflexivity.
  Qed.
  Lemma vhp_skip x : forall ks off (ls : list (list R)) old, length ls = length ks -> length old = length ks ->
    vhp_cons (K := RSc) n false (qp_cons n A b off ks) x ls old = Ret old.
  Proof.
    induction ks as [|k r IH]; intros off [|l ls] [|o os] H1 H2; try discriminate; [reflexivity|]. cbn [qp_cons vhp_cons bind].
    injection H1 as H1; injection H2 as H2; rewrite IH by assumption. reflexivity.
  Qed.
  Lemma vhp_all x : forall ks off (ls : list (list R)) old, length ls = length ks -> length old = length ks ->
    vhp_cons (K := RSc) n true (qp_cons n A b off ks) x ls old = Ret (map (fun _ => zmat) ks).
  Proof.
    induction ks as [|k r IH]; intros off [|l ls] [|o os] H1 H2; try discriminate; [reflexivity|]. cbn [qp_cons vhp_cons f_vhp user bind].
    cbn [car RSc] in *. rewrite (sized2_tab (fun _ _ => 0)). cbn [bind]. injection H1 as H1; injection H2 as H2; rewrite IH by assumption. reflexivity.
  Qed.
  Lemma fold_zmat (B : nat -> nat -> R) (ks : list nat) : fold_left (madd (K := RSc)) (map (fun _ => zmat) ks) (tab n (fun i => tab n (B i))) = tab n (fun i => tab n (B i)).
  Proof.
    induction ks as [|k r IH]; cbn [map fold_left]; [reflexivity|]. etransitivity; [|exact IH]. f_equal. unfold madd, zmat.
    etransitivity; [apply (map2_tab (A := list R) (B := list R) (C := list R))|]. apply tab_ext. intros i _. rewrite vadd_tab. apply tab_ext. intros. lra.
  Qed.

  (** The counters and tolerances of two states agree. *)
  Record keeps (s s' : solver_state O) : Prop := {
    k_it : r_num_iters (res s') = r_num_iters (res s); k_al : r_al_iters (res s') = r_al_iters (res s); k_conv : r_conv (res s') = r_conv (res s);
    k_inner : s_inner_tol _ _ s' = s_inner_tol _ _ s; k_prim : s_prim_tol _ _ s' = s_prim_tol _ _ s }.

  Lemma diag_p s mu x l le : holds s mu x l le -> exists d, let s' := d_state _ _ d in
    run_diagnose O P p s = Ret d /\ holds s' mu x l le /\ keeps s s' /\
    d_J _ _ d = tab m (fun k => tab n (A k)) /\ d_Jp _ _ d = tab m (fun k => tab n (A k)) /\ d_m _ _ d = qmults mu le x l /\
    d_rhs _ _ d = tab n (qp_lag n m Q q A x l) ++ tab m (qp_rp n A b mu le x l) /\
    d_mg _ _ d = tab n (fun i => qp_grad n Q q x i + rsum m (fun k => qp_pdal n A b mu le x l k * A k i)) /\
    d_md _ _ d = tab m (fun k => 1 / 2 * mu * (l k - qp_pdal n A b mu le x l k)) /\
    d_inner_crit _ _ d = inf_norm (K := RSc) (tab n (qp_lag n m Q q A x l) ++ tab m (qp_rp n A b mu le x l)) /\
    d_outer_crit _ _ d = smax (K := RSc) (r_prim_infeas (res s')) (r_dual_infeas (res s')) /\
    is_max_abs (qp_con n A b x) m (r_prim_infeas (res s')) /\ is_max_abs (qp_lag n m Q q A x l) n (r_dual_infeas (res s')) /\
    r_merit (res s') = qp_merit n m Q q A b mu le x l /\
    kkt_hess P 0 (w_hess _ _ (wsp s')) (d_phess _ _ d) (w_vhp _ _ (wsp s')) = tab n (fun i => tab n (Q i)).
  Proof.
    intros H. assert (R : rows_of (p_cons p) = m) by (apply rows_p). assert (Hp := h_pos _ _ _ _ _ H).
    set (pd := tab m (qp_pdal n A b mu le x l)).
    assert (HS : exists v, hess_step (o_fac O) (o_bfgs O) (o_bfgs_update O) P p (wsp s) (tab n x) (tab n (qp_grad n Q q x)) pd = Ret (w_bfgs _ _ (wsp s), tab n (fun i => tab n (Q i)), v) /\ length v = length ms /\
      kkt_hess P 0 (tab n (fun i => tab n (Q i))) [] v = tab n (fun i => tab n (Q i))).
    { unfold hess_step, kkt_hess. rewrite dims_p. destruct (blocks_tab ms pd) as (ls & Eb & Lb & _); [apply tab_length|]. cbn [car RSc] in *. cbn [sltb RSc s0]. rewrite rltb_f by lra.
      destruct hess as [-> | ->]; rewrite Eb; cbn [ub bind]; rewrite (alike_hess _ _ _ like) by apply tab_length; unfold hessians_problem; cbn [p_hess p_ndx p_cons qp user bind]; rewrite sized2_tab; cbn [bind].
      - rewrite vhp_all by (auto; apply (h_vhp _ _ _ _ _ H)). cbn [bind fst snd]. exists (map (fun _ => zmat) ms). split; [reflexivity|]. split; [apply map_length|apply fold_zmat].
      - rewrite vhp_skip by (auto; apply (h_vhp _ _ _ _ _ H)). cbn [bind fst snd]. exists (w_vhp _ _ (wsp s)). split; [reflexivity|]. split; [apply (h_vhp _ _ _ _ _ H)|reflexivity]. }
    destruct HS as (v & HS & Lv & HK).
    destruct (dual_loop_closed (1 / 2) (eqs mu ms) (p_cons p) mu (sets_fit_dims _ _ _ (eq_trans (qp_dims n A b ms 0) (eq_sym dims_p)) (eqs_fit mu n A b ms 0)) (eqs_mu mu ms) (tab m l) pd) as (ls & qs & dd & D1 & D2 & D3 & D4 & D5); [rewrite R; apply tab_length|rewrite R; apply tab_length|].
    assert (Ed : dd = tab m (fun k => 1 / 2 * mu * (l k - qp_pdal n A b mu le x l k))).
    { apply list_tab; [transitivity (rows_of (p_cons p)); [exact D4|exact R]|]. intros k Hk. etransitivity; [apply D5|]. unfold pd. rewrite !tab_nth by exact Hk. reflexivity. }
    destruct (blocks_tab ms (tab m (qp_con n A b x))) as (e & E1 & E2 & E3); [apply tab_length|].
    unfold run_diagnose, diagnose. change (s_res (o_fac O) (o_bfgs O) s) with (res s). change (s_ws (o_fac O) (o_bfgs O) s) with (wsp s).
    rewrite (h_x _ _ _ _ _ H), (h_l _ _ _ _ _ H), eval_p. cbn [bind].
    match goal with |- context [compute_multipliers ?a1 ?a2 ?a3 ?a4 ?a5 ?a6 ?a7] => assert (T : compute_multipliers a1 a2 a3 a4 a5 a6 a7 = Ret (qmults mu le x l)) by exact (mults_p _ _ _ _ _ x l H); rewrite T; clear T end.
    cbn [bind]. rewrite derivs_p. cbn [bind].
    rewrite stack_p, (h_sets _ _ _ _ _ H). rewrite st_cj by (try (destruct (kkt_sys P); cbn [m_shift m_shift_pd qmults]); rewrite tab_length; reflexivity). cbn [ub bind].
    cbn [m_pdal qmults]. fold pd. rewrite HS. cbn [bind]. cbn [m_shift qmults].
    rewrite st_act by (try apply tab_length; apply (h_act _ _ _ _ _ H)). cbn [ub bind].
    rewrite <- (h_sets _ _ _ _ _ H). change (mkMults (K := RSc) _ _ _ _ _ _) with (qmults mu le x l). match goal with |- context [merit_value ?a1 ?a2 ?a3 ?a4 ?a5] => assert (T : merit_value a1 a2 a3 a4 a5 = Some (qp_merit n m Q q A b mu le x l)) by exact (merit_p _ _ _ _ _ x l H); rewrite T; clear T end.
    cbn [ub bind].
    rewrite (h_rho _ _ _ _ _ H), (h_sets _ _ _ _ _ H). cbn [sltb RSc s0]. rewrite rltb_f by lra. cbn [negb].
    unfold merit_gradient. rewrite dims_p. change (map f_nr (p_cons p)) with (dims p) in D1, D2. rewrite dims_p in D1, D2. cbn [car RSc] in *.
    rewrite D1, D2, beta, D3. cbn [ub bind fst snd].
    unfold dual_residual. rewrite ndx_p. rewrite !mtv_tab. unfold pd. rewrite !vadd_tab. rewrite bad_R, bad_mR.
    unfold primal_residuals. rewrite stack_p, dims_p, (h_mu _ _ _ _ _ H), vscale_tab, vadd_tab, st_proj by apply tab_length. cbn [ub bind]. rewrite vsub_tab.
    rewrite (tab_ext (total ms) (fun i => qp_con n A b x i - 0) (qp_con n A b x)) by (intros; lra). fold m. cbn [car RSc] in *. rewrite E1. cbn [ub bind].
    eexists. split; [reflexivity|]. cbn [d_state].
    assert (Et : (match kkt_sys P with KKT_CLASSIC => vscale (K := RSc) mu (vsub (K := RSc) (m_plus (qmults mu le x l)) (tab m l)) | KKT_PRIMAL_DUAL => vscale (K := RSc) (smul (s := RSc) shalf mu) (vsub (K := RSc) (tab m (qp_pdal n A b mu le x l)) (tab m l)) end) = tab m (qp_rp n A b mu le x l)).
    { destruct (kkt_sys P); cbn [m_plus qmults]; rewrite vsub_tab, vscale_tab; apply tab_ext; intros i _; unfold qp_rp, qp_pdal, shalf, slit; cbn; field; lra. }
    split; [|split; [|cbn [d_J d_Jp d_m d_rhs d_mg d_md d_inner_crit d_outer_crit d_phess]]].
    - constructor; cbn; try (apply H; fail); try reflexivity; try apply tab_length; try exact Lv; try exact Hp. rewrite map_length. apply (h_act _ _ _ _ _ H).
    - constructor; reflexivity.
    - split; [reflexivity|]. split; [reflexivity|]. split; [reflexivity|]. split; [f_equal; exact Et|]. split; [etransitivity; [apply f_equal, mtv_tab|apply vadd_tab]|]. split; [exact Ed|].
      split; [f_equal; f_equal; exact Et|]. split; [reflexivity|]. split; [|split; [|split; [reflexivity|exact HK]]].
      + cbn. pose proof (maxl_nth _ _ (maxl_concat e)) as Mx. cbn [car RSc] in *. rewrite E3, tab_length in Mx. destruct Mx as [M1 M2]. split.
        * intros i Hi. specialize (M1 i Hi). rewrite tab_nth in M1 by exact Hi. exact M1.
        * destruct M2 as [M2|(i & Hi & M2)]; [left; exact M2|right]. exists i. split; [exact Hi|]. rewrite tab_nth in M2 by exact Hi. exact M2.
      + cbn. pose proof (maxl_nth _ _ (inf_norm_maxl (tab n (qp_lag n m Q q A x l)))) as Mx. rewrite tab_length in Mx. destruct Mx as [M1 M2]. split.
        * intros i Hi. specialize (M1 i Hi). rewrite tab_nth in M1 by exact Hi. exact M1.
        * destruct M2 as [M2|(i & Hi & M2)]; [left; exact M2|right]. exists i. split; [exact Hi|]. rewrite tab_nth in M2 by exact Hi. exact M2.
  Qed.
End Pass.
