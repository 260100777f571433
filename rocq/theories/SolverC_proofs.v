(** A start that already satisfies the tolerance is accepted at once. *)
From Coq Require Import Reals List Bool Arith ZArith Lia Lra.
From Verif Require Import Scalar Cset_model Cset_spec Cset_proofs Armijo_model Problem_model Solver_model Solver_spec Merit_spec Solver_proofs SolverR_proofs Merit_proofs SolverS_proofs.
Import ListNotations.
Local Open Scope R_scope.

(** ** The residuals are functions of the point *)
Lemma stacked_jacobian_fun n x fs : forall a b, stacked_jacobian n x fs a -> stacked_jacobian n x fs b -> a = b.
Proof.
  induction fs as [|f fs IH]; intros a b Ha Hb; inversion Ha; inversion Hb; subst; [reflexivity|].
  cbn [car RSc] in *. f_equal; [congruence|apply IH; assumption].
Qed.
Lemma is_max_abs_fun f g n a b : (forall i, (i < n)%nat -> f i = g i) -> is_max_abs f n a -> is_max_abs g n b -> a = b.
Proof.
  intros E [A1 A2] [B1 B2]. destruct A2 as [[-> ->]|(i & Hi & Ai)].
  - destruct B2 as [[_ ->]|(j & Hj & _)]; [reflexivity|lia].
  - destruct B2 as [[-> _]|(j & Hj & Bj)]; [lia|].
    specialize (A1 j Hj). specialize (B1 i Hi). rewrite (E i Hi) in Ai. rewrite (E j Hj) in A1. lra.
Qed.
Lemma inner_zero_eq : forall s t, length s = length t -> inner (minus s t) (minus s t) <= 0 -> s = t.
Proof.
  induction s as [|a s IH]; intros [|b t] L H; cbn in *; try discriminate; [reflexivity|].
  assert (P : forall u, 0 <= inner u u). { induction u as [|x u IHu]; cbn; [lra|]. pose proof (Rle_0_sqr x). unfold Rsqr in *. lra. }
  pose proof (P (minus s t)). pose proof (Rle_0_sqr (a - b)) as Q. unfold Rsqr in Q.
  assert ((a - b) * (a - b) = 0) by lra. assert (a - b = 0) by (apply Rmult_integral in H1; destruct H1; assumption).
  f_equal; [lra|]. apply IH; [lia|lra].
Qed.
Lemma inner_split z : forall s t, length s = length z -> length t = length z ->
  inner (minus z s) (minus t s) + inner (minus z t) (minus s t) = inner (minus s t) (minus s t).
Proof.
  induction z as [|c z IH]; intros [|a s] [|b t] Ls Lt; cbn in *; try discriminate; [lra|].
  specialize (IH s t ltac:(lia) ltac:(lia)). lra.
Qed.
Lemma residuals_fun p sets mu x lam pr du pr' du' : length lam = rows_of (p_cons p) ->
  kkt_residuals p sets mu x lam pr du -> kkt_residuals p sets mu x lam pr' du' -> pr = pr' /\ du = du'.
Proof.
  intros Ll (g & J & c & sl & A1 & A2 & A3 & A4 & A5 & A6 & A7 & A8 & A9) (g' & J' & c' & sl' & B1 & B2 & B3 & B4 & B5 & B6 & B7 & B8 & B9).
  assert (g' = g) as -> by congruence.
  assert (J' = J) as -> by (eapply stacked_jacobian_fun; eassumption).
  assert (c' = c) as -> by (eapply stacked_values_fun; eassumption).
  pose proof (stacked_values_length _ _ _ A4) as Lc.
  assert (Lsh : length (shifted c mu lam) = rows_of (p_cons p)) by (rewrite shifted_length; cbn [car RSc] in *; congruence).
  assert (sl' = sl) as ->.
  { symmetry. apply inner_zero_eq; [congruence|].
    specialize (A9 sl' B6 B7). specialize (B9 sl A6 A7).
    pose proof (inner_split (shifted c mu lam) sl sl' ltac:(congruence) ltac:(congruence)). lra. }
  split; [eapply is_max_abs_fun; [|exact A8|exact B8]|eapply is_max_abs_fun; [|exact A5|exact B5]]; auto.
Qed.

(** ** The evaluation before the stopping test always succeeds on well-formed data *)
Lemma blocks_total ds (v : list R) : (fold_right Nat.add 0%nat ds <= length v)%nat -> exists l, blocks_of (K := RSc) ds v = Some l /\ length l = length ds.
Proof.
  revert v. induction ds as [|n ds IH]; intros v H; cbn in *; [exists []; auto|].
  destruct (Nat.leb_spec n (length v)) as [L|L]; [|cbn [car RSc] in *; lia].
  destruct (IH (skipn n v)) as (l & E & Le); [rewrite skipn_length; cbn [car RSc] in *; lia|]. rewrite E. exists (firstn n v :: l). cbn. auto.
Qed.
Lemma dims_sum (fs : list (@cfun RSc)) : fold_right Nat.add 0%nat (map f_nr fs) = rows_of fs.
Proof. induction fs; cbn; congruence. Qed.
Lemma bad_R (v : list R) : bad_vec (K := RSc) v = false.
Proof. unfold bad_vec. induction v; cbn; auto. Qed.
Lemma bad_mat_R (M : list (list R)) : bad_mat (K := RSc) M = false.
Proof. unfold bad_mat. induction M; cbn; auto. rewrite bad_R. exact IHM. Qed.
Lemma jac_cons_total n x fs J : stacked_jacobian n x fs J -> jac_cons (K := RSc) n fs x = Ret J.
Proof.
  induction 1 as [|f fs A J Hf Hl Hr Hs IH]; [reflexivity|]. cbn. cbn [car RSc] in *. rewrite Hf. cbn. unfold sized2. cbn [car RSc] in *.
  rewrite Hl, Nat.eqb_refl.
  assert (E : forallb (fun row : list R => (length row =? n)%nat) A = true).
  { apply forallb_forall. rewrite Forall_forall in Hr. intros r Hi. apply Nat.eqb_eq. apply Hr. exact Hi. }
  rewrite E. cbn. rewrite IH. reflexivity.
Qed.
Lemma vhp_total n fs x : forall ls old, length ls = length fs -> length old = length fs ->
  exists hs, vhp_cons (K := RSc) n false fs x ls old = Ret hs.
Proof.
  induction fs as [|f fs IH]; intros ls old H1 H2; [exists []; destruct ls, old; reflexivity|].
  destruct ls as [|l ls], old as [|o old]; try discriminate. cbn. destruct (IH ls old) as (hs & E); [cbn in *; lia..|].
  rewrite E. cbn. eauto.
Qed.
Lemma stacked_jacobian_length n x fs J : stacked_jacobian n x fs J -> length J = rows_of fs.
Proof. induction 1; cbn; [reflexivity|]. rewrite app_length. cbn [car RSc] in *. lia. Qed.
Lemma stacked_jacobian_rows n x fs J : stacked_jacobian n x fs J -> Forall (fun row => length row = n) J.
Proof. induction 1; [constructor|]. apply Forall_app. auto. Qed.

Section Total.
  Variables (spow : R -> R -> R) (integrate : list R -> list R -> list R)
            (px_val : R -> list R -> list R -> R) (px_grad : R -> list R -> list R -> list R)
            (px_hess : R -> list R -> list R -> list (list R))
            (fac : Type) (fac_compute : fac -> list (list R) -> fac) (fac_signature : fac -> list Z)
            (fac_solve : fac -> list R -> list R)
            (bfgs : Type) (bfgs_update : bfgs -> list R -> list R -> list (list R) -> bfgs * list (list R))
            (qr : R -> R -> R -> R -> R -> R -> R * R).
  Notation state := (@state RSc fac bfgs).
  Notation diagnose := (diagnose (K := RSc) px_val px_grad px_hess fac bfgs bfgs_update).
  Notation solve := (solve (K := RSc) spow integrate px_val px_grad px_hess fac fac_compute fac_signature fac_solve bfgs bfgs_update qr).

  Lemma diagnose_total (P : @params RSc) p (s : state) g J c :
    let x := r_x (s_res _ _ s) in let nd := rows_of (p_cons p) in
    hess_approx P = HM_GAUSS_NEWTON -> 0 < s_mu _ _ s -> Forall (fun c => mu_of c = s_mu _ _ s) (s_sets _ _ s) ->
    sets_fit (s_sets _ _ s) (p_cons p) -> buffers_fit p s -> defined_at p x ->
    p_grad p x = Some g -> length g = p_ndx p -> stacked_jacobian (p_ndx p) x (p_cons p) J -> stacked_values x (p_cons p) c ->
    length (r_lams (s_res _ _ s)) = nd -> length (w_lams_prev _ _ (s_ws _ _ s)) = nd ->
    exists d, diagnose P p s = Ret d.
  Proof.
    intros x nd HG Hmu Mu Fit (L1 & L2 & L3 & L4) ((f & Ef) & H & Eh & Lh & Rh) Eg Lg EJ Ec Ll Lp.
    pose proof (fit_shape _ _ Fit) as Sh. pose proof (stacked_values_length _ _ _ Ec) as Lc.
    unfold Solver_model.diagnose, evaluate_problem, derivs_problem. fold x. rewrite Ef. cbn [user bind].
    rewrite (eval_cons_total _ _ _ Ec). cbn [bind].
    destruct (mult_closed fac bfgs P p s c (r_lams (s_res _ _ s)) Fit Lc Ll Lp L1 L2) as (m & Em & S1 & S2 & S3 & S4 & _).
    rewrite Em. cbn [bind]. rewrite Eg. cbn [user bind]. unfold sized. cbn [car RSc] in *. rewrite Lg, Nat.eqb_refl. cbn [bind].
    rewrite (jac_cons_total _ _ _ _ EJ). cbn [bind].
    change (stack p (s_sets fac bfgs s)) with (product_of (s_sets fac bfgs s) (map f_nr (p_cons p))).
    set (st := product_of (s_sets fac bfgs s) (map f_nr (p_cons p))) in *.
    pose proof (stacked_jacobian_length _ _ _ _ EJ) as LJ.
    match goal with |- context [cone_jac st ?z J] => rewrite (cone_jac_coords st nd z J Sh) by (destruct (kkt_sys P); assumption) end.
    cbn [ub bind]. unfold hess_step. rewrite HG. unfold dims.
    destruct (blocks_total (map f_nr (p_cons p)) (m_pdal m)) as (ls & Els & Lls); [rewrite dims_sum; cbn [car RSc] in *; lia|].
    rewrite Els. cbn [ub bind]. unfold hessians_problem. rewrite Eh. cbn [user bind]. unfold sized2. cbn [car RSc] in *. rewrite Lh, Nat.eqb_refl.
    assert (E : forallb (fun row : list R => (length row =? p_ndx p)%nat) H = true).
    { apply forallb_forall. rewrite Forall_forall in Rh. intros r Hi. apply Nat.eqb_eq. apply Rh. exact Hi. }
    rewrite E. cbn [andb bind].
    destruct (vhp_total (p_ndx p) (p_cons p) x ls (w_vhp _ _ (s_ws _ _ s))) as (hs & Ehs);
      [etransitivity; [exact Lls|apply map_length]|exact L4|]. rewrite Ehs. cbn [bind fst snd].
    rewrite (active_coords st nd (m_shift m) (r_active (s_res _ _ s)) Sh S1 L3). cbn [ub bind].
    rewrite (merit_value_closed p (s_sets _ _ s) (s_mu _ _ s) f (m_shift_pd m) (r_lams (s_res _ _ s)) Fit Mu Hmu S2 Ll). cbn [ub bind].
    unfold merit_gradient, dims.
    destruct (dual_loop_closed (pdal_beta P) (s_sets _ _ s) (p_cons p) (s_mu _ _ s) Fit Mu _ _ Ll S4) as (ls2 & qs & dd & B1 & B2 & B3 & _).
    rewrite B1, B2, B3. cbn [ub bind fst snd]. rewrite bad_R, bad_mat_R.
    unfold primal_residuals. change (stack p (s_sets fac bfgs s)) with st.
    assert (Lv : length (vadd (K := RSc) c (vscale (K := RSc) (s_mu _ _ s) (r_lams (s_res _ _ s)))) = nd).
    { rewrite vadd_length; [exact Lc|]. unfold vscale. rewrite map_length. cbn [car RSc] in *. unfold nd in *. congruence. }
    rewrite (projection_inplace_coords st nd _ Sh Lv). cbn [ub bind].
    match goal with |- context [blocks_of (dims p) ?v] => destruct (blocks_total (map f_nr (p_cons p)) v) as (e & Ee & _) end.
    { rewrite dims_sum. rewrite vsub_length; [cbn [car RSc] in *; lia|].
      rewrite map2_length || rewrite map3_length || idtac. pose proof (stack_coords_length _ _ Fit) as Lk. unfold stack_coords in Lk. cbn [car RSc] in *. unfold nd, st in *. lia. }
    unfold dims. rewrite Ee. cbn [ub bind]. eexists. reflexivity.
  Qed.

  Lemma solve_at_solution fo fi fls fin (P : @params RSc) p (s : state) x0 lams0 prim dual :
    hess_approx P = HM_GAUSS_NEWTON -> 0 < mu_init P -> (0 < max_iters P)%nat -> (0 < max_al_iters P)%nat -> (0 < fo)%nat -> (0 < fi)%nat ->
    sets_fit (s_sets _ _ s) (p_cons p) -> buffers_fit p s -> defined_at p x0 -> length lams0 = rows_of (p_cons p) ->
    kkt_residuals p (map (set_prox (K := RSc) (mu_init P)) (s_sets _ _ s)) (mu_init P) x0 lams0 prim dual ->
    prim < target_tol P -> dual < target_tol P ->
    exists s', solve fo fi fls fin P p (Some s) x0 lams0 = Ret (s', SUCCESS) /\ r_x (s_res _ _ s') = x0 /\ r_num_iters (s_res _ _ s') = 0%nat /\ (mul_update P = MM_NEWTON -> r_lams (s_res _ _ s') = lams0).
  Proof.
    intros HG Hmu Mi Ma Fo Fi Fit Buf Def Ll Kkt Hp Hd.
    destruct fo as [|fo]; [lia|]. destruct fi as [|fi]; [lia|].
    unfold Solver_model.solve. cbn [Solver_model.outer_loop].
    set (i := init_solve (K := RSc) spow fac bfgs P p x0 lams0 s).
    assert (G : (r_num_iters (s_res _ _ i) <? max_iters P)%nat && (r_al_iters (s_res _ _ i) <? max_al_iters P)%nat = true).
    { apply andb_true_iff. rewrite !Nat.ltb_lt. cbn. lia. }
    rewrite G. cbn [Solver_model.inner_loop]. unfold Solver_model.pass.
    set (j := record_params _ _ i).
    assert (Eok : (length lams0 =? numdual p)%nat = true) by (apply Nat.eqb_eq; rewrite numdual_rows; exact Ll).
    assert (J1 : r_x (s_res _ _ j) = x0) by reflexivity.
    assert (J2 : r_lams (s_res _ _ j) = lams0).
    { cbn. cbn [car RSc] in *. rewrite Eok. reflexivity. }
    assert (J3 : w_lams_prev _ _ (s_ws _ _ j) = lams0).
    { cbn. cbn [car RSc] in *. rewrite Eok. reflexivity. }
    assert (J4 : s_mu _ _ j = mu_init P) by reflexivity.
    assert (J5 : s_sets _ _ j = map (set_prox (K := RSc) (mu_init P)) (s_sets _ _ s)) by reflexivity.
    assert (Mu : Forall (fun c : rset => mu_of c = s_mu _ _ j) (s_sets _ _ j)) by (rewrite J5, J4; apply map_set_prox_mu).
    assert (Fj : sets_fit (s_sets _ _ j) (p_cons p)) by (rewrite J5; apply fit_prox; exact Fit).
    pose proof Kkt as (g & J & c & sl & K1 & K2 & K3 & K4 & _).
    destruct (diagnose_total P p j g J c) as (d & Ed); rewrite ?J1, ?J2, ?J3; auto; try (rewrite J4; exact Hmu).
    rewrite Ed. cbn [bind].
    pose proof (diagnose_kkt px_val px_grad px_hess fac bfgs bfgs_update P p j d Ed Fj Mu ltac:(rewrite J4; lra)) as Kd.
    rewrite J1, J2, J4, J5 in Kd.
    destruct (residuals_fun _ _ _ _ _ _ _ _ _ Ll Kkt Kd) as [-> ->].
    pose proof (diagnose_inv _ _ _ _ _ _ _ _ _ _ Ed) as (f & c' & m & g' & J' & vi & pr & me & ac & b & h & v & _ & _ & _ & _ & _ & _ & Oc & Es).
    rewrite Es in Hp, Hd. cbn in Hp, Hd. rewrite Oc.
    assert (Lt : smax (K := RSc) pr (inf_norm (K := RSc) (dual_residual (K := RSc) p g' J' (r_lams (s_res fac bfgs i)))) < target_tol P).
    { unfold smax. cbn [sltb RSc]. destruct (Rltb _ _); assumption. }
    assert (Lt2 : sleb (smax (K := RSc) pr (inf_norm (K := RSc) (dual_residual (K := RSc) p g' J' (r_lams (s_res fac bfgs j))))) (target_tol P) = true).
    { cbn [sleb RSc]. apply Rleb_true. change (r_lams (s_res fac bfgs j)) with (r_lams (s_res fac bfgs i)). lra. }
    rewrite Lt2, orb_true_r. cbn [bind].
    pose proof (after_bcl_keeps spow fac bfgs P (d_state _ _ d)) as Kp. cbv zeta in Kp. unfold after_bcl in Kp.
    destruct Kp as (_ & _ & _ & Kx & _ & Kdu & Kpr & _ & Kn & _).
    rewrite Kdu, Kpr, Es. cbn [s_res r_prim_infeas r_dual_infeas].
    destruct (sltb _ _) eqn:St; [|cbn [sltb RSc] in St; rhyp; exfalso; apply (Rlt_not_le _ _ Lt); exact St].
    cbn [bind]. eexists. split; [reflexivity|]. cbn [set_conv s_res r_x r_num_iters r_lams]. rewrite <- Es, Kx, Kn, Es. split; [reflexivity|]. split; [reflexivity|].
    intros Nw. assert (BL : forall u, r_lams (s_res _ _ (bcl_update (K := RSc) spow fac bfgs P u)) = r_lams (s_res _ _ u)).
    { intros u. unfold bcl_update, update_penalty, accept_multipliers. rewrite Nw. destruct (@sltb RSc (r_prim_infeas (s_res _ _ u)) _); [reflexivity|]. destruct (@seqb RSc (s_mu _ _ u) _); reflexivity. }
    rewrite BL. exact J2.
  Qed.
End Total.
