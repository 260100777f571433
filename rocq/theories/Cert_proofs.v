(** What SUCCESS says about the objective: proofs for C105. *)
From Coq Require Import Reals List Bool Arith ZArith Lia Lra Psatz.
From Verif Require Import Scalar Cset_model Cset_spec Armijo_model Problem_model Solver_model Solver_spec SolverR_proofs SolverS_proofs Solver_props Lin_spec Lin_proofs Inertia_proofs QpN_proofs Qp_spec QpR_spec Ldlt_model FacX_proofs Cert_spec.
Import ListNotations.
Local Open Scope R_scope.

Lemma jt_lam_sum J lam i : length J = length lam -> jt_lam J lam i = rsum (length lam) (fun k => nth k lam 0 * nth i (nth k J []) 0).
Proof.
  revert lam. induction J as [|r J IH]; intros [|l lam] L; try discriminate L; [reflexivity|]. cbn [jt_lam length]. rewrite rsum_head. cbn [nth]. rewrite (IH lam) by (cbn in L; lia). reflexivity.
Qed.
Lemma inner_shift c mu lam sl w n : length c = n -> length lam = n -> length sl = n -> length w = n ->
  inner (minus (shifted c mu lam) sl) (minus w sl) = rsum n (fun k => (nth k c 0 + mu * nth k lam 0 - nth k sl 0) * (nth k w 0 - nth k sl 0)).
Proof.
  revert c lam sl w. induction n as [|n IH]; intros [|a c] [|l lam] [|s sl] [|v w] H1 H2 H3 H4; try discriminate; [reflexivity|].
  cbn in H1, H2, H3, H4. rewrite rsum_head. cbn [nth]. rewrite <- (IH c lam sl w) by lia. reflexivity.
Qed.
Lemma rsum_abs n f : Rabs (rsum n f) <= rsum n (fun i => Rabs (f i)).
Proof. induction n as [|n IH]; cbn; [rewrite Rabs_R0; lra|]. eapply Rle_trans; [apply Rabs_triang|]. lra. Qed.
Lemma rsum_bound n (f h : nat -> R) c : (forall i, (i < n)%nat -> Rabs (f i) <= c) -> - (c * rsum n (fun i => Rabs (h i))) <= rsum n (fun i => f i * h i).
Proof.
  intros H. assert (E : Rabs (rsum n (fun i => f i * h i)) <= c * rsum n (fun i => Rabs (h i))).
  { eapply Rle_trans; [apply rsum_abs|]. rewrite <- rsum_scale. apply rsum_le. intros i Hi. rewrite Rabs_mult. apply Rmult_le_compat_r; [apply Rabs_pos|apply H, Hi]. }
  unfold Rabs in E at 1. destruct (Rcase_abs _) in E; lra.
Qed.
Lemma sv_length x fs c : stacked_values x fs c -> length c = rows_of fs.
Proof. induction 1 as [|f fs v c H L _ IH]; [reflexivity|]. exact (eq_trans (app_length _ _) (f_equal2 Nat.add L IH)). Qed.
Lemma sj_length n x fs J : stacked_jacobian n x fs J -> length J = rows_of fs.
Proof. induction 1 as [|f fs v c H L _ _ IH]; [reflexivity|]. exact (eq_trans (app_length _ _) (f_equal2 Nat.add L IH)). Qed.

Lemma gap p cs mu x lam prim dual : 0 < mu -> kkt_residuals p cs mu x lam prim dual -> length lam = rows_of (p_cons p) -> convex_program p x ->
  let C := product_of cs (map f_nr (p_cons p)) in let m := rows_of (p_cons p) in
  exists c sl, stacked_values x (p_cons p) c /\ length sl = m /\ in_set C sl /\ (forall k, (k < m)%nat -> Rabs (nth k c 0 - nth k sl 0) <= prim) /\
    forall y cy fx fy, length y = p_ndx p -> p_cost p x = Some fx -> p_cost p y = Some fy -> stacked_values y (p_cons p) cy -> in_set C cy ->
      fx + penalty C sl <= fy + penalty C cy + dual * far (p_ndx p) y x + prim * rsum m (fun k => Rabs (nth k lam 0)) + prim / mu * far m cy sl.
Proof.
  intros Hm (g & J & c & sl & G & Lg & SJ & SV & [Md _] & Ls & Is & [Mp _] & V) Ll Cv C m. exists c, sl. split; [exact SV|]. split; [exact Ls|]. split; [exact Is|]. split; [exact Mp|].
  intros y cy fx fy Ly Fx Fy SY Iy. destruct (Cv y fx fy g J c cy Ly Fx Fy G SJ SV SY) as [T Ac].
  pose proof (sv_length _ _ _ SV) as Lc. pose proof (sv_length _ _ _ SY) as Lcy. pose proof (sj_length _ _ _ _ SJ) as LJ.
  specialize (V cy Lcy Iy). rewrite (inner_shift c mu lam sl cy m Lc Ll Ls Lcy) in V. fold C in V.
  set (n := p_ndx p) in *. set (d := fun i => nth i y 0 - nth i x 0).
  assert (E1 : rsum n (fun i => nth i g 0 * d i) = rsum n (fun i => lagrangian_grad g J lam i * d i) - rsum m (fun k => nth k lam 0 * (nth k cy 0 - nth k c 0))).
  { assert (Z : rsum m (fun k => nth k lam 0 * (nth k cy 0 - nth k c 0)) = rsum n (fun i => jt_lam J lam i * d i)).
    { transitivity (rsum m (fun k => rsum n (fun i => nth k lam 0 * nth i (nth k J []) 0 * d i))).
      - apply rsum_ext. intros k Hk. rewrite (Ac k Hk). replace (nth k c 0 + rsum n (fun i => nth i (nth k J []) 0 * (nth i y 0 - nth i x 0)) - nth k c 0) with (rsum n (fun i => nth i (nth k J []) 0 * d i)) by (unfold d; lra).
        rewrite <- rsum_scale. apply rsum_ext. intros. lra.
      - rewrite rsum_swap. apply rsum_ext. intros i Hi. rewrite (jt_lam_sum J lam i) by congruence. rewrite Ll. rewrite <- rsum_scale_r. reflexivity. }
    rewrite Z, <- rsum_minus. apply rsum_ext. intros i Hi. unfold lagrangian_grad. cbn [car RSc] in *. ring. }
  change (fx + rsum n (fun i => nth i g 0 * d i) <= fy) in T. rewrite E1 in T.
  assert (B1 := rsum_bound n (lagrangian_grad g J lam) d dual Md).
  assert (B2 := rsum_bound m (fun k => nth k c 0 - nth k sl 0) (fun k => nth k lam 0) prim Mp).
  assert (B3 := rsum_bound m (fun k => nth k c 0 - nth k sl 0) (fun k => nth k cy 0 - nth k sl 0) prim Mp).
  cbv beta in B1, B2, B3.
  assert (E2 : rsum m (fun k => (nth k c 0 + mu * nth k lam 0 - nth k sl 0) * (nth k cy 0 - nth k sl 0)) =
     rsum m (fun k => (nth k c 0 - nth k sl 0) * (nth k cy 0 - nth k sl 0)) + mu * (rsum m (fun k => nth k lam 0 * (nth k cy 0 - nth k c 0)) + rsum m (fun k => (nth k c 0 - nth k sl 0) * nth k lam 0))).
  { rewrite <- rsum_plus, <- rsum_scale, <- rsum_plus. apply rsum_ext. intros. ring. }
  rewrite E2 in V. clear E2 E1.
  set (S1 := rsum n (fun i => lagrangian_grad g J lam i * d i)) in *. set (S2 := rsum m (fun k => nth k lam 0 * (nth k cy 0 - nth k c 0))) in *.
  set (S3 := rsum m (fun k => (nth k c 0 - nth k sl 0) * nth k lam 0)) in *. set (S4 := rsum m (fun k => (nth k c 0 - nth k sl 0) * (nth k cy 0 - nth k sl 0))) in *.
  unfold far. change (rsum n (fun i => Rabs (nth i y 0 - nth i x 0))) with (rsum n (fun i => Rabs (d i))). set (F1 := rsum n (fun i => Rabs (d i))) in *. set (F2 := rsum m (fun k => Rabs (nth k lam 0))) in *. set (F3 := rsum m (fun k => Rabs (nth k cy 0 - nth k sl 0))) in *.
  assert (W : S4 / mu + S2 + S3 <= penalty C cy - penalty C sl) by (apply (Rmult_le_reg_l mu); [exact Hm|]; replace (mu * (S4 / mu + S2 + S3)) with (S4 + mu * (S2 + S3)) by (field; lra); exact V).
  assert (W2 : - (prim / mu * F3) <= S4 / mu) by (unfold Rdiv; replace (- (prim * / mu * F3)) with (- (prim * F3) * / mu) by ring; apply Rmult_le_compat_r; [left; apply Rinv_0_lt_compat, Hm|exact B3]).
  lra.
Qed.
Lemma solve_gap (O : oracles RSc) fo fi fls fin P p (s : solver_state O) x0 lams0 s' : mul_update P = MM_NEWTON -> 0 < mu_init P -> 0 < mu_lower P -> sets_fit (sets s) (p_cons p) ->
  run_solve O fo fi fls fin P p (Some s) x0 lams0 = Ret (s', SUCCESS) -> let r := res s' in let t := target_tol P in
  length (r_lams r) = rows_of (p_cons p) -> convex_program p (r_x r) ->
  let C := product_of (map (set_prox (K := RSc) (r_mu r)) (sets s)) (map f_nr (p_cons p)) in let m := rows_of (p_cons p) in
  exists c z, stacked_values (r_x r) (p_cons p) c /\ length z = m /\ in_set C z /\ (forall k, (k < m)%nat -> Rabs (nth k c 0 - nth k z 0) < t) /\
    forall y cy fx fy, length y = p_ndx p -> p_cost p (r_x r) = Some fx -> p_cost p y = Some fy -> stacked_values y (p_cons p) cy -> in_set C cy ->
      fx + penalty C z <= fy + penalty C cy + t * far (p_ndx p) y (r_x r) + t * rsum m (fun k => Rabs (nth k (r_lams r) 0)) + t / r_mu r * far m cy z.
Proof.
  intros H1 H2 H3 H4 E r t Ll Cv C m. destruct (C18_success_is_kkt O fo fi fls fin P p s x0 lams0 s' H1 H2 H3 H4 E) as (Mu & K & Tp & Td).
  fold r in Mu, K, Tp, Td. fold t in Tp, Td. destruct (gap _ _ _ _ _ _ _ Mu K Ll Cv) as (c & z & SV & Lz & Iz & Pz & G). exists c, z. split; [exact SV|]. split; [exact Lz|]. split; [exact Iz|].
  split; [intros k Hk; eapply Rle_lt_trans; [apply (Pz k Hk)|exact Tp]|]. intros y cy fx fy Ly Fx Fy SY Iy. specialize (G y cy fx fy Ly Fx Fy SY Iy). fold C m in G.
  assert (A1 : forall n (u v : list R), 0 <= far n u v) by (intros; apply rsum_nonneg; intros; apply Rabs_pos).
  assert (A2 : 0 <= rsum m (fun k => Rabs (nth k (r_lams r) 0))) by (apply rsum_nonneg; intros; apply Rabs_pos).
  pose proof (Rmult_le_compat_r _ _ _ (A1 (p_ndx p) y (r_x r)) (Rlt_le _ _ Td)) as M1. pose proof (Rmult_le_compat_r _ _ _ A2 (Rlt_le _ _ Tp)) as M2.
  assert (M3 : r_prim_infeas r / r_mu r * far m cy z <= t / r_mu r * far m cy z) by (apply Rmult_le_compat_r; [apply A1|]; apply Rmult_le_compat_r; [left; apply Rinv_0_lt_compat, Mu|left; exact Tp]).
  eapply Rle_trans; [exact G|]. repeat apply Rplus_le_compat; try apply Rle_refl; assumption.
Qed.

(** Minimise 1/2 x^2 subject to x - b in a set with one row, from x = -50 with the multiplier 50. *)
Definition hill (b : R) : @problem RSc := qp 1 (fun _ _ => 1) (fun _ => 0) [1%nat] (fun _ _ => 1) (fun _ => b).
Definition steep : @params RSc := started (1 / 100000000) 0.
Definition hill_start (b : R) (c : rset) : solver_state (dense_oracles 2) := setup (K := RSc) (dldlt RSc) unit steep (hill b) [c] [0] (dldlt_new (K := RSc) 2) tt.
Lemma hill_residuals b c sl prim : in_set (product_of [set_prox (K := RSc) (mu_init steep) c] [1%nat]) [sl] -> Rabs (-50 - b - sl) = prim ->
  (forall w, in_set (product_of [set_prox (K := RSc) (mu_init steep) c] [1%nat]) [w] -> (-50 - b + mu_init steep * 50 - sl) * (w - sl) <= mu_init steep * (penalty (set_prox (K := RSc) (mu_init steep) c) [w] - penalty (set_prox (K := RSc) (mu_init steep) c) [sl])) ->
  kkt_residuals (hill b) (map (set_prox (K := RSc) (mu_init steep)) [c]) (mu_init steep) [-50] [50] prim 0.
Proof.
  intros I Hp V. exists (tab 1 (qp_grad 1 (fun _ _ => 1) (fun _ => 0) (fun i => nth i [-50] 0))), [tab 1 (fun _ => 1)], [qp_con 1 (fun _ _ => 1) (fun _ => b) (fun i => nth i [-50] 0) 0%nat], [sl].
  split; [reflexivity|]. split; [reflexivity|].
  split. { change [tab 1 (fun _ => 1)] with ([tab 1 (fun _ => 1)] ++ [] : list (list R)). constructor; [reflexivity|reflexivity|repeat constructor|constructor]. }
  split. { match goal with |- stacked_values _ _ ?v => change v with (v ++ [] : list R) end. constructor; [reflexivity|reflexivity|constructor]. }
  assert (E : qp_con 1 (fun _ _ => 1) (fun _ => b) (fun i => nth i [-50] 0) 0%nat = -50 - b) by (unfold qp_con; cbn; lra).
  split. { split; [intros i Hi|right; exists 0%nat]; cbn in *; unfold lagrangian_grad, qp_grad; [|split; [lia|]]; cbn; [destruct i; [|lia]; cbn|];
           match goal with |- context [Rabs ?t] => replace t with 0 by lra end; rewrite Rabs_R0; lra. }
  split; [reflexivity|]. split; [exact I|].
  split. { split; [intros i Hi|right; exists 0%nat]; cbn in *; [|split; [lia|]]; [destruct i; [|lia]; cbn [nth]|]; cbn [nth]; rewrite ?E; [right|]; exact Hp. }
  intros w Lw Hw. destruct w as [|a [|? ?]]; try discriminate. specialize (V a Hw). cbn [shifted minus map2 inner]. rewrite E. cbn [penalty combine map product_of].
  cbn [hill qp p_cons qp_cons map f_nr product_of combine penalty firstn skipn]. cbn in V |- *. lra.
Qed.
Lemma hill_run b c sl prim : shape c 1 -> flat_l1 c -> in_set (product_of [set_prox (K := RSc) (mu_init steep) c] [1%nat]) [sl] -> Rabs (-50 - b - sl) = prim ->
  (forall w, in_set (product_of [set_prox (K := RSc) (mu_init steep) c] [1%nat]) [w] -> (-50 - b + mu_init steep * 50 - sl) * (w - sl) <= mu_init steep * (penalty (set_prox (K := RSc) (mu_init steep) c) [w] - penalty (set_prox (K := RSc) (mu_init steep) c) [sl])) ->
  prim < target_tol steep -> exists s', run_solve (dense_oracles 2) 1001 101 1 1 steep (hill b) (Some (hill_start b c)) [-50] [50] = Ret (s', SUCCESS) /\ r_x (res s') = [-50] /\ r_num_iters (res s') = 0%nat /\ r_lams (res s') = [50].
Proof.
  intros Sh Fl I Hp V Hl. destruct (C20_start_accepted (dense_oracles 2) 1001 101 1 1 steep (hill b) (hill_start b c) [-50] [50] prim 0) as (s' & E & X & N & L); cycle 13.
  { exists s'. split; [exact E|]. split; [exact X|]. split; [exact N|]. apply L. reflexivity. }
  - reflexivity.
  - cbn. lra.
  - cbn. lia.
  - cbn. lia.
  - lia.
  - lia.
  - split; repeat constructor; assumption.
  - repeat split.
  - split; [eexists; reflexivity|]. eexists. split; [reflexivity|]. split; [reflexivity|repeat constructor].
  - reflexivity.
  - apply (hill_residuals b c sl prim I Hp V).
  - exact Hl.
  - cbn. unfold slit. cbn. lra.
Qed.
Lemma hill_neg : exists s', run_solve (dense_oracles 2) 1001 101 1 1 steep (hill 10) (Some (hill_start 10 (CNeg 1))) [-50] [50] = Ret (s', SUCCESS) /\ r_x (res s') = [-50] /\ r_num_iters (res s') = 0%nat /\ r_lams (res s') = [50].
Proof.
  apply (hill_run 10 (CNeg 1) (-60 + 1 / 100000000 * 50) (1 / 2000000)); cbn; try exact I.
  - repeat split; try reflexivity. repeat constructor. lra.
  - rewrite <- Rabs_Ropp, Rabs_pos_eq; lra.
  - intros w _. lra.
  - unfold slit. cbn. lra.
Qed.
Lemma hill_l1 : exists s', run_solve (dense_oracles 2) 1001 101 1 1 steep (hill 0) (Some (hill_start 0 (CL1 1))) [-50] [50] = Ret (s', SUCCESS) /\ r_x (res s') = [-50] /\ r_num_iters (res s') = 0%nat /\ r_lams (res s') = [50].
Proof.
  apply (hill_run 0 (CL1 1) (-50 + 1 / 100000000 * 51) (1 / 100000000 * 51)); cbn; try exact I.
  - repeat split; reflexivity.
  - rewrite <- Rabs_Ropp, Rabs_pos_eq; lra.
  - intros w _. rewrite (Rabs_left (-50 + 1 / 100000000 * 51)) by lra. unfold Rabs. destruct (Rcase_abs w); lra.
  - unfold slit. cbn. lra.
Qed.
Lemma hill_cost b x : p_cost (hill b) [x] = Some (1 / 2 * (x * x)).
Proof. cbn. unfold qp_obj. cbn. f_equal. ring. Qed.
Lemma hill_sets b c : sets (hill_start b c) = [c].
Proof. reflexivity. Qed.
Lemma optimal_false : exists P p (s s' : solver_state (dense_oracles 2)), P = started (1 / 100000000) 0 /\ target_tol P = 1 / 1000000 /\ sets s = [CNeg (K := RSc) 1] /\
  p_cons p = qp_cons 1 (fun _ _ => 1) (fun _ => 10) 0 [1%nat] /\ (forall x, p_cost p [x] = Some (1 / 2 * (x * x))) /\
  run_solve (dense_oracles 2) 1001 101 1 1 P p (Some s) [-50] [50] = Ret (s', SUCCESS) /\ r_x (res s') = [-50].
Proof.
  destruct hill_neg as (s' & E & X & _). exists steep, (hill 10), (hill_start 10 (CNeg 1)), s'. split; [reflexivity|]. split; [reflexivity|]. split; [apply hill_sets|]. split; [reflexivity|]. split; [apply hill_cost|]. split; assumption.
Qed.
Lemma l1_false : exists P p (s s' : solver_state (dense_oracles 2)), P = started (1 / 100000000) 0 /\ target_tol P = 1 / 1000000 /\ sets s = [CL1 (K := RSc) 1] /\
  p_cons p = qp_cons 1 (fun _ _ => 1) (fun _ => 0) 0 [1%nat] /\ (forall x, p_cost p [x] = Some (1 / 2 * (x * x))) /\
  run_solve (dense_oracles 2) 1001 101 1 1 P p (Some s) [-50] [50] = Ret (s', SUCCESS) /\ r_x (res s') = [-50].
Proof.
  destruct hill_l1 as (s' & E & X & _). exists steep, (hill 0), (hill_start 0 (CL1 1)), s'. split; [reflexivity|]. split; [reflexivity|]. split; [apply hill_sets|]. split; [reflexivity|]. split; [apply hill_cost|]. split; assumption.
Qed.
Lemma hill_values b x v : stacked_values [x] (p_cons (hill b)) v -> v = [x - b].
Proof.
  intros H. inversion H as [|f fs v1 c E L H2]; subst. inversion H2; subst. cbn in E. injection E as <-. cbn. unfold qp_con. cbn. f_equal. ring.
Qed.
Lemma hill_convex b x : convex_program (hill b) [x].
Proof.
  intros y fx fy g J cx cy Ly Fx Fy G SJ SX SY. destruct y as [|y [|? ?]]; try discriminate Ly.
  rewrite hill_cost in Fx, Fy. injection Fx as <-. injection Fy as <-. cbn in G. injection G as <-.
  rewrite (hill_values _ _ _ SX), (hill_values _ _ _ SY). inversion SJ as [|f fs A J2 E L W H2]; subst. inversion H2; subst. cbn in E. injection E as <-. split.
  - unfold qp_grad. cbn. pose proof (Rle_0_sqr (y - x)) as S. unfold Rsqr in S. lra.
  - intros [|k] Hk; [cbn; lra|cbn in Hk; lia].
Qed.
Lemma gap_case : exists s', run_solve (dense_oracles 2) 1001 101 1 1 steep (hill 10) (Some (hill_start 10 (CNeg (K := RSc) 1))) [-50] [50] = Ret (s', SUCCESS) /\
  mul_update steep = MM_NEWTON /\ 0 < mu_init steep /\ 0 < mu_lower steep /\ sets_fit (sets (hill_start 10 (CNeg (K := RSc) 1))) (p_cons (hill 10)) /\
  length (r_lams (res s')) = rows_of (p_cons (hill 10)) /\ convex_program (hill 10) (r_x (res s')).
Proof.
  destruct hill_neg as (s' & E & X & _ & L). exists s'. split; [exact E|]. split; [reflexivity|]. split; [cbn; lra|]. split; [cbn; unfold slit; cbn; lra|].
  split; [split; repeat constructor|]. rewrite X, L. split; [reflexivity|apply hill_convex].
Qed.
