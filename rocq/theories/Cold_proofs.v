(** A solve from zero multipliers that stalls with the classic system (C108). *)
From Coq Require Import Reals List Bool Arith ZArith Lia Lra Psatz.
From Verif Require Import Scalar Cset_model Cset_spec Cset_proofs Armijo_model Problem_model Solver_model Solver_spec SolverR_proofs SolverS_proofs Merit_spec Merit_proofs
  Lin_spec Lin_proofs Ldlt_model Ldlt_spec Ldlt_proofs Bk_spec Descent_spec Descent_proofs DescentX_proofs Refine_proofs Qp_spec Qp_proofs QpD_proofs QpT_proofs QpC_proofs QpF_proofs QpN_proofs Fac_model Fac_spec FacX_proofs QpR_spec Act_spec Act_proofs ActD_proofs ActT_proofs ActF_proofs ActX_proofs
  Glob_spec Glob_proofs GlobD_proofs GlobT_proofs PdcO_proofs Stall_spec Stall_proofs.
Import ListNotations.
Local Open Scope R_scope.

(** ** The line search: a full step, and half a step *)
Lemma run_full qr it ph fls v g v1 : (0 < fls)%nat -> 1 / 10000000000000 <= - g -> ph [] 1 = Some v1 -> v1 - v <= 1 / 10000 * g -> exists lr, run (K := RSc) qr ph fls (halving it) v g = Some lr /\ r_alpha lr = 1.
Proof.
  intros Hf Hg H1 Ac. destruct fls as [|fls]; [lia|]. unfold run. cbn [first_loop]. change (s1 (s := RSc)) with 1. rewrite H1. change (dphi_thresh (halving it)) with (1 / 10000000000000). cbn [sltb RSc]. unfold sabs. cbn [RSc].
  match goal with |- context [if ?bb then _ else _] => assert (T : bb = false) end. { apply rltb_f. rewrite Rabs_left by lra. exact Hg. }
  rewrite T; clear T. change (max_num_steps (halving it)) with (S (S 18)). generalize 18%nat. intros n18. cbn [main_loop sphi sample2].
  match goal with |- context [if ?bb then (1, _, _) else _] => assert (T : bb = true) end. { apply rleb_t. cbn. lra. }
  rewrite T; clear T. eexists. split; [reflexivity|]. cbn [r_alpha]. change (alpha_min (halving it)) with (1 / 1000000). unfold smax. cbn. unfold Rltb. destruct (Rlt_dec _ _); [exfalso; lra|reflexivity].
Qed.
Lemma half_once qr it v g v1 pre : it <> CUBIC -> 0 < v1 - v - g -> - g < v1 - v - g -> next_alpha (K := RSc) qr (halving it) (sample3 (K := RSc) 0 v g) (sample2 (K := RSc) 1 v1) pre 1 = 1 / 2.
Proof.
  intros It Cp Gc. unfold next_alpha, halving. cbn [interp contraction_min contraction_max]. destruct it; [cbn; unfold shalf; cbn; field|idtac|contradiction It; reflexivity].
  unfold minimize_interpolant, quad_interp. cbn [sphi sa sdphi sample2 sample3]. cbn [car RSc sadd ssub smul sdiv sopp s0 stwo].
  set (c := v1 - v - g) in *. assert (E : (v1 - v - 1 * g) / (1 * 1) = c) by (unfold c; field).
  assert (E' : - g / (stwo (K := RSc) * ((v1 - v - 1 * g) / (1 * 1))) = - (g / (2 * c))). { rewrite E. unfold stwo. cbn. field. lra. }
  unfold clip. cbn [sltb RSc smul sdiv ssub sopp].
  match goal with |- (if ?bb then _ else _) = _ => assert (T : bb = true) end.
  { apply orb_true_iff. right. apply rltb_t. eapply Rle_lt_trans; [apply Req_le, E'|]. change (- (g / (2 * c)) < 1 / 2 * 1). apply (Rmult_lt_reg_l (2 * c)); [lra|]. replace (2 * c * - (g / (2 * c))) with (- g) by (field; lra). lra. }
  rewrite T; clear T.
  match goal with |- (if ?bb then _ else _) = _ => assert (T : bb = true) end.
  { apply rltb_t. unfold poly_eval. cbn. rewrite E. lra. }
  rewrite T; clear T. change (1 / 2 * 1 = 1 / 2). lra.
Qed.
Lemma run_half qr it ph fls v g v1 v2 : it <> CUBIC -> (0 < fls)%nat -> 1 / 10000000000000 <= - g -> ph [] 1 = Some v1 -> (forall tr, ph tr (1 / 2) = Some v2) -> 0 < v1 - v -> - g < v1 - v - g -> v2 - v <= 1 / 20000 * g ->
  exists lr, run (K := RSc) qr ph fls (halving it) v g = Some lr /\ r_alpha lr = 1 / 2.
Proof.
  intros It Hf Hg H1 H2 Rj Gc Ac. destruct fls as [|fls]; [lia|]. unfold run. cbn [first_loop]. change (s1 (s := RSc)) with 1. rewrite H1. change (dphi_thresh (halving it)) with (1 / 10000000000000). cbn [sltb RSc]. unfold sabs. cbn [RSc].
  match goal with |- context [if ?bb then _ else _] => assert (T : bb = false) end. { apply rltb_f. rewrite Rabs_left by lra. exact Hg. }
  rewrite T; clear T. change (max_num_steps (halving it)) with (S (S 18)). generalize 18%nat. intros n18. cbn [main_loop sphi sample2].
  match goal with |- context [if ?bb then (1, _, _) else _] => assert (T : bb = false) end. { apply rleb_f. cbn. lra. }
  rewrite T; clear T. cbn [car RSc]. change (s0 (s := RSc)) with 0. pose proof (half_once qr it v g v1 (sample0 (K := RSc)) It ltac:(lra) Gc) as Nx. cbn [car RSc] in Nx. rewrite Nx. unfold guard_alpha. cbn [snan RSc]. change (alpha_min (halving it)) with (1 / 1000000).
  assert (Sm : smax (K := RSc) (1 / 2) (1 / 1000000) = 1 / 2) by (apply smax_R_l; lra). cbn [car RSc] in *. rewrite Sm, H2. cbn [sleb RSc]. rewrite rleb_f by lra. cbn [sphi sample2].
  match goal with |- context [if ?bb then (1 / 2, _, _) else _] => assert (T : bb = true) end. { apply rleb_t. cbn. lra. }
  rewrite T; clear T. eexists. split; [reflexivity|]. cbn [r_alpha]. exact Sm.
Qed.

(** ** Minimise 1/2 x^2 + 150 y^2 subject to x + 47 <= 0 and -2 x + y - 236 <= 0 *)
Definition cQ (i j : nat) : R := match i, j with 0%nat, 0%nat => 1 | 1%nat, 1%nat => 300 | _, _ => 0 end.
Notation cA := cold_rows.
Notation cb := cold_bounds.
Definition cold_qp : @problem RSc := qp 2 cQ (fun _ => 0) [1%nat; 1%nat] cA cb.
Definition cold_state (it : interp_type) (N : nat) : solver_state (dense_oracles 4) := setup (K := RSc) (dldlt RSc) unit (halving_params it N) cold_qp [CNeg (K := RSc) 1; CNeg (K := RSc) 1] [0; 0] (dldlt_new (K := RSc) 4) tt.
Section Run.
  Variables (it : interp_type) (N : nat).
  Hypothesis It : it <> CUBIC.
  Notation SO := (dense_oracles 4).
  Notation SP := (halving_params it N).
  Notation cs := [CNeg (K := RSc) (1 / 100); CNeg (K := RSc) (1 / 100)].
  Notation hold := (holda SO 2 [1%nat; 1%nat] cs).
  Notation z0 := (fun _ : nat => 0).
  Notation mer := (act_merit 2 2 cQ z0 cA cb (Kr cold_qp cs) (1 / 100) z0).
  Notation slo := (act_slope 2 2 cQ z0 cA cb (Kr cold_qp cs) (1 / 100) z0).
  Lemma cold_like : answers_like 2 cold_qp (qp 2 cQ z0 [1%nat; 1%nat] cA cb).
  Proof. split; [reflexivity|]. split; [intros; repeat split|]. repeat constructor. Qed.
  Lemma cold_fit : sets_fit cs (p_cons cold_qp). Proof. split; repeat constructor. Qed.
  Lemma cold_plain : plain SO SP 2.
  Proof. constructor; cbn; try solve [reflexivity|lra|split; lra|right; reflexivity]. intros x v Hx _. rewrite Hx. reflexivity. Qed.
  Lemma cold_strong : strongly_convex 2 cQ 1.
  Proof. split; [intros [|[|i]] [|[|j]]; reflexivity|]. intros x. unfold form. cbn. nra. Qed.
  Lemma kr k : (k < 2)%nat -> Kr cold_qp cs k = KNeg. Proof. intros H. destruct k as [|[|k]]; [reflexivity|reflexivity|lia]. Qed.
  Lemma neg_lo v : v <= 0 -> cact KNeg v = false /\ ccone KNeg v = 0 /\ cproj KNeg v = v.
  Proof. intros H. unfold cact, ccone, cproj, neg1_cone, neg1, smax, smin. cbn. unfold Rltb. repeat (destruct (Rlt_dec _ _)); repeat split; try reflexivity; try lra; try (exfalso; lra). Qed.
  Lemma neg_hi v : 0 < v -> cact KNeg v = true /\ ccone KNeg v = v /\ cproj KNeg v = 0.
  Proof. intros H. unfold cact, ccone, cproj, neg1_cone, neg1, smax, smin. cbn. unfold Rltb. repeat (destruct (Rlt_dec _ _)); repeat split; try reflexivity; try lra; try (exfalso; lra). Qed.
  Lemma neg_off v : cact KNeg v = false -> ccone KNeg v = 0.
  Proof. intros H. destruct (Rlt_dec 0 v) as [L|L]; [rewrite (proj1 (neg_hi v L)) in H; discriminate|apply neg_lo; lra]. Qed.
  Lemma con0 x : qp_con 2 cA cb x 0 = x 0%nat + 47. Proof. unfold qp_con. cbn. lra. Qed.
  Lemma con1 x : qp_con 2 cA cb x 1 = -2 * x 0%nat + x 1%nat - 236. Proof. unfold qp_con. cbn. lra. Qed.
  Lemma cold_cap : handles_rows SO 2 2 cQ cA (1 / 100).
  Proof. pose proof tiny_default. apply (dense_rows _ _ _ _ _ _ _ _ 2 2 cQ cA (1 / 100) 1 cold_strong); cbn [car RSc] in *; lra. Qed.

  Lemma cold_pass fls fin (s : solver_state SO) dl x l : (0 < fin)%nat -> hold s (1 / 100) x l z0 -> s_inner_tol _ _ s <= 1 ->
    1 < Rabs (ccone KNeg (x 0%nat + 47) - 1 / 100 * l 0%nat) -> 1 <= Rabs (x 0%nat + 47 - cproj KNeg (x 0%nat + 47 + 1 / 100 * l 0%nat)) ->
    exists dx e, let k0 := cact KNeg (x 0%nat + 47) in let k1 := cact KNeg (-2 * x 0%nat + x 1%nat - 236) in
      (dx 0%nat + (if k0 then e 0%nat else 0) - 2 * (if k1 then e 1%nat else 0) = - (x 0%nat + (if k0 then l 0%nat else 0) - 2 * (if k1 then l 1%nat else 0)) /\
       300 * dx 1%nat + (if k1 then e 1%nat else 0) = - (300 * x 1%nat + (if k1 then l 1%nat else 0)) /\
       (if k0 then dx 0%nat else 0) - 1 / 100 * e 0%nat = - (ccone KNeg (x 0%nat + 47) - 1 / 100 * l 0%nat) /\
       (if k1 then -2 * dx 0%nat + dx 1%nat else 0) - 1 / 100 * e 1%nat = - (ccone KNeg (-2 * x 0%nat + x 1%nat - 236) - 1 / 100 * l 1%nat)) /\
      forall lr, run (K := RSc) (o_qr SO) (fun _ a => Some (mer (fun i => x i + a * dx i) (fun k => l k + a * e k))) fls (lsopt SP) (mer x l) (slo x l dx e) = Some lr ->
      exists s', pass (o_integrate SO) (o_px_val SO) (o_px_grad SO) (o_px_hess SO) (o_fac SO) (o_compute SO) (o_signature SO) (o_solve SO) (o_bfgs SO) (o_bfgs_update SO) (o_qr SO) fls fin SP cold_qp s dl =
          Ret (if (N <=? S (r_num_iters (res s)))%nat then Stop _ _ s' else Next _ _ s' 0) /\
        hold s' (1 / 100) (fun i => x i + r_alpha lr * dx i) (fun k => l k + r_alpha lr * e k) z0 /\
        r_num_iters (res s') = S (r_num_iters (res s)) /\ r_al_iters (res s') = r_al_iters (res s) /\ s_inner_tol _ _ s' = s_inner_tol _ _ s /\ 1 <= r_prim_infeas (res s') /\
        r_conv (res s') = if (N <=? S (r_num_iters (res s)))%nat then MAX_ITERS_REACHED else r_conv (res s).
  Proof.
    intros Hi H Tol Cr Vi. destruct cold_plain as [Pb Ph [Pd1 Pd2] _ Pf Pp].
    destruct (adiag_p SO SP 2 cQ z0 [1%nat; 1%nat] cA cb cold_qp cold_like Pb Ph eq_refl cs cold_fit s (1 / 100) x l z0 H)
      as (d & E & Hd & Ke & E1 & E2 & E3 & E4 & E5 & E6 & Ic & Oc & Mp & Md & E7 & E8).
    assert (S0 : shift_at 2 cA cb (1 / 100) z0 x 0 = x 0%nat + 47) by (unfold shift_at; rewrite con0; lra).
    assert (S1 : shift_at 2 cA cb (1 / 100) z0 x 1 = -2 * x 0%nat + x 1%nat - 236) by (unfold shift_at; rewrite con1; lra).
    assert (Pl : 1 <= r_prim_infeas (res (d_state _ _ d))).
    { eapply Rle_trans; [exact Vi|]. eapply Rle_trans; [|exact (max_abs_ge _ _ _ 0%nat Mp ltac:(cbn; lia))]. apply Req_le. unfold aviol. rewrite (kr 0) by lia. rewrite con0. reflexivity. }
    assert (Bt : (sleb (s := RSc) (d_inner_crit _ _ d) (s_inner_tol _ _ s)) = false).
    { cbn [sleb RSc]. apply rleb_f. eapply Rle_lt_trans; [exact Tol|]. rewrite Ic.
      match goal with |- _ < inf_norm ?v => pose proof (maxl_nth _ _ (inf_norm_maxl v)) as [M1 M2] end.
      specialize (M1 2%nat ltac:(cbn; lia)). eapply Rlt_le_trans; [|exact M1]. eapply Rlt_le_trans; [exact Cr|]. apply Req_le. transitivity (Rabs (arp 2 cA cb cold_qp cs (1 / 100) z0 x l 0)); [|reflexivity]. unfold ActD_proofs.arp. rewrite S0. rewrite (kr 0) by lia. reflexivity. }
    assert (Bo : (sleb (s := RSc) (d_outer_crit _ _ d) (target_tol SP)) = false).
    { cbn [sleb RSc]. apply rleb_f. rewrite Oc. eapply Rlt_le_trans; [|exact (proj2 (smax_R_ge _ _))]. eapply Rlt_le_trans; [|exact Pl]. cbn. unfold slit. cbn. lra. }
    destruct (cstep_p SO SP 2 cQ z0 [1%nat; 1%nat] cA cb cold_qp cold_like Pb eq_refl (proj1 cold_strong) Pf Pp Pd1 Pd2 cs cold_fit fls fin d dl (1 / 100) x l z0 Hi Hd cold_cap)
      as (dx & e & K1 & K2 & R); try assumption.
    { intros k Hk. unfold asel. change (total [1%nat; 1%nat]) with 2%nat in Hk. rewrite (kr k) by exact Hk. apply neg_off. }
    exists dx, e. cbv zeta. split.
    - pose proof (K1 0%nat ltac:(lia)) as G0. pose proof (K1 1%nat ltac:(lia)) as G1. pose proof (K2 0%nat ltac:(cbn; lia)) as G2. pose proof (K2 1%nat ltac:(cbn; lia)) as G3. clear K1 K2.
      unfold chosen, asel in G0, G1, G2, G3. change (total [1%nat; 1%nat]) with 2%nat in *. unfold qp_grad in G0, G1. cbn [rsum] in G0, G1, G2, G3. pose proof (kr 0 ltac:(lia)) as W0. pose proof (kr 1 ltac:(lia)) as W1. cbn [car RSc] in *. rewrite W0, S0, W1, S1 in G0, G1. rewrite W0, S0 in G2. rewrite W1, S1 in G3. cbn [cQ cold_rows] in G0, G1, G2, G3.
      destruct (cact KNeg (x 0%nat + 47)), (cact KNeg (-2 * x 0%nat + x 1%nat - 236)); repeat split; lra.
    - intros lr Er. destruct (R (fun _ a => Some (mer (fun i => x i + a * dx i) (fun k => l k + a * e k))) lr) as (s' & E' & H' & N' & AL' & I' & _ & Pr' & Du' & Cv'); [reflexivity|exact Er|].
      destruct Ke as [k1 k2 k3 k4 k5]. change (max_iters SP) with N in E', Cv'. rewrite k1 in *. exists s'.
      split; [unfold pass; unfold run_diagnose in E; rewrite E; cbn [bind]; rewrite Bt, Bo; exact E'|]. split; [exact H'|]. split; [exact N'|]. split; [rewrite AL'; exact k2|]. split; [rewrite I'; exact k4|]. split; [rewrite Pr'; exact Pl|]. rewrite Cv', k3. reflexivity.
  Qed.
  Notation u0 y z := (y 0%nat + 47 - 1 / 200 * z 0%nat).
  Notation u1 y z := (-2 * y 0%nat + y 1%nat - 236 - 1 / 200 * z 1%nat).
  Lemma neg_max v : ccone KNeg v = Rmax 0 v /\ v - cproj KNeg v = Rmax 0 v.
  Proof. destruct (Rlt_dec 0 v) as [L|L]; [destruct (neg_hi v L) as (_ & -> & ->); rewrite Rmax_right by lra; lra|destruct (neg_lo v ltac:(lra)) as (_ & -> & ->); rewrite Rmax_left by lra; lra]. Qed.
  Lemma spd0 y z : shift_pd_at 2 cA cb (1 / 100) z0 y z 0 = u0 y z. Proof. unfold shift_pd_at, shift_at. rewrite con0. lra. Qed.
  Lemma spd1 y z : shift_pd_at 2 cA cb (1 / 100) z0 y z 1 = u1 y z. Proof. unfold shift_pd_at, shift_at. rewrite con1. lra. Qed.
  Lemma mer_val y z : mer y z = 1 / 2 * (y 0%nat * y 0%nat) + 150 * (y 1%nat * y 1%nat) + 100 * (Rmax 0 (u0 y z) * Rmax 0 (u0 y z)) + 100 * (Rmax 0 (u1 y z) * Rmax 0 (u1 y z)) + (z 0%nat * z 0%nat + z 1%nat * z 1%nat) / 400.
  Proof.
    unfold act_merit, env1. cbn [rsum]. rewrite (kr 0), (kr 1) by lia. rewrite spd0, spd1. rewrite !(proj2 (neg_max _)). cbn [cpen]. unfold qp_obj. cbn [rsum cQ]. field.
  Qed.
  Lemma slo_val x l dx e : slo x l dx e = (x 0%nat + 200 * Rmax 0 (u0 x l) - 400 * Rmax 0 (u1 x l)) * dx 0%nat + (300 * x 1%nat + 200 * Rmax 0 (u1 x l)) * dx 1%nat +
    1 / 200 * (l 0%nat - 200 * Rmax 0 (u0 x l)) * e 0%nat + 1 / 200 * (l 1%nat - 200 * Rmax 0 (u1 x l)) * e 1%nat.
  Proof.
    unfold act_slope, act_pdal. cbn [rsum]. rewrite (kr 0), (kr 1) by lia. rewrite spd0, spd1. rewrite !(proj1 (neg_max _)). unfold qp_grad. cbn [rsum cQ cold_rows]. field.
  Qed.
  Notation step fls fin s dl t' := (exists s', pass (o_integrate SO) (o_px_val SO) (o_px_grad SO) (o_px_hess SO) (o_fac SO) (o_compute SO) (o_signature SO) (o_solve SO) (o_bfgs SO) (o_bfgs_update SO) (o_qr SO) fls fin SP cold_qp s dl =
          Ret (if (N <=? S (r_num_iters (res s)))%nat then Stop _ _ s' else Next _ _ s' 0) /\
        hold s' (1 / 100) (fun i => t' * match i with 0%nat => -100 | _ => 9 end) (fun k => t' * match k with 0%nat => -5300 | _ => -2700 end) z0 /\
        r_num_iters (res s') = S (r_num_iters (res s)) /\ r_al_iters (res s') = r_al_iters (res s) /\ s_inner_tol _ _ s' = s_inner_tol _ _ s /\ 1 <= r_prim_infeas (res s') /\
        r_conv (res s') = if (N <=? S (r_num_iters (res s)))%nat then MAX_ITERS_REACHED else r_conv (res s)).
  Notation px t := (fun i : nat => t * match i with 0%nat => -100 | _ => 9 end).
  Notation pl t := (fun k : nat => t * match k with 0%nat => -5300 | _ => -2700 end).
  Lemma hold_to s x l x' l' : hold s (1 / 100) x l z0 -> x' 0%nat = x 0%nat -> x' 1%nat = x 1%nat -> l' 0%nat = l 0%nat -> l' 1%nat = l 1%nat -> hold s (1 / 100) x' l' z0.
  Proof.
    intros H e1 e2 e3 e4. destruct H. constructor; try assumption; [rewrite a_x|rewrite a_l]; apply tab_ext; intros [|[|i]] Hi; try (symmetry; assumption); cbn in Hi; lia.
  Qed.
  (** From the start (0, 300): both rows are violated, and the full step is taken. *)
  Lemma step_first fls fin (s : solver_state SO) dl : (0 < fls)%nat -> (0 < fin)%nat -> hold s (1 / 100) (fun i => match i with 0%nat => 0 | _ => 300 end) z0 z0 -> s_inner_tol _ _ s <= 1 -> step fls fin s dl 1.
  Proof.
    intros Hf Hi H Tol.
    destruct (neg_hi (0 + 47) ltac:(lra)) as (a0 & c0 & _). destruct (neg_hi (-2 * 0 + 300 - 236) ltac:(lra)) as (a1 & c1 & _). destruct (neg_hi (0 + 47 + 1 / 100 * 0) ltac:(lra)) as (_ & _ & q0).
    destruct (cold_pass fls fin s dl _ _ Hi H Tol) as (dx & e & K & R).
    { rewrite c0, Rabs_pos_eq; lra. } { rewrite q0, Rabs_pos_eq; lra. }
    cbv zeta in K. rewrite a0, a1, c0, c1 in K. cbn beta iota in K. destruct K as (K1 & K2 & K3 & K4).
    assert (D0 : dx 0%nat = -100) by lra. assert (D1 : dx 1%nat = -291) by lra. assert (F0 : e 0%nat = -5300) by lra. assert (F1 : e 1%nat = -2700) by lra. clear K1 K2 K3 K4.
    match goal with [R : forall lr, run _ ?ph _ _ ?v ?g = Some lr -> _ |- _] => set (phi := ph) in R; set (v0 := v) in R; set (g0 := g) in R;
      assert (V : v0 = 14130500) by (unfold v0; rewrite mer_val; cbn beta iota; rewrite !Rmax_right by lra; lra);
      assert (G : g0 = -27872900) by (unfold g0; rewrite slo_val; rewrite D0, D1, F0, F1; cbn beta iota; rewrite !Rmax_right by lra; lra);
      assert (P1 : phi [] 1 = Some 105600) by (unfold phi; f_equal; rewrite mer_val; rewrite D0, D1, F0, F1; cbn beta iota; rewrite !Rmax_left by lra; lra) end.
    destruct (run_full (o_qr SO) it phi fls v0 g0 105600 Hf ltac:(rewrite G; lra) P1 ltac:(rewrite V, G; lra)) as (lr & Er & Ea).
    destruct (R lr Er) as (s' & E & H' & C). exists s'. split; [exact E|]. split; [|exact C].
    eapply hold_to; [exact H'|..]; cbn beta iota; rewrite Ea, ?D0, ?D1, ?F0, ?F1; lra.
  Qed.
  (** From t = 1 both rows are left out, and half the step is taken. *)
  Lemma step_second fls fin (s : solver_state SO) dl : (0 < fls)%nat -> (0 < fin)%nat -> hold s (1 / 100) (px 1) (pl 1) z0 -> s_inner_tol _ _ s <= 1 -> step fls fin s dl (1 / 2).
  Proof.
    intros Hf Hi H Tol.
    destruct (neg_lo (1 * -100 + 47) ltac:(lra)) as (a0 & c0 & _). destruct (neg_lo (-2 * (1 * -100) + 1 * 9 - 236) ltac:(lra)) as (a1 & c1 & _). destruct (neg_lo (1 * -100 + 47 + 1 / 100 * (1 * -5300)) ltac:(lra)) as (_ & _ & q0).
    destruct (cold_pass fls fin s dl _ _ Hi H Tol) as (dx & e & K & R).
    { rewrite c0, Rabs_pos_eq; lra. } { rewrite q0, Rabs_pos_eq; lra. }
    cbv zeta in K. rewrite a0, a1, c0, c1 in K. cbn beta iota in K. destruct K as (K1 & K2 & K3 & K4).
    assert (D0 : dx 0%nat = 100) by lra. assert (D1 : dx 1%nat = -9) by lra. assert (F0 : e 0%nat = 5300) by lra. assert (F1 : e 1%nat = 2700) by lra. clear K1 K2 K3 K4.
    match goal with [R : forall lr, run _ ?ph _ _ ?v ?g = Some lr -> _ |- _] => set (phi := ph) in R; set (v0 := v) in R; set (g0 := g) in R;
      assert (V : v0 = 105600) by (unfold v0; rewrite mer_val; cbn beta iota; rewrite !Rmax_left by lra; lra);
      assert (G : g0 = -211200) by (unfold g0; rewrite slo_val; rewrite D0, D1, F0, F1; cbn beta iota; rewrite !Rmax_left by lra; lra);
      assert (P1 : phi [] 1 = Some 220900) by (unfold phi; f_equal; rewrite mer_val; rewrite D0, D1, F0, F1; cbn beta iota; rewrite (Rmax_right 0 (_ + 47 - _)) by lra; rewrite Rmax_left by lra; lra);
      assert (P2 : forall tr, phi tr (1 / 2) = Some (26400 + 100 * (41 / 4 * (41 / 4)))) by (intros tr; unfold phi; f_equal; rewrite mer_val; rewrite D0, D1, F0, F1; cbn beta iota; rewrite (Rmax_right 0 (_ + 47 - _)) by lra; rewrite Rmax_left by lra; lra) end.
    destruct (run_half (o_qr SO) it phi fls v0 g0 220900 _ It Hf ltac:(rewrite G; lra) P1 P2 ltac:(rewrite V; lra) ltac:(rewrite V, G; lra) ltac:(rewrite V, G; lra)) as (lr & Er & Ea).
    destruct (R lr Er) as (s' & E & H' & C). exists s'. split; [exact E|]. split; [|exact C].
    eapply hold_to; [exact H'|..]; cbn beta iota; rewrite Ea, ?D0, ?D1, ?F0, ?F1; lra.
  Qed.
  (** From then on the row is left out of the system and in the merit function. *)
  Lemma step_stall fls fin (s : solver_state SO) dl t : (0 < fls)%nat -> (0 < fin)%nat -> hold s (1 / 100) (px t) (pl t) z0 -> 19 / 40 <= t <= 1 / 2 -> s_inner_tol _ _ s <= 1 -> step fls fin s dl (t * (1 - 1 / 1000000)).
  Proof.
    intros Hf Hi H Ht Tol.
    destruct (neg_lo (t * -100 + 47) ltac:(lra)) as (a0 & c0 & _). destruct (neg_lo (-2 * (t * -100) + t * 9 - 236) ltac:(lra)) as (a1 & c1 & _). destruct (neg_lo (t * -100 + 47 + 1 / 100 * (t * -5300)) ltac:(lra)) as (_ & _ & q0).
    destruct (cold_pass fls fin s dl _ _ Hi H Tol) as (dx & e & K & R).
    { rewrite c0, Rabs_pos_eq; lra. } { rewrite q0, Rabs_pos_eq; lra. }
    cbv zeta in K. rewrite a0, a1, c0, c1 in K. cbn beta iota in K. destruct K as (K1 & K2 & K3 & K4).
    assert (D0 : dx 0%nat = 100 * t) by lra. assert (D1 : dx 1%nat = -9 * t) by lra. assert (F0 : e 0%nat = 5300 * t) by lra. assert (F1 : e 1%nat = 2700 * t) by lra. clear K1 K2 K3 K4.
    match goal with [R : forall lr, run _ ?ph _ _ ?v ?g = Some lr -> _ |- _] => set (phi := ph) in R; set (v0 := v) in R; set (g0 := g) in R;
      assert (V : v0 = 105600 * (t * t) + 100 * ((47 - 147 / 2 * t) * (47 - 147 / 2 * t))) by (unfold v0; rewrite mer_val; cbn beta iota; rewrite (Rmax_right 0 (_ + 47 - _)) by lra; rewrite Rmax_left by lra; lra);
      assert (G : g0 = t * (690900 - 1291650 * t)) by (unfold g0; rewrite slo_val; rewrite D0, D1, F0, F1; cbn beta iota; rewrite (Rmax_right 0 (_ + 47 - _)) by lra; rewrite Rmax_left by lra; lra);
      assert (P1 : forall tr a, 0 <= a -> phi tr a = Some (v0 + g0 * a + 645825 * (t * t) * (a * a))) by (intros tr a Ha; unfold phi; f_equal; rewrite V, G, mer_val; rewrite D0, D1, F0, F1; cbn beta iota; rewrite (Rmax_right 0 (_ + 47 - _)) by nra; rewrite Rmax_left by nra; lra) end.
    destruct (half_run (o_qr SO) it v0 g0 (645825 * (t * t)) It ltac:(rewrite G; nra) ltac:(nra) phi P1 fls Hf ltac:(rewrite G; nra)) as (lr & Er & Ea).
    destruct (R lr Er) as (s' & E & H' & C). exists s'. split; [exact E|]. split; [|exact C].
    eapply hold_to; [exact H'|..]; cbn beta iota; rewrite Ea, ?D0, ?D1, ?F0, ?F1; lra.
  Qed.
  Lemma bern j : 1 - INR j / 1000000 <= (1 - 1 / 1000000) ^ j.
  Proof. induction j as [|j IH]; [cbn; lra|]. rewrite S_INR. cbn [pow]. pose proof (pos_INR j). nra. Qed.
  Lemma pw1 j : 0 < (1 - 1 / 1000000) ^ j <= 1.
  Proof. split; [apply pow_lt; lra|]. pose proof (pow_incr (1 - 1 / 1000000) 1 j ltac:(lra)) as W. rewrite pow1 in W. exact W. Qed.
  Notation done s s' t := (hold s' (1 / 100) (px t) (pl t) z0 /\ r_num_iters (res s') = N /\ r_al_iters (res s') = r_al_iters (res s) /\ 1 <= r_prim_infeas (res s') /\ r_conv (res s') = MAX_ITERS_REACHED).
  Lemma cold_tail fls fin : (0 < fls)%nat -> (0 < fin)%nat -> forall j f (s : solver_state SO) dl t, (S j <= f)%nat -> (r_num_iters (res s) + S j = N)%nat -> hold s (1 / 100) (px t) (pl t) z0 ->
    19 / 40 <= t * (1 - 1 / 1000000) ^ j -> 0 < t <= 1 / 2 -> s_inner_tol _ _ s <= 1 -> exists s', inner SO SP cold_qp f fls fin s dl = Ret s' /\ done s s' (t * (1 - 1 / 1000000) ^ S j).
  Proof.
    intros Hf Hi. induction j as [|j IH]; intros f s dl t Hj Hn H Ht Ht1 Tol; (destruct f as [|f]; [lia|]).
    - destruct (step_stall fls fin s dl t Hf Hi H ltac:(cbn in Ht; lra) Tol) as (s' & E & H' & N' & A' & I' & D' & C'). assert (Lb : (N <=? S (r_num_iters (res s)))%nat = true) by (apply Nat.leb_le; lia). rewrite Lb in E, C'.
      exists s'. unfold inner. cbn [inner_loop]. rewrite E. cbn [bind]. split; [reflexivity|]. split; [|repeat split; try assumption; lia].
      replace (t * (1 - 1 / 1000000) ^ 1) with (t * (1 - 1 / 1000000)) by (cbn; ring). exact H'.
    - pose proof (pw1 j) as Pw. assert (Ht' : 19 / 40 <= t) by (cbn [pow] in Ht; nra).
      destruct (step_stall fls fin s dl t Hf Hi H ltac:(lra) Tol) as (s' & E & H' & N' & A' & I' & D' & C'). assert (Lb : (N <=? S (r_num_iters (res s)))%nat = false) by (apply Nat.leb_gt; lia). rewrite Lb in E.
      destruct (IH f s' 0 (t * (1 - 1 / 1000000)) ltac:(lia) ltac:(lia) H' ltac:(eapply Rle_trans; [exact Ht|apply Req_le; cbn; ring]) ltac:(lra) ltac:(rewrite I'; exact Tol)) as (s2 & E2 & H2 & N2 & A2 & D2 & C2).
      exists s2. unfold inner in *. cbn [inner_loop]. rewrite E. cbn [bind]. split; [exact E2|]. split; [|repeat split; try assumption; rewrite A2; exact A'].
      replace (t * (1 - 1 / 1000000) ^ S (S j)) with (t * (1 - 1 / 1000000) * (1 - 1 / 1000000) ^ S j) by (cbn; ring). exact H2.
  Qed.
  Lemma cold_inner fls fin fi (s : solver_state SO) dl j : (0 < fls)%nat -> (0 < fin)%nat -> N = S (S (S j)) -> (N <= fi)%nat -> r_num_iters (res s) = 0%nat -> INR N <= 50000 ->
    hold s (1 / 100) (fun i => match i with 0%nat => 0 | _ => 300 end) z0 z0 -> s_inner_tol _ _ s <= 1 -> exists s', inner SO SP cold_qp fi fls fin s dl = Ret s' /\ done s s' (1 / 2 * (1 - 1 / 1000000) ^ S j).
  Proof.
    intros Hf Hi HN Hfi Hn Bd H Tol. destruct fi as [|[|f]]; [lia|lia|].
    destruct (step_first fls fin s dl Hf Hi H Tol) as (s1 & E1 & H1 & N1 & A1 & I1 & _). assert (Lb : (N <=? S (r_num_iters (res s)))%nat = false) by (apply Nat.leb_gt; lia). rewrite Lb in E1. clear Lb.
    destruct (step_second fls fin s1 0 Hf Hi H1 ltac:(rewrite I1; exact Tol)) as (s2 & E2 & H2 & N2 & A2 & I2 & _). assert (Lb : (N <=? S (r_num_iters (res s1)))%nat = false) by (apply Nat.leb_gt; lia). rewrite Lb in E2.
    assert (Bj : 19 / 40 <= 1 / 2 * (1 - 1 / 1000000) ^ j). { pose proof (bern j). rewrite HN, !S_INR in Bd. lra. }
    destruct (cold_tail fls fin Hf Hi j f s2 0 (1 / 2) ltac:(lia) ltac:(lia) H2 Bj ltac:(lra) ltac:(rewrite I2, I1; exact Tol)) as (s' & E & H' & N' & A' & D' & C').
    exists s'. split; [unfold inner in *; cbn [inner_loop]; rewrite E1; cbn [bind]; rewrite E2; cbn [bind]; exact E|]. split; [exact H'|]. repeat split; try assumption. rewrite A', A2, A1. reflexivity.
  Qed.
  Lemma cold_run fo fi fls fin : (2 <= fo)%nat -> (N <= fi)%nat -> (0 < fls)%nat -> (0 < fin)%nat -> (3 <= N)%nat -> INR N <= 50000 -> let t := 1 / 2 * (1 - 1 / 1000000) ^ (N - 2) in
    exists s', run_solve SO fo fi fls fin SP cold_qp (Some (cold_state it N)) [0; 300] [0; 0] = Ret (s', MAX_ITERS_REACHED) /\
      r_x (res s') = [-100 * t; 9 * t] /\ r_lams (res s') = [-5300 * t; -2700 * t] /\ r_num_iters (res s') = N /\ r_al_iters (res s') = 1%nat.
  Proof.
    intros Ho Hi Hf Hn HN HI t. destruct fo as [|[|fo]]; [lia|lia|].
    set (si := init_solve (o_pow SO) (o_fac SO) (o_bfgs SO) SP cold_qp [0; 300] [0; 0] (cold_state it N)).
    assert (Hs : holdq SO 2 [1%nat; 1%nat] [CNeg (K := RSc) 1; CNeg (K := RSc) 1] si (1 / 100) (en [0; 300]) (en [0; 0]) (en [0; 0])).
    { apply (init_holdq SO SP 2 cQ z0 [1%nat; 1%nat] cA cb cold_qp (cold_state it N) [0; 300] [0; 0] cold_like); try reflexivity; [cbn; lra|]. repeat split. }
    assert (H0 : hold si (1 / 100) (fun i => match i with 0%nat => 0 | _ => 300 end) z0 z0) by (destruct Hs; constructor; assumption).
    assert (T0 : s_inner_tol _ _ si <= 1).
    { unfold si, init_solve. cbn. apply smax_le. split; [|unfold slit; cbn; lra]. rewrite Rpower_1 by lra. lra. }
    destruct (cold_inner fls fin fi (record_params (o_fac SO) (o_bfgs SO) si) 0 (N - 3) Hf Hn ltac:(lia) Hi eq_refl HI ltac:(exact (q_rec SO 2 [1%nat; 1%nat] [CNeg (K := RSc) 1; CNeg (K := RSc) 1] si (1 / 100) _ _ _ H0)) T0) as (s1 & E1 & H1 & N1 & A1 & D1 & C1).
    replace (S (N - 3)) with (N - 2)%nat in H1 by lia. fold t in H1.
    pose proof (outer_unfold SO SP cold_qp eq_refl (S fo) fi fls fin si s1 ltac:(cbn; lia) ltac:(cbn; lia) E1) as U.
    destruct (Rlt_dec _ _) as [L|_]; [exfalso|].
    { assert (T : target_tol SP = 1 / 1000000) by reflexivity. rewrite T in L. pose proof (proj2 (smax_R_ge (r_prim_infeas (res s1)) (r_dual_infeas (res s1)))). cbn [car RSc] in *. lra. }
    destruct (close_res SO SP eq_refl s1) as (_ & _ & CN & CA & CX & CL & CC).
    set (s2 := after SO SP (close SO SP s1)) in *.
    assert (E2 : outer SO SP cold_qp (S fo) fi fls fin s2 = Ret s2).
    { unfold outer. cbn [outer_loop]. assert (Lb : (r_num_iters (s_res (o_fac SO) (o_bfgs SO) s2) <? max_iters SP)%nat = false) by (apply Nat.ltb_ge; change (N <= r_num_iters (res (close SO SP s1)))%nat; rewrite CN, N1; lia). rewrite Lb. reflexivity. }
    rewrite E2 in U. unfold run_solve, solve. fold si. unfold outer in U. rewrite U. cbn [bind]. eexists. split; [|split; [|split; [|split]]].
    - f_equal. f_equal. change (r_conv (res (close SO SP s1)) = MAX_ITERS_REACHED). rewrite CC. exact C1.
    - change (r_x (res (close SO SP s1)) = [-100 * t; 9 * t]). rewrite CX, (a_x _ _ _ _ _ _ _ _ _ H1). cbn [tab map seq]. f_equal; [apply Rmult_comm|f_equal; apply Rmult_comm].
    - change (r_lams (res (close SO SP s1)) = [-5300 * t; -2700 * t]). rewrite CL, (a_l _ _ _ _ _ _ _ _ _ H1). cbn. f_equal; [apply Rmult_comm|f_equal; apply Rmult_comm].
    - change (r_num_iters (res (close SO SP s1)) = N). rewrite CN. exact N1.
    - change (S (r_al_iters (res (close SO SP s1))) = 1%nat). rewrite CA, A1. reflexivity.
  Qed.
End Run.

Lemma cold_refuted it N : it <> CUBIC -> (3 <= N)%nat -> INR N <= 50000 -> exists p (s : solver_state (dense_oracles 4)), let P := halving_params it N in let obj := (fun x y : R => 1 / 2 * (x * x) + 150 * (y * y)) in
  p_cons p = qp_cons 2 cold_rows cold_bounds 0 [1%nat; 1%nat] /\ (forall x y, p_cost p [x; y] = Some (obj x y)) /\ sets s = [CNeg (K := RSc) 1; CNeg (K := RSc) 1] /\
  (forall fo fi fls fin, (2 <= fo)%nat -> (N <= fi)%nat -> (0 < fls)%nat -> (0 < fin)%nat -> exists s' x y,
    run_solve (dense_oracles 4) fo fi fls fin P p (Some s) [0; 300] [0; 0] = Ret (s', MAX_ITERS_REACHED) /\ r_x (res s') = [x; y] /\ r_num_iters (res s') = N /\ 3 * obj (-47) 0 < obj x y) /\
  (forall x y, x + 47 <= 0 -> obj (-47) 0 <= obj x y) /\ -47 + 47 <= 0 /\ -2 * -47 + 0 - 236 <= 0.
Proof.
  intros It Hn HN. exists cold_qp, (cold_state it N). cbv zeta. split; [reflexivity|]. split; [intros x y; unfold cold_qp, qp; cbn; f_equal; cbn [car RSc] in *; unfold qp_obj; cbn; lra|]. split; [reflexivity|].
  split; [|split; [intros x y Hx; nra|lra]].
  intros fo fi fls fin H1 H2 H3 H4. destruct (cold_run it N It fo fi fls fin H1 H2 H3 H4 Hn HN) as (s' & E & X & _ & I & _). set (t := 1 / 2 * (1 - 1 / 1000000) ^ (N - 2)) in *.
  assert (T : 19 / 40 <= t). { unfold t. pose proof (bern (N - 2)). rewrite minus_INR in H by lia. cbn [INR] in H. lra. }
  exists s', (-100 * t), (9 * t). split; [exact E|]. split; [exact X|]. split; [exact I|]. nra.
Qed.
