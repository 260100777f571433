(** The statements of Solver_props.v, assembled from the lemmas. *)
From Coq Require Import Reals List Bool Arith ZArith QArith Lia Lra Floats.SpecFloat.
From Verif Require Import Scalar Cset_model Cset_spec Cset_proofs Armijo_model Armijo_spec Armijo_proofs Problem_model Solver_model Solver_spec
  Merit_spec Solver_proofs SolverR_proofs Merit_proofs SolverT_proofs SolverS_proofs SolverC_proofs Solver_examples.
Import ListNotations.
Local Open Scope R_scope.

Lemma solver_stops : forall (O : oracles XSc) (P : @params XSc) k b z m d i M am,
  del_inc_k P = XFin k -> 1 < k -> del_inc_big P = XFin b -> 1 < b ->
  delta_nz_init P = XFin z -> 0 < z -> delta_min P = XFin m -> 0 < m ->
  del_dec_k P = XFin d -> 0 <= d -> delta_init P = XFin i -> 0 <= i -> delta_max P = XFin M ->
  alpha_min (lsopt P) = XFin am -> 0 < am <= 1 ->
  between (contraction_min (lsopt P)) 0 1 -> between (contraction_max (lsopt P)) 0 1 ->
  exists N, forall fo fi fls fin p so x0 lams0,
    (max_al_iters P < fo)%nat -> (max_iters P <= fi)%nat -> (N <= fls)%nat -> (N <= fin)%nat ->
    run_solve O fo fi fls fin P p so x0 lams0 <> Fuel.
Proof.
  intros O P k b z m d i M am Ek Hk Eb Hb Ez Hz Em Hm Ed Hd Ei Hi EM Ea Ha C1 C2.
  assert (Q : 1 < Rmin k b) by (apply Rmin_glb_lt; assumption).
  destruct (inertia_stops (o_fac O) (o_compute O) (o_signature O) P k b (Rmin k b) M Ek Eb Q (Rmin_l _ _) (Rmin_r _ _) EM
              z m d i Ez Hz Em Hm Ed Ei Hi) as (n1 & H1).
  destruct (search_stops P (o_qr O) am Ea Ha C1 C2) as (n2 & H2).
  exists (Nat.max n1 n2). intros fo fi fls fin p so x0 lams0 L1 L2 L3 L4. unfold run_solve.
  eapply (solve_nofuel (K := XSc)) with (ok := nonneg); try assumption.
  - apply H2. lia.
  - apply H1. lia.
  - exists 0. split; [reflexivity|lra].
Qed.
Lemma default_stops : let P := default_params (K := XSc) in
  (exists k b z m d i M am, del_inc_k P = XFin k /\ 1 < k /\ del_inc_big P = XFin b /\ 1 < b /\
    delta_nz_init P = XFin z /\ 0 < z /\ delta_min P = XFin m /\ 0 < m /\
    del_dec_k P = XFin d /\ 0 <= d /\ delta_init P = XFin i /\ 0 <= i /\ delta_max P = XFin M /\
    alpha_min (lsopt P) = XFin am /\ 0 < am <= 1) /\
  between (contraction_min (lsopt P)) 0 1 /\ between (contraction_max (lsopt P)) 0 1.
Proof.
  assert (L : forall p q : Z, (0 < q)%Z -> slit (K := XSc) p q = XFin (IZR p / IZR q)).
  { intros p q Hq. unfold slit. cbn. destruct (Reqb (IZR q) 0) eqn:E; [|reflexivity]. rhyp. apply IZR_lt in Hq. lra. }
  unfold default_params, ls_default. cbn [del_inc_k del_inc_big delta_nz_init delta_min del_dec_k delta_init delta_max lsopt alpha_min contraction_min contraction_max].
  split.
  - exists 8, 100. rewrite !L by reflexivity. do 6 eexists. repeat split; try reflexivity; try lra.
  - unfold between. rewrite ?L by reflexivity. unfold shalf. rewrite ?L by reflexivity. split; eexists; (split; [reflexivity|lra]).
Qed.

Lemma solver_budgets : forall (K : Sc) (O : oracles K) fo fi fls fin P p so x0 lams0 s' f,
  run_solve O fo fi fls fin P p so x0 lams0 = Ret (s', f) ->
  (r_num_iters (res s') <= max_iters P)%nat /\ (r_al_iters (res s') <= max_al_iters P)%nat.
Proof. intros K O fo fi fls fin P p so x0 lams0 s' f H. apply solve_flag in H. cbv zeta in H. intuition. Qed.

Lemma negative_delta_loops : exists (O : oracles XSc) (P : @params XSc) M F,
  forall fuel delta_last, run_inertia O fuel P 1 0 M F (delta_init P) delta_last = Fuel.
Proof.
  pose (d := default_params (K := XSc)).
  pose (P := mkParams (K := XSc) (rho_init d) (mu_init d) (mu_lower d) (mu_upper d) (pdal_beta d) (target_tol d) (inner_tol0 d) (prim_tol0 d) (inner_tol_min d)
    (prim_alpha d) (prim_beta d) (dual_alpha d) (dual_beta d) (mu_factor d) (rho_factor d) (del_inc_k d) (del_inc_big d)
    (del_dec_k d) (delta_min d) (delta_max d) (delta_nz_init d) (XFin (-1)) (max_iters d) (max_al_iters d) (max_refine d) (kkt_tolerance d)
    (mul_update d) (kkt_sys d) (hess_approx d) (lsopt d) (callbacks d)).
  exists (mkOracles (K := XSc) (ex_pow XSc) vadd (ex_pxv XSc) (ex_pxg XSc) (ex_pxh XSc) (ex_fac XSc) (ex_compute XSc) (fun _ => [(-1)%Z]) (ex_solve XSc) unit (ex_bfgs XSc) (ex_qr XSc)).
  exists P, [[XFin (-1)]], [].
  intros fuel dl. unfold run_inertia. eapply (negative_diverges (ex_fac XSc) (ex_compute XSc) (fun _ => [(-1)%Z]) P 1 0 100 8); try reflexivity; try lra.
  exists 1000000. split; [reflexivity|lra].
Qed.

Lemma success_kkt : forall (O : oracles RSc) fo fi fls fin P p (s : solver_state O) x0 lams0 s',
  mul_update P = MM_NEWTON -> 0 < mu_init P -> 0 < mu_lower P -> sets_fit (sets s) (p_cons p) ->
  run_solve O fo fi fls fin P p (Some s) x0 lams0 = Ret (s', SUCCESS) ->
  let r := res s' in
  0 < r_mu r /\
  kkt_residuals p (map (set_prox (K := RSc) (r_mu r)) (sets s)) (r_mu r) (r_x r) (r_lams r) (r_prim_infeas r) (r_dual_infeas r) /\
  r_prim_infeas r < target_tol P /\ r_dual_infeas r < target_tol P.
Proof.
  intros O fo fi fls fin P p s x0 lams0 s' H1 H2 H3 H4 H5. eapply solve_kkt in H5; eauto. cbv zeta in *. tauto.
Qed.

Lemma flag_meaning : forall (K : Sc) (O : oracles K) fo fi fls fin P p so x0 lams0 s' f,
  run_solve O fo fi fls fin P p so x0 lams0 = Ret (s', f) ->
  (0 < max_iters P)%nat -> (0 < max_al_iters P)%nat ->
  let r := res s' in
  let below := sltb (smax (r_prim_infeas r) (r_dual_infeas r)) (target_tol P) in
  (f = SUCCESS <-> below = true) /\
  (f = MAX_ITERS_REACHED <-> below = false /\ r_num_iters r = max_iters P) /\
  (f = UNINIT <-> below = false /\ (r_num_iters r < max_iters P)%nat /\ r_al_iters r = max_al_iters P).
Proof.
  intros K O fo fi fls fin P p so x0 lams0 s' f H Hm Ha. apply solve_flag in H. cbv zeta in *.
  destruct H as (_ & H1 & H2 & H3). unfold res. destruct f.
  - destruct H3 as [H3|[H3|(H3 & H4 & H5)]]; try lia. rewrite H3. repeat split; intros; try discriminate; try assumption; intuition (lia || congruence).
  - destruct H3 as [H3 H4]. rewrite H3. repeat split; intros; try discriminate; intuition (lia || congruence).
  - destruct H3 as (H3 & H4 & H5). rewrite H3. repeat split; intros; try discriminate; intuition (lia || congruence).
Qed.

Lemma zero_budget : forall (K : Sc) (O : oracles K) fo fi fls fin P p s x0 lams0,
  max_iters P = 0%nat \/ max_al_iters P = 0%nat ->
  exists s', run_solve O (S fo) fi fls fin P p (Some s) x0 lams0 = Ret (s', UNINIT) /\ r_x (res s') = x0.
Proof.
  intros K O fo fi fls fin P p s x0 lams0 H. unfold run_solve, solve. cbn [outer_loop].
  set (i := init_solve (o_pow O) (o_fac O) (o_bfgs O) P p x0 lams0 s).
  assert (G : (r_num_iters (s_res _ _ i) <? max_iters P)%nat && (r_al_iters (s_res _ _ i) <? max_al_iters P)%nat = false).
  { apply andb_false_iff. destruct H as [->| ->]; [left|right]; apply Nat.ltb_ge; lia. }
  rewrite G. cbn [bind]. eexists. split; reflexivity.
Qed.

Lemma start_accepted : forall (O : oracles RSc) fo fi fls fin P p (s : solver_state O) x0 lams0 prim dual,
  hess_approx P = HM_GAUSS_NEWTON -> 0 < mu_init P -> (0 < max_iters P)%nat -> (0 < max_al_iters P)%nat ->
  (0 < fo)%nat -> (0 < fi)%nat ->
  sets_fit (sets s) (p_cons p) -> buffers_fit p s -> defined_at p x0 -> length lams0 = rows_of (p_cons p) ->
  kkt_residuals p (map (set_prox (K := RSc) (mu_init P)) (sets s)) (mu_init P) x0 lams0 prim dual ->
  prim < target_tol P -> dual < target_tol P ->
  exists s', run_solve O fo fi fls fin P p (Some s) x0 lams0 = Ret (s', SUCCESS) /\ r_x (res s') = x0 /\ r_num_iters (res s') = 0%nat /\
    (mul_update P = MM_NEWTON -> r_lams (res s') = lams0).
Proof. intros. eapply solve_at_solution; eauto. Qed.

Lemma eq_residuals P : 0 < mu_init (K := RSc) P ->
  let p := ex_problem RSc [ex_minus RSc 0] in
  kkt_residuals p (map (set_prox (K := RSc) (mu_init P)) [CEq (K := RSc) 1]) (mu_init P) [0] [0] 0 0.
Proof.
  intros Hm p. exists [0], [[1]], [0 - 0], [0].
  split; [reflexivity|]. split; [reflexivity|].
  split. { change [[1]] with ([[1]] ++ [] : list (list R)). constructor; [reflexivity|reflexivity|repeat constructor|constructor]. }
  split. { change [0 - 0] with ([0 - 0] ++ [] : list R). constructor; [reflexivity|reflexivity|constructor]. }
  split. { split; [intros i Hi|right; exists 0%nat]; cbn in *; unfold lagrangian_grad; [|split; [lia|]]; cbn; [destruct i; [|lia]; cbn|];
           replace (0 + (0 * 1 + 0)) with 0 by lra; rewrite Rabs_R0; lra. }
  split; [reflexivity|]. split; [cbn; repeat split; auto; intros [|[|]]; cbn; auto|].
  split. { split; [intros i Hi|right; exists 0%nat]; cbn in *; [|split; [lia|]]; [destruct i; [|lia]; cbn|];
           replace (0 - 0 - 0) with 0 by lra; rewrite Rabs_R0; lra. }
  intros w Lw Hw. destruct w as [|a [|? ?]]; try discriminate. cbn.
  replace (0 - 0 + mu_init P * 0 - 0) with 0 by lra. cbn. lra.
Qed.
Lemma example_start :
  let P := ex_params RSc 10 10 (1 / 1000) MM_NEWTON in
  let p := ex_problem RSc [ex_minus RSc 0] in
  let s := ex_setup RSc P p [CEq (K := RSc) 1] in
  sets_fit (sets s) (p_cons p) /\ buffers_fit p s /\ defined_at p [0] /\ 0 < mu_init P /\
  kkt_residuals p (map (set_prox (K := RSc) (mu_init P)) (sets s)) (mu_init P) [0] [0] 0 0.
Proof.
  intros P p s. split; [|split; [|split; [|split]]].
  - split; repeat constructor.
  - repeat split.
  - split; [eexists; reflexivity|]. eexists. split; [reflexivity|]. split; [reflexivity|repeat constructor].
  - unfold P, ex_params, default_params, slit. cbn. lra.
  - apply eq_residuals. unfold P, ex_params, default_params, slit. cbn. lra.
Qed.
Lemma example_success :
  let P := ex_params RSc 10 10 (1 / 1000) MM_NEWTON in
  let p := ex_problem RSc [ex_minus RSc 0] in
  let s := ex_setup RSc P p [CEq (K := RSc) 1] in
  sets_fit (sets s) (p_cons p) /\
  exists s', run_solve (ex_oracles RSc) 11 10 50 50 P p (Some s) [0] [0] = Ret (s', SUCCESS).
Proof.
  intros P p s. destruct example_start as (H1 & H2 & H3 & H4 & H5). split; [exact H1|].
  destruct (start_accepted (ex_oracles RSc) 11 10 50 50 P p s [0] [0] 0 0) as (s' & E & _); try assumption; try reflexivity; try (cbn; lia).
  - cbn. lra.
  - cbn. lra.
  - exists s'. exact E.
Qed.

Lemma reported_residuals : forall (O : oracles RSc) fo fi fls fin P p (s : solver_state O) x0 lams0 s',
  mul_update P = MM_NEWTON -> 0 < mu_init P -> 0 < mu_lower P -> sets_fit (sets s) (p_cons p) ->
  run_solve O fo fi fls fin P p (Some s) x0 lams0 = Ret (s', SUCCESS) ->
  let r := res s' in
  forall prim dual, length (r_lams r) = rows_of (p_cons p) ->
    kkt_residuals p (map (set_prox (K := RSc) (r_mu r)) (sets s)) (r_mu r) (r_x r) (r_lams r) prim dual ->
    r_prim_infeas r = prim /\ r_dual_infeas r = dual.
Proof.
  intros O fo fi fls fin P p s x0 lams0 s' H1 H2 H3 H4 H5 r prim dual Ll Hk.
  destruct (success_kkt O fo fi fls fin P p s x0 lams0 s' H1 H2 H3 H4 H5) as (_ & Hs & _).
  eapply residuals_fun; eassumption.
Qed.

Lemma penalty_safeguard : forall (O : oracles RSc) fo fi fls fin P p (s : solver_state O) x0 lams0 s' f,
  0 < mu_lower P <= mu_init P -> 0 < mu_factor P <= 1 ->
  run_solve O fo fi fls fin P p (Some s) x0 lams0 = Ret (s', f) ->
  mu_lower P <= mu s' <= mu_init P /\ s_mu_inv _ _ s' = 1 / mu s' /\
  Forall (fun c => mu_of c = mu s') (sets s') /\
  exists evs, s_events _ _ s' = s_events _ _ s ++ evs /\
    Forall (fun e => (r_num_iters (ev_results e) < r_num_iters (res s'))%nat -> mu_lower P <= r_mu (ev_results e) <= mu_init P) evs.
Proof.
  intros O fo fi fls fin P p s x0 lams0 s' f Hl Hf H.
  assert (C : mu_closed (K := RSc) P (fun m => mu_lower P <= m <= mu_init P)).
  { split; [lra|]. intros m [Hm1 Hm2] _. cbn [smul RSc].
    assert (m * mu_factor P <= m) by (rewrite <- (Rmult_1_r m) at 2; apply Rmult_le_compat_l; lra).
    unfold smax. cbn [sltb RSc]. destruct (Rltb _ _) eqn:E; rhyp; lra. }
  destruct (solve_trace _ _ _ _ _ _ _ _ _ _ _ _ _ _ _ _ _ _ _ _ _ _ _ _ C H) as ((A & B & D) & _ & _ & l & Ev & Ln & Sn & _).
  split; [exact A|]. split; [exact B|]. split; [exact D|].
  eexists. split; [exact Ev|]. apply Forall_forall. intros e He Hn. apply in_flat_map in He as (r & Hr & He).
  unfold batch in He. apply in_map_iff in He as (cb & <- & _). cbn [ev_results] in *.
  apply in_app_or in Hr. destruct Hr as [Hr|[<-|[]]]; [|unfold res in Hn; lia].
  apply In_nth_error in Hr as (k & Hk). apply Sn in Hk. apply Hk.
Qed.

Lemma penalty_schedule : forall (O : oracles RSc) P N (st tr : nat -> solver_state O),
  0 < mu_lower P < mu_init P -> 0 < mu_factor P < 1 ->
  mu_init P * mu_factor P ^ N <= mu_lower P -> (forall j, (j < N)%nat -> mu_lower P < mu_init P * mu_factor P ^ j) ->
  mu (st 0%nat) = mu_init P ->
  (forall k, mu (tr k) = mu (st k) /\ s_prim_tol _ _ (tr k) <= r_prim_infeas (res (tr k)) /\ mu (st (S k)) = mu (run_bcl O P (tr k))) ->
  forall k, mu (st k) = if (k mod S N =? N)%nat then mu_lower P else mu_init P * mu_factor P ^ (k mod S N).
Proof. intros O P N st tr. exact (schedule (o_pow O) (o_fac O) (o_bfgs O) P N st tr). Qed.
Lemma default_schedule :
  let P := default_params (K := RSc) in
  0 < mu_lower P < mu_init P /\ 0 < mu_factor P < 1 /\
  mu_init P * mu_factor P ^ 4 <= mu_lower P /\ (forall j, (j < 4)%nat -> mu_lower P < mu_init P * mu_factor P ^ j).
Proof.
  unfold default_params, slit. cbn -[pow]. split; [lra|]. split; [lra|]. split; [cbn [pow]; lra|].
  intros [|[|[|[|]]]] H; try lia; cbn [pow]; lra.
Qed.
Lemma tolerance_floors : forall (O : oracles RSc) P (s : solver_state O),
  inner_tol_min P <= s_inner_tol _ _ (run_bcl O P s) /\ target_tol P <= s_prim_tol _ _ (run_bcl O P s).
Proof. intros O P s. apply bcl_floors. Qed.
Lemma success_tightens : forall (O : oracles RSc) P (s : solver_state O),
  (forall a e, 0 < a <= 1 -> 0 <= e -> 0 <= o_pow O a e <= 1) ->
  0 < mu s <= mu_upper P -> 0 <= dual_beta P -> 0 <= prim_beta P ->
  0 <= s_inner_tol _ _ s -> 0 <= s_prim_tol _ _ s ->
  inner_tol_min P <= s_inner_tol _ _ s -> target_tol P <= s_prim_tol _ _ s ->
  r_prim_infeas (res s) < s_prim_tol _ _ s ->
  s_inner_tol _ _ (run_bcl O P s) <= s_inner_tol _ _ s /\ s_prim_tol _ _ (run_bcl O P s) <= s_prim_tol _ _ s /\
  mu (run_bcl O P s) = mu s.
Proof. intros O P s. exact (bcl_tightens (o_pow O) (o_fac O) (o_bfgs O) P s). Qed.
Lemma Rpower_unit : forall a e : R, 0 < a <= 1 -> 0 <= e -> 0 <= Rpower a e <= 1.
Proof.
  intros a e Ha He. split; [left; apply exp_pos|]. unfold Rpower. rewrite <- exp_0.
  assert (Hl : ln a <= 0) by (rewrite <- ln_1; destruct (Req_dec a 1) as [->|N]; [lra|left; apply ln_increasing; lra]).
  assert (Le : e * ln a <= 0). { rewrite <- (Rmult_0_r e). apply Rmult_le_compat_l; assumption. }
  destruct (Req_dec (e * ln a) 0) as [->|N]; [lra|]. left. apply exp_increasing. lra.
Qed.

Lemma callback_rounds : forall (K : Sc) (O : oracles K) fo fi fls fin P p (s : solver_state O) x0 lams0 s' f,
  run_solve O fo fi fls fin P p (Some s) x0 lams0 = Ret (s', f) ->
  exists l,
    s_events _ _ s' = s_events _ _ s ++ flat_map (fun r => map (fun cb => mkEvent cb r) (callbacks P)) (l ++ [res s']) /\
    length l = r_num_iters (res s') /\
    forall k r, nth_error l k = Some r -> r_num_iters r = k.
Proof.
  intros K O fo fi fls fin P p s x0 lams0 s' f H.
  assert (C : mu_closed (K := K) P (fun _ => True)) by (split; auto).
  destruct (solve_trace _ _ _ _ _ _ _ _ _ _ _ _ _ _ _ _ _ _ _ _ _ _ _ _ C H) as (_ & _ & _ & l & Ev & Ln & Sn & _).
  exists l. split; [exact Ev|]. split; [exact Ln|]. intros k r Hk. apply Sn in Hk. cbn in Hk. apply Hk.
Qed.

Lemma kkt_matrix : forall (P : @params RSc) ndx nd rho H PH V Jp d,
  square ndx H -> sym ndx H -> (0 < rho -> square ndx PH /\ sym ndx PH) -> Forall (fun v => square ndx v /\ sym ndx v) V ->
  let A := kkt_hess P rho H PH V in
  let M := assemble_kkt (K := RSc) ndx nd A Jp d in
  square (ndx + nd) M /\ sym (ndx + nd) M /\
  forall i j, (i < ndx + nd)%nat -> (j < ndx + nd)%nat ->
    nth j (nth i M []) 0 =
      if (i <? ndx)%nat then (if (j <? ndx)%nat then nth j (nth i A []) 0 else nth i (nth (j - ndx) Jp []) 0)
      else if (j <? ndx)%nat then nth j (nth (i - ndx) Jp []) 0
      else if (i =? j)%nat then nth (i - ndx) d 0 else 0.
Proof.
  intros P ndx nd rho H PH V Jp d QH SH HP HV A M.
  destruct (hess_sym P ndx rho H PH V QH SH HP HV) as [_ SA]. split; [|split].
  - unfold M, assemble_kkt, mtab, square. rewrite map_length, seq_length. split; [reflexivity|].
    apply Forall_forall. intros r Hr. apply in_map_iff in Hr as (i & <- & _). rewrite map_length, seq_length. reflexivity.
  - intros i j Hi Hj. apply (kkt_symmetric ndx nd A Jp d SA i j Hi Hj).
  - intros i j Hi Hj. apply (kkt_blocks ndx nd A Jp d i j Hi Hj).
Qed.
Lemma example_kkt : square 2 [[1; 2]; [2; 5]] /\ sym 2 [[1; 2]; [2; 5]] /\
  sets_fit [CNeg (K := RSc) 1] [ex_minus RSc 3].
Proof.
  split; [split; [reflexivity|repeat constructor]|]. split.
  - intros [|[|]] [|[|]] Hi Hj; try lia; reflexivity.
  - split; repeat constructor.
Qed.

Lemma drift_f64 : exists (O : oracles FSc) M F M' F' d' dl',
  run_inertia O 5 (default_params (K := FSc)) 1 0 M F (@s0 FSc) (@s0 FSc) = Ret (M', F', d', dl') /\
  M = [[S754_finite false 4503599627370496 (-152)]] /\ M' = [[S754_zero false]].
Proof.
  exists (mkOracles (K := FSc) (ex_pow FSc) vadd (ex_pxv FSc) (ex_pxg FSc) (ex_pxh FSc) nat (fun n _ => S n)
    (fun n => if Nat.eqb n 1 then [0%Z] else [1%Z]) (fun _ v => v) unit (ex_bfgs FSc) (ex_qr FSc)).
  exists [[S754_finite false 4503599627370496 (-152)]], 0%nat, [[S754_zero false]], 2%nat. eexists. eexists.
  split; [vm_compute; reflexivity|]. split; reflexivity.
Qed.

Lemma finite_point : forall (O : oracles XSc) fo fi fls fin P p (s : solver_state O) x0 lams0 s' f,
  run_solve O fo fi fls fin P p (Some s) x0 lams0 = Ret (s', f) -> (0 < r_num_iters (res s'))%nat ->
  Forall (fun a => exists r, a = XFin r) (r_x (res s')).
Proof.
  intros O fo fi fls fin P p s x0 lams0 s' f H Hn.
  assert (C : mu_closed (K := XSc) P (fun _ => True)) by (split; auto).
  destruct (solve_trace _ _ _ _ _ _ _ _ _ _ _ _ _ _ _ _ _ _ _ _ _ _ _ _ C H) as (_ & _ & _ & l & Ev & Ln & Sn & Lx).
  unfold res in *. destruct l as [|r l]; [cbn in Ln; lia|]. rewrite Lx.
  assert (Hi : In (last (r :: l) r) (r :: l)).
  { destruct (exists_last (l := r :: l) ltac:(discriminate)) as (l' & a & ->). rewrite last_last. apply in_or_app. right. left. reflexivity. }
  apply In_nth_error in Hi as (k & Hk). apply Sn in Hk. destruct Hk as (_ & _ & _ & Hb & _).
  apply Forall_forall. intros a Ha.
  assert (Na : ~ (a = XNaN \/ exists s, a = XInf s)).
  { intros Hc. assert (T : bad_vec (K := XSc) (r_x (last (r :: l) r)) = true) by (apply bad_vec_X; apply Exists_exists; eauto). congruence. }
  destruct a; [exfalso; apply Na; auto|exfalso; apply Na; eauto|eauto].
Qed.

Lemma poisoned : forall (K : Sc) (O : oracles K) fo fi fls fin P p (s : solver_state O) x0 lams0 s' f,
  bad_mat (w_kkt _ _ (wsp s)) = true -> (0 < max_iters P)%nat -> (0 < max_al_iters P)%nat ->
  run_solve O fo fi fls fin P p (Some s) x0 lams0 <> Ret (s', f).
Proof.
  intros K O fo fi fls fin P p s x0 lams0 s' f Hb Hm Ha H. unfold run_solve, solve in H. inv_bind H. clear H.
  destruct fo as [|fo]; [discriminate|]. cbn [outer_loop] in E.
  set (i := init_solve (o_pow O) (o_fac O) (o_bfgs O) P p x0 lams0 s) in E.
  assert (G : (r_num_iters (s_res _ _ i) <? max_iters P)%nat && (r_al_iters (s_res _ _ i) <? max_al_iters P)%nat = true).
  { apply andb_true_iff. rewrite !Nat.ltb_lt. cbn. lia. }
  rewrite G in E. inv_bind E. clear E. destruct fi as [|fi]; [discriminate|]. cbn [inner_loop] in E0. inv_bind E0. clear E0.
  unfold pass in E. inv_bind E. clear E. unfold diagnose in E0.
  assert (Hb2 : bad_mat (w_kkt _ _ (s_ws _ _ (record_params (o_fac O) (o_bfgs O) i))) = true) by exact Hb.
  crack E0. congruence.
Qed.

(** A run seen through a first-order summary, so that only the summary is computed. *)
Definition seen {K} {O : oracles K} {A} (g : solver_state O -> conv_flag -> A) (r : outcome (solver_state O * conv_flag)) : option A :=
  match r with Ret (s, f) => Some (g s f) | _ => None end.
Lemma seen_run {K} (O : oracles K) {A} (g : solver_state O -> conv_flag -> A) r v :
  seen g r = Some v -> exists s f, r = Ret (s, f) /\ g s f = v.
Proof. destruct r as [[s f]| | | ]; cbn; intros H; try discriminate. injection H as H. eauto. Qed.
Lemma seen_flag {K} (O : oracles K) (r : outcome (solver_state O * conv_flag)) f :
  seen (fun _ f => f) r = Some f -> exists s, r = Ret (s, f).
Proof. intros H. apply seen_run in H as (s & f' & -> & <-). eauto. Qed.

Fixpoint forallb2 {A} (f : A -> A -> bool) (l m : list A) : bool :=
  match l, m with [], [] => true | a :: l, b :: m => f a b && forallb2 f l m | _, _ => false end.
Lemma history :
  let P := ex_params QSc 30 30 (1 # 1000000) MM_NEWTON in
  let p := ex_problem QSc [ex_minus QSc (1 # 1)] in
  exists s1 s2,
    ex_run QSc P p (Some (ex_setup QSc P p [CEq (K := QSc) (1 # 100)])) [1 # 1] [] = Ret (s1, SUCCESS) /\
    ex_run QSc P p (Some s1) [1 # 1] [] = Ret (s2, SUCCESS) /\
    r_num_iters (res s1) = 3%nat /\ r_num_iters (res s2) = 0%nat /\ r_x (res s1) <> r_x (res s2).
Proof.
  intros P p.
  pose (second := fun (s : solver_state (ex_oracles QSc)) => seen (fun s2 f => (f, r_num_iters (res s2), r_x (res s2))) (ex_run QSc P p (Some s) [1 # 1] [])).
  pose (first := ex_run QSc P p (Some (ex_setup QSc P p [CEq (K := QSc) (1 # 100)])) [1 # 1] []).
  pose (v := seen (fun s f => (f, r_num_iters (res s), r_x (res s), second s)) first).
  assert (Hv : match v with
    | Some (SUCCESS, 3%nat, x, Some (SUCCESS, 0%nat, y)) => negb (forallb2 Qeq_bool x y)
    | _ => false end = true) by (vm_compute; reflexivity).
  unfold v in Hv. fold first. destruct first as [[s1 f1]| | | ]; try discriminate. cbn [seen] in Hv.
  destruct f1; try discriminate. destruct (r_num_iters (res s1)) as [|[|[|[|]]]] eqn:N1; try discriminate.
  unfold second in Hv. destruct (ex_run QSc P p (Some s1) [1 # 1] []) as [[s2 f2]| | | ] eqn:E2; try discriminate. cbn [seen] in Hv.
  destruct f2; try discriminate. destruct (r_num_iters (res s2)) eqn:N2; try discriminate.
  exists s1, s2. repeat split; try assumption. intros Ex. rewrite Ex in Hv.
  assert (T : forall l : list Q, forallb2 Qeq_bool l l = true).
  { induction l as [|a l IH]; [reflexivity|]. cbn. rewrite IH, andb_true_r. apply Qeq_bool_iff. reflexivity. }
  rewrite T in Hv. discriminate.
Qed.
