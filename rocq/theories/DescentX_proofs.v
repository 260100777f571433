(** Examples and refutations for Descent_props.v, and the factorisations that meet its hypothesis. *)
From Coq Require Import Reals List Bool Arith ZArith Lia Lra.
From Verif Require Import Scalar Cset_model Cset_spec Cset_proofs Armijo_model Problem_model Solver_model Solver_spec Merit_spec
  Solver_proofs SolverR_proofs Merit_proofs SolverS_proofs SolverC_proofs Solver_examples MeritX_proofs Lin_spec Lin_proofs Ldlt_spec Ldlt_proofs Bk_model Bk_spec BkV_proofs BkI_proofs Inertia_proofs BkX_proofs Descent_spec Descent_proofs Refine_proofs.
Import ListNotations.
Local Open Scope R_scope.

(** ** Problems with one variable, at x = 0 with mu = 1 *)
Definition line_problem (g h : R) (cons : list (@cfun RSc)) : @problem RSc :=
  mkProblem (K := RSc) 1 (fun x => match x with [a] => Some (g * a + h * a * a / 2) | _ => None end)
    (fun x => match x with [a] => Some [g + h * a] | _ => None end) (fun _ => Some [[h]]) cons.
Definition line_state (p : @problem RSc) (cs : list rset) (lam lame : list R) : solver_state (ex_oracles RSc) :=
  let s := ex_setup RSc (default_params (K := RSc)) p cs in
  let r := res s in let w := wsp s in
  mkState (K := RSc) _ _ 1 (1 / 1) 0 (s_inner_tol _ _ s) (s_prim_tol _ _ s) cs [0]
    (mkResults (K := RSc) (r_conv r) (r_merit r) (r_value r) [0] lam (r_active r) (r_dual_infeas r) (r_prim_infeas r) (r_viol r) 0 0 1 0)
    (mkWs (K := RSc) _ _ lame (w_x_prev _ _ w) (w_plus _ _ w) (w_pdal _ _ w) (w_kkt _ _ w) (w_hess _ _ w) (w_vhp _ _ w) (w_fac _ _ w) (w_bfgs _ _ w) (w_alpha _ _ w)) [].

Lemma rltb_t a b : a < b -> Rltb a b = true.
Proof. intros H. apply Rltb_true. exact H. Qed.
Lemma rltb_f a b : b <= a -> Rltb a b = false.
Proof. intros H. apply Rltb_false. lra. Qed.
Ltac rlazy := lazy -[Rplus Rmult Ropp Rinv Rdiv Rminus Rltb Rleb Reqb Rabs IZR].
Lemma rleb_t a b : a <= b -> Rleb a b = true.
Proof. intros H. apply Rleb_true. exact H. Qed.
Lemma rleb_f a b : b < a -> Rleb a b = false.
Proof. intros H. apply Rleb_false. lra. Qed.
Lemma reqb_t a b : a = b -> Reqb a b = true.
Proof. intros H. apply Reqb_true. exact H. Qed.
Lemma reqb_f a b : a < b \/ b < a -> Reqb a b = false.
Proof. intros H. apply not_true_is_false. intros E. apply Reqb_true in E. lra. Qed.
Ltac rdec := repeat match goal with
  | |- context [Rltb ?a ?b] => first [rewrite (rltb_t a b) by lra | rewrite (rltb_f a b) by lra]
  | |- context [Rleb ?a ?b] => first [rewrite (rleb_t a b) by lra | rewrite (rleb_f a b) by lra]
  | |- context [Reqb ?a ?b] => first [rewrite (reqb_t a b) by lra | rewrite (reqb_f a b) by (left; lra) | rewrite (reqb_f a b) by (right; lra)]
  end.
Ltac rval := rlazy; rdec; rlazy.

(** minimise -x/2 + x^2/200 subject to x + 3/2 <= 0; both multipliers are -2 *)
Definition bad_p : @problem RSc := line_problem (- 1 / 2) (1 / 100) [ex_minus RSc (- 3 / 2)].
Definition bad_s : solver_state (ex_oracles RSc) := line_state bad_p [CNeg (K := RSc) 1] [- 2] [- 2].
Lemma bad_consistent : consistent bad_p bad_s.
Proof.
  unfold consistent. cbv zeta. split; [cbn; lra|]. split; [reflexivity|]. split; [repeat constructor|]. split; [repeat constructor|]. repeat (split; [reflexivity|]). cbn. intros; lra.
Qed.
Lemma bad_slope : exists d dd x, let P := default_params (K := RSc) in
  run_diagnose (ex_oracles RSc) P bad_p bad_s = Ret d /\
  kkt_dual_diag P bad_p (mu bad_s) (sets bad_s) (m_shift_pd (d_m _ _ d)) = Ret dd /\
  (let M := step_matrix (o_fac (ex_oracles RSc)) (o_bfgs (ex_oracles RSc)) P bad_p d dd in
   al_convex 1 2 (entries M) /\ solves 2 (entries M) x (fun i => - nth i (step_rhs (o_fac (ex_oracles RSc)) (o_bfgs (ex_oracles RSc)) P bad_p d) 0)) /\
  slope bad_p d x = 22.
Proof.
  cbv zeta. eexists _, _, (fun i => match i with O => 50 | _ => 2 end).
  split; [unfold run_diagnose; rlazy; rdec; reflexivity|].
  split; [reflexivity|].
  split.
  - split.
    + intros x (i & Hi & Hx). assert (i = 0)%nat as -> by lia. assert (0 < x 0%nat * x 0%nat) by (destruct (Rtotal_order (x 0%nat) 0) as [L|[L|L]]; [|lra|]; nra).
      unfold al_form, form, mirror, entries. rval. rewrite Ropp_involutive; unfold Rdiv; rewrite Rinv_1. nra.
    + intros i Hi. destruct i as [|[|]]; [| |lia]; unfold mvec, mirror, entries; rval; lra.
  - unfold slope. rval. lra.
Qed.

(** minimise x + x^2/2 subject to x + 1 = 0 *)
Definition good_p : @problem RSc := line_problem 1 1 [ex_minus RSc (-1)].
Definition good_s : solver_state (ex_oracles RSc) := line_state good_p [CEq (K := RSc) 1] [0] [0].
Lemma good_consistent : consistent good_p good_s.
Proof.
  unfold consistent. cbv zeta. split; [cbn; lra|]. split; [reflexivity|]. split; [repeat constructor|]. split; [repeat constructor|]. repeat (split; [reflexivity|]). cbn. intros; lra.
Qed.
Lemma sq_pos a : a <> 0 -> 0 < a * a.
Proof. intros H. destruct (Rtotal_order a 0) as [L|[L|L]]; [|lra|]; nra. Qed.
Lemma good_step : exists d dd x, let P := default_params (K := RSc) in
  run_diagnose (ex_oracles RSc) P good_p good_s = Ret d /\ agrees P good_p good_s (d_m _ _ d) /\
  kkt_dual_diag P good_p (mu good_s) (sets good_s) (m_shift_pd (d_m _ _ d)) = Ret dd /\
  (let M := step_matrix (o_fac (ex_oracles RSc)) (o_bfgs (ex_oracles RSc)) P good_p d dd in
   sym 2 M /\ al_convex 1 2 (entries M) /\ solves 2 (entries M) x (fun i => - nth i (step_rhs (o_fac (ex_oracles RSc)) (o_bfgs (ex_oracles RSc)) P good_p d) 0)) /\
  slope good_p d x = -3.
Proof.
  cbv zeta. eexists _, _, (fun i => match i with O => -1 | _ => 0 end).
  split; [unfold run_diagnose; rlazy; rdec; reflexivity|].
  split; [right; split; exact I|]. split; [reflexivity|]. split.
  - split; [|split].
    + intros i j Hi Hj. destruct i as [|[|]]; [| |lia]; (destruct j as [|[|]]; [| |lia]); rlazy; reflexivity.
    + intros x (i & Hi & Hx). assert (i = 0)%nat as -> by lia. pose proof (sq_pos _ Hx). unfold al_form, form, mirror, entries. rval. rewrite Ropp_involutive; unfold Rdiv; rewrite Rinv_1; nra.
    + intros i Hi. destruct i as [|[|]]; [| |lia]; unfold mvec, mirror, entries; rval; lra.
  - unfold slope. rval. lra.
Qed.

(** minimise x - x^2/4 without constraints: the correction ends with delta = 1 *)
Definition nc_p : @problem RSc := line_problem 1 (- 1 / 2) [].
Definition nc_s : solver_state (ex_oracles RSc) := line_state nc_p [] [] [].
Lemma ex_next f (P : @params RSc) h (F : o_fac (ex_oracles RSc)) delta dl : 0 <= delta <= delta_max P -> h + delta < 0 ->
  exists F', run_inertia (ex_oracles RSc) (S f) P 1 0 [[h]] F delta dl =
    run_inertia (ex_oracles RSc) f P 1 0 [[h]] F'
      (if Reqb delta 0 then (if Reqb dl 0 then delta_nz_init P else smax (K := RSc) (delta_min P) (del_dec_k P * dl)) else (if Reqb dl 0 then delta * del_inc_big P else delta * del_inc_k P)) dl.
Proof.
  intros [H1 H2] H3. unfold run_inertia. cbn [inertia_loop]. cbn [sleb sltb seqb s0 RSc]. rewrite (proj2 (Rleb_true _ _) H2).
  set (M1 := if Rltb 0 delta then _ else _). assert (E : exists a, M1 = [[a]] /\ a = h + delta).
  { unfold M1. destruct (Rltb 0 delta) eqn:E; rhyp; eexists; (split; [reflexivity|]); cbn; lra. }
  destruct E as (a & -> & Ha). exists [[a]]. cbn [ex_oracles o_compute o_signature ex_compute ex_signature]. unfold ex_sgn. cbn [sltb s0 RSc].
  rewrite (rltb_f 0 a), (rltb_t a 0) by lra. cbn [check_inertia inertia_tuple inertia_tuple_loop Z.eqb Pos.eqb Nat.eqb andb negb].
  replace (upd_diag (K := RSc) ssub 1 delta [[a]]) with [[h]] by (cbn; do 2 f_equal; lra). reflexivity.
Qed.
Lemma ex_stop f (P : @params RSc) h (F : o_fac (ex_oracles RSc)) delta dl : 0 < delta <= delta_max P -> 0 < h + delta ->
  run_inertia (ex_oracles RSc) (S f) P 1 0 [[h]] F delta dl = Ret ([[h]], [[h + delta]], delta, delta).
Proof.
  intros [H1 H2] H3. unfold run_inertia. cbn [inertia_loop]. cbn [sleb sltb seqb s0 RSc]. rewrite (proj2 (Rleb_true _ _) H2), (rltb_t 0 delta) by lra.
  replace (upd_diag (K := RSc) sadd 1 delta [[h]]) with [[h + delta]] by reflexivity. cbn [ex_oracles o_compute o_signature ex_compute ex_signature]. unfold ex_sgn. cbn [sltb s0 RSc].
  rewrite (rltb_t 0 (h + delta)) by lra. cbn [check_inertia inertia_tuple inertia_tuple_loop Z.eqb Pos.eqb Nat.eqb andb negb].
  replace (upd_diag (K := RSc) ssub 1 delta [[h + delta]]) with [[h]] by (cbn; do 2 f_equal; lra). reflexivity.
Qed.
Lemma ex_refine (P : @params RSc) h delta : h + delta = 1 / 2 -> h = - 1 / 2 -> max_refine P = 5%nat -> kkt_tolerance P < 1 ->
  iterative_refinement (o_fac (ex_oracles RSc)) (o_solve (ex_oracles RSc)) P [[h + delta]] [[h]] [1] = [-126].
Proof.
  intros E Eh Em Et. unfold iterative_refinement. rewrite Em, E, Eh.
  assert (L : forall n a, a < -1 -> refine_loop (K := RSc) (o_fac (ex_oracles RSc)) (o_solve (ex_oracles RSc)) (S n) P [[1 / 2]] [[- 1 / 2]] [1] [a] =
     refine_loop (K := RSc) (o_fac (ex_oracles RSc)) (o_solve (ex_oracles RSc)) n P [[1 / 2]] [[- 1 / 2]] [1] [a + (- (1) - - 1 / 2 * a) / (1 / 2)]).
  { intros n a Ha. cbn [refine_loop]. set (e := vsub _ _). assert (Ee : e = [- (1) - - 1 / 2 * a]) by (unfold e; cbn; do 2 f_equal; lra). rewrite Ee. clear e Ee.
    replace (inf_norm (K := RSc) [- (1) - - 1 / 2 * a]) with (1 - a / 2); [cbn [sltb RSc]; rewrite rltb_f by lra; reflexivity|].
    cbn. rewrite Rabs_left by lra. lra. }
  cbn [o_solve ex_oracles ex_solve]. cbn [vneg map sopp RSc sdiv]. rewrite !L by lra. cbn [refine_loop]. f_equal. lra.
Qed.
Lemma nc_run : exists d F, let P := default_params (K := RSc) in let O := ex_oracles RSc in let M := step_matrix (o_fac O) (o_bfgs O) P nc_p d [] in
  run_diagnose O P nc_p nc_s = Ret d /\ M = [[- 1 / 2]] /\ step_rhs (o_fac O) (o_bfgs O) P nc_p d = [1] /\
  run_inertia O 4 P 1 0 M (w_fac _ _ (wsp (d_state _ _ d))) (delta_init P) 0 = Ret (M, F, 1, 1) /\ 
  o_solve O F [-1] = [-2] /\ iterative_refinement (o_fac O) (o_solve O) P F M [1] = [-126].
Proof.
  cbv zeta. eexists _, [[- 1 / 2 + 1]]. split; [unfold run_diagnose; rlazy; rdec; reflexivity|].
  match goal with |- ?m = _ /\ _ => assert (EM : m = [[- 1 / 2]]) by (rlazy; rdec; reflexivity); rewrite EM; clear EM end. split; [reflexivity|].
  split. { rlazy. f_equal. lra. }
  split.
  - destruct (ex_next 3 (default_params (K := RSc)) (- 1 / 2) [] 0 0) as (F1 & E1); [cbn; lra|lra|].
    etransitivity; [exact E1|]. clear E1. rewrite !(reqb_t 0 0) by reflexivity. change (delta_nz_init (default_params (K := RSc))) with (1 / 10000).
    destruct (ex_next 2 (default_params (K := RSc)) (- 1 / 2) F1 (1 / 10000) 0) as (F2 & E2); [cbn; lra|lra|].
    etransitivity; [exact E2|]. clear E2. rewrite (reqb_f (1 / 10000) 0) by (right; lra). rewrite (reqb_t 0 0) by reflexivity. change (del_inc_big (default_params (K := RSc))) with 100.
    destruct (ex_next 1 (default_params (K := RSc)) (- 1 / 2) F2 (1 / 10000 * 100) 0) as (F3 & E3); [cbn; lra|lra|].
    etransitivity; [exact E3|]. clear E3. rewrite (reqb_f (1 / 10000 * 100) 0) by (right; lra). rewrite (reqb_t 0 0) by reflexivity. change (del_inc_big (default_params (K := RSc))) with 100.
    replace (1 / 10000 * 100 * 100) with 1 by lra. apply ex_stop; [cbn; lra|lra].
  - split; [cbn; f_equal; lra|]. apply ex_refine; try reflexivity; try lra. cbn. lra.
Qed.

(** ** Factorisations that meet the hypothesis *)
Lemma tab_nth N (x : nat -> R) i : (i < N)%nat -> nth i (map x (seq 0 N)) 0 = x i.
Proof. intros Hi. rewrite (nth_indep _ 0 (x 0%nat)) by (rewrite map_length, seq_length; exact Hi). rewrite map_nth, seq_nth by exact Hi. reflexivity. Qed.
Lemma solves_ext N A x y b : (forall i, (i < N)%nat -> y i = x i) -> solves N A x b -> solves N A y b.
Proof. intros E H i Hi. rewrite <- (H i Hi). unfold mvec. apply rsum_ext. intros j Hj. rewrite E by exact Hj. reflexivity. Qed.
Lemma bk_faithful pw ig pv pg ph bf bu qr ndx nd : (ndx + nd <= 32)%nat ->
  faithful (mkOracles (K := RSc) pw ig pv pg ph (bk RSc) (bk_fac (K := RSc) (ndx + nd)) (bk_sig (K := RSc)) (bk_solve_list (K := RSc)) bf bu qr) ndx nd.
Proof.
  intros H32 F M N _ _ Rg C. cbn [o_signature o_compute o_solve] in *. fold N in C |- *.
  destruct (bk_success_iff N (entries M)) as (s & Es & Ns & _). assert (EF : bk_fac (K := RSc) N F M = s).
  { unfold bk_fac. change (fun i j => nth j (nth i M []) (s0 (s := RSc))) with (entries M). rewrite Es. reflexivity. }
  rewrite EF in *. unfold bk_sig in C. destruct (bk_signature s) as [sig| | |] eqn:Eg.
  1: { destruct (bk_inertia ndx N (entries M) s sig ltac:(lia) Rg Es Eg (or_intror H32)) as [I _]. replace (N - ndx)%nat with nd in I by lia. destruct (I C) as [Ok Cx]. split; [exact Cx|].
       intros b Lb. destruct (bk_solve_ok N (entries M) s (fun i => nth i b (s0 (s := RSc))) Es Ok) as (x & Ex & Sx). unfold bk_solve_list. match goal with |- context [bk_solve s ?v] => assert (E : bk_solve s v = Ret x) by exact Ex; rewrite E, Ns; clear E end.
       split; [rewrite map_length, seq_length; reflexivity|]. apply (solves_ext N _ x); [|exact Sx]. intros i Hi. apply tab_nth, Hi. }
  all: exfalso; destruct (bk_ok s) eqn:Ok; [destruct (bk_signature_ok N (entries M) s Es Ok) as (sig & E1 & _)|destruct (bk_failed_signature N (entries M) s H32 Es Ok) as (sig & E1 & _)]; rewrite Eg in E1; discriminate E1.
Qed.
Lemma ex_faithful : faithful (ex_oracles RSc) 1 1.
Proof.
  intros F M N [L Fr] Sy [R1 _] C. cbn [Nat.add] in N. subst N. cbn [ex_oracles o_compute o_signature o_solve] in *. unfold ex_compute in *.
  destruct M as [|r1 [|r2 [|]]]; try discriminate L. inversion Fr as [|? ? L1 Fr']; subst. inversion Fr' as [|? ? L2 _]; subst. clear Fr Fr' L.
  destruct r1 as [|a [|b [|]]]; try discriminate L1. destruct r2 as [|c [|d [|]]]; try discriminate L2. clear L1 L2.
  pose proof (Sy 0%nat 1%nat ltac:(lia) ltac:(lia)) as E. cbn in E. subst c. specialize (R1 1%nat ltac:(lia) ltac:(lia)). cbn in R1.
  assert (D : a * d - b * b < 0).
  { destruct (Rlt_le_dec (a * d - b * b) 0) as [|Le]; [assumption|]. exfalso. revert C. cbn [ex_signature]. cbn [sltb ssub smul s0 RSc]. rewrite rltb_f by exact Le.
    destruct (Rltb 0 (a * d - b * b)); unfold ex_sgn; cbn [sltb s0 RSc sadd].
    - destruct (Rltb 0 a); [discriminate|]. destruct (Rltb a 0); discriminate.
    - destruct (Rltb 0 (a + d)); [discriminate|]. destruct (Rltb (a + d) 0); discriminate. }
  split.
  - intros x (i & Hi & Hx). assert (i = 0)%nat as -> by lia. pose proof (sq_pos _ Hx) as P. unfold al_form, form, mirror, entries. cbn.
    replace (0 + (0 + x 0%nat * a * x 0%nat) + (0 + (0 + b * x 0%nat) * ((0 + b * x 0%nat) * 1) / - d)) with (x 0%nat * x 0%nat * ((b * b - a * d) * / - d)) by (field; lra).
    apply Rmult_lt_0_compat; [exact P|]. apply Rmult_lt_0_compat; [lra|]. apply Rinv_0_lt_compat. lra.
  - intros v Lv. destruct v as [|y [|z [|]]]; try discriminate Lv. split; [reflexivity|]. intros i Hi. unfold mvec, mirror, entries. destruct i as [|[|]]; [| |lia]; cbn; field; lra.
Qed.
Lemma main_accept qr phi n m (o : ls_options RSc) phi0 dphi0 alpha latest previous tr : m = S n -> Rleb (sphi latest - phi0) (armijo_c1 o * alpha * dphi0) = true ->
  main_loop (K := RSc) qr phi m o phi0 dphi0 alpha latest previous tr = (alpha, latest, tr).
Proof. intros -> H. cbn [main_loop]. cbn [sleb ssub smul RSc]. rewrite H. reflexivity. Qed.
(** A whole step of the small problem. *)
Lemma good_run : exists d, let P := default_params (K := RSc) in let O := ex_oracles RSc in
  run_diagnose O P good_p good_s = Ret d /\ agrees P good_p good_s (d_m _ _ d) /\
  (forall dd, kkt_dual_diag P good_p (mu good_s) (sets good_s) (m_shift_pd (d_m _ _ d)) = Ret dd ->
    sym 2 (step_matrix (o_fac O) (o_bfgs O) P good_p d dd) /\
    forall M' F delta dl', run_inertia O 1 P 1 1 (step_matrix (o_fac O) (o_bfgs O) P good_p d dd) (w_fac _ _ (wsp (d_state _ _ d))) (delta_init P) 0 = Ret (M', F, delta, dl') -> delta <= delta_max P) /\
  (forall dx dl a, length dx = 1%nat -> length dl = 1%nat -> exists v m, run_phi O P good_p (d_state _ _ d) dx dl a = Ret (v, m)) /\
  exists r, run_step O 1 1 P good_p d 0 = Ret r.
Proof.
  cbv zeta. eexists.
  split; [unfold run_diagnose; rlazy; rdec; reflexivity|]. split; [right; split; exact I|]. split.
  - intros dd E. assert (Ed : dd = [-1]) by (injection E as <-; reflexivity). subst dd. clear E.
    match goal with |- sym 2 ?m /\ _ => assert (EM : m = [[1; 1]; [1; -1]]) by (rlazy; rdec; rlazy; reflexivity); rewrite EM; clear EM end. split.
    + intros i j Hi Hj. destruct i as [|[|]]; [| |lia]; (destruct j as [|[|]]; [| |lia]); reflexivity.
    + intros M' F delta dl'. unfold run_inertia. cbn [inertia_loop]. cbn [sleb RSc]. rewrite (rleb_t (delta_init _)) by (cbn; lra). destruct (check_inertia _ _ _) as [[| |]|]; intros E; try discriminate E. injection E as _ _ <- _. cbn. lra.
  - split.
    { intros dx dl a L1 L2. destruct dx as [|x [|]]; try discriminate L1. destruct dl as [|y [|]]; try discriminate L2. eexists. eexists. unfold run_phi. rlazy. rdec. rlazy. reflexivity. }
    unfold run_step, Solver_model.step. cbv zeta.
    match goal with |- context [kkt_dual_diag ?a ?b ?c ?e ?g] => change (kkt_dual_diag a b c e g) with (@Ret (list R) [-1]) end. cbn [bind].
    match goal with |- context [step_matrix ?a ?b ?c ?e ?g ?h] => assert (EM : step_matrix a b c e g h = [[1; 1]; [1; -1]]) by (rlazy; rdec; rlazy; reflexivity); rewrite EM; clear EM end.
    match goal with |- context [step_rhs ?a ?b ?c ?e ?g] => assert (EM : step_rhs a b c e g = [1; 1]) by (rlazy; repeat f_equal; lra); rewrite EM; clear EM end.
    match goal with |- context [inertia_loop ?a ?b ?c ?e ?g ?h ?i ?j ?k ?l ?m] => assert (EM : inertia_loop a b c e g h i j k l m = Ret ([[1; 1]; [1; -1]], [[1; 1]; [1; -1]], 0, 0)) end.
    { cbn [inertia_loop]. cbn [sleb RSc]. rewrite (rleb_t (delta_init _)) by (cbn; lra). cbn [sltb s0 RSc]. rewrite (rltb_f 0 (delta_init _)) by (cbn; lra).
      cbn [ex_oracles o_compute o_signature ex_compute ex_signature]. cbn [sltb s0 RSc ssub smul]. rewrite (rltb_t (1 * -1 - 1 * 1) 0) by lra. cbn [check_inertia inertia_tuple inertia_tuple_loop Z.eqb Pos.eqb Nat.eqb andb negb].
      cbn. repeat f_equal; lra. }
    rewrite EM. clear EM. cbn [bind].
    match goal with |- context [iterative_refinement ?a ?b ?c ?e ?g ?h] => assert (EM : iterative_refinement a b c e g h = [-1; 0]) end.
    { unfold iterative_refinement. assert (E0 : o_solve (ex_oracles RSc) [[1; 1]; [1; -1]] (vneg (K := RSc) [1; 1]) = [-1; 0]) by (cbn; repeat f_equal; field).
      match goal with |- context [o_solve ?a ?b ?c] => assert (E : o_solve a b c = [-1; 0]) by exact E0; rewrite E; clear E end. cbn [max_refine default_params refine_loop].
      match goal with |- context [inf_norm ?v] => assert (E : v = [0; 0]) by (cbn; repeat f_equal; lra); rewrite E; clear E end.
      assert (E1 : inf_norm (K := RSc) [0; 0] = 0) by (unfold inf_norm; cbn [fold_left]; rewrite smax_R_l by apply Rle_refl; exact Rabs_R0).
      match goal with |- context [inf_norm ?v] => assert (E : inf_norm v = 0) by exact E1; rewrite E; clear E end. cbn [sltb RSc]. rewrite rltb_t by (cbn; lra). reflexivity. }
    rewrite EM. clear EM. change (bad_vec (K := RSc) [-1; 0]) with false. cbv iota.
    match goal with |- context [run ?a ?b ?c ?e ?g ?h] => assert (EM : exists v, run a b c e g h = Some (mkRes (K := RSc) v 1 [1])) end.
    { unfold run. cbn [first_loop].
      match goal with |- context [phi_opt ?a ?b ?c ?e ?g ?h ?i ?j ?k ?l] => assert (E : exists v, phi_opt a b c e g h i j k l = Some v /\ v <= -1 / 2); [eexists; split; [rlazy; rdec; rlazy; reflexivity|lra]|] end.
      destruct E as (v & E & Hv). rewrite E. clear E. exists v.
      match goal with |- context [sabs ?x] => assert (E : x = -3) by (rlazy; lra); rewrite !E; clear E end.
      cbn [sltb sabs RSc]. rewrite rltb_f by (rewrite Rabs_left by lra; cbn; lra).
      match goal with |- context [r_merit ?x] => assert (E : r_merit x = 1) by (rlazy; lra); rewrite !E; clear E end.
      rewrite (main_accept _ _ 19 (max_num_steps (lsopt (default_params (K := RSc))))) by first [reflexivity|apply rleb_t; cbn; lra].
      rewrite smax_R_l by (cbn; lra). reflexivity. }
    destruct EM as (v & EM). rewrite EM. clear EM. cbn [r_trace r_alpha r_phi].
    match goal with |- context [existsb ?f ?l] => assert (E : existsb f l = false) by (rlazy; rdec; rlazy; reflexivity); rewrite E; clear E end. cbv iota.
    unfold try_step. cbv iota beta.
    repeat match goal with
    | |- context [bad_vec ?x] => assert (E : bad_vec x = false) by reflexivity; rewrite E; clear E
    | |- context [bad_scalar ?x] => assert (E : bad_scalar x = false) by reflexivity; rewrite E; clear E
    end. eexists. reflexivity.
Qed.
Lemma bad_step : exists (p : @problem RSc) (s : solver_state (ex_oracles RSc)) d dd x,
  let P := default_params (K := RSc) in let O := ex_oracles RSc in let M := step_matrix (o_fac O) (o_bfgs O) P p d dd in
  consistent p s /\ pdal_beta P = 1 / 2 /\ run_diagnose O P p s = Ret d /\
  kkt_dual_diag P p (mu s) (sets s) (m_shift_pd (d_m _ _ d)) = Ret dd /\
  p_ndx p = 1%nat /\ rows_of (p_cons p) = 1%nat /\ al_convex 1 2 (entries M) /\
  solves 2 (entries M) x (fun i => - nth i (step_rhs (o_fac O) (o_bfgs O) P p d) 0) /\ slope p d x = 22.
Proof.
  destruct bad_slope as (d & dd & x & H1 & H2 & (H3 & H4) & H5). exists bad_p, bad_s, d, dd, x. cbv zeta.
  split; [exact bad_consistent|]. split; [reflexivity|]. split; [exact H1|]. split; [exact H2|]. split; [reflexivity|]. split; [reflexivity|]. split; [exact H3|]. split; [exact H4|exact H5].
Qed.
Lemma nc_setting : consistent nc_p nc_s /\ exact_solver 1 (entries [[- 1 / 2 + 1]]) (o_solve (ex_oracles RSc) [[- 1 / 2 + 1]]) /\
  plus_diag 1 1 [[- 1 / 2]] [[- 1 / 2 + 1]] /\ al_convex 1 1 (entries [[- 1 / 2 + 1]]).
Proof.
  split.
  { unfold consistent. cbv zeta. split; [cbn; lra|]. split; [reflexivity|]. split; [repeat constructor|]. split; [repeat constructor|]. repeat (split; [reflexivity|]). cbn. intros; lra. }
  split; [|split].
  - intros b Lb. destruct b as [|y [|]]; try discriminate Lb. split; [reflexivity|]. intros i Hi. assert (i = 0)%nat as -> by lia. unfold mvec, mirror, entries. cbn. field.
  - split; [reflexivity|]. split; [intros [|[|]]; reflexivity|]. intros i j Hi Hj. cbn in Hi. assert (i = 0)%nat as -> by lia. cbn in Hj. assert (j = 0)%nat as -> by lia. reflexivity.
  - intros x (i & Hi & Hx). assert (i = 0)%nat as -> by lia. pose proof (sq_pos _ Hx). unfold al_form, form, mirror, entries. cbn. nra.
Qed.
