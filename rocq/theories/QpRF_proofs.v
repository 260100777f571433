(** Quadratic problems with equality constraints and a proximal term: the statements about the solver. *)
From Coq Require Import Reals List Bool Arith ZArith Lia Lra Psatz.
From Verif Require Import Scalar Cset_model Cset_spec Cset_proofs Armijo_model Problem_model Solver_model Solver_spec SolverR_proofs SolverS_proofs Merit_spec Merit_proofs
  Lin_spec Lin_proofs Ldlt_spec Ldlt_proofs Bk_model Bk_spec Descent_spec Descent_proofs Refine_proofs Qp_spec Qp_proofs QpD_proofs QpT_proofs QpC_proofs QpF_proofs QpR_spec QpR_proofs QpRC_proofs.
Import ListNotations.
Local Open Scope R_scope.

Lemma state_holdr {O : oracles RSc} n ms (s : solver_state O) : prox_state n ms s ->
  holdr O n ms s (mu s) (s_rho _ _ s) (en (s_target _ _ s)) (en (r_x (res s))) (en (r_lams (res s))) (en (w_lams_prev _ _ (wsp s))).
Proof. intros H. constructor; try apply H; try reflexivity; apply tab_self, H. Qed.
Lemma holdr_state {O : oracles RSc} n ms (s : solver_state O) mu0 rho t x l le : holdr O n ms s mu0 rho t x l le -> prox_state n ms s /\ mu s = mu0 /\ s_rho _ _ s = rho /\ s_target _ _ s = tab n t.
Proof.
  intros H. assert (E : mu s = mu0) by apply H. split; [|split; [exact E|split; apply H]]. constructor; rewrite ?E; try apply H.
  - rewrite (g_rho _ _ _ _ _ _ _ _ _ _ H). apply H.
  - rewrite (g_x _ _ _ _ _ _ _ _ _ _ H). apply tab_length.
  - rewrite (g_tgt _ _ _ _ _ _ _ _ _ _ H). apply tab_length.
  - rewrite (g_l _ _ _ _ _ _ _ _ _ _ H). apply tab_length.
  - rewrite (g_le _ _ _ _ _ _ _ _ _ _ H). apply tab_length.
Qed.
Lemma is_max_ext f g N v : (forall i, (i < N)%nat -> f i = g i) -> is_max_abs f N v -> is_max_abs g N v.
Proof.
  intros E [U V]. split; [intros i Hi; rewrite <- E by exact Hi; apply U, Hi|]. destruct V as [V|(i & Hi & V)]; [left; exact V|right; exists i; rewrite <- E by exact Hi; split; assumption].
Qed.

Lemma inner_final_r (O : oracles RSc) (P : @params RSc) n Q q ms A b p fi fls fin (s : solver_state O) : let m := total ms in let rho := s_rho _ _ s in let t := en (s_target _ _ s) in
  answers_like n p (qp n Q q ms A b) ->
  plain_prox O P n -> convex_by n Q 0 -> handles O n m (prox_hessian Q rho) A (mu s) -> prox_state n ms s -> 0 <= s_inner_tol _ _ s ->
  (S (r_num_iters (res s)) < max_iters P)%nat -> (1 < fi)%nat -> (0 < fls)%nat -> (0 < fin)%nat ->
  exists s' : solver_state O, inner_loop (o_integrate O) (o_px_val O) (o_px_grad O) (o_px_hess O) (o_fac O) (o_compute O) (o_signature O) (o_solve O) (o_bfgs O) (o_bfgs_update O) (o_qr O)
      fi fls fin P p s 0 = Ret s' /\
    prox_state n ms s' /\ mu s' = mu s /\ s_rho _ _ s' = rho /\ s_target _ _ s' = s_target _ _ s /\ (r_num_iters (res s') <= S (r_num_iters (res s)))%nat /\
    let x := en (r_x (res s')) in let l := en (r_lams (res s')) in let le := en (w_lams_prev _ _ (wsp s)) in
    is_max_abs (qp_con n A b x) m (r_prim_infeas (res s')) /\ is_max_abs (qp_lag n m Q q A x l) n (r_dual_infeas (res s')) /\
    ((r_x (res s') = r_x (res s) /\ r_lams (res s') = r_lams (res s) /\
      (((forall i, (i < n)%nat -> Rabs (qp_lag n m Q q A x l i + rho * (x i - t i)) <= s_inner_tol _ _ s) /\ (forall k, (k < m)%nat -> Rabs (qp_con n A b x k - mu s * (l k - le k)) <= s_inner_tol _ _ s)) \/
       (r_prim_infeas (res s') <= target_tol P /\ r_dual_infeas (res s') <= target_tol P))) \/
     (forall i, (i < n)%nat -> qp_lag n m Q q A x l i + rho * (x i - t i) = 0) /\ (forall k, (k < m)%nat -> qp_con n A b x k = mu s * (l k - le k))).
Proof.
  intros m rho t like [Pb Ph [Pd1 Pd2] [Ps1 Ps2] Pf Pp] Cx Hh Hs Ht Hn Hfi Hfl Hfn. destruct fi as [|[|f]]; try lia.
  destruct (innerr_p O P n Q q ms A b p like Pb Ph 0 (Rle_refl 0) Cx Pf Pp Pd1 Pd2 Ps1 Ps2 f fls fin s (mu s) rho t _ _ _ Hfl Hfn (state_holdr n ms s Hs) Hh Ht Hn) as (s' & x' & l' & E & H' & [R1 R2] & _ & _ & _ & _ & N' & C).
  destruct (holdr_state _ _ _ _ _ _ _ _ _ H') as (S' & M' & R' & T'). exists s'. split; [exact E|]. split; [exact S'|]. split; [exact M'|]. split; [exact R'|].
  split; [rewrite T'; symmetry; apply tab_self, Hs|]. split; [exact N'|]. cbv zeta.
  rewrite (g_x _ _ _ _ _ _ _ _ _ _ H'), (g_l _ _ _ _ _ _ _ _ _ _ H').
  assert (Xc : forall k, qp_con n A b (en (tab n x')) k = qp_con n A b x' k) by (intros; apply con_ext; intros; apply en_tab; assumption).
  assert (Xl : forall i, qp_lag n m Q q A (en (tab n x')) (en (tab m l')) i = qp_lag n m Q q A x' l' i) by (intros; apply lag_ext; intros; apply en_tab; assumption).
  split; [|split].
  - apply (is_max_ext (qp_con n A b x')); [intros; symmetry; apply Xc|exact R1].
  - apply (is_max_ext (qp_lag n m Q q A x' l')); [intros; symmetry; apply Xl|exact R2].
  - destruct C as [(-> & -> & C)|[C1 C2]].
    + left. split; [symmetry; apply tab_self, Hs|]. split; [symmetry; apply tab_self, Hs|]. destruct C as [[C1 C2]|C]; [left|right; exact C]. split; intros k Hk.
      * specialize (C1 k Hk). rewrite lag_prox in C1 by exact Hk. eapply Rle_trans; [|exact C1]. apply Req_le, (f_equal Rabs), (f_equal2 Rplus); [exact (Xl k)|]. rewrite en_tab by exact Hk. reflexivity.
      * specialize (C2 k Hk). unfold qp_rp in C2. rewrite Xc. rewrite en_tab by exact Hk. eapply Rle_trans; [apply Req_le|exact C2]. f_equal. ring.
    + right. split; intros k Hk; [etransitivity; [|exact (C1 k Hk)]; apply (f_equal2 Rplus); [exact (Xl k)|]; rewrite en_tab by exact Hk; reflexivity|]. rewrite Xc, C2 by exact Hk. rewrite en_tab by exact Hk. reflexivity.
Qed.

Lemma init_holdr (O : oracles RSc) (P : @params RSc) n Q q ms A b p (s : solver_state O) mus x0 l0 : answers_like n p (qp n Q q ms A b) -> 0 < rho_init P -> 0 < mu_init P -> length x0 = n -> length (s_target _ _ s) = n -> length l0 = total ms ->
  sets s = map CEq mus -> length mus = length ms ->
  length (w_plus _ _ (wsp s)) = total ms -> length (w_pdal _ _ (wsp s)) = total ms -> length (r_active (res s)) = total ms -> length (w_vhp _ _ (wsp s)) = length ms ->
  holdr O n ms (init_solve (o_pow O) (o_fac O) (o_bfgs O) P p x0 l0 s) (mu_init P) (rho_init P) (en (s_target _ _ s)) (en x0) (en l0) (en l0).
Proof.
  intros like Or Mu Lx Lt Ll Es Lm B1 B2 B3 B4. set (si := init_solve (o_pow O) (o_fac O) (o_bfgs O) P p x0 l0 s).
  assert (En : Nat.eqb (length l0) (numdual p) = true) by (apply Nat.eqb_eq; rewrite (numdual_p _ _ _ _ _ _ _ like); exact Ll).
  unfold si. constructor; cbn; try solve [lra|reflexivity|assumption].
    - apply tab_self, Lt.
    - change (s_sets (o_fac O) (o_bfgs O) s) with (sets s). rewrite Es, map_map. unfold eqs. cbn [set_prox]. clear - Lm. revert ms Lm. induction mus as [|a r IH]; intros [|c t] H; try discriminate H; [reflexivity|]. cbn. f_equal. apply IH. injection H as H. exact H.
    - apply tab_self, Lx.
    - match goal with |- context [if ?c then _ else _] => assert (T0 : c = true) by exact En; rewrite T0 end. apply tab_self, Ll.
    - match goal with |- context [if ?c then _ else _] => assert (T0 : c = true) by exact En; rewrite T0 end. apply tab_self, Ll.
Qed.
Lemma solve_final_r (O : oracles RSc) (P : @params RSc) n Q q ms A b p xs ls e k D Rn T B fo fi fls fin (s : solver_state O) mus x0 l0 : let m := total ms in let K := (Rn * S (T + B) + (T + B))%nat in
  answers_like n p (qp n Q q ms A b) ->
  plain_prox O P n -> prox_params O P n m e k D Rn T B xs ls (en x0) (en (s_target _ _ s)) (en l0) -> convex_by n Q e ->
  (forall mu j, mu_lower P <= mu <= mu_init P -> handles O n m (prox_hessian Q (rho_init P * rho_factor P ^ j)) A mu) ->
  qp_optimal n m Q q A b xs ls -> length x0 = n -> length (s_target _ _ s) = n -> length l0 = m ->
  sets s = map CEq mus -> length mus = length ms -> buffers_fit p s ->
  (K < max_al_iters P)%nat -> (S K < max_iters P)%nat -> (max_al_iters P < fo)%nat -> (1 < fi)%nat -> (0 < fls)%nat -> (0 < fin)%nat ->
  exists (s' : solver_state O) f, run_solve O fo fi fls fin P p (Some s) x0 l0 = Ret (s', f) /\ length (r_x (res s')) = n /\ length (r_lams (res s')) = m /\
    let x := en (r_x (res s')) in let l := en (r_lams (res s')) in
    (forall i, (i < m)%nat -> Rabs (qp_con n A b x i) <= target_tol P) /\ (forall i, (i < n)%nat -> Rabs (qp_lag n m Q q A x l i) <= target_tol P) /\
    ((f = SUCCESS /\ (r_al_iters (res s') <= K)%nat /\ (r_num_iters (res s') <= S K)%nat) \/
     (exists i, (i < m)%nat /\ Rabs (qp_con n A b x i) = target_tol P) \/ (exists i, (i < n)%nat /\ Rabs (qp_lag n m Q q A x l i) = target_tol P)) /\
    dist2 m l ls <= D * D.
Proof.
  intros m K like [Pb Ph [Pd1 Pd2] [Ps1 Ps2] Pf Pp]
    [Om Op ([Mu1 Mu2] & Mu3 & Mu4) (Or1 & Or2) (Ex1 & Ex2 & Ex3 & Ex4) (To1 & To2 & To3 & To4 & To5) Ol OR O1 OT OTp Oe (Ok1 & Ok2) (OD1 & OD2 & u & Ou1 & Ou2 & Ou3) OB] Cx Hh Opt Lx Lt Ll Es Lm (B1 & B2 & B3 & B4) Ka Kn Hfo Hfi Hfl Hfn.
  rewrite (rows_p _ _ _ _ _ _ _ like) in B1, B2, B3. assert (B5 : length (p_cons p) = length ms) by (rewrite <- (dims_p _ _ _ _ _ _ _ like); unfold dims; rewrite map_length; reflexivity). rewrite B5 in B4.
  set (si := init_solve (o_pow O) (o_fac O) (o_bfgs O) P p x0 l0 s).
  assert (En : Nat.eqb (length l0) (numdual p) = true) by (apply Nat.eqb_eq; rewrite (numdual_p _ _ _ _ _ _ _ like); exact Ll).
  assert (Hi : holdr O n ms si (mu_init P) (rho_init P) (en (s_target _ _ s)) (en x0) (en l0) (en l0)) by exact (init_holdr O P n Q q ms A b p s mus x0 l0 like Or1 ltac:(lra) Lx Lt Ll Es Lm B1 B2 B3 B4).
  assert (Hu : 0 <= u).
  { pose proof (dist2_pos n (en x0) xs). pose proof (dist2_pos m (en l0) ls). assert (0 <= rho_init P * dist2 n (en x0) xs) by (apply Rmult_le_pos; lra). assert (0 <= mu_init P * dist2 m (en l0) ls) by (apply Rmult_le_pos; lra). nra. }
  assert (Iv : invr O P n ms A b xs ls D k T B si (mu_init P) (rho_init P) (en (s_target _ _ s)) (en x0) (en l0) (en l0) Rn (T + B)).
  { assert (Sz : sinkr P T (T + B - (T + B)) = 0) by (unfold sinkr; rewrite Nat.sub_diag; cbn; ring).
    constructor; try assumption; try lra; try lia.
    - exists 0%nat. cbn [pow car RSc]. symmetry. apply Rmult_1_r.
    - exists u. rewrite Sz. repeat split; try assumption; try (rewrite Rplus_0_r; assumption).
    - left. reflexivity.
    - unfold si. cbn. pose proof (proj1 (smax_R_ge (inner_tol0 P * o_pow O (mu_init P) (dual_alpha P)) (inner_tol_min P))). cbn [car RSc] in *. lra.
    - unfold si. cbn. apply smax_R_ge.
    - rewrite Nat.sub_diag. unfold si. cbn. rewrite Op by lra. apply tol_init.
    - rewrite Nat.sub_diag. unfold si. cbn. rewrite Op by lra. apply tol_init. }
  destruct fi as [|[|fi]]; try lia.
  edestruct outerr_p with (O := O) (P := P) (n := n) (Q := Q) (q := q) (ms := ms) (A := A) (b := b) (p := p) (e := e) (xs := xs) (ls := ls) (D := D) (kap := k) (T := T) (B := B)
    (f := fi) (fls := fls) (fin := fin) (N := K) (fo := fo) (s := si) (mu := mu_init P) (rho := rho_init P) (t := en (s_target _ _ s)) (x := en x0) (l := en l0) (le := en l0) (r := Rn) (c := (T + B)%nat)
    as (s' & E' & x & l & X & L & W0 & W1 & W2 & W3); try assumption; try lra.
  { unfold K. lia. } { change (r_al_iters (res si)) with 0%nat. lia. }
  unfold run_solve, solve. fold si. unfold outer in E'. rewrite E'. cbn [bind]. eexists _, _. split; [reflexivity|].
  match goal with |- context [r_x (res ?z)] => change (r_x (res z)) with (r_x (res s')); change (r_lams (res z)) with (r_lams (res s')); change (r_al_iters (res z)) with (r_al_iters (res s')); change (r_num_iters (res z)) with (r_num_iters (res s')) end.
  rewrite X, L. split; [apply tab_length|]. split; [apply tab_length|]. cbv zeta.
  assert (Xc : forall k, qp_con n A b (en (tab n x)) k = qp_con n A b x k) by (intros; apply con_ext; intros; apply en_tab; assumption).
  assert (Xl : forall i, qp_lag n m Q q A (en (tab n x)) (en (tab m l)) i = qp_lag n m Q q A x l i) by (intros; apply lag_ext; intros; apply en_tab; assumption).
  split; [intros j Hj; rewrite Xc; apply W1, Hj|]. split; [intros i Hi'; eapply Rle_trans; [apply Req_le; exact (f_equal Rabs (Xl i))|apply W2, Hi']|].
  split; [|rewrite (dist2_ext _ _ l ls ls); [exact W0|intros j Hj; apply en_tab, Hj|reflexivity]].
  destruct W3 as [(V1 & V2 & V3)|[(j & Hj & V)|(i & Hi' & V)]].
  - left. split; [exact V1|]. split; [exact V2|exact V3].
  - right. left. exists j. rewrite Xc. split; assumption.
  - right. right. exists i. split; [exact Hi'|]. etransitivity; [exact (f_equal Rabs (Xl i))|exact V].
Qed.
