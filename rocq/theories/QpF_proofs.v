(** Quadratic problems with equality constraints: the statements about the solver, and the Bunch-Kaufman factorisation. *)
From Coq Require Import Reals List Bool Arith ZArith Lia Lra Psatz.
From Verif Require Import Scalar Cset_model Cset_spec Cset_proofs Armijo_model Problem_model Solver_model Solver_spec SolverR_proofs SolverS_proofs Merit_spec Merit_proofs
  Lin_spec Lin_proofs Ldlt_spec Ldlt_proofs Bk_model Bk_spec BkI_proofs BkV_proofs BkX_proofs Descent_spec Descent_proofs DescentX_proofs Refine_proofs Qp_spec Qp_proofs QpD_proofs QpT_proofs QpC_proofs.
Import ListNotations.
Local Open Scope R_scope.

Notation en v := (fun i => nth i v 0).

Lemma state_holds {O : oracles RSc} n ms (s : solver_state O) : qp_state n ms s -> holds O n ms s (mu s) (en (r_x (res s))) (en (r_lams (res s))) (en (w_lams_prev _ _ (wsp s))).
Proof. intros H. constructor; try apply H; try reflexivity; apply tab_self, H. Qed.
Lemma holds_state {O : oracles RSc} n ms (s : solver_state O) mu0 x l le : holds O n ms s mu0 x l le -> qp_state n ms s /\ mu s = mu0.
Proof.
  intros H. assert (E : mu s = mu0) by apply H. split; [|exact E]. constructor; rewrite ?E; try apply H.
  - rewrite (h_x _ _ _ _ _ _ _ _ H). apply tab_length.
  - rewrite (h_l _ _ _ _ _ _ _ _ H). apply tab_length.
  - rewrite (h_le _ _ _ _ _ _ _ _ H). apply tab_length.
Qed.
Lemma en_tab n x i : (i < n)%nat -> nth i (tab n x) 0 = x i. Proof. apply tnth. Qed.

Lemma like_refl n p : answers_like n p p.
Proof. split; [reflexivity|]. split; [auto|]. induction (p_cons p); constructor; auto. Qed.
Lemma inner_final (O : oracles RSc) (P : @params RSc) n Q q ms A b p fi fls fin (s : solver_state O) : let m := total ms in
  answers_like n p (qp n Q q ms A b) ->
  plain O P n -> qp_convex n m Q A -> handles O n m Q A (mu s) -> qp_state n ms s -> 0 <= s_inner_tol _ _ s ->
  (S (r_num_iters (res s)) < max_iters P)%nat -> (1 < fi)%nat -> (0 < fls)%nat -> (0 < fin)%nat ->
  exists s' : solver_state O, inner_loop (o_integrate O) (o_px_val O) (o_px_grad O) (o_px_hess O) (o_fac O) (o_compute O) (o_signature O) (o_solve O) (o_bfgs O) (o_bfgs_update O) (o_qr O)
      fi fls fin P p s 0 = Ret s' /\
    qp_state n ms s' /\ mu s' = mu s /\ (r_num_iters (res s') <= S (r_num_iters (res s)))%nat /\
    let x := en (r_x (res s')) in let l := en (r_lams (res s')) in let le := en (w_lams_prev _ _ (wsp s)) in
    is_max_abs (qp_con n A b x) m (r_prim_infeas (res s')) /\ is_max_abs (qp_lag n m Q q A x l) n (r_dual_infeas (res s')) /\
    ((r_x (res s') = r_x (res s) /\ r_lams (res s') = r_lams (res s) /\
      (((forall i, (i < n)%nat -> Rabs (qp_lag n m Q q A x l i) <= s_inner_tol _ _ s) /\ (forall k, (k < m)%nat -> Rabs (qp_con n A b x k - mu s * (l k - le k)) <= s_inner_tol _ _ s)) \/
       (r_prim_infeas (res s') <= target_tol P /\ r_dual_infeas (res s') <= target_tol P))) \/
     (forall i, (i < n)%nat -> qp_lag n m Q q A x l i = 0) /\ (forall k, (k < m)%nat -> qp_con n A b x k = mu s * (l k - le k))).
Proof.
  intros m like [Pb Ph [Pd1 Pd2] [Ps1 Ps2] Pf Pp] Cx Hh Hs Ht Hn Hfi Hfl Hfn. destruct fi as [|[|f]]; try lia.
  destruct (inner_p O P n Q q ms A b p like Pb Ph Cx Pf Pp Pd1 Pd2 Ps1 Ps2 f fls fin s (mu s) _ _ _ Hfl Hfn (state_holds n ms s Hs) Hh Ht Hn) as (s' & x' & l' & E & H' & [R1 R2] & _ & _ & _ & _ & N' & C).
  destruct (holds_state _ _ _ _ _ _ _ H') as [S' M']. exists s'. split; [exact E|]. split; [exact S'|]. split; [exact M'|]. split; [exact N'|]. cbv zeta.
  rewrite (h_x _ _ _ _ _ _ _ _ H'), (h_l _ _ _ _ _ _ _ _ H').
  assert (Xc : forall k, qp_con n A b (en (tab n x')) k = qp_con n A b x' k) by (intros; apply con_ext; intros; apply en_tab; assumption).
  assert (Xl : forall i, qp_lag n m Q q A (en (tab n x')) (en (tab m l')) i = qp_lag n m Q q A x' l' i) by (intros; apply lag_ext; intros; apply en_tab; assumption).
  split; [|split].
  - destruct R1 as [U V]. split; [intros i Hi; rewrite Xc; apply U, Hi|]. destruct V as [V|(i & Hi & V)]; [left; exact V|right; exists i; rewrite Xc; split; assumption].
  - destruct R2 as [U V]. split; [intros i Hi; eapply Rle_trans; [apply Req_le; exact (f_equal Rabs (Xl i))|apply U, Hi]|]. destruct V as [V|(i & Hi & V)]; [left; exact V|right; exists i; split; [exact Hi|]; etransitivity; [exact (f_equal Rabs (Xl i))|exact V]].
  - destruct C as [(-> & -> & C)|[C1 C2]].
    + left. split; [symmetry; apply tab_self, Hs|]. split; [symmetry; apply tab_self, Hs|]. destruct C as [[C1 C2]|C]; [left|right; exact C]. split; intros k Hk.
      * eapply Rle_trans; [apply Req_le; exact (f_equal Rabs (Xl k))|]. apply C1, Hk.
      * specialize (C2 k Hk). unfold qp_rp in C2. rewrite Xc. rewrite en_tab by exact Hk. eapply Rle_trans; [apply Req_le|exact C2]. f_equal. ring.
    + right. split; intros k Hk; [etransitivity; [exact (Xl k)|apply C1, Hk]|]. rewrite Xc, C2 by exact Hk. rewrite en_tab by exact Hk. reflexivity.
Qed.

Lemma init_holds (O : oracles RSc) (P : @params RSc) n Q q ms A b p (s : solver_state O) mus x0 l0 : answers_like n p (qp n Q q ms A b) -> rho_init P = 0 -> 0 < mu_init P -> length x0 = n -> length l0 = total ms ->
  sets s = map CEq mus -> length mus = length ms ->
  length (w_plus _ _ (wsp s)) = total ms -> length (w_pdal _ _ (wsp s)) = total ms -> length (r_active (res s)) = total ms -> length (w_vhp _ _ (wsp s)) = length ms ->
  holds O n ms (init_solve (o_pow O) (o_fac O) (o_bfgs O) P p x0 l0 s) (mu_init P) (en x0) (en l0) (en l0).
Proof.
  intros like Or Mu Lx Ll Es Lm B1 B2 B3 B4. set (si := init_solve (o_pow O) (o_fac O) (o_bfgs O) P p x0 l0 s).
  assert (En : Nat.eqb (length l0) (numdual p) = true) by (apply Nat.eqb_eq; rewrite (numdual_p _ _ _ _ _ _ _ like); exact Ll).
  unfold si. constructor; cbn; try solve [lra|reflexivity|assumption].
    - change (s_sets (o_fac O) (o_bfgs O) s) with (sets s). rewrite Es, map_map. unfold eqs. cbn [set_prox]. clear - Lm. revert ms Lm. induction mus as [|a r IH]; intros [|c t] H; try discriminate H; [reflexivity|]. cbn. f_equal. apply IH. injection H as H. exact H.
    - apply tab_self, Lx.
    - match goal with |- context [if ?c then _ else _] => assert (T0 : c = true) by exact En; rewrite T0 end. apply tab_self, Ll.
    - match goal with |- context [if ?c then _ else _] => assert (T0 : c = true) by exact En; rewrite T0 end. apply tab_self, Ll.
Qed.
Lemma solve_strong (O : oracles RSc) (P : @params RSc) n Q q ms A b p xs ls D Rn T fo fi fls fin (s : solver_state O) mus x0 l0 : let m := total ms in let K := (Rn * S T + T)%nat in
  answers_like n p (qp n Q q ms A b) ->
  plain O P n -> outer_params O P D Rn T -> qp_convex n m Q A -> (forall mu, mu_lower P <= mu <= mu_init P -> handles O n m Q A mu) ->
  qp_optimal n m Q q A b xs ls -> rsum m (fun k => (nth k l0 0 - ls k) * (nth k l0 0 - ls k)) <= D * D -> length x0 = n -> length l0 = m ->
  sets s = map CEq mus -> length mus = length ms -> buffers_fit p s ->
  (K < max_al_iters P)%nat -> (S K < max_iters P)%nat -> (max_al_iters P < fo)%nat -> (1 < fi)%nat -> (0 < fls)%nat -> (0 < fin)%nat ->
  exists (s' : solver_state O) f, run_solve O fo fi fls fin P p (Some s) x0 l0 = Ret (s', f) /\ length (r_x (res s')) = n /\ length (r_lams (res s')) = m /\
    let x := en (r_x (res s')) in let l := en (r_lams (res s')) in
    (forall k, (k < m)%nat -> Rabs (qp_con n A b x k) <= target_tol P) /\ (forall i, (i < n)%nat -> Rabs (qp_lag n m Q q A x l i) <= target_tol P) /\
    ((f = SUCCESS /\ (r_al_iters (res s') <= K)%nat /\ (r_num_iters (res s') <= S K)%nat) \/
     (exists k, (k < m)%nat /\ Rabs (qp_con n A b x k) = target_tol P) \/ (exists i, (i < n)%nat /\ Rabs (qp_lag n m Q q A x l i) = target_tol P)) /\
    d2 m l ls <= D * D.
Proof.
  intros m K like [Pb Ph [Pd1 Pd2] [Ps1 Ps2] Pf Pp] [Om Or Op ([Mu1 Mu2] & Mu3 & Mu4) (Ex1 & Ex2 & Ex3 & Ex4) (To1 & To2 & To3 & To4 & To5) Ol [OD1 OD2] OR OT OTp] Cx Hh Opt HD Lx Ll Es Lm (B1 & B2 & B3 & B4) Ka Kn Hfo Hfi Hfl Hfn.
  rewrite (rows_p _ _ _ _ _ _ _ like) in B1, B2, B3. assert (B5 : length (p_cons p) = length ms) by (rewrite <- (dims_p _ _ _ _ _ _ _ like); unfold dims; rewrite map_length; reflexivity). rewrite B5 in B4.
  set (si := init_solve (o_pow O) (o_fac O) (o_bfgs O) P p x0 l0 s).
  assert (En : Nat.eqb (length l0) (numdual p) = true) by (apply Nat.eqb_eq; rewrite (numdual_p _ _ _ _ _ _ _ like); exact Ll).
  assert (Hi : holds O n ms si (mu_init P) (en x0) (en l0) (en l0)) by exact (init_holds O P n Q q ms A b p s mus x0 l0 like Or ltac:(lra) Lx Ll Es Lm B1 B2 B3 B4).
  assert (Iv : inv O P n Q q ms A b ls D T si (mu_init P) (en x0) (en l0) (en l0) Rn T).
  { constructor; try assumption; try lra; try lia.
    - left. reflexivity.
    - unfold si. cbn. pose proof (proj1 (smax_R_ge (inner_tol0 P * o_pow O (mu_init P) (dual_alpha P)) (inner_tol_min P))). cbn [car RSc] in *. lra.
    - rewrite Nat.sub_diag. unfold si. cbn. rewrite Op by lra. apply tol_init.
    - rewrite Nat.sub_diag. unfold si. cbn. rewrite Op by lra. apply tol_init. }
  destruct fi as [|[|fi]]; try lia.
  destruct (outer_p O P n Q q ms A b p like Pb Ph Cx Pf Pp Pd1 Pd2 Ps1 Ps2 xs ls D T Opt Om Op Mu1 Mu2 Mu3 Mu4 To1 Ex1 Ex2 Ex3 Ex4 To2 To3 To4 To5 Ol OD1 OD2 OT Hh OTp fi fls fin Hfl Hfn K fo si _ _ _ _ Rn T Iv) as (s' & E' & x & l & X & L & W0 & W1 & W2 & W3).
  { unfold K. lia. } { exact Ka. } { exact Kn. } { change (r_al_iters (res si)) with 0%nat. lia. }
  unfold run_solve, solve. fold si. unfold outer in E'. rewrite E'. cbn [bind]. eexists _, _. split; [reflexivity|].
  match goal with |- context [r_x (res ?z)] => change (r_x (res z)) with (r_x (res s')); change (r_lams (res z)) with (r_lams (res s')); change (r_al_iters (res z)) with (r_al_iters (res s')); change (r_num_iters (res z)) with (r_num_iters (res s')) end.
  rewrite X, L. split; [apply tab_length|]. split; [apply tab_length|]. cbv zeta.
  assert (Xc : forall k, qp_con n A b (en (tab n x)) k = qp_con n A b x k) by (intros; apply con_ext; intros; apply en_tab; assumption).
  assert (Xl : forall i, qp_lag n m Q q A (en (tab n x)) (en (tab m l)) i = qp_lag n m Q q A x l i) by (intros; apply lag_ext; intros; apply en_tab; assumption).
  split; [intros k Hk; rewrite Xc; apply W1, Hk|]. split; [intros i Hi'; eapply Rle_trans; [apply Req_le; exact (f_equal Rabs (Xl i))|apply W2, Hi']|].
  split; [|rewrite (d2_ext _ _ l ls) by (intros k Hk; apply en_tab, Hk); exact W0].
  destruct W3 as [(V1 & V2 & V3)|[(k & Hk & V)|(i & Hi' & V)]].
  - left. split; [exact V1|]. split; [exact V2|exact V3].
  - right. left. exists k. rewrite Xc. split; assumption.
  - right. right. exists i. split; [exact Hi'|]. etransitivity; [exact (f_equal Rabs (Xl i))|exact V].
Qed.
Lemma solve_final (O : oracles RSc) (P : @params RSc) n Q q ms A b p xs ls D Rn T fo fi fls fin (s : solver_state O) mus x0 l0 : let m := total ms in let K := (Rn * S T + T)%nat in
  answers_like n p (qp n Q q ms A b) ->
  plain O P n -> outer_params O P D Rn T -> qp_convex n m Q A -> (forall mu, mu_lower P <= mu <= mu_init P -> handles O n m Q A mu) ->
  qp_optimal n m Q q A b xs ls -> rsum m (fun k => (nth k l0 0 - ls k) * (nth k l0 0 - ls k)) <= D * D -> length x0 = n -> length l0 = m ->
  sets s = map CEq mus -> length mus = length ms -> buffers_fit p s ->
  (K < max_al_iters P)%nat -> (S K < max_iters P)%nat -> (max_al_iters P < fo)%nat -> (1 < fi)%nat -> (0 < fls)%nat -> (0 < fin)%nat ->
  exists (s' : solver_state O) f, run_solve O fo fi fls fin P p (Some s) x0 l0 = Ret (s', f) /\ length (r_x (res s')) = n /\ length (r_lams (res s')) = m /\
    let x := en (r_x (res s')) in let l := en (r_lams (res s')) in
    (forall k, (k < m)%nat -> Rabs (qp_con n A b x k) <= target_tol P) /\ (forall i, (i < n)%nat -> Rabs (qp_lag n m Q q A x l i) <= target_tol P) /\
    ((f = SUCCESS /\ (r_al_iters (res s') <= K)%nat /\ (r_num_iters (res s') <= S K)%nat) \/
     (exists k, (k < m)%nat /\ Rabs (qp_con n A b x k) = target_tol P) \/ (exists i, (i < n)%nat /\ Rabs (qp_lag n m Q q A x l i) = target_tol P)).
Proof.
  intros m K H1 H2 H3 H4 H5 H6 H7 H8 H9 H10 H11 H12 H13 H14 H15 H16 H17 H18.
  destruct (solve_strong O P n Q q ms A b p xs ls D Rn T fo fi fls fin s mus x0 l0 H1 H2 H3 H4 H5 H6 H7 H8 H9 H10 H11 H12 H13 H14 H15 H16 H17 H18) as (s' & f & E & L1 & L2 & W1 & W2 & W3 & _).
  exists s', f. auto 10.
Qed.

(** A start whose residual is exactly the tolerance. *)
Lemma boundary_final (O : oracles RSc) (P : @params RSc) n Q q ms A b p fo fi fls fin (s : solver_state O) mus x0 l0 : let m := total ms in
  answers_like n p (qp n Q q ms A b) ->
  pdal_beta P = 1 / 2 -> hess_approx P = HM_EXACT \/ hess_approx P = HM_GAUSS_NEWTON ->
  mul_update P = MM_NEWTON -> rho_init P = 0 -> (forall x y, 0 < x -> o_pow O x y = Rpower x y) -> 0 < mu_lower P <= mu_init P -> mu_init P < mu_upper P -> 0 <= inner_tol_min P ->
  (forall k, (k < m)%nat -> Rabs (qp_con n A b (en x0) k) <= target_tol P) -> (forall i, (i < n)%nat -> Rabs (qp_lag n m Q q A (en x0) (en l0) i) <= target_tol P) ->
  (exists k, (k < m)%nat /\ Rabs (qp_con n A b (en x0) k) = target_tol P) \/ (exists i, (i < n)%nat /\ Rabs (qp_lag n m Q q A (en x0) (en l0) i) = target_tol P) ->
  length x0 = n -> length l0 = m -> sets s = map CEq mus -> length mus = length ms -> buffers_fit p s ->
  (max_al_iters P < fo)%nat -> (0 < fi)%nat ->
  exists s' : solver_state O, run_solve O fo fi fls fin P p (Some s) x0 l0 = Ret (s', UNINIT) /\ r_x (res s') = x0 /\ r_lams (res s') = l0.
Proof.
  intros m like Pb Ph Om Or Op [Mu1 Mu2] Mu3 To4 U1 U2 U3 Lx Ll Es Lm (B1 & B2 & B3 & B4) Hfo Hfi.
  rewrite (rows_p _ _ _ _ _ _ _ like) in B1, B2, B3. assert (B5 : length (p_cons p) = length ms) by (rewrite <- (dims_p _ _ _ _ _ _ _ like); unfold dims; rewrite map_length; reflexivity). rewrite B5 in B4.
  set (si := init_solve (o_pow O) (o_fac O) (o_bfgs O) P p x0 l0 s).
  assert (En : Nat.eqb (length l0) (numdual p) = true) by (apply Nat.eqb_eq; rewrite (numdual_p _ _ _ _ _ _ _ like); exact Ll).
  assert (Hi : holds O n ms si (mu_init P) (en x0) (en l0) (en l0)) by exact (init_holds O P n Q q ms A b p s mus x0 l0 like Or ltac:(lra) Lx Ll Es Lm B1 B2 B3 B4).
  assert (H0 : 0 <= s_inner_tol _ _ si) by (unfold si; cbn; pose proof (proj1 (smax_R_ge (inner_tol0 P * o_pow O (mu_init P) (dual_alpha P)) (inner_tol_min P))); cbn [car RSc] in *; lra).
  assert (HT : 0 <= target_tol P) by (destruct U3 as [(k & _ & <-)|(k & _ & <-)]; apply Rabs_pos).
  destruct fi as [|fi]; [lia|].
  destruct (stuck_p O P n Q q ms A b p like Pb Ph Om Op Mu1 Mu2 Mu3 To4 fi fls fin fo si (mu_init P) (en x0) (en l0) (en l0) Hi Mu2 H0) as (s' & E & X & L & C).
  - intros pi di Hp Hd. apply Rle_antisym.
    + apply smax_le. split; [apply (max_abs_le _ _ _ _ Hp HT U1)|apply (max_abs_le _ _ _ _ Hd HT U2)].
    + pose proof (smax_R_ge pi di) as [G1 G2]. destruct U3 as [(k & Hk & U3)|(k & Hk & U3)]; rewrite <- U3; [exact (Rle_trans _ _ _ (max_abs_ge _ _ _ k Hp Hk) G2)|exact (Rle_trans _ _ _ (max_abs_ge _ _ _ k Hd Hk) G1)].
  - change (r_al_iters (res si)) with 0%nat. lia.
  - unfold run_solve, solve. fold si. unfold outer in E. rewrite E. cbn [bind]. eexists. split; [|split].
    + f_equal. f_equal. exact C.
    + change (r_x (res s') = x0). rewrite X. symmetry. apply tab_self, Lx.
    + change (r_lams (res s') = l0). rewrite L. symmetry. apply tab_self, Ll.
Qed.

(** The Bunch-Kaufman factorisation handles the matrices whose signature has no zero. *)
Lemma bk_handles pw ig pv pg ph bf bu qr n m Q A mu : (n + m <= 32)%nat -> qp_convex n m Q A -> 0 < mu ->
  (forall F, ~ In 0%Z (bk_sig (K := RSc) (bk_fac (K := RSc) (n + m) F (qp_kkt n m Q A mu)))) ->
  handles (mkOracles (K := RSc) pw ig pv pg ph (bk RSc) (bk_fac (K := RSc) (n + m)) (bk_sig (K := RSc)) (bk_solve_list (K := RSc)) bf bu qr) n m Q A mu.
Proof.
  intros H32 (Sy & Ps & Ker) Hm Nz F. cbn [o_signature o_compute o_solve]. set (N := (n + m)%nat) in *. change (qp_kkt n m Q A mu) with (kmat n m Q A mu) in *. set (M := kmat n m Q A mu) in *.
  destruct (bk_success_iff N (entries M)) as (s & Es & Ns & _). assert (EF : bk_fac (K := RSc) N F M = s).
  { unfold bk_fac. change (fun i j => nth j (nth i M []) (s0 (s := RSc))) with (entries M). rewrite Es. reflexivity. }
  specialize (Nz F). cbv zeta. rewrite EF in *. unfold bk_sig in *.
  assert (Rg : regularised n N (entries M)) by exact (kmat_reg n m Q A mu Hm). assert (Cv : al_convex n N (entries M)) by exact (kmat_convex n m Q A mu Sy Hm Ps Ker).
  destruct (bk_signature s) as [sig| | |] eqn:Eg.
  1: { destruct (bk_inertia n N (entries M) s sig ltac:(lia) Rg Es Eg (or_intror H32)) as [_ I]. replace (N - n)%nat with m in I by lia. destruct (I Cv) as [Ok [C|C]]; [|contradiction]. split; [exact C|].
       intros v Lv. destruct (bk_solve_ok N (entries M) s (fun i => nth i v (s0 (s := RSc))) Es Ok) as (x & Ex & Sx). unfold bk_solve_list. match goal with |- context [bk_solve s ?w] => assert (E : bk_solve s w = Ret x) by exact Ex; rewrite E, Ns; clear E end.
       split; [rewrite map_length, seq_length; reflexivity|]. apply (solves_ext N _ x); [|exact Sx]. intros i Hi. apply DescentX_proofs.tab_nth, Hi. }
  all: exfalso; destruct (bk_ok s) eqn:Ok; [destruct (bk_signature_ok N (entries M) s Es Ok) as (sig & E1 & _)|destruct (bk_failed_signature N (entries M) s H32 Es Ok) as (sig & E1 & _)]; rewrite Eg in E1; discriminate E1.
Qed.
