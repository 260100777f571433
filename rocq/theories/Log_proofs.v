(** Proofs about the text that solve prints (C102). *)
From Coq Require Import Reals List Bool Arith Lia Lra.
From Verif Require Import Scalar Armijo_model Problem_model Solver_model Solver_spec Solver_proofs SolverX_proofs Log_model Log_spec.
Import ListNotations.

Section L.
  Context {K : Sc}.
  Variable O : oracles K.
  Variables (P : @params K) (p : @problem K) (fls fin : nat).
  Notation state := (solver_state O).
  Notation pass := (pass (o_integrate O) (o_px_val O) (o_px_grad O) (o_px_hess O) (o_fac O) (o_compute O) (o_signature O) (o_solve O) (o_bfgs O) (o_bfgs_update O) (o_qr O)).
  Notation inner_loop := (inner_loop (o_integrate O) (o_px_val O) (o_px_grad O) (o_px_hess O) (o_fac O) (o_compute O) (o_signature O) (o_solve O) (o_bfgs O) (o_bfgs_update O) (o_qr O)).
  Notation outer_loop := (outer_loop (o_pow O) (o_integrate O) (o_px_val O) (o_px_grad O) (o_px_hess O) (o_fac O) (o_compute O) (o_signature O) (o_solve O) (o_bfgs O) (o_bfgs_update O) (o_qr O)).

  (** The text does not change the run. *)
  Lemma pass_erase a s dl : snd (pass_text O a fls fin P p s dl) = pass fls fin P p s dl.
  Proof.
    unfold pass_text, Solver_model.pass. fold (run_diagnose O P p s). destruct (run_diagnose O P p s) as [d|e| |]; cbn [bind]; try reflexivity.
    destruct (_ || _); [reflexivity|]. fold (run_step O fls fin P p d dl). destruct (run_step O fls fin P p d dl); reflexivity.
  Qed.
  Lemma inner_erase a : forall f s dl, snd (inner_text O a f fls fin P p s dl) = inner_loop f fls fin P p s dl.
  Proof.
    induction f as [|f IH]; intros s dl; [reflexivity|]. cbn [inner_text Solver_model.inner_loop]. rewrite <- (pass_erase a). destruct (pass_text O a fls fin P p s dl) as [t [[s'|s' dl']|e| |]]; cbn [snd bind]; try reflexivity.
    rewrite <- (IH s' dl'). destruct (inner_text O a f fls fin P p s' dl'). reflexivity.
  Qed.
  Lemma outer_erase a fi : forall f s, snd (outer_text O a f fi fls fin P p s) = outer_loop f fi fls fin P p s.
  Proof.
    induction f as [|f IH]; intros s; [reflexivity|]. cbn [outer_text Solver_model.outer_loop]. unfold res. destruct (_ && _); [|reflexivity].
    rewrite <- (inner_erase a). destruct (inner_text O a fi fls fin P p (record_params _ _ s) s0) as [t [s1|e| |]]; cbn [snd bind]; try reflexivity.
    unfold run_bcl. destruct (sltb _ _); [reflexivity|]. rewrite <- IH. destruct (outer_text O a f fi fls fin P p _). reflexivity.
  Qed.
  Lemma solve_erase v a fo fi so x0 l0 : snd (solve_text O v a fo fi fls fin P p so x0 l0) = run_solve O fo fi fls fin P p so x0 l0.
  Proof.
    unfold solve_text, run_solve, solve. destruct so as [s|]; [|reflexivity]. rewrite <- (outer_erase (still_active v a)).
    destruct (outer_text O (still_active v a) fo fi fls fin P p _) as [t [s1|e| |]]; reflexivity.
  Qed.

  Definition rounds (l : list (@results K)) := flat_map (fun r => map (fun cb => mkEvent cb r) (callbacks P)) l.

  Lemma after_step d dl r : run_step O fls fin P p d dl = Ret r -> exists w, step_record O fin P p d dl (after O r) = Some w.
  Proof.
    unfold run_step, Solver_model.step, step_record. intros H. crack H. unfold run_inertia.
    repeat match goal with E : _ = Ret _ |- _ => rewrite E; clear E end. eexists. reflexivity.
  Qed.
  Lemma record_shape d dl s' w : step_record O fin P p d dl s' = Some w -> exists delta dphi0, w = record_of O d s' delta dphi0.
  Proof. unfold step_record. intros H. repeat match type of H with (match ?v with _ => _ end) = _ => destruct v; try discriminate H end. injection H as <-. eexists _, _. reflexivity. Qed.

  Lemma pass_row a s dl t r : pass_text O a fls fin P p s dl = (t, Ret r) ->
    (exists d, run_diagnose O P p s = Ret d /\ r = Stop _ _ (d_state _ _ d) /\ t = [] /\ r_num_iters (res (after O r)) = r_num_iters (res s) /\ r_al_iters (res (after O r)) = r_al_iters (res s) /\ s_events _ _ (after O r) = s_events _ _ s) \/
    exists w r1, t = log a w /\ of_step O P p fls fin w /\ lg_iter w = S (r_num_iters (res s)) /\ lg_al w = S (r_al_iters (res s)) /\
      r_num_iters (res (after O r)) = S (r_num_iters (res s)) /\ r_al_iters (res (after O r)) = r_al_iters (res s) /\ s_events _ _ (after O r) = s_events _ _ s ++ rounds [r1] /\ agrees w r1.
  Proof.
    unfold pass_text. destruct (run_diagnose O P p s) as [d|e| |] eqn:D; try discriminate.
    destruct (diagnose_inv _ _ _ _ _ _ _ _ _ _ D) as (f & c & m & g & J & viol & prim & mer & act & b & h & v & _ & _ & _ & _ & _ & _ & Oc & Ds).
    destruct (_ || _) eqn:Ts; [intros [= <- <-]; left; exists d; cbn; rewrite Ds; repeat split|].
    destruct (run_step O fls fin P p d dl) as [r'|e| |] eqn:St; try discriminate. intros H. injection H as H <-. right.
    destruct (after_step d dl r' St) as [w Ew]. rewrite Ew in H. destruct (record_shape _ _ _ _ Ew) as (delta & dphi0 & Ew').
    destruct (step_inv _ _ _ _ _ _ _ _ _ _ _ _ _ _ _ St) as (pd & lr & xt & lt & w' & _ & _ & _ & _ & _ & _ & _ & C & _). cbv zeta in C.
    apply orb_false_iff in Ts. destruct Ts as [T1 T2]. rewrite Oc in T2.
    exists w. set (r0 := s_res _ _ (d_state _ _ d)) in *.
    exists (mkResults (r_conv r0) (r_phi lr) (r_value r0) xt lt (r_active r0) (r_dual_infeas r0) (r_prim_infeas r0) (r_viol r0) (r_num_iters r0) (r_al_iters r0) (r_mu r0) (r_rho r0)).
    assert (N0 : r_num_iters r0 = r_num_iters (res s)) by (unfold r0; rewrite Ds; reflexivity).
    assert (A0 : r_al_iters r0 = r_al_iters (res s)) by (unfold r0; rewrite Ds; reflexivity).
    assert (Q0 : r_prim_infeas r0 = prim /\ r_dual_infeas r0 = inf_norm (dual_residual p g J (r_lams (s_res _ _ s)))) by (unfold r0; rewrite Ds; split; reflexivity).
    assert (X0 : r_x r0 = r_x (res s) /\ r_lams r0 = r_lams (res s)) by (unfold r0; rewrite Ds; split; reflexivity).
    assert (E0 : s_events _ _ (d_state _ _ d) = s_events _ _ s) by (rewrite Ds; reflexivity).
    destruct Q0 as [Q1 Q2].
    assert (Al : exists f, after O r' = mkState _ _ (s_mu _ _ (d_state _ _ d)) (s_mu_inv _ _ (d_state _ _ d)) (s_rho _ _ (d_state _ _ d)) (s_inner_tol _ _ (d_state _ _ d)) (s_prim_tol _ _ (d_state _ _ d)) (s_sets _ _ (d_state _ _ d)) (s_target _ _ (d_state _ _ d))
       (mkResults f (r_phi lr) (r_value r0) xt lt (r_active r0) (r_dual_infeas r0) (r_prim_infeas r0) (r_viol r0) (S (r_num_iters r0)) (r_al_iters r0) (r_mu r0) (r_rho r0)) w'
       (invoke_callbacks P (mkResults (r_conv r0) (r_phi lr) (r_value r0) xt lt (r_active r0) (r_dual_infeas r0) (r_prim_infeas r0) (r_viol r0) (r_num_iters r0) (r_al_iters r0) (r_mu r0) (r_rho r0)) (s_events _ _ (d_state _ _ d)))).
    { destruct C as [[_ ->]|[_ [dl' ->]]]; eexists; reflexivity. }
    destruct Al as [fl Al].
    split; [symmetry; exact H|]. split; [|split; [|split; [|split; [|split; [|split]]]]].
    - exists s, (after O r'), d, dl. split; [exact D|]. cbv zeta. fold r0. split.
      { rewrite St. destruct r' as [x|x y]; cbn [after]; [left; reflexivity|right; eexists; reflexivity]. }
      rewrite Ew'. destruct X0 as [X1 X2]. unfold record_of. cbn [lg_iter lg_al lg_step lg_merit lg_dm lg_inner lg_prim lg_dual]. fold r0. unfold res, wsp. rewrite Al. cbn [s_res r_num_iters r_al_iters r_prim_infeas r_dual_infeas r_merit]. unfold res in *.
      rewrite <- N0, <- A0. rewrite Q1, Q2. repeat split; assumption.
    - rewrite Ew'. cbn. fold r0. rewrite N0. reflexivity.
    - rewrite Ew'. cbn. unfold res. rewrite Al. cbn. rewrite A0. reflexivity.
    - unfold res. rewrite Al. cbn. rewrite N0. reflexivity.
    - unfold res. rewrite Al. cbn. exact A0.
    - rewrite Al. cbn. unfold invoke_callbacks, rounds. cbn. rewrite E0, app_nil_r. reflexivity.
    - rewrite Ew'. unfold agrees, record_of. fold r0. cbn [lg_iter lg_al lg_merit lg_prim lg_dual r_num_iters r_al_iters r_merit r_prim_infeas r_dual_infeas]. unfold res. rewrite Al. repeat split.
  Qed.

  Lemma pass_silent a s dl t o : pass_text O a fls fin P p s dl = (t, o) -> (forall r, o <> Ret r) -> t = [].
  Proof.
    unfold pass_text. intros H N. repeat match type of H with (match ?v with _ => _ end) = _ => destruct v end; injection H as <- <-; try reflexivity; try (exfalso; eapply N; reflexivity).
  Qed.

  Definition good (n al : nat) (rows : list row) : Prop := map lg_iter rows = seq (S n) (length rows) /\ Forall (of_step O P p fls fin) rows /\ Forall (fun w => (S al <= lg_al w)%nat) rows.
  Definition ends (s s' : state) (rows : list row) : Prop :=
    r_num_iters (res s') = (r_num_iters (res s) + length rows)%nat /\ (exists l, s_events _ _ s' = s_events _ _ s ++ rounds l /\ Forall2 agrees rows l) /\ Forall (fun w => (lg_al w <= S (r_al_iters (res s')))%nat) rows.

  Lemma rounds_app l l' : rounds (l ++ l') = rounds l ++ rounds l'. Proof. apply flat_map_app. Qed.

  Lemma inner_rows a : forall f s dl t o, inner_text O a f fls fin P p s dl = (t, o) ->
    exists rows, t = flat_map (log a) rows /\ good (r_num_iters (res s)) (r_al_iters (res s)) rows /\ match o with Ret s' => ends s s' rows /\ r_al_iters (res s') = r_al_iters (res s) | _ => True end.
  Proof.
    induction f as [|f IH]; intros s dl t o H; cbn [inner_text] in H.
    { injection H as <- <-. exists []. repeat split; constructor. }
    destruct (pass_text O a fls fin P p s dl) as [t1 o1] eqn:Ps.
    destruct o1 as [r|e| |]; try solve [injection H as <- <-; rewrite (pass_silent _ _ _ _ _ Ps) by discriminate; exists []; repeat split; constructor].
    destruct (pass_row _ _ _ _ _ Ps) as [(d & D & -> & -> & N & Al & Ev)|(w & r1 & -> & Ow & Wi & Wa & N & Al & Ev & Ag)].
    - cbn [after] in *. injection H as <- <-. exists []. cbn. split; [reflexivity|]. split; [repeat split; constructor|]. split; [|exact Al]. split; [rewrite Nat.add_0_r; exact N|]. split; [|constructor]. exists []. cbn. rewrite app_nil_r. split; [exact Ev|constructor].
    - destruct r as [s'|s' dl']; cbn [after] in *.
      + injection H as <- <-. exists [w]. cbn [flat_map]. rewrite app_nil_r. split; [reflexivity|]. split.
        { split; [cbn; rewrite Wi; reflexivity|]. split; [constructor; [exact Ow|constructor]|]. constructor; [lia|constructor]. }
        split; [|exact Al]. split; [cbn; lia|]. split; [exists [r1]; split; [exact Ev|constructor; [exact Ag|constructor]]|]. constructor; [lia|constructor].
      + destruct (inner_text O a f fls fin P p s' dl') as [t2 o2] eqn:In. injection H as <- <-. destruct (IH _ _ _ _ In) as (rows & -> & (G1 & G2 & G3) & E). exists (w :: rows). split; [reflexivity|]. split.
        { split; [cbn [map length seq]; rewrite Wi, G1, N; reflexivity|]. split; [constructor; assumption|]. constructor; [lia|]. eapply Forall_impl; [|exact G3]. cbv beta. intros ? ?. lia. }
        destruct o2 as [s2|e| |]; try exact I. destruct E as ((E1 & (l & E2 & E3) & E4) & E5). split; [|lia]. split; [cbn [length]; lia|]. split.
        { exists (r1 :: l). split; [|constructor; assumption]. rewrite E2, Ev, <- app_assoc. f_equal. change (r1 :: l) with ([r1] ++ l). rewrite rounds_app. reflexivity. }
        constructor; [lia|exact E4].
  Qed.
  Lemma outer_rows a fi : forall f s t o, outer_text O a f fi fls fin P p s = (t, o) ->
    exists rows, t = flat_map (log a) rows /\ good (r_num_iters (res s)) (r_al_iters (res s)) rows /\ match o with Ret s' => ends s s' rows /\ (r_al_iters (res s) <= r_al_iters (res s'))%nat | _ => True end.
  Proof.
    induction f as [|f IH]; intros s t o H; cbn [outer_text] in H.
    { injection H as <- <-. exists []. repeat split; constructor. }
    destruct (_ && _).
    2:{ injection H as <- <-. exists []. cbn. split; [reflexivity|]. split; [repeat split; constructor|]. split; [|apply le_n]. split; [symmetry; apply Nat.add_0_r|]. split; [|constructor]. exists []. cbn. rewrite app_nil_r. split; [reflexivity|constructor]. }
    destruct (inner_text O a fi fls fin P p (record_params _ _ s) s0) as [t1 o1] eqn:In. destruct (inner_rows _ _ _ _ _ _ In) as (rows & -> & (G1 & G2 & G3) & E).
    change (r_num_iters (res (record_params _ _ s))) with (r_num_iters (res s)) in *. change (r_al_iters (res (record_params _ _ s))) with (r_al_iters (res s)) in *. change (s_events _ _ (record_params _ _ s)) with (s_events _ _ s) in *.
    destruct o1 as [s1|e| |]; try solve [injection H as <- <-; exists rows; repeat split; assumption].
    destruct E as ((E1 & (l & E2 & E3) & E4) & E5). set (s2 := run_bcl O P (accept_primal _ _ s1)) in *.
    assert (B : r_num_iters (res s2) = r_num_iters (res s1) /\ r_al_iters (res s2) = r_al_iters (res s1) /\ s_events _ _ s2 = s_events _ _ s1).
    { unfold s2, run_bcl, bcl_update. match goal with |- context [if ?b then tol_success _ _ _ _ _ else _] => destruct b end; [repeat split|]. unfold update_penalty. match goal with |- context [if ?b then _ else _] => destruct b end; repeat split. }
    destruct B as (B1 & B2 & B3). change (r_num_iters (res (record_params _ _ s))) with (r_num_iters (res s)) in E1. change (s_events _ _ (record_params _ _ s)) with (s_events _ _ s) in E2.
    destruct (sltb _ _).
    - injection H as <- <-. exists rows. split; [reflexivity|]. split; [repeat split; assumption|]. unfold ends.
      change (r_num_iters (res (set_conv _ _ SUCCESS s2))) with (r_num_iters (res s2)). change (r_al_iters (res (set_conv _ _ SUCCESS s2))) with (r_al_iters (res s2)). change (s_events _ _ (set_conv _ _ SUCCESS s2)) with (s_events _ _ s2).
      rewrite B1, B2, B3. split; [split; [exact E1|split; [exists l; split; assumption|exact E4]]|lia].
    - set (s3 := incr_al _ _ (set_rho _ _ (smul (s_rho _ _ s2) (rho_factor P)) s2)) in *. destruct (outer_text O a f fi fls fin P p s3) as [t2 o2] eqn:Ou. injection H as <- <-.
      assert (C : r_num_iters (res s3) = r_num_iters (res s2) /\ r_al_iters (res s3) = S (r_al_iters (res s2)) /\ s_events _ _ s3 = s_events _ _ s2) by (repeat split). destruct C as (C1 & C2 & C3).
      destruct (IH _ _ _ Ou) as (rows2 & -> & (F1 & F2 & F3) & E'). exists (rows ++ rows2). rewrite flat_map_app. split; [reflexivity|]. split.
      { split; [rewrite map_app, G1, F1, app_length, seq_app; repeat f_equal; lia|]. split; [apply Forall_app; split; assumption|]. apply Forall_app. split; [exact G3|]. eapply Forall_impl; [|exact F3]. cbv beta. intros ? ?. lia. }
      destruct o2 as [s4|e| |]; try exact I. destruct E' as ((E1' & (l' & E2' & E3') & E4') & E5'). split; [|lia]. split; [rewrite app_length; lia|]. split.
      { exists (l ++ l'). rewrite rounds_app, app_assoc, <- E2, <- B3, <- C3, <- E2'. split; [reflexivity|apply Forall2_app; assumption]. }
      apply Forall_app. split; [|exact E4']. eapply Forall_impl; [|exact E4]. cbv beta. intros ? ?. lia.
  Qed.
End L.

Lemma div25 n : (S n / 25 = n / 25 + if Nat.eqb (S n mod 25) 0 then 1 else 0)%nat.
Proof.
  pose proof (Nat.div_mod_eq n 25) as E1. pose proof (Nat.div_mod_eq (S n) 25) as E2. pose proof (Nat.mod_upper_bound n 25 ltac:(lia)). pose proof (Nat.mod_upper_bound (S n) 25 ltac:(lia)).
  destruct (Nat.eqb_spec (S n mod 25) 0); lia.
Qed.
Lemma log_len {K : Sc} (w : row (K := K)) : length (log true w) = (1 + if Nat.eqb (lg_iter w mod 25) 0 then 1 else 0)%nat.
Proof. unfold log. rewrite app_length. destruct (Nat.eqb _ 0); reflexivity. Qed.
Lemma table_ok {K : Sc} : forall rows : list (row (K := K)), map lg_iter rows = seq 1 (length rows) -> table rows (Titles :: flat_map (log true) rows).
Proof.
  induction rows as [|w rows IH] using rev_ind; intros H.
  - split; [reflexivity|]. split; [intros [|k] r; discriminate|]. intros j Hj. assert (j = 0)%nat by (cbn in Hj; lia). subst j. reflexivity.
  - rewrite app_length in H. cbn [length] in H. rewrite Nat.add_1_r, seq_S, map_app in H. cbn [map] in H. apply app_inj_tail in H. destruct H as [H Hw]. specialize (IH H). destruct IH as (L & R & T).
    set (n := length rows) in *. assert (Ln : length (rows ++ [w]) = S n) by (rewrite app_length; unfold n; cbn; lia). change (1 + n)%nat with (S n) in Hw.
    rewrite flat_map_app. cbn [flat_map]. rewrite app_nil_r. change (Titles :: flat_map (log true) rows ++ log true w) with ((Titles :: flat_map (log true) rows) ++ log true w).
    set (t := Titles :: flat_map (log true) rows) in *. pose proof (div25 n) as D. unfold table. rewrite Ln, app_length, log_len, Hw, L. split; [|split].
    + lia.
    + intros k r Hk. destruct (Nat.eq_dec k n) as [->|Ne].
      * rewrite nth_error_app2 in Hk by (unfold n; lia). replace (n - length rows)%nat with 0%nat in Hk by (unfold n; lia). injection Hk as <-.
        rewrite nth_error_app2 by (rewrite L, D; lia). rewrite L, D. unfold log. rewrite Hw. destruct (Nat.eqb (S n mod 25) 0).
        -- replace (S n + (n / 25 + 1) - (1 + n + n / 25))%nat with 1%nat by lia. reflexivity.
        -- replace (S n + (n / 25 + 0) - (1 + n + n / 25))%nat with 0%nat by lia. reflexivity.
      * assert (Hk' : (k < n)%nat). { assert (k < length (rows ++ [w]))%nat by (apply nth_error_Some; rewrite Hk; discriminate). lia. }
        rewrite nth_error_app1 in Hk by exact Hk'. specialize (R k r Hk). rewrite nth_error_app1; [exact R|]. apply nth_error_Some. rewrite R. discriminate.
    + intros j Hj. destruct (le_lt_dec j (n / 25)) as [Hl|Hl].
      * specialize (T j Hl). rewrite nth_error_app1; [exact T|]. apply nth_error_Some. rewrite T. discriminate.
      * destruct (Nat.eqb_spec (S n mod 25) 0) as [E|E]; [|lia]. assert (J : j = (n / 25 + 1)%nat) by lia. pose proof (Nat.div_mod_eq (S n) 25) as M.
        rewrite nth_error_app2 by (rewrite L; lia). rewrite L. unfold log. rewrite Hw, E. cbn [Nat.eqb]. replace (26 * j - 1 - (1 + n + n / 25))%nat with 0%nat by lia. reflexivity.
Qed.
Lemma silent_log {K : Sc} (rows : list (row (K := K))) : flat_map (log false) rows = []. Proof. induction rows; [reflexivity|exact IHrows]. Qed.
Lemma rows_log {K : Sc} (rows : list (row (K := K))) : rows_in (flat_map (log true) rows) = rows.
Proof. induction rows as [|w rows IH]; [reflexivity|]. unfold rows_in in *. cbn [flat_map]. rewrite flat_map_app, IH. unfold log. rewrite flat_map_app. destruct (Nat.eqb _ 0); reflexivity. Qed.

Lemma text_ok (K : Sc) (O : oracles K) v a fo fi fls fin P p (s : solver_state O) x0 l0 t a' o : solve_text O v a fo fi fls fin P p (Some s) x0 l0 = (t, a', o) ->
  exists rows, map lg_iter rows = seq 1 (length rows) /\ Forall (of_step O P p fls fin) rows /\
    (v <> QUIET -> a = true -> a' = true /\ exists t1, table rows t1 /\ t = t1 ++ ending o /\ rows_in t = rows) /\
    (v = QUIET \/ a = false -> a' = false /\ t = ending o) /\
    match o with
    | Ret (s', _) => length rows = r_num_iters (res s') /\ Forall (fun w => (1 <= lg_al w <= S (r_al_iters (res s')))%nat) rows /\
        exists l, s_events _ _ s' = s_events _ _ s ++ flat_map (fun r => map (fun cb => mkEvent cb r) (callbacks P)) (l ++ [res s']) /\ Forall2 agrees rows l
    | _ => True
    end.
Proof.
  unfold solve_text. intros H. destruct (outer_text O (still_active v a) fo fi fls fin P p _) as [t1 o1] eqn:Ou. destruct (outer_rows O P p fls fin _ _ _ _ _ _ Ou) as (rows & -> & (G1 & G2 & G3) & E).
  change (r_num_iters (res (init_solve (o_pow O) (o_fac O) (o_bfgs O) P p x0 l0 s))) with 0%nat in *. change (r_al_iters (res (init_solve (o_pow O) (o_fac O) (o_bfgs O) P p x0 l0 s))) with 0%nat in *.
  exists rows. split; [exact G1|]. split; [exact G2|].
  assert (X : exists e, t = start (still_active v a) ++ flat_map (log (still_active v a)) rows ++ e /\ e = ending o /\ a' = still_active v a).
  { destruct o1 as [s1|e| |]; injection H as <- <- <-; eexists; (split; [|split; [|reflexivity]]); try (rewrite ?app_nil_r, ?app_assoc; reflexivity); try (symmetry; apply app_nil_r); try reflexivity; [|rewrite app_nil_r; reflexivity..].
    unfold farewell. cbn. destruct (r_conv (s_res _ _ s1)); reflexivity. }
  destruct X as (e & Et & -> & Ea). split; [|split].
  - intros Hv Ha. assert (A : still_active v a = true) by (destruct v; [congruence|exact Ha..]). rewrite A in *. split; [exact Ea|]. exists (Titles :: flat_map (log true) rows). split; [apply table_ok, G1|].
    split; [exact Et|]. rewrite Et. cbn [start app]. unfold rows_in. cbn [flat_map app]. rewrite flat_map_app. fold (rows_in (flat_map (log true) rows)). rewrite rows_log.
    assert (Z : flat_map (fun l => match l with Row r => [r] | _ => [] end) (ending (K := K) o) = []) by (destruct o as [[? []]| | |]; reflexivity). rewrite Z. apply app_nil_r.
  - intros Hv. assert (A : still_active v a = false) by (destruct v, Hv as [Hv|Hv]; subst; try discriminate; reflexivity). rewrite A in *. split; [exact Ea|]. rewrite Et, silent_log. reflexivity.
  - destruct o1 as [s1|e| |]; injection H as _ _ <-; try exact I. destruct E as ((E1 & (l & E2 & E3) & E4) & _). split; [cbn; symmetry; exact E1|]. split.
    + rewrite Forall_forall in *. intros w Hw. specialize (E4 w Hw). specialize (G3 w Hw). cbn [res s_res]. unfold res in E4. cbv beta in *. lia.
    + exists l. split; [|exact E3]. cbn [s_events]. unfold invoke_callbacks. rewrite E2. rewrite flat_map_app, app_assoc. cbn [flat_map]. rewrite app_nil_r. reflexivity.
Qed.
Lemma stale (K : Sc) (O : oracles K) v a fo fi fls fin P p (s : solver_state O) x0 l0 t a' s' : solve_text O v a fo fi fls fin P p (Some s) x0 l0 = (t, a', Ret (s', SUCCESS)) ->
  (0 < max_iters P)%nat -> (0 < max_al_iters P)%nat -> forall w, In w (rows_in t) -> sleb (smax (lg_prim w) (lg_dual w)) (target_tol P) = false /\ sltb (smax (r_prim_infeas (res s')) (r_dual_infeas (res s'))) (target_tol P) = true.
Proof.
  intros H H1 H2 w Hw. pose proof (f_equal snd H) as E. rewrite solve_erase in E. cbn [snd] in E. destruct (flag_meaning K O fo fi fls fin P p (Some s) x0 l0 s' SUCCESS E H1 H2) as [[F _] _]. specialize (F eq_refl).
  destruct (text_ok K O v a fo fi fls fin P p s x0 l0 t a' _ H) as (rows & _ & St & Vb & Qt & _).
  assert (R : In w rows).
  { destruct (bool_dec a true) as [Ha|Ha]; [destruct v|].
    - destruct (Qt (or_introl eq_refl)) as [_ ->]. destruct Hw.
    - destruct (Vb ltac:(discriminate) Ha) as (_ & _ & _ & _ & Er). rewrite Er in Hw. exact Hw.
    - destruct (Vb ltac:(discriminate) Ha) as (_ & _ & _ & _ & Er). rewrite Er in Hw. exact Hw.
    - apply not_true_is_false in Ha. destruct (Qt (or_intror Ha)) as [_ ->]. destruct Hw. }
  rewrite Forall_forall in St. destruct (St w R) as (s1 & s2 & d & dl & _ & _ & _ & _ & _ & _ & _ & _ & _ & _ & _ & _ & _ & _ & T).
  split; assumption.
Qed.
