(** Control flow of the solver: budgets, flags, callbacks, penalty invariants (any scalar type). *)
From Coq Require Import List Bool Arith ZArith Lia.
From Verif Require Import Scalar Cset_model Armijo_model Problem_model Solver_model.
Import ListNotations.

Lemma bind_ret {A B} (m : outcome A) (f : A -> outcome B) b :
  bind m f = Ret b -> exists a, m = Ret a /\ f a = Ret b.
Proof. destruct m; cbn; intros H; try discriminate. eauto. Qed.

Ltac inv_bind H :=
  let a := fresh "v" in let E := fresh "E" in
  apply bind_ret in H as (a & E & H).
(* break all binds, lets on pairs and ifs in an equation [_ = Ret _] *)
Ltac crack H :=
  repeat first
    [ progress cbv beta iota in H
    | match type of H with
      | bind _ _ = Ret _ => inv_bind H
      | (let '(_, _) := ?v in _) = Ret _ => destruct v eqn:?
      | (match ?v with _ => _ end) = Ret _ =>
          match type of v with
          | bool => destruct v eqn:?; try discriminate H
          | option _ => destruct v eqn:?; try discriminate H
          | (_ * _)%type => destruct v eqn:?
          end
      end ].

Section Flow.
  Context {K : Sc}.
  Variables (spow : car K -> car K -> car K) (integrate : list (car K) -> list (car K) -> list (car K))
            (px_val : car K -> list (car K) -> list (car K) -> car K)
            (px_grad : car K -> list (car K) -> list (car K) -> list (car K))
            (px_hess : car K -> list (car K) -> list (car K) -> list (list (car K)))
            (fac : Type) (fac_compute : fac -> list (list (car K)) -> fac) (fac_signature : fac -> list Z)
            (fac_solve : fac -> list (car K) -> list (car K))
            (bfgs : Type) (bfgs_update : bfgs -> list (car K) -> list (car K) -> list (list (car K)) -> bfgs * list (list (car K)))
            (qr : car K -> car K -> car K -> car K -> car K -> car K -> car K * car K).
  Notation state := (@state K fac bfgs).
  Notation results := (@results K).
  Notation problem := (@problem K).
  Notation params := (@params K).
  Notation diagnose := (diagnose px_val px_grad px_hess fac bfgs bfgs_update).
  Notation step := (step integrate px_val fac fac_compute fac_signature fac_solve bfgs qr).
  Notation pass := (pass integrate px_val px_grad px_hess fac fac_compute fac_signature fac_solve bfgs bfgs_update qr).
  Notation inner_loop := (inner_loop integrate px_val px_grad px_hess fac fac_compute fac_signature fac_solve bfgs bfgs_update qr).
  Notation outer_loop := (outer_loop spow integrate px_val px_grad px_hess fac fac_compute fac_signature fac_solve bfgs bfgs_update qr).
  Notation solve := (solve spow integrate px_val px_grad px_hess fac fac_compute fac_signature fac_solve bfgs bfgs_update qr).

  (** What [diagnose] returns in terms of the state it started from. *)
  Lemma diagnose_inv P p s d : diagnose P p s = Ret d ->
    exists f c m g J viol prim mer act b h v,
      evaluate_problem p (r_x (s_res _ _ s)) = Ret (f, c) /\
      derivs_problem p (r_x (s_res _ _ s)) = Ret (g, J) /\
      compute_multipliers fac bfgs P p s c (r_lams (s_res _ _ s)) = Ret m /\
      primal_residuals p (s_mu _ _ s) (s_sets _ _ s) c (r_lams (s_res _ _ s)) = Ret (viol, prim) /\
      bad_vec (d_rhs _ _ d) = false /\
      d_inner_crit _ _ d = inf_norm (d_rhs _ _ d) /\
      d_outer_crit _ _ d = smax prim (inf_norm (dual_residual p g J (r_lams (s_res _ _ s)))) /\
      d_state _ _ d = mkState _ _ (s_mu _ _ s) (s_mu_inv _ _ s) (s_rho _ _ s) (s_inner_tol _ _ s) (s_prim_tol _ _ s)
        (s_sets _ _ s) (s_target _ _ s)
        (mkResults (r_conv (s_res _ _ s)) mer f (r_x (s_res _ _ s)) (r_lams (s_res _ _ s)) act
           (inf_norm (dual_residual p g J (r_lams (s_res _ _ s)))) prim viol
           (r_num_iters (s_res _ _ s)) (r_al_iters (s_res _ _ s)) (r_mu (s_res _ _ s)) (r_rho (s_res _ _ s)))
        (mkWs _ _ (w_lams_prev _ _ (s_ws _ _ s)) (w_x_prev _ _ (s_ws _ _ s)) (m_plus m) (m_pdal m)
           (w_kkt _ _ (s_ws _ _ s)) h v (w_fac _ _ (s_ws _ _ s)) b (w_alpha _ _ (s_ws _ _ s)))
        (s_events _ _ s).
  Proof.
    unfold Solver_model.diagnose. intros H. crack H.
    injection H as <-. cbn [d_rhs d_inner_crit d_outer_crit d_state].
    repeat match goal with H : ub _ = Ret _ |- _ => clear H end.
    do 12 eexists. repeat split; eassumption.
  Qed.

  (** What [step] returns. *)
  Lemma step_inv fls fin P p d dl r : step fls fin P p d dl = Ret r ->
    exists pd lr xt lt w',
      let s := d_state _ _ d in
      run qr (fun _ a => phi_opt integrate px_val fac bfgs P p s (firstn (p_ndx p) pd) (skipn (p_ndx p) pd) a) fls (lsopt P)
          (r_merit (s_res _ _ s))
          (sadd (vdot (d_mg _ _ d) (firstn (p_ndx p) pd)) (vdot (d_md _ _ d) (skipn (p_ndx p) pd))) = Some lr /\
      try_step integrate (r_x (s_res _ _ s)) (r_lams (s_res _ _ s)) (firstn (p_ndx p) pd) (skipn (p_ndx p) pd) (r_alpha lr) = (xt, lt) /\
      bad_vec pd = false /\
      bad_vec xt = false /\ bad_vec lt = false /\ bad_scalar (r_alpha lr) = false /\ bad_scalar (r_phi lr) = false /\
      let r0 := s_res _ _ s in
      let n := S (r_num_iters r0) in
      let r1 := mkResults (r_conv r0) (r_phi lr) (r_value r0) xt lt (r_active r0) (r_dual_infeas r0) (r_prim_infeas r0)
                          (r_viol r0) (r_num_iters r0) (r_al_iters r0) (r_mu r0) (r_rho r0) in
      let s' := fun f => mkState _ _ (s_mu _ _ s) (s_mu_inv _ _ s) (s_rho _ _ s) (s_inner_tol _ _ s) (s_prim_tol _ _ s)
          (s_sets _ _ s) (s_target _ _ s)
          (mkResults f (r_phi lr) (r_value r0) xt lt (r_active r0) (r_dual_infeas r0) (r_prim_infeas r0)
                     (r_viol r0) n (r_al_iters r0) (r_mu r0) (r_rho r0))
          w' (invoke_callbacks P r1 (s_events _ _ s)) in
      ((max_iters P <= n /\ r = Stop _ _ (s' MAX_ITERS_REACHED)) \/
       (n < max_iters P /\ exists dl', r = Next _ _ (s' (r_conv r0)) dl')) /\
      w_lams_prev _ _ w' = w_lams_prev _ _ (s_ws _ _ s) /\ w_x_prev _ _ w' = w_x_prev _ _ (s_ws _ _ s).
  Proof.
    unfold Solver_model.step, step_rhs, step_matrix. intros H. crack H.
    match type of H with Ret (if ?b then _ else _) = _ => destruct b eqn:Hf end; injection H as <-.
    - eexists _, _, _, _, _. cbv zeta. split; [eassumption|]. split; [eassumption|].
      do 5 (split; [assumption|]). split; [|split; cycle 1].
      + left. split; [apply Nat.leb_le; exact Hf|]. reflexivity.
      + reflexivity.
      + reflexivity.
    - eexists _, _, _, _, _. cbv zeta. split; [eassumption|]. split; [eassumption|].
      do 5 (split; [assumption|]). split; [|split; cycle 1].
      + right. split; [apply Nat.leb_gt; exact Hf|]. eexists. reflexivity.
      + reflexivity.
      + reflexivity.
  Qed.

  (** Parts of the state the inner loop does not touch. *)
  Definition frame (s s' : state) : Prop :=
    s_mu _ _ s' = s_mu _ _ s /\ s_mu_inv _ _ s' = s_mu_inv _ _ s /\ s_rho _ _ s' = s_rho _ _ s /\
    s_inner_tol _ _ s' = s_inner_tol _ _ s /\ s_prim_tol _ _ s' = s_prim_tol _ _ s /\
    s_sets _ _ s' = s_sets _ _ s /\ s_target _ _ s' = s_target _ _ s /\
    w_lams_prev _ _ (s_ws _ _ s') = w_lams_prev _ _ (s_ws _ _ s) /\
    w_x_prev _ _ (s_ws _ _ s') = w_x_prev _ _ (s_ws _ _ s) /\
    r_al_iters (s_res _ _ s') = r_al_iters (s_res _ _ s) /\
    r_mu (s_res _ _ s') = r_mu (s_res _ _ s) /\ r_rho (s_res _ _ s') = r_rho (s_res _ _ s).
  Lemma frame_refl s : frame s s.
  Proof. repeat split. Qed.
  Lemma frame_trans a b c : frame a b -> frame b c -> frame a c.
  Proof. unfold frame. intuition congruence. Qed.

  Definition batch (P : params) (r : results) : list (@event K) := map (fun cb => mkEvent cb r) (callbacks P).
  (** Snapshots seen by consecutive rounds of callbacks, numbered from [n]. *)
  Definition numbered (n al : nat) (mu rho : car K) (l : list results) : Prop :=
    forall k r, nth_error l k = Some r ->
      r_num_iters r = n + k /\ r_al_iters r = al /\ r_mu r = mu /\ r_rho r = rho /\
      bad_vec (r_x r) = false /\ bad_vec (r_lams r) = false /\ bad_scalar (r_merit r) = false.

  Lemma diagnose_frame P p s d : diagnose P p s = Ret d ->
    frame s (d_state _ _ d) /\ s_events _ _ (d_state _ _ d) = s_events _ _ s /\
    r_conv (s_res _ _ (d_state _ _ d)) = r_conv (s_res _ _ s) /\
    r_num_iters (s_res _ _ (d_state _ _ d)) = r_num_iters (s_res _ _ s) /\
    r_x (s_res _ _ (d_state _ _ d)) = r_x (s_res _ _ s) /\
    r_lams (s_res _ _ (d_state _ _ d)) = r_lams (s_res _ _ s) /\
    d_outer_crit _ _ d = smax (r_prim_infeas (s_res _ _ (d_state _ _ d))) (r_dual_infeas (s_res _ _ (d_state _ _ d))).
  Proof.
    intros H. apply diagnose_inv in H. destruct H as (f & c & m & g & J & vi & pr & me & ac & b & h & v & H).
    destruct H as (_ & _ & _ & _ & _ & _ & Hc & ->). cbn. repeat split. exact Hc.
  Qed.

  (** How the inner loop can end, seen from the state [s] in which it is entered. *)
  Definition inner_end (P : params) (p : problem) (s s' : state) : Prop :=
    exists s0 d, diagnose P p s0 = Ret d /\ frame s s0 /\ r_conv (s_res _ _ s0) = r_conv (s_res _ _ s) /\
      ((s' = d_state _ _ d /\ r_num_iters (s_res _ _ s') < max_iters P /\
        (sleb (d_inner_crit _ _ d) (s_inner_tol _ _ s) || sleb (d_outer_crit _ _ d) (target_tol P)) = true) \/
       (r_conv (s_res _ _ s') = MAX_ITERS_REACHED /\ r_num_iters (s_res _ _ s') = max_iters P /\
        r_num_iters (s_res _ _ s0) < max_iters P /\
        sleb (d_outer_crit _ _ d) (target_tol P) = false /\
        r_prim_infeas (s_res _ _ s') = r_prim_infeas (s_res _ _ (d_state _ _ d)) /\
        r_dual_infeas (s_res _ _ s') = r_dual_infeas (s_res _ _ (d_state _ _ d)))).

  Definition fresh_or_good (s s' : state) (l : list results) : Prop :=
    match l with
    | [] => r_x (s_res _ _ s') = r_x (s_res _ _ s) /\ r_lams (s_res _ _ s') = r_lams (s_res _ _ s)
    | r :: _ => r_x (s_res _ _ s') = r_x (last l r) /\ r_lams (s_res _ _ s') = r_lams (last l r)
    end.

  Lemma last_indep {A} (l : list A) a d d' : last (a :: l) d = last (a :: l) d'.
  Proof. revert a. induction l as [|b l IH]; intros a; [reflexivity|]. exact (IH b). Qed.

  Lemma inner_spec : forall fuel fls fin P p s dl s',
    r_num_iters (s_res _ _ s) < max_iters P ->
    inner_loop fuel fls fin P p s dl = Ret s' ->
    frame s s' /\ inner_end P p s s' /\
    exists l, s_events _ _ s' = s_events _ _ s ++ flat_map (batch P) l /\
      r_num_iters (s_res _ _ s') = r_num_iters (s_res _ _ s) + length l /\
      numbered (r_num_iters (s_res _ _ s)) (r_al_iters (s_res _ _ s)) (r_mu (s_res _ _ s)) (r_rho (s_res _ _ s)) l /\
      fresh_or_good s s' l.
  Proof.
    induction fuel as [|f IH]; intros fls fin P p s dl s' Hn H; [discriminate|].
    cbn in H. inv_bind H. unfold Solver_model.pass in E. inv_bind E.
    pose proof (diagnose_frame _ _ _ _ E0) as (Fr & Ev & Cv & Ni & Xe & Le & Oc).
    destruct ((sleb (d_inner_crit _ _ v0) (s_inner_tol _ _ s) || sleb (d_outer_crit _ _ v0) (target_tol P))) eqn:Hstop.
    - injection E as <-. injection H as <-. split; [exact Fr|]. split.
      + exists s, v0. split; [exact E0|]. split; [apply frame_refl|]. split; [reflexivity|]. left. split; [reflexivity|]. rewrite Ni. split; [exact Hn|].
        exact Hstop.
      + exists []. cbn. rewrite app_nil_r. rewrite Ev, Ni, Xe, Le. repeat split; try lia.
        * destruct k; discriminate. * destruct k; discriminate. * destruct k; discriminate. * destruct k; discriminate.
        * destruct k; discriminate. * destruct k; discriminate. * destruct k; discriminate.
    - apply step_inv in E. destruct E as (pd & lr & xt & lt & w' & _ & _ & _ & Bx & Bl & _ & Bp & E & Wl & Wx).
      apply orb_false_iff in Hstop as [_ Hout].
      destruct E as [[Hfull ->]|[Hless [dl' ->]]].
      + injection H as <-. split.
        { unfold frame in Fr |- *. cbn. intuition congruence. }
        split.
        { exists s, v0. split; [exact E0|]. split; [apply frame_refl|]. split; [reflexivity|]. right. cbn. split; [reflexivity|].
          split; [lia|]. split; [exact Hn|]. split; [exact Hout|]. split; reflexivity. }
        eexists [_]. cbn. rewrite app_nil_r. split; [unfold invoke_callbacks; rewrite Ev; reflexivity|].
        split; [lia|]. split; [|split; reflexivity].
        intros k r Hk. destruct k as [|[|k]]; cbn in Hk; try discriminate. injection Hk as <-. cbn.
        unfold frame in Fr. intuition (try congruence; try lia).
      + apply IH in H; [|cbn; lia]. cbn in H. destruct H as (Fr2 & En & l & Ev2 & Ni2 & Nu & Go).
        split. { unfold frame in Fr, Fr2 |- *. cbn in Fr2. intuition congruence. }
        split.
        { destruct En as (s0 & d & D & F0 & C0 & En). exists s0, d. split; [exact D|]. split.
          - unfold frame in Fr, F0 |- *. cbn in F0. intuition congruence.
          - cbn in C0. split; [congruence|]. cbn in En. destruct Fr as (_ & _ & _ & Ei & _). rewrite Ei in En. exact En. }
        eexists (_ :: l). cbn [flat_map length]. split.
        { rewrite Ev2. unfold invoke_callbacks. rewrite Ev, <- app_assoc. reflexivity. }
        split; [rewrite Ni2, Ni; cbn; lia|]. split.
        * intros k r Hk. destruct k; cbn in Hk.
          { injection Hk as <-. cbn. unfold frame in Fr. intuition (try congruence; try lia). }
          { specialize (Nu _ _ Hk). unfold frame in Fr. intuition (try congruence; try lia). }
        * unfold fresh_or_good in Go |- *. destruct l as [|r2 l2].
          { destruct Go as [-> ->]. split; reflexivity. }
          { destruct Go as [-> ->]. split; f_equal; apply (last_indep l2 r2). }
  Qed.

  Definition guard (P : params) (s : state) : bool :=
    Nat.ltb (r_num_iters (s_res _ _ s)) (max_iters P) && Nat.ltb (r_al_iters (s_res _ _ s)) (max_al_iters P).
  Definition after_bcl (P : params) (s1 : state) : state := bcl_update spow fac bfgs P (accept_primal _ _ s1).
  Definition stop_ok (P : params) (s2 : state) : bool :=
    sltb (smax (r_prim_infeas (s_res _ _ s2)) (r_dual_infeas (s_res _ _ s2))) (target_tol P).
  Definition next_outer (P : params) (s2 : state) : state :=
    incr_al _ _ (set_rho _ _ (smul (s_rho _ _ s2) (rho_factor P)) s2).

  (** States at the head of the outer loop. *)
  Inductive reach (fi fls fin : nat) (P : params) (p : problem) (s : state) : state -> Prop :=
  | reach_refl : reach fi fls fin P p s s
  | reach_step a s1 : reach fi fls fin P p s a -> guard P a = true ->
      inner_loop fi fls fin P p (record_params _ _ a) s0 = Ret s1 ->
      stop_ok P (after_bcl P s1) = false ->
      reach fi fls fin P p s (next_outer P (after_bcl P s1)).

  Lemma reach_head fi fls fin P p s s1 b : guard P s = true ->
      inner_loop fi fls fin P p (record_params _ _ s) s0 = Ret s1 ->
      stop_ok P (after_bcl P s1) = false ->
      reach fi fls fin P p (next_outer P (after_bcl P s1)) b -> reach fi fls fin P p s b.
  Proof.
    intros G I S R. induction R.
    - eapply reach_step; eauto. constructor.
    - eapply reach_step; eauto.
  Qed.

  Lemma outer_reach : forall fuel fi fls fin P p s s',
    outer_loop fuel fi fls fin P p s = Ret s' ->
    exists a, reach fi fls fin P p s a /\
      ((guard P a = false /\ s' = a) \/
       (guard P a = true /\ exists s1, inner_loop fi fls fin P p (record_params _ _ a) s0 = Ret s1 /\
          stop_ok P (after_bcl P s1) = true /\ s' = set_conv _ _ SUCCESS (after_bcl P s1))).
  Proof.
    induction fuel as [|f IH]; intros fi fls fin P p s s' H; [discriminate|].
    cbn [Solver_model.outer_loop] in H. fold (guard P s) in H. destruct (guard P s) eqn:G.
    - inv_bind H. fold (after_bcl P v) in H. fold (stop_ok P (after_bcl P v)) in H.
      destruct (stop_ok P (after_bcl P v)) eqn:S.
      + injection H as <-. exists s. split; [constructor|]. right. split; [exact G|]. exists v. auto.
      + apply IH in H. destruct H as (a & R & C). exists a. split; [eapply reach_head; eauto|exact C].
    - injection H as <-. exists s. split; [constructor|]. left. auto.
  Qed.

  (** After the bookkeeping the reported residuals, the iterate and the counters are unchanged. *)
  Lemma after_bcl_keeps P s1 :
    let r := s_res _ _ (after_bcl P s1) in let r0 := s_res _ _ s1 in
    r_conv r = r_conv r0 /\ r_merit r = r_merit r0 /\ r_value r = r_value r0 /\ r_x r = r_x r0 /\
    r_active r = r_active r0 /\ r_dual_infeas r = r_dual_infeas r0 /\ r_prim_infeas r = r_prim_infeas r0 /\
    r_viol r = r_viol r0 /\ r_num_iters r = r_num_iters r0 /\ r_al_iters r = r_al_iters r0 /\
    r_mu r = r_mu r0 /\ r_rho r = r_rho r0 /\ s_events _ _ (after_bcl P s1) = s_events _ _ s1 /\
    s_rho _ _ (after_bcl P s1) = s_rho _ _ s1 /\
    s_target _ _ (after_bcl P s1) = r_x r0 /\
    (mul_update P = MM_NEWTON -> r_lams r = r_lams r0).
  Proof.
    unfold after_bcl, bcl_update, accept_primal, accept_multipliers, tol_success, tol_failure, update_penalty, set_penalty, set_tols.
    cbn. repeat match goal with |- context [if ?b then _ else _] => destruct b end; cbn; repeat split; try reflexivity.
    intros ->. reflexivity.
  Qed.

  (** Effect on the penalty parameters. *)
  Lemma after_bcl_pen P t :
    (s_mu _ _ (after_bcl P t) = s_mu _ _ t /\ s_mu_inv _ _ (after_bcl P t) = s_mu_inv _ _ t /\
     s_sets _ _ (after_bcl P t) = s_sets _ _ t /\
     sltb (r_prim_infeas (s_res _ _ t)) (s_prim_tol _ _ t) = true) \/
    (exists m, s_mu _ _ (after_bcl P t) = m /\ s_mu_inv _ _ (after_bcl P t) = sdiv s1 m /\
     s_sets _ _ (after_bcl P t) = map (set_prox m) (s_sets _ _ t) /\
     sltb (r_prim_infeas (s_res _ _ t)) (s_prim_tol _ _ t) = false /\
     ((seqb (s_mu _ _ t) (mu_lower P) = true /\ m = mu_init P) \/
      (seqb (s_mu _ _ t) (mu_lower P) = false /\ m = smax (smul (s_mu _ _ t) (mu_factor P)) (mu_lower P)))).
  Proof.
    unfold after_bcl, bcl_update, accept_primal. cbn [s_res s_prim_tol].
    destruct (sltb (r_prim_infeas (s_res _ _ t)) (s_prim_tol _ _ t)) eqn:E.
    - left. repeat split.
    - right. unfold tol_failure, update_penalty. cbn [s_mu].
      destruct (seqb (s_mu _ _ t) (mu_lower P)) eqn:E2; eexists; repeat split; cbn; auto.
  Qed.
  Lemma after_bcl_tols P t :
    (exists u, s_inner_tol _ _ (after_bcl P t) = smax u (inner_tol_min P)) /\
    (exists u, s_prim_tol _ _ (after_bcl P t) = smax u (target_tol P)).
  Proof.
    unfold after_bcl, bcl_update, accept_primal, tol_success, tol_failure. 
    destruct (sltb _ _); cbn; eauto.
  Qed.

  (** Invariant of the outer loop head. *)
  Lemma reach_counts fi fls fin P p s a : reach fi fls fin P p s a ->
    r_conv (s_res _ _ s) = UNINIT ->
    r_num_iters (s_res _ _ s) <= max_iters P -> r_al_iters (s_res _ _ s) <= max_al_iters P ->
    r_num_iters (s_res _ _ s) <= r_num_iters (s_res _ _ a) <= max_iters P /\
    r_al_iters (s_res _ _ s) <= r_al_iters (s_res _ _ a) <= max_al_iters P /\
    (a = s \/ 
     (sltb (smax (r_prim_infeas (s_res _ _ a)) (r_dual_infeas (s_res _ _ a))) (target_tol P) = false /\
      r_al_iters (s_res _ _ s) < r_al_iters (s_res _ _ a) /\ r_num_iters (s_res _ _ s) < max_iters P /\
      (r_conv (s_res _ _ a) = UNINIT /\ r_num_iters (s_res _ _ a) < max_iters P \/
       r_conv (s_res _ _ a) = MAX_ITERS_REACHED /\ r_num_iters (s_res _ _ a) = max_iters P))).
  Proof.
    intros R U N A. induction R as [|a t R IH G I S].
    - repeat split; auto.
    - destruct IH as (Hn & Ha & IH). apply andb_true_iff in G as [G1 G2].
      apply Nat.ltb_lt in G1, G2.
      assert (Ua : r_conv (s_res _ _ a) = UNINIT).
      { destruct IH as [->|(_ & _ & _ & [[C _]|[_ C]])]; [exact U|exact C|lia]. }
      apply inner_spec in I; [|cbn; exact G1]. destruct I as (Fr & En & l & _ & Ni & _ & _). cbn in Ni.
      pose proof (after_bcl_keeps P t) as Kp. cbv zeta in Kp.
      destruct Kp as (Kc & _ & _ & _ & _ & Kd & Kpr & _ & Kn & Ka & _ & _).
      assert (Al : r_al_iters (s_res _ _ t) = r_al_iters (s_res _ _ a)).
      { unfold frame in Fr. cbn in Fr. intuition congruence. }
      assert (Nt : r_num_iters (s_res _ _ t) <= max_iters P).
      { destruct En as (? & ? & _ & _ & _ & [(_ & ? & _)|(_ & ? & _)]); lia. }
      cbn. rewrite Kc, Kd, Kpr, Kn, Ka, Al.
      split; [lia|]. split; [lia|]. right. split.
      { unfold stop_ok in S. rewrite Kd, Kpr in S. exact S. }
      split; [lia|]. split; [lia|].
      destruct En as (b & d & D & _ & C0 & [(Et & Nb & _)|(C & Nb & _)]).
      + left. split; [|exact Nb]. rewrite Et. apply diagnose_frame in D as (_ & _ & Cd & _).
        rewrite Cd, C0. cbn. exact Ua.
      + right. auto.
  Qed.

  (** Budgets and meaning of the returned flag. *)
  Lemma solve_flag fo fi fls fin P p so x0 lams0 s' f :
    solve fo fi fls fin P p so x0 lams0 = Ret (s', f) ->
    let r := s_res _ _ s' in
    let crit := smax (r_prim_infeas r) (r_dual_infeas r) in
    f = r_conv r /\ r_num_iters r <= max_iters P /\ r_al_iters r <= max_al_iters P /\
    match f with
    | SUCCESS => sltb crit (target_tol P) = true /\ r_al_iters r < max_al_iters P
    | MAX_ITERS_REACHED => sltb crit (target_tol P) = false /\ r_num_iters r = max_iters P /\ 0 < max_iters P
    | UNINIT => max_iters P = 0 \/ max_al_iters P = 0 \/
        (sltb crit (target_tol P) = false /\ r_num_iters r < max_iters P /\ r_al_iters r = max_al_iters P)
    end.
  Proof.
    unfold Solver_model.solve. destruct so as [s|]; [|discriminate]. intros H. inv_bind H. injection H as <- <-.
    cbn. apply outer_reach in E. destruct E as (a & R & E).
    pose proof (reach_counts _ _ _ _ _ _ _ R) as Hc. cbn in Hc.
    specialize (Hc eq_refl (Nat.le_0_l _) (Nat.le_0_l _)). destruct Hc as (Hn & Ha & Hc).
    destruct E as [[G ->]|(G & t & I & S & ->)].
    - split; [reflexivity|]. split; [lia|]. split; [lia|]. unfold guard in G.
      destruct Hc as [->|(Cr & Hal & H0 & [[-> Hu]|[-> Hm]])].
      + apply andb_false_iff in G. rewrite !Nat.ltb_ge in G. cbn in G |- *. destruct G; [left|right; left]; lia.
      + right. right. apply andb_false_iff in G. rewrite !Nat.ltb_ge in G. split; [exact Cr|]. lia.
      + split; [exact Cr|]. split; [exact Hm|]. cbn in H0. exact H0.
    - cbn. apply andb_true_iff in G as [G1 G2]. apply Nat.ltb_lt in G1, G2.
      apply inner_spec in I; [|cbn; exact G1]. destruct I as (Fr & En & l & _ & Ni & _ & _). cbn in Ni.
      pose proof (after_bcl_keeps P t) as Kp. cbv zeta in Kp.
      destruct Kp as (Kc & _ & _ & _ & _ & Kd & Kpr & _ & Kn & Ka & _ & _).
      assert (Al : r_al_iters (s_res _ _ t) = r_al_iters (s_res _ _ a)).
      { unfold frame in Fr. cbn in Fr. intuition congruence. }
      assert (Nt : r_num_iters (s_res _ _ t) <= max_iters P).
      { destruct En as (? & ? & _ & _ & _ & [(_ & ? & _)|(_ & ? & _)]); lia. }
      rewrite Kn, Ka, Al. repeat split; try lia. exact S.
  Qed.

  Lemma mu_of_set_prox (m : car K) c : mu_of (set_prox m c) = m.
  Proof. destruct c; reflexivity. Qed.
  Definition sets_mu (s : state) : Prop := Forall (fun c => mu_of c = s_mu _ _ s) (s_sets _ _ s).
  Definition pen_ok (Q : car K -> Prop) (s : state) : Prop :=
    Q (s_mu _ _ s) /\ s_mu_inv _ _ s = sdiv s1 (s_mu _ _ s) /\ sets_mu s.
  Definition tols_ok (P : params) (s : state) : Prop :=
    (exists u, s_inner_tol _ _ s = smax u (inner_tol_min P)) /\ (exists u, s_prim_tol _ _ s = smax u (target_tol P)).
  Lemma map_set_prox_mu m (l : list (cset K)) : Forall (fun c => mu_of c = m) (map (set_prox m) l).
  Proof. induction l; constructor; auto. apply mu_of_set_prox. Qed.

  Definition mu_closed (P : params) (Q : car K -> Prop) : Prop :=
    Q (mu_init P) /\ forall m, Q m -> seqb m (mu_lower P) = false -> Q (smax (smul m (mu_factor P)) (mu_lower P)).

  Lemma frame_pen Q a b : frame a b -> pen_ok Q a -> pen_ok Q b.
  Proof.
    unfold frame, pen_ok, sets_mu. intros F (A & B & C).
    destruct F as (-> & -> & _ & _ & _ & -> & _). auto.
  Qed.
  Lemma after_bcl_penok P Q t : mu_closed P Q -> pen_ok Q t -> pen_ok Q (after_bcl P t).
  Proof.
    intros [C1 C2] (A & B & C). unfold pen_ok, sets_mu. destruct (after_bcl_pen P t) as [(-> & -> & -> & _)|(m & -> & -> & -> & _ & E)].
    - auto.
    - split; [|split; [reflexivity|apply map_set_prox_mu]]. destruct E as [[_ ->]|[E ->]]; auto.
  Qed.

  (** Snapshots seen by the callbacks of a run of the outer loop. *)
  Definition snaps_ok (n : nat) (P : params) (Q : car K -> Prop) (l : list results) : Prop :=
    forall k r, nth_error l k = Some r ->
      r_num_iters r = n + k /\ r_al_iters r < max_al_iters P /\ Q (r_mu r) /\
      bad_vec (r_x r) = false /\ bad_vec (r_lams r) = false /\ bad_scalar (r_merit r) = false.

  Definition keeps_or_last (s s' : state) (l : list results) : Prop :=
    match l with
    | [] => r_x (s_res _ _ s') = r_x (s_res _ _ s)
    | r :: _ => r_x (s_res _ _ s') = r_x (last l r)
    end.

  Lemma last_app2 {A} (l l' : list A) d a : last (l ++ a :: l') d = last (a :: l') d.
  Proof.
    induction l as [|b l IH]; [reflexivity|].
    cbn [app]. rewrite <- IH. destruct l; reflexivity.
  Qed.
  Lemma koel_app s a t l1 l2 : keeps_or_last s a l1 -> fresh_or_good a t l2 -> keeps_or_last s t (l1 ++ l2).
  Proof.
    unfold keeps_or_last, fresh_or_good. intros H1 H2.
    destruct l2 as [|r2 l2]; [rewrite app_nil_r; destruct H2 as [-> _]; exact H1|].
    destruct H2 as [-> _]. destruct l1 as [|r1 l1]; [reflexivity|].
    cbn [app]. change (r1 :: l1 ++ r2 :: l2) with ((r1 :: l1) ++ (r2 :: l2)).
    rewrite last_app2. f_equal. apply last_indep.
  Qed.

  Lemma snaps_app n P (Q : car K -> Prop) l1 l2 : snaps_ok n P Q l1 -> snaps_ok (n + length l1) P Q l2 -> snaps_ok n P Q (l1 ++ l2).
  Proof.
    intros H1 H2 k r Hk. destruct (Nat.lt_ge_cases k (length l1)) as [L|L].
    - rewrite nth_error_app1 in Hk by exact L. apply H1; exact Hk.
    - rewrite nth_error_app2 in Hk by exact L. apply H2 in Hk. destruct Hk as [-> Hk]. split; [lia|exact Hk].
  Qed.
  Lemma numbered_snaps n P (Q : car K -> Prop) al mu rho l : numbered n al mu rho l -> al < max_al_iters P -> Q mu -> snaps_ok n P Q l.
  Proof. intros H A B k r Hk. apply H in Hk. destruct Hk as (-> & -> & -> & _ & Hk). auto. Qed.

  Lemma reach_events fi fls fin P p Q s a : mu_closed P Q -> pen_ok Q s -> tols_ok P s ->
    reach fi fls fin P p s a ->
    pen_ok Q a /\ tols_ok P a /\ (a = s \/ Q (r_mu (s_res _ _ a))) /\
    exists l, s_events _ _ a = s_events _ _ s ++ flat_map (batch P) l /\
      r_num_iters (s_res _ _ a) = r_num_iters (s_res _ _ s) + length l /\
      snaps_ok (r_num_iters (s_res _ _ s)) P Q l /\ keeps_or_last s a l.
  Proof.
    intros C P0 T0 R. induction R as [|a t R IH G I S].
    - split; [exact P0|]. split; [exact T0|]. split; [left; reflexivity|]. exists []. cbn. rewrite app_nil_r. repeat split; try lia.
      all: destruct k; discriminate.
    - destruct IH as (Pa & Ta & _ & l & Ev & Ni & Sn & Kl).
      apply andb_true_iff in G as [G1 G2]. apply Nat.ltb_lt in G1, G2.
      apply inner_spec in I; [|cbn; exact G1]. destruct I as (Fr & En & l2 & Ev2 & Ni2 & Nu & Go). cbn in Ev2, Ni2, Nu.
      pose proof (after_bcl_keeps P t) as Kp. cbv zeta in Kp.
      destruct Kp as (_ & _ & _ & Kx & _ & _ & _ & _ & Kn & _ & Km & _ & Ke & _).
      assert (Pt : pen_ok Q t). { eapply frame_pen; [exact Fr|]. exact Pa. }
      split. { exact (after_bcl_penok P Q t C Pt). }
      split. { exact (after_bcl_tols P t). }
      split. { right. cbn. rewrite Km. destruct Fr as (_ & _ & _ & _ & _ & _ & _ & _ & _ & _ & -> & _). cbn. exact (proj1 Pa). }
      exists (l ++ l2). cbn. rewrite Ke, Kn. rewrite Ev2, Ev, flat_map_app, app_assoc. split; [reflexivity|].
      split; [rewrite Ni2, Ni, app_length; lia|]. split.
      + apply snaps_app; [exact Sn|]. rewrite <- Ni. eapply numbered_snaps; [exact Nu|exact G2|exact (proj1 Pa)].
      + assert (Kl2 : keeps_or_last s t (l ++ l2)) by (eapply koel_app; [exact Kl|exact Go]).
        unfold keeps_or_last in Kl2 |- *. cbn. rewrite Kx. exact Kl2.
  Qed.

  Lemma init_pen P p x0 lams0 s (Q : car K -> Prop) : Q (mu_init P) -> pen_ok Q (init_solve spow fac bfgs P p x0 lams0 s).
  Proof. intros H. unfold pen_ok, sets_mu. cbn. split; [exact H|]. split; [reflexivity|]. apply map_set_prox_mu. Qed.
  Lemma init_tols P p x0 lams0 s : tols_ok P (init_solve spow fac bfgs P p x0 lams0 s).
  Proof. split; cbn; eauto. Qed.

  (** Everything about penalties, tolerances and callbacks of one [solve]. *)
  Lemma solve_trace fo fi fls fin P p Q s x0 lams0 s' f : mu_closed P Q ->
    solve fo fi fls fin P p (Some s) x0 lams0 = Ret (s', f) ->
    pen_ok Q s' /\ tols_ok P s' /\ (0 < r_al_iters (s_res _ _ s') \/ f = SUCCESS -> Q (r_mu (s_res _ _ s'))) /\
    exists l, s_events _ _ s' = s_events _ _ s ++ flat_map (batch P) (l ++ [s_res _ _ s']) /\
      length l = r_num_iters (s_res _ _ s') /\ snaps_ok 0 P Q l /\
      match l with [] => r_x (s_res _ _ s') = x0 | r :: _ => r_x (s_res _ _ s') = r_x (last l r) end.
  Proof.
    intros C. unfold Solver_model.solve. intros H. inv_bind H. injection H as <- <-. cbn.
    apply outer_reach in E. destruct E as (a & R & E).
    pose proof (reach_events _ _ _ _ _ Q _ _ C (init_pen P p x0 lams0 s Q (proj1 C)) (init_tols P p x0 lams0 s) R) as (Pa & Ta & Qa & l & Ev & Ni & Sn & Kl).
    cbn in Ev, Ni. 
    destruct E as [[G ->]|(G & t & I & S & ->)].
    - split; [exact Pa|]. split; [exact Ta|]. split.
      + intros [H|H]; (destruct Qa as [->|Qa]; [cbn in H|exact Qa]); [lia|discriminate].
      + exists l. rewrite flat_map_app. unfold invoke_callbacks. rewrite Ev, app_assoc. cbn [flat_map]. rewrite app_nil_r. 
        split; [reflexivity|]. split; [lia|]. split; [exact Sn|]. unfold keeps_or_last in Kl. exact Kl.
    - apply andb_true_iff in G as [G1 G2]. apply Nat.ltb_lt in G1, G2.
      apply inner_spec in I; [|cbn; exact G1]. destruct I as (Fr & En & l2 & Ev2 & Ni2 & Nu & Go). cbn in Ev2, Ni2, Nu.
      pose proof (after_bcl_keeps P t) as Kp. cbv zeta in Kp.
      destruct Kp as (_ & _ & _ & Kx & _ & _ & _ & _ & Kn & _ & Km & _ & Ke & _).
      assert (Pt : pen_ok Q t). { eapply frame_pen; [exact Fr|]. exact Pa. }
      split. { exact (after_bcl_penok P Q t C Pt). }
      split. { exact (after_bcl_tols P t). }
      cbn [set_conv s_res s_events r_mu r_x r_num_iters r_conv r_al_iters].
      split. { intros _. rewrite Km. destruct Fr as (_ & _ & _ & _ & _ & _ & _ & _ & _ & _ & -> & _). cbn. exact (proj1 Pa). }
      exists (l ++ l2). rewrite flat_map_app. unfold invoke_callbacks. rewrite Ke. rewrite Ev2, Ev. cbn [flat_map]. rewrite !flat_map_app, !app_assoc, app_nil_r.
      split; [reflexivity|]. split; [rewrite Kn, Ni2, Ni, app_length; lia|]. split.
      + apply snaps_app; [exact Sn|]. cbn in Ni. rewrite <- Ni. eapply numbered_snaps; [exact Nu|exact G2|exact (proj1 Pa)].
      + rewrite Kx. assert (Kl2 := koel_app _ _ t l l2 Kl Go). unfold keeps_or_last in Kl2. exact Kl2.
  Qed.

  (** The sets stay those of the caller, with the solver's parameter. *)
  Lemma set_prox_twice (m m' : car K) c : set_prox m (set_prox m' c) = set_prox m c.
  Proof. destruct c; reflexivity. Qed.
  Definition sets_from (s0 s : state) : Prop := s_sets _ _ s = map (set_prox (s_mu _ _ s)) (s_sets _ _ s0).
  Lemma frame_sets s0 a b : frame a b -> sets_from s0 a -> sets_from s0 b.
  Proof. unfold frame, sets_from. intros F. destruct F as (-> & _ & _ & _ & _ & -> & _). auto. Qed.
  Lemma bcl_sets P s0 t : sets_from s0 t -> sets_from s0 (after_bcl P t).
  Proof.
    unfold sets_from. intros H. destruct (after_bcl_pen P t) as [(-> & _ & -> & _)|(m & -> & _ & -> & _)]; [exact H|].
    rewrite H, map_map. apply map_ext. intros c. apply set_prox_twice.
  Qed.
  Lemma reach_sets fi fls fin P p s0 s a : sets_from s0 s -> reach fi fls fin P p s a -> sets_from s0 a.
  Proof.
    intros H R. induction R as [|a t R IH G I S]; [exact H|].
    apply andb_true_iff in G as [G1 G2]. apply Nat.ltb_lt in G1.
    apply inner_spec in I; [|cbn; exact G1]. destruct I as (Fr & _).
    change (sets_from s0 (after_bcl P t)). apply bcl_sets. eapply frame_sets; [exact Fr|]. exact IH.
  Qed.
  Lemma init_sets P p x0 lams0 s : sets_from s (init_solve spow fac bfgs P p x0 lams0 s).
  Proof. reflexivity. Qed.

  (** The last outer iteration of a solve that returns SUCCESS. *)
  Lemma solve_success fo fi fls fin P p Q s x0 lams0 s' : mu_closed P Q ->
    solve fo fi fls fin P p (Some s) x0 lams0 = Ret (s', SUCCESS) ->
    exists a t, tols_ok P a /\ pen_ok Q a /\ sets_from s a /\
      r_conv (s_res _ _ a) = UNINIT /\
      r_num_iters (s_res _ _ a) < max_iters P /\
      frame (record_params _ _ a) t /\ inner_end P p (record_params _ _ a) t /\
      stop_ok P (after_bcl P t) = true /\
      s_res _ _ s' = s_res _ _ (set_conv _ _ SUCCESS (after_bcl P t)) /\
      s_mu _ _ s' = s_mu _ _ (after_bcl P t) /\ s_sets _ _ s' = s_sets _ _ (after_bcl P t).
  Proof.
    intros C. unfold Solver_model.solve. intros H. inv_bind H. injection H as <- Hf. cbn.
    apply outer_reach in E. destruct E as (a & R & E).
    pose proof (reach_counts _ _ _ _ _ _ _ R) as Hc. cbn in Hc.
    specialize (Hc eq_refl (Nat.le_0_l _) (Nat.le_0_l _)). destruct Hc as (Hn & Ha & Hc).
    pose proof (reach_events _ _ _ _ _ Q _ _ C (init_pen P p x0 lams0 s Q (proj1 C)) (init_tols P p x0 lams0 s) R) as (Pa & Ta & _ & _).
    pose proof (reach_sets _ _ _ _ _ s _ _ (init_sets P p x0 lams0 s) R) as Sa.
    destruct E as [[G ->]|(G & t & I & S & ->)].
    - cbn in Hf. exfalso. destruct Hc as [->|(_ & _ & _ & [[C1 _]|[C1 _]])]; [discriminate|congruence|congruence].
    - apply andb_true_iff in G as [G1 G2]. apply Nat.ltb_lt in G1, G2.
      apply inner_spec in I; [|cbn; exact G1]. destruct I as (Fr & En & _).
      exists a, t. repeat (split; [assumption|]). split.
      + destruct Hc as [->|(_ & _ & _ & [[C1 _]|[_ C1]])]; [reflexivity|exact C1|lia].
      + split; [exact G1|]. split; [exact Fr|]. split; [exact En|]. split; [exact S|]. repeat split.
  Qed.
  (** ** Fuel is enough *)
  Lemma bind_nofuel {A B} (m : outcome A) (f : A -> outcome B) :
    m <> Fuel -> (forall a, m = Ret a -> f a <> Fuel) -> bind m f <> Fuel.
  Proof. destruct m; cbn; intros H1 H2; try congruence. apply H2. reflexivity. Qed.
  Lemma ub_nofuel {A} (o : option A) : ub o <> Fuel. Proof. destruct o; discriminate. Qed.
  Lemma user_nofuel {A} (o : option A) : user o <> Fuel. Proof. destruct o; discriminate. Qed.
  Lemma sized_nofuel {A} n (v : list A) : sized n v <> Fuel.
  Proof. unfold sized. destruct (_ =? _); discriminate. Qed.
  Lemma sized2_nofuel {A} r c (v : list (list A)) : sized2 r c v <> Fuel.
  Proof. unfold sized2. destruct (_ && _); discriminate. Qed.
  Ltac nofuel :=
    repeat first
      [ progress cbv beta zeta
      | discriminate
      | apply ub_nofuel | apply user_nofuel | apply sized_nofuel | apply sized2_nofuel
      | apply bind_nofuel; [|intros ? ?]
      | match goal with |- (match ?v with _ => _ end) <> Fuel => destruct v eqn:? end ].
  Lemma eval_nofuel fs (x : list (car K)) : eval_cons fs x <> Fuel.
  Proof. induction fs; cbn; nofuel. assumption. Qed.
  Lemma jac_nofuel n fs (x : list (car K)) : jac_cons n fs x <> Fuel.
  Proof. induction fs; cbn; nofuel. assumption. Qed.
  Lemma vhp_nofuel n u fs (x : list (car K)) l o : vhp_cons n u fs x l o <> Fuel.
  Proof. revert l o. induction fs; cbn; intros l o; nofuel; apply IHfs. Qed.
  Lemma diagnose_nofuel P p s : diagnose P p s <> Fuel.
  Proof.
    unfold Solver_model.diagnose, evaluate_problem, compute_multipliers, derivs_problem, hess_step, hessians_problem, primal_residuals.
    nofuel; try apply eval_nofuel; try apply jac_nofuel; try apply vhp_nofuel.
  Qed.

  (** The factorisation loop ends from every admissible [delta_last], and keeps it admissible. *)
  Definition inertia_ends (fin : nat) (P : params) (ok : car K -> Prop) : Prop :=
    forall ndx nc M F dl, ok dl ->
      match inertia_loop fac fac_compute fac_signature fin P ndx nc M F (delta_init P) dl with
      | Fuel => False | Ret (_, _, _, dl') => ok dl' | _ => True end.
  Definition ls_ends (fls : nat) (P : params) : Prop :=
    forall ph phi0 dphi0, run qr ph fls (lsopt P) phi0 dphi0 <> None.

  Lemma step_nofuel fls fin P ok p d dl : ls_ends fls P -> inertia_ends fin P ok -> ok dl ->
    match step fls fin P p d dl with Fuel => False | Ret (Next _ _ _ dl') => ok dl' | _ => True end.
  Proof.
    intros L I O. unfold Solver_model.step, step_rhs, step_matrix. cbv zeta.
    destruct (kkt_dual_diag _ _ _ _ _) eqn:Hk; cbn [bind]; auto.
    2:{ revert Hk. unfold kkt_dual_diag. destruct (kkt_sys P); [discriminate|]. 
        match goal with |- bind (ub ?x) _ = _ -> _ => destruct x end; discriminate. }
    match goal with |- context [inertia_loop _ _ _ _ _ ?ndx ?nc ?M ?F _ _] => pose proof (I ndx nc M F dl O) as Hi;
      destruct (inertia_loop fac fac_compute fac_signature fin P ndx nc M F (delta_init P) dl) as [[[[M1 F1] de] dl']| | |] eqn:Hl end;
      cbn [bind]; auto.
    destruct (bad_vec _); auto.
    match goal with |- context [run qr ?a ?b ?c ?d ?e] => pose proof (L a d e) as Hr; destruct (run qr a b c d e) eqn:Er end; [|congruence].
    destruct (existsb _ _); auto. unfold try_step. 
    repeat (match goal with |- context [if ?b then Throw _ else _] => destruct b; auto end).
    destruct (_ <=? _); auto.
  Qed.

  Lemma inner_nofuel fls fin P ok p : ls_ends fls P -> inertia_ends fin P ok ->
    forall fuel s dl, ok dl -> r_num_iters (s_res _ _ s) < max_iters P ->
    max_iters P <= r_num_iters (s_res _ _ s) + fuel -> inner_loop fuel fls fin P p s dl <> Fuel.
  Proof.
    intros L I. induction fuel as [|f IH]; intros s dl O Hn Hf; [lia|]. cbn.
    apply bind_nofuel.
    - unfold Solver_model.pass. apply bind_nofuel; [apply diagnose_nofuel|]. intros d Hd.
      destruct (_ || _); [discriminate|].
      pose proof (step_nofuel fls fin P ok p d dl L I O) as Hs. destruct (step fls fin P p d dl); try discriminate. contradiction.
    - intros r Hr. unfold Solver_model.pass in Hr. inv_bind Hr. destruct (_ || _).
      + injection Hr as <-. discriminate.
      + pose proof (step_nofuel fls fin P ok p v dl L I O) as Hs. rewrite Hr in Hs.
        apply step_inv in Hr. destruct Hr as (pd & lr & xt & lt & w' & _ & _ & _ & _ & _ & _ & _ & H & _).
        apply diagnose_frame in E as (_ & _ & _ & Ni & _).
        destruct H as [[_ ->]|[Hl [dl' ->]]]; [discriminate|]. apply IH; [exact Hs|cbn; lia|cbn; lia].
  Qed.
  Lemma outer_nofuel fi fls fin P ok p : ls_ends fls P -> inertia_ends fin P ok -> ok s0 ->
    max_iters P <= fi -> forall fuel s,
    r_al_iters (s_res _ _ s) <= max_al_iters P ->
    max_al_iters P < r_al_iters (s_res _ _ s) + fuel -> outer_loop fuel fi fls fin P p s <> Fuel.
  Proof.
    intros L I O Hi. induction fuel as [|f IH]; intros s Ha Hf; [lia|].
    cbn [Solver_model.outer_loop]. fold (guard P s). destruct (guard P s) eqn:G; [|discriminate].
    apply andb_true_iff in G as [G1 G2]. apply Nat.ltb_lt in G1, G2.
    apply bind_nofuel.
    - eapply inner_nofuel; eauto. cbn. lia.
    - intros t Ht. fold (after_bcl P t). fold (stop_ok P (after_bcl P t)).
      destruct (stop_ok P (after_bcl P t)); [discriminate|].
      apply inner_spec in Ht; [|cbn; exact G1]. destruct Ht as (Fr & _).
      assert (Al : r_al_iters (s_res _ _ t) = r_al_iters (s_res _ _ s)).
      { unfold frame in Fr. cbn in Fr. intuition congruence. }
      pose proof (after_bcl_keeps P t) as Kp. cbv zeta in Kp.
      destruct Kp as (_ & _ & _ & _ & _ & _ & _ & _ & _ & Ka & _).
      apply IH; cbn; rewrite Ka, Al; lia.
  Qed.
  Lemma solve_nofuel fo fi fls fin P ok p so x0 lams0 : ls_ends fls P -> inertia_ends fin P ok -> ok s0 ->
    max_al_iters P < fo -> max_iters P <= fi -> solve fo fi fls fin P p so x0 lams0 <> Fuel.
  Proof.
    intros L I O Ho Hi. unfold Solver_model.solve. destruct so as [s|]; [|discriminate].
    apply bind_nofuel; [|discriminate]. eapply outer_nofuel; eauto; cbn; lia.
  Qed.
End Flow.
