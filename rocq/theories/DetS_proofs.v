(** C22: the simulation between two calls. *)
From Coq Require Import List Bool Arith ZArith Lia.
From Verif Require Import Scalar Cset_model Armijo_model Problem_model Solver_model Cset_proofs Solver_proofs Det_spec Det_proofs.
Import ListNotations.

(** Related outcomes. *)
Definition orel {A B} (R : A -> B -> Prop) (a : outcome A) (b : outcome B) : Prop :=
  match a, b with
  | Ret x, Ret y => R x y | Throw e, Throw e' => e = e' | UB, UB => True | Fuel, Fuel => True | _, _ => False
  end.
Lemma orel_bind {A B C D} (R : A -> B -> Prop) (T : C -> D -> Prop) a b f g :
  orel R a b -> (forall x y, a = Ret x -> b = Ret y -> R x y -> orel T (f x) (g y)) -> orel T (bind a f) (bind b g).
Proof. destruct a, b; cbn; intros H G; try contradiction; auto. Qed.
Lemma orel_same {A B C} (T : B -> C -> Prop) (a : outcome A) f g : (forall x, a = Ret x -> orel T (f x) (g x)) -> orel T (bind a f) (bind a g).
Proof. destruct a; cbn; intros G; auto. Qed.

Section Sim.
  Context {K : Sc}.
  Variables (spow : car K -> car K -> car K) (integrate : list (car K) -> list (car K) -> list (car K))
            (px_val : car K -> list (car K) -> list (car K) -> car K)
            (px_grad : car K -> list (car K) -> list (car K) -> list (car K))
            (px_hess : car K -> list (car K) -> list (car K) -> list (list (car K)))
            (fac : Type) (fac_compute : fac -> list (list (car K)) -> fac) (fac_signature : fac -> list Z)
            (fac_solve : fac -> list (car K) -> list (car K))
            (bfgs : Type) (bfgs_update : bfgs -> list (car K) -> list (car K) -> list (list (car K)) -> bfgs * list (list (car K)))
            (qr : car K -> car K -> car K -> car K -> car K -> car K -> car K * car K).
  Notation state := (@state K fac bfgs).
  Notation results := (@results K).
  Notation problem := (@problem K).
  Notation params := (@params K).
  Notation diag := (@diag K fac bfgs).
  Notation diagnose := (diagnose px_val px_grad px_hess fac bfgs bfgs_update).
  Notation step := (step integrate px_val fac fac_compute fac_signature fac_solve bfgs qr).
  Notation pass := (pass integrate px_val px_grad px_hess fac fac_compute fac_signature fac_solve bfgs bfgs_update qr).
  Notation inner_loop := (inner_loop integrate px_val px_grad px_hess fac fac_compute fac_signature fac_solve bfgs bfgs_update qr).
  Notation outer_loop := (outer_loop spow integrate px_val px_grad px_hess fac fac_compute fac_signature fac_solve bfgs bfgs_update qr).
  Notation solve := (solve spow integrate px_val px_grad px_hess fac fac_compute fac_signature fac_solve bfgs bfgs_update qr).
  Notation cm := (compute_multipliers fac bfgs).
  Notation phi := (phi_eval integrate px_val fac bfgs).

  (** Sizes of the buffers. *)
  Definition fits (p : problem) (s : state) : Prop :=
    length (w_plus _ _ (s_ws _ _ s)) = numdual p /\ length (w_pdal _ _ (s_ws _ _ s)) = numdual p /\
    length (r_active (s_res _ _ s)) = numdual p /\ length (w_vhp _ _ (s_ws _ _ s)) = length (p_cons p) /\
    whole (stack p (s_sets _ _ s)) (numdual p).

  Lemma mult_len P p s c l m : fits p s -> cm P p s c l = Ret m -> length (m_plus m) = numdual p /\ length (m_pdal m) = numdual p.
  Proof.
    intros (F1 & F2 & _ & _ & W) H. unfold compute_multipliers in H. crack H. injection H as <-. cbn [m_plus m_pdal].
    repeat match goal with H : ub ?o = Ret _ |- _ => destruct o eqn:?; [|discriminate H]; injection H as <- end.
    unfold vscale. rewrite !map_length.
    match goal with H : normal_cone _ _ (w_plus _ _ _) = Some _ |- _ => apply (cone_len _ _ _ _ _ W F1) in H; rewrite H end.
    match goal with H : normal_cone _ _ (w_pdal _ _ _) = Some _ |- _ => apply (cone_len _ _ _ _ _ W F2) in H; rewrite H end.
    auto.
  Qed.

  Variable P : params.
  (** Targets agree or do not matter. *)
  Definition tgt (rho : car K) (t t' : list (car K)) : Prop :=
    t = t' \/ ((sltb s0 rho = false) /\ forall x, px_val rho t x = px_val rho t' x).
  (** What the inner loop reads is the same. *)
  Record sim (p : problem) (s t : state) : Prop := mkSim {
    i_mu : s_mu _ _ s = s_mu _ _ t; i_mui : s_mu_inv _ _ s = s_mu_inv _ _ t; i_rho : s_rho _ _ s = s_rho _ _ t;
    i_it : s_inner_tol _ _ s = s_inner_tol _ _ t; i_pt : s_prim_tol _ _ s = s_prim_tol _ _ t;
    i_sets : s_sets _ _ s = s_sets _ _ t; i_tgt : tgt (s_rho _ _ s) (s_target _ _ s) (s_target _ _ t);
    i_conv : r_conv (s_res _ _ s) = r_conv (s_res _ _ t); i_x : r_x (s_res _ _ s) = r_x (s_res _ _ t);
    i_l : r_lams (s_res _ _ s) = r_lams (s_res _ _ t); i_n : r_num_iters (s_res _ _ s) = r_num_iters (s_res _ _ t);
    i_al : r_al_iters (s_res _ _ s) = r_al_iters (s_res _ _ t);
    i_lp : w_lams_prev _ _ (s_ws _ _ s) = w_lams_prev _ _ (s_ws _ _ t);
    i_kkt : bad_mat (w_kkt _ _ (s_ws _ _ s)) = bad_mat (w_kkt _ _ (s_ws _ _ t));
    i_f : fits p s; i_g : fits p t
  }.
  (** The events since the calls began. *)
  Variables e1 e2 : list (@event K).
  Definition evsim (s t : state) : Prop := exists evs, s_events _ _ s = e1 ++ evs /\ s_events _ _ t = e2 ++ evs.
  Record full (p : problem) (s t : state) : Prop := mkFull {
    f_sim : sim p s t; f_res : s_res _ _ s = s_res _ _ t;
    f_pl : w_plus _ _ (s_ws _ _ s) = w_plus _ _ (s_ws _ _ t); f_pd : w_pdal _ _ (s_ws _ _ s) = w_pdal _ _ (s_ws _ _ t);
    f_ev : evsim s t
  }.
  (** After the diagnosis. *)
  Definition dsim (p : problem) (d e : diag) : Prop :=
    full p (d_state _ _ d) (d_state _ _ e) /\
    d_g _ _ d = d_g _ _ e /\ d_J _ _ d = d_J _ _ e /\ d_Jp _ _ d = d_Jp _ _ e /\ d_m _ _ d = d_m _ _ e /\ d_rhs _ _ d = d_rhs _ _ e /\
    d_pgrad _ _ d = d_pgrad _ _ e /\ d_phess _ _ d = d_phess _ _ e /\ d_mg _ _ d = d_mg _ _ e /\ d_md _ _ d = d_md _ _ e /\
    d_inner_crit _ _ d = d_inner_crit _ _ e /\ d_outer_crit _ _ d = d_outer_crit _ _ e /\
    w_hess _ _ (s_ws _ _ (d_state _ _ d)) = w_hess _ _ (s_ws _ _ (d_state _ _ e)) /\
    (hess_approx P = HM_EXACT -> w_vhp _ _ (s_ws _ _ (d_state _ _ d)) = w_vhp _ _ (s_ws _ _ (d_state _ _ e))).

  Lemma cm_sim p s t c l : sim p s t -> cm P p s c l = cm P p t c l.
  Proof.
    intros [Hmu Hmui Hrho Hit Hpt Hsets Htgt Hcv Hx Hl Hn Hal Hlp Hk (F1 & F2 & F3 & F4 & W) (G1 & G2 & G3 & G4 & _)].
    unfold compute_multipliers. rewrite <- Hmu, <- Hmui, <- Hsets, <- Hlp.
    rewrite (cone_any _ _ (vadd c (vscale (s_mu _ _ s) (w_lams_prev _ _ (s_ws _ _ s)))) _ _ W F1 G1).
    destruct (normal_cone _ _ (w_plus _ _ (s_ws _ _ t))); [|reflexivity]. cbn [ub bind].
    match goal with |- context[normal_cone _ ?z (w_pdal _ _ (s_ws _ _ s))] => rewrite (cone_any _ _ z _ _ W F2 G2) end.
    reflexivity.
  Qed.

  Lemma vhp_len n use (fs : list (@cfun K)) x ls : forall old vs, vhp_cons n use fs x ls old = Ret vs -> length vs = length fs.
  Proof.
    revert ls. induction fs as [|f fs IH]; intros ls old vs H; cbn in H; [injection H as <-; reflexivity|].
    destruct ls as [|l ls], old as [|o os]; try discriminate H. inv_bind H. inv_bind H. injection H as <-. cbn. f_equal. eapply IH, E0.
  Qed.
  Lemma vhp_sim n use (fs : list (@cfun K)) x ls : forall old old', length old = length old' ->
    orel (fun a b => use = true -> a = b) (vhp_cons n use fs x ls old) (vhp_cons n use fs x ls old').
  Proof.
    revert ls. induction fs as [|f fs IH]; intros ls old old' L; cbn [vhp_cons]; [cbn; auto|].
    destruct ls as [|l ls]; [exact I|]. destruct old as [|o os], old' as [|o' os']; try discriminate L; [exact I|].
    apply orel_bind with (R := fun a b => use = true -> a = b).
    { destruct use; [|cbn; discriminate]. destruct (bind _ _); cbn; auto. }
    intros h h' _ _ Eh. apply orel_bind with (R := fun a b => use = true -> a = b); [apply IH; injection L; auto|].
    intros hs hs' _ _ Ehs. cbn. intros U. rewrite Eh, Ehs by exact U. reflexivity.
  Qed.
  Lemma hess_len p w x g pd b h v : length (w_vhp _ _ w) = length (p_cons p) -> hess_step fac bfgs bfgs_update P p w x g pd = Ret (b, h, v) -> length v = length (p_cons p).
  Proof.
    intros L H. unfold hess_step in H. destruct (hess_approx P).
    1,2: inv_bind H; inv_bind H; injection H as <- <- <-; unfold hessians_problem in E0; crack E0; injection E0 as <-; cbn; eapply vhp_len; eassumption.
    - destruct (bfgs_update _ _ _ _). injection H as <- <- <-. exact L.
    - injection H as <- <- <-. exact L.
  Qed.
  Lemma hess_sim p w w' x g pd : hess_approx P <> HM_BFGS -> length (w_vhp _ _ w) = length (w_vhp _ _ w') ->
    orel (fun a b => snd (fst a) = snd (fst b) /\ (hess_approx P = HM_EXACT -> snd a = snd b))
      (hess_step fac bfgs bfgs_update P p w x g pd) (hess_step fac bfgs bfgs_update P p w' x g pd).
  Proof.
    intros N L. unfold hess_step. destruct (hess_approx P) eqn:E; [| |congruence|].
    3: { cbn. split; [reflexivity|discriminate]. }
    all: apply orel_same; intros ls _; unfold hessians_problem; eapply orel_bind with (R := fun a b => fst a = fst b /\ (_ = true -> snd a = snd b)).
    all: try (intros [h v] [h' v'] _ _ [E1 E2]; cbn in *; subst h'; split; [reflexivity|]; intros X; try discriminate X; apply E2; reflexivity).
    all: apply orel_same; intros h _; apply orel_same; intros h2 _; (eapply orel_bind; [apply vhp_sim; exact L|]); intros v v' _ _ Ev; cbn; split; [reflexivity|exact Ev].
  Qed.

  Lemma diagnose_sim p s t : hess_approx P <> HM_BFGS -> sim p s t -> evsim s t -> r_mu (s_res _ _ s) = r_mu (s_res _ _ t) -> r_rho (s_res _ _ s) = r_rho (s_res _ _ t) ->
    orel (dsim p) (diagnose P p s) (diagnose P p t).
  Proof.
    intros N I Ev Rm Rr. unfold Solver_model.diagnose. cbv zeta.
    pose proof I as [Hmu Hmui Hrho Hit Hpt Hsets Htgt Hcv Hx Hl Hn Hal Hlp Hk F G].
    rewrite <- Hx, <- Hl, <- Hmu, <- Hsets, <- Hrho.
    apply orel_same; intros [f c] _. rewrite <- (cm_sim p s t c _ I). apply orel_same; intros m Em.
    apply orel_same; intros [g J] _. apply orel_same; intros Jp _.
    pose proof F as (F1 & F2 & F3 & F4 & W). pose proof G as (G1 & G2 & G3 & G4 & _).
    eapply orel_bind; [apply hess_sim; [exact N|congruence]|]. intros [[b h] v] [[b' h'] v'] Eh Eh' [E1 E2]. cbn [fst snd] in E1, E2. subst h'.
    apply hess_len in Eh; [|exact F4]. apply hess_len in Eh'; [|exact G4].
    rewrite (active_any _ _ (m_shift m) _ _ W F3 G3).
    apply orel_same; intros act Ea. apply orel_same; intros mer _. apply orel_same; intros mg _.
    assert (T : (if sltb s0 (s_rho _ _ s) then sadd mer (px_val (s_rho _ _ s) (s_target _ _ s) (r_x (s_res _ _ s))) else mer) =
                (if sltb s0 (s_rho _ _ s) then sadd mer (px_val (s_rho _ _ s) (s_target _ _ t) (r_x (s_res _ _ s))) else mer) /\
                (if sltb s0 (s_rho _ _ s) then px_grad (s_rho _ _ s) (s_target _ _ s) (r_x (s_res _ _ s)) else vzero (p_ndx p)) =
                (if sltb s0 (s_rho _ _ s) then px_grad (s_rho _ _ s) (s_target _ _ t) (r_x (s_res _ _ s)) else vzero (p_ndx p)) /\
                (if sltb s0 (s_rho _ _ s) then px_hess (s_rho _ _ s) (s_target _ _ s) (r_x (s_res _ _ s)) else []) =
                (if sltb s0 (s_rho _ _ s) then px_hess (s_rho _ _ s) (s_target _ _ t) (r_x (s_res _ _ s)) else [])).
    { destruct Htgt as [->|[-> _]]; repeat split. }
    destruct T as (T1 & T2 & T3). rewrite T1, T2, T3. rewrite <- Hk.
    match goal with |- orel _ (if bad_vec ?r then _ else _) _ => destruct (bad_vec r); [reflexivity|] end.
    destruct (bad_mat _); [reflexivity|]. apply orel_same; intros [viol prim] _.
    assert (La : length act = numdual p).
    { unfold ub in Ea. destruct (active_set _ _ _) eqn:E in Ea; [|discriminate]. injection Ea as <-. exact (active_len _ _ _ _ _ W G3 E). }
    destruct (mult_len P p s c _ m F Em) as [L1 L2].
    cbn [orel]. unfold dsim. cbn [d_state d_g d_J d_Jp d_m d_rhs d_pgrad d_phess d_mg d_md d_inner_crit d_outer_crit s_ws w_hess w_vhp].
    rewrite <- Hcv, <- Hn, <- Hal, <- Hmui, <- Hit, <- Hpt, <- Hlp, <- Rm, <- Rr.
    split; [|repeat split; exact E2]. constructor; cbn; try reflexivity; [|exact Ev].
    constructor; cbn; try reflexivity; try exact Htgt; try assumption; unfold fits; cbn; auto.
    exact (i_kkt _ _ _ I).
  Qed.

  Lemma phi_sim p s t dx dl a : full p s t -> phi P p s dx dl a = phi P p t dx dl a.
  Proof.
    intros [I R Pl Pd _]. unfold phi_eval. rewrite <- R. destruct (try_step _ _ _ _ _ _) as [x l].
    destruct (evaluate_problem p x) as [[f c]| | |]; try reflexivity. cbn [bind].
    rewrite <- (cm_sim p s t c l I). destruct (cm P p s c l) as [m| | |]; try reflexivity. cbn [bind].
    rewrite <- (i_sets _ _ _ I), <- (i_rho _ _ _ I). destruct (ub _) as [v| | |]; try reflexivity. cbn [bind].
    destruct (i_tgt _ _ _ I) as [->|[_ E]]; [reflexivity|]. rewrite E. reflexivity.
  Qed.

  Hypothesis memless : forall F F' M, fac_compute F M = fac_compute F' M.
  Lemma inertia_sim fuel ndx nc M F F' d dl : sleb d (delta_max P) = true ->
    inertia_loop fac fac_compute fac_signature fuel P ndx nc M F d dl = inertia_loop fac fac_compute fac_signature fuel P ndx nc M F' d dl.
  Proof.
    intros D. destruct fuel as [|f]; [reflexivity|]. cbn [inertia_loop]. rewrite D. rewrite (memless F F'). reflexivity.
  Qed.
  Lemma last_len p s dx dl tr m : fits p s -> last_mults integrate px_val fac bfgs P p s dx dl tr = Some m -> length (m_plus m) = numdual p /\ length (m_pdal m) = numdual p.
  Proof.
    intros F. induction tr as [|a r IH]; [discriminate|]. cbn [last_mults]. destruct (phi P p s dx dl a) as [[v m']| | |] eqn:E; try exact IH.
    intros H. assert (m' = m) by congruence. subst m'. unfold phi_eval in E. destruct (try_step _ _ _ _ _ _) as [x l]. crack E. injection E as _ <-. eapply mult_len; eassumption.
  Qed.
  Definition psim (p : problem) (a b : pass_result fac bfgs) : Prop :=
    match a, b with
    | Stop _ _ s, Stop _ _ t => full p s t | Next _ _ s d, Next _ _ t e => full p s t /\ d = e | _, _ => False
    end.
  Lemma run_ext (ph ph' : list (car K) -> car K -> option (car K)) : (forall l a, ph l a = ph' l a) ->
    forall fuel o a b, run qr ph fuel o a b = run qr ph' fuel o a b.
  Proof.
    intros E fuel o a b. assert (E1 : forall f al tr, first_loop ph f o al tr = first_loop ph' f o al tr).
    { induction f as [|f IH]; intros al tr; [reflexivity|]. cbn. rewrite E. destruct (ph' tr al); [reflexivity|]. destruct (sleb _ _); [reflexivity|apply IH]. }
    assert (E2 : forall n al l pr tr, main_loop qr ph n o a b al l pr tr = main_loop qr ph' n o a b al l pr tr).
    { induction n as [|n IH]; intros al l pr tr; [reflexivity|]. cbn. rewrite E. destruct (sleb _ _); [reflexivity|]. destruct (ph' _ _); [destruct (sleb _ _); [reflexivity|apply IH]|apply IH]. }
    unfold run. rewrite E1. destruct (first_loop ph' _ _ _ _) as [[[al l] tr]|]; [|reflexivity]. rewrite E2. reflexivity.
  Qed.
  Lemma step_sim fls fin p d e dl : sleb (delta_init P) (delta_max P) = true -> dsim p d e ->
    orel (psim p) (step fls fin P p d dl) (step fls fin P p e dl).
  Proof.
    intros D (Fu & Eg & EJ & EJp & Em & Er & Epg & Eph & Emg & Emd & Eic & Eoc & Eh & Ev). unfold Solver_model.step, step_rhs, step_matrix. cbv zeta.
    pose proof Fu as [I R Pl Pd Es]. pose proof I as [Hmu Hmui Hrho Hit Hpt Hsets Htgt Hcv Hx Hl Hn Hal Hlp Hk F G].
    rewrite <- EJ, <- EJp, <- Em, <- Er, <- Eph, <- Emg, <- Emd, <- Hmu, <- Hsets, <- Hrho, <- R, <- Eh.
    apply orel_same. intros dd _.
    assert (EH : kkt_hess P (s_rho _ _ (d_state _ _ d)) (w_hess _ _ (s_ws _ _ (d_state _ _ d))) (d_phess _ _ d) (w_vhp _ _ (s_ws _ _ (d_state _ _ e))) =
                 kkt_hess P (s_rho _ _ (d_state _ _ d)) (w_hess _ _ (s_ws _ _ (d_state _ _ d))) (d_phess _ _ d) (w_vhp _ _ (s_ws _ _ (d_state _ _ d)))).
    { unfold kkt_hess. destruct (hess_approx P) eqn:Eq; try reflexivity. rewrite Ev by exact eq_refl. reflexivity. }
    rewrite EH. rewrite (inertia_sim _ _ _ _ (w_fac _ _ (s_ws _ _ (d_state _ _ d))) (w_fac _ _ (s_ws _ _ (d_state _ _ e))) _ _ D).
    apply orel_same. intros [[[M Fc] delta] dl'] _.
    match goal with |- orel _ (if bad_vec ?x then _ else _) _ => set (pd := x) end. destruct (bad_vec pd); [reflexivity|].
    match goal with |- orel _ (match run qr ?a ?b ?c ?x ?y with _ => _ end) (match run qr ?a' ?b ?c ?x ?y with _ => _ end) => rewrite (run_ext a' a) end.
    2: { intros _ a. unfold phi_opt. rewrite (phi_sim p _ _ _ _ _ Fu). reflexivity. }
    destruct (run _ _ _ _ _ _) as [lr|]; [|exact Logic.I].
    assert (EU : existsb (fun a => is_ub (phi P p (d_state _ _ e) (firstn (p_ndx p) pd) (skipn (p_ndx p) pd) a)) (r_trace lr) =
                 existsb (fun a => is_ub (phi P p (d_state _ _ d) (firstn (p_ndx p) pd) (skipn (p_ndx p) pd) a)) (r_trace lr)).
    { induction (r_trace lr) as [|a r IH]; [reflexivity|]. cbn [existsb last_mults]. rewrite (phi_sim p _ _ _ _ _ Fu), IH. reflexivity. }
    rewrite EU. clear EU. destruct (existsb (fun a => is_ub (phi P p (d_state _ _ d) (firstn (p_ndx p) pd) (skipn (p_ndx p) pd) a)) (r_trace lr)); [exact Logic.I|]. destruct (try_step _ _ _ _ _ _) as [xt lt].
    destruct (bad_scalar (r_alpha lr)); [reflexivity|]. destruct (bad_vec xt); [reflexivity|]. destruct (bad_vec lt); [reflexivity|]. destruct (bad_scalar (r_phi lr)); [reflexivity|].
    assert (EL : last_mults integrate px_val fac bfgs P p (d_state _ _ e) (firstn (p_ndx p) pd) (skipn (p_ndx p) pd) (r_trace lr) =
                 last_mults integrate px_val fac bfgs P p (d_state _ _ d) (firstn (p_ndx p) pd) (skipn (p_ndx p) pd) (r_trace lr)).
    { induction (r_trace lr) as [|a r IH]; [reflexivity|]. cbn [existsb last_mults]. rewrite (phi_sim p _ _ _ _ _ Fu), IH. reflexivity. }
    rewrite EL. set (lm := last_mults _ _ _ _ _ _ (d_state _ _ d) _ _ _).
    assert (LL : forall m', lm = Some m' -> length (m_plus m') = numdual p /\ length (m_pdal m') = numdual p) by (intros m' Q; eapply last_len; [exact F|exact Q]).
    rewrite <- Pl, <- Pd. destruct F as (F1 & F2 & F3 & F4 & W). destruct G as (G1 & G2 & G3 & G4 & W'). destruct Es as (evs & Ev1 & Ev2).
    cbn [orel]. assert (Fin : forall c n, full p
      (mkState _ _ (s_mu _ _ (d_state _ _ d)) (s_mu_inv _ _ (d_state _ _ d)) (s_rho _ _ (d_state _ _ d)) (s_inner_tol _ _ (d_state _ _ d)) (s_prim_tol _ _ (d_state _ _ d)) (s_sets _ _ (d_state _ _ d)) (s_target _ _ (d_state _ _ d))
        (mkResults c (r_phi lr) (r_value (s_res _ _ (d_state _ _ d))) xt lt (r_active (s_res _ _ (d_state _ _ d))) (r_dual_infeas (s_res _ _ (d_state _ _ d))) (r_prim_infeas (s_res _ _ (d_state _ _ d))) (r_viol (s_res _ _ (d_state _ _ d))) n (r_al_iters (s_res _ _ (d_state _ _ d))) (r_mu (s_res _ _ (d_state _ _ d))) (r_rho (s_res _ _ (d_state _ _ d))))
        (mkWs _ _ (w_lams_prev _ _ (s_ws _ _ (d_state _ _ d))) (w_x_prev _ _ (s_ws _ _ (d_state _ _ d))) (match lm with Some m' => m_plus m' | None => w_plus _ _ (s_ws _ _ (d_state _ _ d)) end) (match lm with Some m' => m_pdal m' | None => w_pdal _ _ (s_ws _ _ (d_state _ _ d)) end)
           M (w_hess _ _ (s_ws _ _ (d_state _ _ d))) (w_vhp _ _ (s_ws _ _ (d_state _ _ d))) Fc (w_bfgs _ _ (s_ws _ _ (d_state _ _ d))) (r_alpha lr))
        (invoke_callbacks P (mkResults (r_conv (s_res _ _ (d_state _ _ d))) (r_phi lr) (r_value (s_res _ _ (d_state _ _ d))) xt lt (r_active (s_res _ _ (d_state _ _ d))) (r_dual_infeas (s_res _ _ (d_state _ _ d))) (r_prim_infeas (s_res _ _ (d_state _ _ d))) (r_viol (s_res _ _ (d_state _ _ d))) (r_num_iters (s_res _ _ (d_state _ _ d))) (r_al_iters (s_res _ _ (d_state _ _ d))) (r_mu (s_res _ _ (d_state _ _ d))) (r_rho (s_res _ _ (d_state _ _ d)))) (s_events _ _ (d_state _ _ d))))
      (mkState _ _ (s_mu _ _ (d_state _ _ d)) (s_mu_inv _ _ (d_state _ _ e)) (s_rho _ _ (d_state _ _ d)) (s_inner_tol _ _ (d_state _ _ e)) (s_prim_tol _ _ (d_state _ _ e)) (s_sets _ _ (d_state _ _ d)) (s_target _ _ (d_state _ _ e))
        (mkResults c (r_phi lr) (r_value (s_res _ _ (d_state _ _ d))) xt lt (r_active (s_res _ _ (d_state _ _ d))) (r_dual_infeas (s_res _ _ (d_state _ _ d))) (r_prim_infeas (s_res _ _ (d_state _ _ d))) (r_viol (s_res _ _ (d_state _ _ d))) n (r_al_iters (s_res _ _ (d_state _ _ d))) (r_mu (s_res _ _ (d_state _ _ d))) (r_rho (s_res _ _ (d_state _ _ d))))
        (mkWs _ _ (w_lams_prev _ _ (s_ws _ _ (d_state _ _ e))) (w_x_prev _ _ (s_ws _ _ (d_state _ _ e))) (match lm with Some m' => m_plus m' | None => w_plus _ _ (s_ws _ _ (d_state _ _ d)) end) (match lm with Some m' => m_pdal m' | None => w_pdal _ _ (s_ws _ _ (d_state _ _ d)) end)
           M (w_hess _ _ (s_ws _ _ (d_state _ _ d))) (w_vhp _ _ (s_ws _ _ (d_state _ _ e))) Fc (w_bfgs _ _ (s_ws _ _ (d_state _ _ e))) (r_alpha lr))
        (invoke_callbacks P (mkResults (r_conv (s_res _ _ (d_state _ _ d))) (r_phi lr) (r_value (s_res _ _ (d_state _ _ d))) xt lt (r_active (s_res _ _ (d_state _ _ d))) (r_dual_infeas (s_res _ _ (d_state _ _ d))) (r_prim_infeas (s_res _ _ (d_state _ _ d))) (r_viol (s_res _ _ (d_state _ _ d))) (r_num_iters (s_res _ _ (d_state _ _ d))) (r_al_iters (s_res _ _ (d_state _ _ d))) (r_mu (s_res _ _ (d_state _ _ d))) (r_rho (s_res _ _ (d_state _ _ d)))) (s_events _ _ (d_state _ _ e))))).
    { intros c n. constructor; cbn; try reflexivity.
      - constructor; cbn; try reflexivity; try assumption; unfold fits; cbn; (split; [destruct lm as [m'|]; [apply (LL m' eq_refl)|exact F1]|]);
          (split; [destruct lm as [m'|]; [apply (LL m' eq_refl)|exact F2]|]); (split; [exact F3|]); split; assumption.
      - unfold evsim, invoke_callbacks. cbn. rewrite Ev1, Ev2. eexists. rewrite <- !app_assoc. split; reflexivity. }
    destruct (Nat.leb _ _); [exact (Fin _ _)|]. split; [exact (Fin _ _)|reflexivity].
  Qed.

  Lemma full_mu p s t : full p s t -> r_mu (s_res _ _ s) = r_mu (s_res _ _ t) /\ r_rho (s_res _ _ s) = r_rho (s_res _ _ t).
  Proof. intros F. rewrite (f_res _ _ _ F). split; reflexivity. Qed.
  Hypothesis nobfgs : hess_approx P <> HM_BFGS.
  Hypothesis dmax : sleb (delta_init P) (delta_max P) = true.
  Lemma pass_sim fls fin p s t dl : sim p s t -> evsim s t -> r_mu (s_res _ _ s) = r_mu (s_res _ _ t) -> r_rho (s_res _ _ s) = r_rho (s_res _ _ t) ->
    orel (psim p) (pass fls fin P p s dl) (pass fls fin P p t dl).
  Proof.
    intros I Ev Rm Rr. unfold Solver_model.pass. eapply orel_bind; [apply diagnose_sim; assumption|].
    intros d e _ _ D. pose proof D as (Fu & _ & _ & _ & _ & _ & _ & _ & _ & _ & Ei & Eo & _). rewrite <- Ei, <- Eo, <- (i_it _ _ _ I).
    destruct (_ || _); [exact Fu|]. apply step_sim; assumption.
  Qed.
  Lemma inner_sim p fls fin : forall fuel s t dl, sim p s t -> evsim s t -> r_mu (s_res _ _ s) = r_mu (s_res _ _ t) -> r_rho (s_res _ _ s) = r_rho (s_res _ _ t) ->
    orel (full p) (inner_loop fuel fls fin P p s dl) (inner_loop fuel fls fin P p t dl).
  Proof.
    induction fuel as [|f IH]; intros s t dl I Ev Rm Rr; [exact Logic.I|]. cbn [Solver_model.inner_loop].
    eapply orel_bind; [apply pass_sim; eassumption|]. intros [a|a da] [b|b db] _ _ H; try contradiction; [exact H|].
    destruct H as [F <-]. destruct (full_mu p a b F). apply IH; [apply F|apply F|assumption|assumption].
  Qed.
  Definition fits_ext p s s' : fits p s -> w_plus _ _ (s_ws _ _ s') = w_plus _ _ (s_ws _ _ s) -> w_pdal _ _ (s_ws _ _ s') = w_pdal _ _ (s_ws _ _ s) ->
    r_active (s_res _ _ s') = r_active (s_res _ _ s) -> w_vhp _ _ (s_ws _ _ s') = w_vhp _ _ (s_ws _ _ s) ->
    map (set_prox s0) (s_sets _ _ s') = map (set_prox s0) (s_sets _ _ s) -> fits p s'.
  Proof.
    unfold fits. intros (F1 & F2 & F3 & F4 & W) -> -> -> -> E. repeat (split; [assumption|]). unfold stack in *. 
    assert (G : forall (l l' : list (cset K)) ds, map (set_prox s0) l' = map (set_prox s0) l -> fold_right (fun cn s => snd cn + s) 0 (combine l' ds) = fold_right (fun cn s => snd cn + s) 0 (combine l ds) /\
       (Forall (fun cn => whole (fst cn) (snd cn)) (combine l ds) -> Forall (fun cn => whole (fst cn) (snd cn)) (combine l' ds))).
    { clear. induction l as [|c l IH]; intros [|c' l'] ds; try discriminate; [auto|]. destruct ds as [|d ds]; [cbn; auto|]. cbn [map combine fold_right fst snd].
      intros E. assert (E1 : set_prox s0 c' = set_prox s0 c) by congruence. assert (E2 : map (set_prox s0) l' = map (set_prox s0) l) by congruence.
      destruct (IH l' ds E2) as [A B]. split; [rewrite A; reflexivity|]. intros H. inversion H; subst. constructor; [|apply B; assumption].
      cbn [fst snd] in *. rewrite <- (set_prox_whole s0), E1, set_prox_whole. assumption. }
    destruct (G (s_sets _ _ s) (s_sets _ _ s') (dims p) E) as [A B]. destruct W as [T W]. apply whole_go in W. split; [rewrite A; exact T|]. apply whole_go. apply B, W.
  Qed.
  Lemma prox_map m (l : list (cset K)) : map (set_prox s0) (map (set_prox m) l) = map (set_prox s0) l.
  Proof. rewrite map_map. apply map_ext. intros c. apply set_prox_twice. Qed.

  Ltac fx F G := first [solve [apply (fits_ext _ _ _ F); first [reflexivity | apply prox_map]] | solve [apply (fits_ext _ _ _ G); first [reflexivity | apply prox_map]]].
  Lemma bcl_sim p s t : full p s t -> full p (bcl_update spow fac bfgs P (accept_primal fac bfgs s)) (bcl_update spow fac bfgs P (accept_primal fac bfgs t)).
  Proof.
    intros [I R Pl Pd Ev]. pose proof I as [Hmu Hmui Hrho Hit Hpt Hsets Htgt Hcv Hx Hl Hn Hal Hlp Hk F G].
    assert (A : full p (accept_primal fac bfgs s) (accept_primal fac bfgs t)).
    { constructor; cbn; try assumption. constructor; cbn; try assumption; left; exact Hx. }
    revert A. generalize (accept_primal fac bfgs s) (accept_primal fac bfgs t). clear. intros s t [I R Pl Pd Ev]. pose proof I as [Hmu Hmui Hrho Hit Hpt Hsets Htgt Hcv Hx Hl Hn Hal Hlp Hk F G].
    unfold bcl_update. rewrite <- R, <- Hpt. destruct (sltb _ _).
    - constructor; cbn; rewrite <- ?R, <- ?Pl, <- ?Pd; try reflexivity; try assumption.
      constructor; cbn; rewrite <- ?R, <- ?Pl, <- ?Pd, <- ?Hmu, <- ?Hit, <- ?Hpt; try reflexivity; try assumption; fx F G.
    - unfold tol_failure, update_penalty. rewrite <- Hmu. destruct (seqb _ _); (constructor; cbn; rewrite <- ?R, <- ?Pl, <- ?Pd; try reflexivity; try assumption;
        constructor; cbn; rewrite <- ?R, <- ?Pl, <- ?Pd, <- ?Hmu, <- ?Hit, <- ?Hpt, <- ?Hsets; try reflexivity; try assumption; fx F G).
  Qed.
  Lemma bcl_target (s : state) : s_target _ _ (bcl_update spow fac bfgs P (accept_primal fac bfgs s)) = r_x (s_res _ _ s).
  Proof. unfold bcl_update. destruct (sltb _ _); [reflexivity|]. unfold tol_failure, update_penalty. destruct (seqb _ _); reflexivity. Qed.
  Lemma record_sim p s t : sim p s t -> sim p (record_params fac bfgs s) (record_params fac bfgs t) /\
    r_mu (s_res _ _ (record_params fac bfgs s)) = r_mu (s_res _ _ (record_params fac bfgs t)) /\ r_rho (s_res _ _ (record_params fac bfgs s)) = r_rho (s_res _ _ (record_params fac bfgs t)).
  Proof.
    intros [Hmu Hmui Hrho Hit Hpt Hsets Htgt Hcv Hx Hl Hn Hal Hlp Hk F G]. cbn. split; [|auto].
    constructor; cbn; try assumption; fx F G.
  Qed.
  Lemma outer_body p fo' fi fls fin s t (IH : forall s t, full p s t -> orel (full p) (outer_loop fo' fi fls fin P p s) (outer_loop fo' fi fls fin P p t)) :
    sim p s t -> evsim s t -> Nat.ltb (r_num_iters (s_res _ _ s)) (max_iters P) && Nat.ltb (r_al_iters (s_res _ _ s)) (max_al_iters P) = true ->
    orel (full p) (outer_loop (S fo') fi fls fin P p s) (outer_loop (S fo') fi fls fin P p t).
  Proof.
    intros I Ev B. cbn [Solver_model.outer_loop]. rewrite <- (i_n _ _ _ I), <- (i_al _ _ _ I), B.
    destruct (record_sim p s t I) as (I' & Rm & Rr).
    eapply orel_bind; [apply inner_sim; [exact I'|exact Ev|exact Rm|exact Rr]|]. intros a b _ _ F.
    assert (Te : s_target _ _ (bcl_update spow fac bfgs P (accept_primal fac bfgs a)) = s_target _ _ (bcl_update spow fac bfgs P (accept_primal fac bfgs b))) by (rewrite !bcl_target, (f_res _ _ _ F); reflexivity).
    apply bcl_sim in F. revert F Te. cbv zeta. generalize (bcl_update spow fac bfgs P (accept_primal fac bfgs a)) (bcl_update spow fac bfgs P (accept_primal fac bfgs b)). intros u v F Te.
    rewrite <- (f_res _ _ _ F). destruct F as [J R Pl Pd E]. pose proof J as [Hmu Hmui Hrho Hit Hpt Hsets Htgt Hcv Hx Hl Hn Hal Hlp Hk Fu Fv].
    destruct (sltb _ _).
    - cbn [orel]. constructor; cbn; rewrite <- ?R; try reflexivity; try assumption. constructor; cbn; rewrite <- ?R; try reflexivity; try assumption; fx Fu Fv.
    - apply IH. constructor; cbn; rewrite <- ?R; try reflexivity; try assumption. constructor; cbn; rewrite <- ?R; try reflexivity; try assumption; try fx Fu Fv.
      + rewrite Hrho. reflexivity.
      + left. exact Te.
  Qed.

  Lemma outer_sim p fi fls fin : forall fo s t, full p s t -> orel (full p) (outer_loop fo fi fls fin P p s) (outer_loop fo fi fls fin P p t).
  Proof.
    induction fo as [|fo IH]; intros s t F; [exact Logic.I|].
    destruct (Nat.ltb (r_num_iters (s_res _ _ s)) (max_iters P) && Nat.ltb (r_al_iters (s_res _ _ s)) (max_al_iters P)) eqn:B.
    - apply outer_body; [exact IH|apply F|apply F|exact B].
    - cbn [Solver_model.outer_loop]. rewrite <- (f_res _ _ _ F), B. exact F.
  Qed.

  (** The sizes are kept by every call. *)
  Definition keeps (p : problem) (s s' : state) : Prop := fits p s' /\ map (set_prox s0) (s_sets _ _ s') = map (set_prox s0) (s_sets _ _ s).
  Lemma keeps_trans p a b c : keeps p a b -> keeps p b c -> keeps p a c.
  Proof. intros [F1 E1] [F2 E2]. split; [exact F2|congruence]. Qed.
End Sim.

Section Keep.
  Context {K : Sc}.
  Variables (spow : car K -> car K -> car K) (integrate : list (car K) -> list (car K) -> list (car K))
            (px_val : car K -> list (car K) -> list (car K) -> car K)
            (px_grad : car K -> list (car K) -> list (car K) -> list (car K))
            (px_hess : car K -> list (car K) -> list (car K) -> list (list (car K)))
            (fac : Type) (fac_compute : fac -> list (list (car K)) -> fac) (fac_signature : fac -> list Z)
            (fac_solve : fac -> list (car K) -> list (car K))
            (bfgs : Type) (bfgs_update : bfgs -> list (car K) -> list (car K) -> list (list (car K)) -> bfgs * list (list (car K)))
            (qr : car K -> car K -> car K -> car K -> car K -> car K -> car K * car K).
  Notation state := (@state K fac bfgs).
  Notation problem := (@problem K).
  Notation params := (@params K).
  Notation fits := (fits fac bfgs).
  Notation keeps := (keeps fac bfgs).
  Ltac fx F := solve [apply (fits_ext _ _ _ _ _ F); first [reflexivity | apply prox_map]].
  Lemma diagnose_keeps P p s d : fits p s -> diagnose px_val px_grad px_hess fac bfgs bfgs_update P p s = Ret d -> keeps p s (d_state _ _ d).
  Proof.
    intros F H. pose proof F as (F1 & F2 & F3 & F4 & W). unfold diagnose in H. crack H. injection H as <-. split; [|reflexivity]. unfold DetS_proofs.fits. cbn.
    repeat match goal with H : ub ?o = Ret _ |- _ => destruct o eqn:?; [|discriminate H]; injection H as <- end.
    match goal with H : compute_multipliers _ _ _ _ _ _ _ = Ret _ |- _ => destruct (mult_len _ _ _ _ _ _ _ _ F H) as [L1 L2] end.
    match goal with H : active_set _ _ _ = Some _ |- _ => pose proof (active_len _ _ _ _ _ W F3 H) as L3 end.
    match goal with H : hess_step _ _ _ _ _ _ _ _ _ = Ret _ |- _ => pose proof (hess_len _ _ _ _ _ _ _ _ _ _ _ _ F4 H) as L4 end.
    repeat (split; [assumption|]). exact W.
  Qed.
  Lemma step_keeps fls fin P p d dl r : fits p (d_state _ _ d) -> step integrate px_val fac fac_compute fac_signature fac_solve bfgs qr fls fin P p d dl = Ret r ->
    match r with Stop _ _ s' => keeps p (d_state _ _ d) s' | Next _ _ s' _ => keeps p (d_state _ _ d) s' end.
  Proof.
    intros F H. pose proof F as (F1 & F2 & F3 & F4 & W). unfold step, step_rhs, step_matrix in H. crack H.
    match type of H with context[last_mults ?a ?b ?c ?d ?e ?f ?g ?h ?i ?j] => set (lm := last_mults a b c d e f g h i j) in H;
      assert (LL : forall m', lm = Some m' -> length (m_plus m') = numdual p /\ length (m_pdal m') = numdual p) by (intros m' Q; eapply (last_len a b c d e f g h i j m' F Q)) end.
    match type of H with Ret (if ?b then _ else _) = _ => destruct b end; injection H as <-; (split; [|reflexivity]); unfold DetS_proofs.fits; cbn;
      (split; [destruct lm as [m'|]; [apply (LL m' eq_refl)|exact F1]|]); (split; [destruct lm as [m'|]; [apply (LL m' eq_refl)|exact F2]|]); repeat (split; [assumption|]); exact W.
  Qed.
  Lemma inner_keeps fls fin P p : forall fuel s dl s', fits p s -> inner_loop integrate px_val px_grad px_hess fac fac_compute fac_signature fac_solve bfgs bfgs_update qr fuel fls fin P p s dl = Ret s' -> keeps p s s'.
  Proof.
    induction fuel as [|f IH]; intros s dl s' F H; [discriminate|]. cbn [inner_loop] in H. inv_bind H. unfold pass in E. inv_bind E.
    apply diagnose_keeps in E0; [|exact F]. destruct (_ || _).
    - injection E as <-. injection H as <-. exact E0.
    - apply step_keeps in E; [|apply E0]. destruct v as [s1|s1 d1].
      + injection H as <-. exact (keeps_trans _ _ _ _ _ _ E0 E).
      + apply IH in H; [|apply E]. exact (keeps_trans _ _ _ _ _ _ E0 (keeps_trans _ _ _ _ _ _ E H)).
  Qed.
  Lemma bcl_keeps P p s : fits p s -> keeps p s (bcl_update spow fac bfgs P (accept_primal fac bfgs s)).
  Proof.
    intros F. unfold bcl_update. destruct (sltb _ _).
    - split; [|reflexivity]. destruct F as (F1 & F2 & F3 & F4 & W). unfold DetS_proofs.fits. cbn. auto.
    - unfold tol_failure, update_penalty. destruct (seqb _ _); (split; [fx F|apply prox_map]).
  Qed.
  Lemma outer_keeps fi fls fin P p : forall fo s s', fits p s -> outer_loop spow integrate px_val px_grad px_hess fac fac_compute fac_signature fac_solve bfgs bfgs_update qr fo fi fls fin P p s = Ret s' -> keeps p s s'.
  Proof.
    induction fo as [|fo IH]; intros s s' F H; [discriminate|]. cbn [outer_loop] in H.
    destruct (_ && _); [|injection H as <-; split; [exact F|reflexivity]]. inv_bind H.
    apply inner_keeps in E; [|fx F]. pose proof (bcl_keeps P p v (proj1 E)) as B.
    assert (Q : keeps p s (bcl_update spow fac bfgs P (accept_primal fac bfgs v))) by exact (keeps_trans _ _ _ _ _ _ E B).
    destruct Q as [Qf Qe]. destruct (sltb _ _).
    - injection H as <-. split; [fx Qf|exact Qe].
    - apply IH in H; [|fx Qf]. destruct H as [Hf He]. split; [exact Hf|]. rewrite He. exact Qe.
  Qed.
  Lemma solve_keeps fo fi fls fin P p s x l s' f : fits p s -> solve spow integrate px_val px_grad px_hess fac fac_compute fac_signature fac_solve bfgs bfgs_update qr fo fi fls fin P p (Some s) x l = Ret (s', f) -> keeps p s s'.
  Proof.
    intros F H. unfold solve in H. inv_bind H. injection H as <- <-. apply outer_keeps in E; [|fx F]. destruct E as [Ef Ee]. split; [fx Ef|].
    cbn [s_sets]. rewrite Ee. apply prox_map.
  Qed.
End Keep.

Lemma solve_twice : forall (K : Sc) (O : oracles K) (p : @problem K) (s t : solver_state O) fo fi fls fin (P : @params K) x0 lams0,
  fits _ _ p s -> fits _ _ p t -> map (set_prox s0) (sets s) = map (set_prox s0) (sets t) ->
  bad_mat (w_kkt _ _ (wsp s)) = bad_mat (w_kkt _ _ (wsp t)) ->
  (s_target _ _ s = s_target _ _ t \/ (sltb s0 (rho_init P) = false /\ forall x y y', o_px_val O (rho_init P) y x = o_px_val O (rho_init P) y' x)) ->
  (forall F F' M, o_compute O F M = o_compute O F' M) -> sleb (delta_init P) (delta_max P) = true -> hess_approx P <> HM_BFGS ->
  0 < max_iters P -> 0 < max_al_iters P -> length lams0 = numdual p ->
  same_call s t (run_solve O fo fi fls fin P p (Some s) x0 lams0) (run_solve O fo fi fls fin P p (Some t) x0 lams0).
Proof.
  intros K O p s t fo fi fls fin P x0 lams0 Fs Ft Se Kk T M D N B1 B2 L. unfold run_solve, solve, init_solve.
  assert (S2 : map (set_prox (mu_init P)) (sets s) = map (set_prox (mu_init P)) (sets t)).
  { assert (G : forall l : list (cset K), map (set_prox (mu_init P)) l = map (set_prox (mu_init P)) (map (set_prox s0) l)) by (intros l; rewrite map_map; apply map_ext; intros c; rewrite set_prox_twice; reflexivity).
    rewrite (G (sets s)), (G (sets t)), Se. reflexivity. }
  set (a := reset_counters _ _ (tol_failure _ _ _ P (init_point _ _ p x0 lams0 (set_rho _ _ (rho_init P) (set_penalty _ _ (mu_init P) s))))).
  set (b := reset_counters _ _ (tol_failure _ _ _ P (init_point _ _ p x0 lams0 (set_rho _ _ (rho_init P) (set_penalty _ _ (mu_init P) t))))).
  assert (I : sim (o_px_val O) _ _ p a b).
  { constructor; cbn; rewrite ?L, ?Nat.eqb_refl; try reflexivity; try exact Kk; try exact S2.
    - destruct T as [T|[T1 T2]]; [left; exact T|right; split; [exact T1|intros x; apply T2]].
    - apply (fits_ext _ _ _ _ _ Fs); try reflexivity. apply prox_map.
    - apply (fits_ext _ _ _ _ _ Ft); try reflexivity. apply prox_map. }
  assert (Ev : evsim _ _ (s_events _ _ s) (s_events _ _ t) a b) by (exists []; cbn; rewrite !app_nil_r; split; reflexivity).
  assert (R : orel (full (o_px_val O) _ _ (s_events _ _ s) (s_events _ _ t) p)
     (outer_loop (o_pow O) (o_integrate O) (o_px_val O) (o_px_grad O) (o_px_hess O) (o_fac O) (o_compute O) (o_signature O) (o_solve O) (o_bfgs O) (o_bfgs_update O) (o_qr O) fo fi fls fin P p a)
     (outer_loop (o_pow O) (o_integrate O) (o_px_val O) (o_px_grad O) (o_px_hess O) (o_fac O) (o_compute O) (o_signature O) (o_solve O) (o_bfgs O) (o_bfgs_update O) (o_qr O) fo fi fls fin P p b)).
  { destruct fo as [|fo]; [exact Logic.I|]. apply outer_body; try assumption.
    - intros s1 t1. apply outer_sim; assumption.
    - apply andb_true_intro. split; apply Nat.ltb_lt; assumption. }
  destruct (outer_loop _ _ _ _ _ _ _ _ _ _ _ _ _ _ _ _ _ _ a) as [u| | |], (outer_loop _ _ _ _ _ _ _ _ _ _ _ _ _ _ _ _ _ _ b) as [v| | |]; cbn [orel] in R; try contradiction; cbn; auto.
  destruct R as [_ R _ _ (evs & E1 & E2)]. unfold res. cbn. rewrite R. split; [reflexivity|]. split; [reflexivity|].
  unfold invoke_callbacks. rewrite E1, E2. eexists. rewrite <- !app_assoc. split; reflexivity.
Qed.
Lemma setup_fits : forall (K : Sc) (O : oracles K) (p : @problem K) P sets x f0 b0, length sets = length (p_cons p) ->
  Forall2 (fun c f => whole c (f_nr f)) sets (p_cons p) -> fits _ _ p (setup (o_fac O) (o_bfgs O) P p sets x f0 b0).
Proof.
  intros K O p P cs x f0 b0 L W. unfold fits. cbn. unfold vzero. rewrite !repeat_length, map_length. repeat (split; [reflexivity|]).
  unfold stack, numdual, dims. split.
  - clear - L. revert cs L. induction (p_cons p) as [|f fs IH]; intros [|c cs] L; try discriminate; [reflexivity|]. cbn. f_equal. apply IH. injection L. auto.
  - apply whole_go. clear L. induction W; constructor; assumption.
Qed.
Lemma after_keeps : forall (K : Sc) (O : oracles K) (p : @problem K) s0 s, fits _ _ p s0 -> after O p s0 s -> keeps _ _ p s0 s.
Proof.
  intros K O p a s F H. induction H as [|fo fi fls fin P s x l s' f H IH E]; [split; [exact F|reflexivity]|].
  unfold run_solve in E. apply solve_keeps in E; [|apply IH]. exact (keeps_trans _ _ _ _ _ _ IH E).
Qed.
Lemma same_result : forall (K : Sc) (O : oracles K) (p : @problem K) P0 cs xn f0 b0 (s t : solver_state O) fo fi fls fin (P : @params K) x0 lams0,
  Forall2 (fun c f => whole c (f_nr f)) cs (p_cons p) ->
  after O p (setup (o_fac O) (o_bfgs O) P0 p cs xn f0 b0) s -> after O p (setup (o_fac O) (o_bfgs O) P0 p cs xn f0 b0) t ->
  bad_mat (w_kkt _ _ (wsp s)) = false -> bad_mat (w_kkt _ _ (wsp t)) = false ->
  (s_target _ _ s = s_target _ _ t \/ (sltb s0 (rho_init P) = false /\ forall x y y', o_px_val O (rho_init P) y x = o_px_val O (rho_init P) y' x)) ->
  (forall F F' M, o_compute O F M = o_compute O F' M) -> sleb (delta_init P) (delta_max P) = true -> hess_approx P <> HM_BFGS ->
  0 < max_iters P -> 0 < max_al_iters P -> length lams0 = numdual p ->
  same_call s t (run_solve O fo fi fls fin P p (Some s) x0 lams0) (run_solve O fo fi fls fin P p (Some t) x0 lams0).
Proof.
  intros K O p P0 cs xn f0 b0 s t fo fi fls fin P x0 lams0 W As At Ks Kt T M D N B1 B2 L.
  assert (F : fits _ _ p (setup (o_fac O) (o_bfgs O) P0 p cs xn f0 b0)) by (apply setup_fits; [clear - W; induction W; cbn; congruence|exact W]).
  apply after_keeps in As; [|exact F]. apply after_keeps in At; [|exact F]. destruct As as [Fs Es], At as [Ft Et].
  apply solve_twice; try assumption; [|congruence]. unfold sets. congruence.
Qed.
