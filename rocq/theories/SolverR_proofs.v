(** Solver lemmas over the reals: residuals, optimality conditions, inertia, penalties, merit. *)
From Coq Require Import Reals List Bool Arith ZArith Lia Lra.
From Verif Require Import Scalar Cset_model Cset_spec Cset_proofs Armijo_model Problem_model Solver_model Solver_spec Solver_proofs.
Import ListNotations.
Local Open Scope R_scope.

Lemma eval_cons_spec fs x c : eval_cons (K := RSc) fs x = Ret c -> stacked_values x fs c /\ length c = rows_of fs.
Proof.
  revert c. induction fs as [|f fs IH]; intros c H; cbn in H.
  - injection H as <-. split; [constructor|reflexivity].
  - inv_bind H. inv_bind H. inv_bind H. injection H as <-.
    unfold user in E. destruct (f_val f x) as [v'|] eqn:Ef; [|discriminate]. injection E as ->.
    unfold sized in E0. destruct (length v =? f_nr f)%nat eqn:El; [|discriminate]. injection E0 as <-.
    apply Nat.eqb_eq in El. destruct (IH _ E1) as [I1 I2]. split.
    + constructor; auto.
    + cbn [car RSc] in *. rewrite app_length, I2, El. reflexivity.
Qed.
Lemma jac_cons_spec n fs x J : jac_cons (K := RSc) n fs x = Ret J ->
  stacked_jacobian n x fs J /\ length J = rows_of fs /\ Forall (fun row => length row = n) J.
Proof.
  revert J. induction fs as [|f fs IH]; intros J H; cbn in H.
  - injection H as <-. split; [constructor|]. split; [reflexivity|constructor].
  - inv_bind H. inv_bind H. inv_bind H. injection H as <-.
    unfold user in E. destruct (f_jac f x) as [v'|] eqn:Ef; [|discriminate]. injection E as ->.
    unfold sized2 in E0. destruct (_ && _) eqn:El; [|discriminate]. injection E0 as <-.
    apply andb_true_iff in El as [El Er]. apply Nat.eqb_eq in El.
    assert (Fr : Forall (fun row => length row = n) v).
    { apply Forall_forall. intros row Hr. rewrite forallb_forall in Er. apply Nat.eqb_eq. apply Er. exact Hr. }
    destruct (IH _ E1) as (I1 & I2 & I3). split; [|split].
    + constructor; auto.
    + cbn [car RSc] in *. rewrite app_length, I2, El. reflexivity.
    + apply Forall_app. split; auto.
Qed.

(** *** Infinity norm *)
Definition maxl (v : list R) (m : R) : Prop :=
  (forall a, In a v -> Rabs a <= m) /\ ((v = [] /\ m = 0) \/ exists a, In a v /\ Rabs a = m).
Lemma fold_smax v m0 : let m := fold_left (fun m y => smax (K := RSc) m (sabs (y : car RSc))) v m0 in
  m0 <= m /\ (forall a, In a v -> Rabs a <= m) /\ (m = m0 \/ exists a, In a v /\ Rabs a = m).
Proof.
  revert m0. induction v as [|b v IH]; intros m0; cbn.
  - repeat split; [lra|tauto|left; reflexivity].
  - destruct (IH (smax (K := RSc) m0 (Rabs b))) as (I1 & I2 & I3).
    assert (Hm : m0 <= smax (K := RSc) m0 (Rabs b) /\ Rabs b <= smax (K := RSc) m0 (Rabs b) /\
                 (smax (K := RSc) m0 (Rabs b) = m0 \/ smax (K := RSc) m0 (Rabs b) = Rabs b)).
    { unfold smax; cbn; rcase; repeat split; try lra; auto. }
    cbn in *. destruct Hm as (H1 & H2 & H3). repeat split.
    + lra.
    + intros a [<-|Ha]; [lra|auto].
    + destruct I3 as [I3|(a & Ha & I3)].
      * destruct H3 as [H3|H3]; [left; lra|right; exists b; split; [auto|lra]].
      * right. exists a. auto.
Qed.
Lemma inf_norm_maxl (v : list R) : maxl v (inf_norm (K := RSc) v).
Proof.
  destruct v as [|x v]; cbn.
  - split; [cbn; tauto|left; auto].
  - destruct (fold_smax v (Rabs x)) as (I1 & I2 & I3). cbn in *. split.
    + intros a [<-|Ha]; auto.
    + right. destruct I3 as [I3|(a & Ha & I3)]; [exists x; split; [left; reflexivity|symmetry; exact I3]|exists a; split; [right; exact Ha|exact I3]].
Qed.
Lemma maxl_nth v m : maxl v m -> is_max_abs (fun i => nth i v 0) (length v) m.
Proof.
  intros [H1 H2]. split.
  - intros i Hi. apply H1. apply nth_In. exact Hi.
  - destruct H2 as [[-> ->]|(a & Ha & E)]; [left; auto|right].
    apply (In_nth _ _ 0) in Ha. destruct Ha as (i & Hi & <-). exists i. auto.
Qed.
Lemma maxl_nonneg v m : maxl v m -> 0 <= m.
Proof. intros [_ [[_ ->]|(a & _ & <-)]]; [lra|apply Rabs_pos]. Qed.
Lemma maxl_concat_aux (e : list (list R)) m : maxl (map (inf_norm (K := RSc)) e) m -> maxl (concat e) m.
Proof.
  intros [H1 H2].
  assert (B : forall a, In a (concat e) -> Rabs a <= m).
  { intros a Ha. apply in_concat in Ha as (b & Hb & Ha). pose proof (inf_norm_maxl b) as Hm.
    pose proof (maxl_nonneg _ _ Hm) as Hp. destruct Hm as [Hm _].
    specialize (H1 (inf_norm (K := RSc) b)). rewrite Rabs_pos_eq in H1 by exact Hp.
    apply Rle_trans with (inf_norm (K := RSc) b); [apply Hm; exact Ha|apply H1, in_map; exact Hb]. }
  split; [exact B|]. destruct H2 as [[He ->]|(a & Ha & E)].
  - left. destruct e; [auto|discriminate].
  - apply in_map_iff in Ha as (b & <- & Hb). pose proof (inf_norm_maxl b) as Hm.
    pose proof (maxl_nonneg _ _ Hm) as Hp. rewrite Rabs_pos_eq in E by exact Hp.
    destruct Hm as [Hm [[-> E0]|(a & Ha & E0)]].
    + destruct (concat e) as [|a c] eqn:Ec; [left; split; [reflexivity|lra]|].
      right. exists a. split; [left; reflexivity|]. specialize (B a (or_introl eq_refl)).
      pose proof (Rabs_pos a). cbn in E, E0. lra.
    + right. exists a. split; [apply in_concat; exists b; auto|cbn in *; lra].
Qed.
Lemma maxl_concat (e : list (list R)) : maxl (concat e) (inf_norm (K := RSc) (map (inf_norm (K := RSc)) e)).
Proof. apply maxl_concat_aux. apply inf_norm_maxl. Qed.

(** *** Transposed products *)
Lemma vadd_nth (a b : list R) i : length a = length b -> nth i (vadd (K := RSc) a b) 0 = nth i a 0 + nth i b 0.
Proof.
  revert b i. induction a as [|x a IH]; intros [|y b] i H; cbn in *; try discriminate.
  - destruct i; lra.
  - destruct i; [reflexivity|]. apply IH. lia.
Qed.
Lemma vadd_length (a b : list R) : length a = length b -> length (vadd (K := RSc) a b) = length a.
Proof. intros H. unfold vadd. rewrite map2_length. cbn in *. lia. Qed.
Lemma vscale_nth k (a : list R) i : nth i (vscale (K := RSc) k a) 0 = k * nth i a 0.
Proof.
  unfold vscale. destruct (Nat.lt_ge_cases i (length a)) as [H|H].
  - rewrite (nth_indep _ 0 ((fun x => k * x) 0)) by (rewrite map_length; exact H). cbn. rewrite map_nth. reflexivity.
  - rewrite !nth_overflow; [lra|exact H|rewrite map_length; exact H].
Qed.
Lemma mtv_fold n l (acc : list R) : length acc = n -> Forall (fun row => length row = n) l ->
  length (fold_left (vadd (K := RSc)) l acc) = n /\
  forall i, nth i (fold_left (vadd (K := RSc)) l acc) 0 = nth i acc 0 + fold_right (fun row s => nth i row 0 + s) 0 l.
Proof.
  revert acc. induction l as [|r l IH]; intros acc Ha Hl; cbn.
  - split; [exact Ha|intros; lra].
  - inversion Hl; subst. destruct (IH (vadd (K := RSc) acc r)) as [I1 I2].
    + cbn [car RSc] in *. rewrite vadd_length; congruence.
    + assumption.
    + split; [exact I1|]. intros i. rewrite I2, vadd_nth by (cbn [car RSc] in *; congruence). lra.
Qed.
Lemma mtv_spec n (J : list (list R)) lam : Forall (fun row => length row = n) J ->
  length (mtv (K := RSc) n J lam) = n /\ forall i, (i < n)%nat -> nth i (mtv (K := RSc) n J lam) 0 = jt_lam J lam i.
Proof.
  intros HJ. unfold mtv.
  assert (Hl : Forall (fun row => length row = n) (map2 (fun row a => vscale (K := RSc) a row) J lam)).
  { revert lam. induction HJ; intros [|a lam]; cbn; constructor; auto. unfold vscale. rewrite map_length. exact H. }
  destruct (mtv_fold n _ (vzero (K := RSc) n) (repeat_length _ _) Hl) as [I1 I2]. split; [exact I1|].
  intros i Hi. rewrite I2.
  assert (E0 : nth i (vzero (K := RSc) n) 0 = 0) by (unfold vzero; apply nth_repeat).
  cbn [car RSc s0] in *. rewrite E0, Rplus_0_l. clear. revert lam. induction J as [|r J IH]; intros [|a lam]; cbn; auto.
  rewrite IH. f_equal. apply vscale_nth.
Qed.
Lemma vadd_scale_shifted c mu lam : vadd (K := RSc) c (vscale (K := RSc) mu lam) = shifted c mu lam.
Proof. revert lam. induction c as [|a c IH]; intros [|l lam]; cbn; auto. f_equal. apply IH. Qed.
Lemma shifted_length c mu lam : length (shifted c mu lam) = Nat.min (length c) (length lam).
Proof. revert lam. induction c as [|a c IH]; intros [|l lam]; cbn; auto. Qed.

(** *** The constraint stack *)
Lemma dims_rows (p : @problem RSc) : numdual p = rows_of (p_cons p).
Proof. unfold numdual, dims. induction (p_cons p) as [|f fs IH]; cbn; auto. Qed.
Lemma fit_total sets fs : sets_fit sets fs -> total (combine sets (map f_nr fs)) = rows_of fs.
Proof.
  intros [H _]. induction H as [|c f cs fs Hc H IH]; [reflexivity|].
  unfold total in *. cbn. rewrite IH. reflexivity.
Qed.
Lemma fit_shape sets fs : sets_fit sets fs -> shape (product_of sets (map f_nr fs)) (rows_of fs).
Proof.
  intros [H _]. unfold product_of. rewrite shape_prod. induction H as [|c f cs fs Hc H IH]; cbn; [reflexivity|].
  split; [lia|]. split; [exact Hc|]. replace (f_nr f + rows_of fs - f_nr f)%nat with (rows_of fs) by lia. exact IH.
Qed.
Lemma fit_l1 sets fs mu : sets_fit sets fs -> Forall (fun c => mu_of c = mu) sets -> l1_mu mu (product_of sets (map f_nr fs)).
Proof.
  intros [H F] M. unfold product_of. cbn. induction H as [|c f cs fs Hc H IH]; cbn; [exact I|].
  inversion F; inversion M; subst. split; [|apply IH; assumption].
  destruct c; cbn in *; auto. apply (no_l1_l1_mu (mu_of (K := RSc) (CProd (K := RSc) mu comps)) (CProd (K := RSc) mu comps)). assumption.
Qed.
Lemma blocks_of_spec ds (v : list R) e : blocks_of (K := RSc) ds v = Some e ->
  (fold_right Nat.add 0%nat ds <= length v)%nat /\ concat e = firstn (fold_right Nat.add 0%nat ds) v.
Proof.
  revert v e. induction ds as [|n ds IH]; intros v e H; cbn in H.
  - injection H as <-. cbn. split; [lia|reflexivity].
  - destruct (n <=? length v)%nat eqn:L; [|discriminate]. apply Nat.leb_le in L.
    destruct (blocks_of ds (skipn n v)) as [l|] eqn:E; [|discriminate]. injection H as <-.
    apply IH in E as [E1 E2]. rewrite skipn_length in E1. cbn. split; [cbn in *; lia|].
    cbn [car RSc] in *. rewrite E2. clear - L. revert v L. induction n as [|n IH]; intros v L; [reflexivity|].
    destruct v as [|a v]; cbn in *; [lia|]. f_equal. apply IH. lia.
Qed.

Lemma segment_length {A} st n (v b : list A) : segment st n v = Some b -> length b = n /\ (st + n <= length v)%nat.
Proof.
  unfold segment. destruct (st + n <=? length v)%nat eqn:L; [|discriminate]. apply Nat.leb_le in L.
  intros H. injection H as <-. split; [|exact L]. rewrite firstn_length, skipn_length. lia.
Qed.
Lemma write_length {A} st (b v : list A) : (st + length b <= length v)%nat -> length (write_segment st b v) = length v.
Proof. intros H. unfold write_segment. rewrite !app_length, firstn_length, skipn_length. lia. Qed.
Lemma inplace_total cs : Forall (fun cn : rset * nat => shape (fst cn) (snd cn)) cs -> forall st (o o' : list R),
  (st <= length o)%nat ->
  prod_loop (fun c' zi _ => projection_inplace (K := RSc) c' zi) (fun o => o) cs st o = Some o' ->
  (st + total cs <= length o)%nat.
Proof.
  induction 1 as [|[c n] cs Hc Hs IH]; intros st o o' Hst H; cbn in H.
  - cbn. lia.
  - destruct (segment st n o) as [b|] eqn:S; [|discriminate].
    apply segment_length in S as [S1 S2].
    destruct (projection_inplace c b) as [q|] eqn:Pq; [|discriminate].
    cbn in Hc. rewrite (projection_inplace_coords c n b Hc S1) in Pq. injection Pq as <-.
    assert (Lq : length (map3 hproj (coords c n) b b) = n).
    { rewrite map3_length. rewrite (coords_length c n Hc). cbn in *. lia. }
    apply IH in H; [|cbn in *; rewrite write_length by (rewrite Lq; exact S2); cbn in *; lia].
    cbn in H. rewrite write_length in H by (rewrite Lq; exact S2). unfold total in *. cbn in *. lia.
Qed.
Lemma plus_minus p q z : length p = length q -> plus p q = z -> q = minus z p.
Proof.
  revert q z. induction p as [|a p IH]; intros [|b q] z L H; cbn in *; try discriminate; subst; auto.
  cbn. f_equal; [lra|]. apply IH; [lia|reflexivity].
Qed.

Section R.
  Variables (spow : R -> R -> R) (integrate : list R -> list R -> list R)
            (px_val : R -> list R -> list R -> R)
            (px_grad : R -> list R -> list R -> list R)
            (px_hess : R -> list R -> list R -> list (list R))
            (fac : Type) (fac_compute : fac -> list (list R) -> fac) (fac_signature : fac -> list Z)
            (fac_solve : fac -> list R -> list R)
            (bfgs : Type) (bfgs_update : bfgs -> list R -> list R -> list (list R) -> bfgs * list (list R))
            (qr : R -> R -> R -> R -> R -> R -> R * R).
  Notation state := (@state RSc fac bfgs).
  Notation diagnose := (diagnose (K := RSc) px_val px_grad px_hess fac bfgs bfgs_update).

  Lemma primal_kkt (p : @problem RSc) sets mu c lam viol prim :
    sets_fit sets (p_cons p) -> Forall (fun s => mu_of s = mu) sets -> 0 <= mu ->
    length c = rows_of (p_cons p) ->
    primal_residuals (K := RSc) p mu sets c lam = Ret (viol, prim) ->
    exists sl, length sl = rows_of (p_cons p) /\ in_set (product_of sets (map f_nr (p_cons p))) sl /\
    is_max_abs (fun k => nth k c 0 - nth k sl 0) (rows_of (p_cons p)) prim /\
    (forall w, length w = rows_of (p_cons p) -> in_set (product_of sets (map f_nr (p_cons p))) w ->
       inner (minus (shifted c mu lam) sl) (minus w sl)
         <= mu * (penalty (product_of sets (map f_nr (p_cons p))) w - penalty (product_of sets (map f_nr (p_cons p))) sl)).
  Proof.
    intros Fit Mu Hmu Lc H. unfold primal_residuals in H. inv_bind H. inv_bind H. injection H as <- <-.
    unfold ub in E. rewrite vadd_scale_shifted in E.
    change (stack p sets) with (product_of sets (map f_nr (p_cons p))) in E.
    destruct (projection_inplace (product_of sets (map f_nr (p_cons p))) (shifted c mu lam)) as [sl|] eqn:Ep; [|discriminate].
    injection E as ->.
    pose proof (fit_shape _ _ Fit) as Sh. pose proof (fit_total _ _ Fit) as Tt.
    assert (Lz : length (shifted c mu lam) = rows_of (p_cons p)).
    { pose proof (shifted_length c mu lam) as L1. cbn [projection_inplace product_of] in Ep.
      pose proof Sh as Sh2. unfold product_of in Sh2. rewrite shape_prod in Sh2. apply shape_total in Sh2 as [_ Sh2].
      apply inplace_total in Ep; [|exact Sh2|lia]. cbn in *. lia. }
    rewrite (lem_inplace _ _ _ (shifted c mu lam) Sh Lz Lz) in Ep.
    destruct (lem_moreau _ _ mu _ (shifted c mu lam) (shifted c mu lam) Sh (fit_l1 _ _ mu Fit Mu) Hmu Lz Lz Lz)
      as (p0 & q & E1 & E2 & L1 & L2 & Sm & In & Var).
    rewrite E1 in Ep. injection Ep as ->. exists v. split; [exact L1|]. split; [exact In|]. split.
    - unfold ub in E0. destruct (blocks_of (dims p) (vsub (K := RSc) c v)) as [e|] eqn:Eb; [|discriminate]. injection E0 as ->.
      apply blocks_of_spec in Eb as [B1 B2]. pose proof (maxl_concat v0) as Mx.
      fold (numdual p) in B1, B2. rewrite dims_rows in B1, B2.
      assert (Lv : length (vsub (K := RSc) c v) = rows_of (p_cons p)).
      { unfold vsub. rewrite map2_length. cbn in *. lia. }
      cbn [car RSc] in *. rewrite B2, <- Lv, firstn_all in Mx. apply maxl_nth in Mx. rewrite Lv in Mx.
      assert (Nt : forall i, (i < rows_of (p_cons p))%nat -> nth i (vsub (K := RSc) c v) 0 = nth i c 0 - nth i v 0).
      { rewrite vsub_map2. intros i Hi. rewrite <- Lc in Hi. cbn in L1. rewrite <- Lc in L1. clear - L1 Hi. revert v L1 i Hi.
        induction c as [|a c IH]; intros [|b v] L i Hi; cbn in *; try discriminate; [lia|].
        destruct i; [reflexivity|]. apply IH; lia. }
      destruct Mx as [M1 M2]. split.
      + intros i Hi. rewrite <- Nt by exact Hi. apply M1. exact Hi.
      + destruct M2 as [M2|(i & Hi & E)]; [left; exact M2|right; exists i; split; [exact Hi|]]. rewrite <- Nt by exact Hi. exact E.
    - intros w Lw Iw. specialize (Var w Lw Iw).
      assert (Hq : q = minus (shifted c mu lam) v) by (apply plus_minus; [cbn in *; lia|exact Sm]).
      rewrite <- Hq. exact Var.
  Qed.

  Lemma diagnose_kkt P p (s : state) d : diagnose P p s = Ret d ->
    sets_fit (s_sets _ _ s) (p_cons p) -> Forall (fun c => mu_of c = s_mu _ _ s) (s_sets _ _ s) -> 0 <= s_mu _ _ s ->
    kkt_residuals p (s_sets _ _ s) (s_mu _ _ s) (r_x (s_res _ _ s)) (r_lams (s_res _ _ s))
      (r_prim_infeas (s_res _ _ (d_state _ _ d))) (r_dual_infeas (s_res _ _ (d_state _ _ d))).
  Proof.
    intros H Fit Mu Hmu. apply diagnose_inv in H.
    destruct H as (f & c & m & g & J & vi & pr & me & ac & b & h & v & Ev & Dv & _ & Pr & _ & _ & _ & ->).
    cbn. unfold evaluate_problem in Ev. inv_bind Ev. inv_bind Ev. injection Ev as <- <-.
    unfold derivs_problem in Dv. inv_bind Dv. inv_bind Dv. inv_bind Dv. injection Dv as <- <-.
    unfold user in E1. destruct (p_grad p _) as [g'|] eqn:Eg; [|discriminate]. injection E1 as ->.
    unfold sized in E2. destruct (_ =? _)%nat eqn:El; [|discriminate]. injection E2 as <-. apply Nat.eqb_eq in El.
    apply eval_cons_spec in E0 as [Sv Lc]. apply jac_cons_spec in E3 as (Sj & Lj & Fj).
    destruct (primal_kkt _ _ _ _ _ _ _ Fit Mu Hmu Lc Pr) as (sl & A1 & A2 & A3 & A4).
    exists v2, v4, v1, sl. repeat split; auto; try apply A3.
    - intros i Hi. unfold lagrangian_grad. destruct (mtv_spec _ _ (r_lams (s_res fac bfgs s)) Fj) as [M1 M2].
      pose proof (inf_norm_maxl (dual_residual (K := RSc) p v2 v4 (r_lams (s_res fac bfgs s)))) as Mx.
      apply maxl_nth in Mx. destruct Mx as [Mx _]. unfold dual_residual in *. cbn in El, M1.
      rewrite vadd_length in Mx by (cbn; congruence). cbn in Mx. rewrite El in Mx.
      specialize (Mx i Hi). rewrite vadd_nth, M2 in Mx by (try exact Hi; cbn; congruence). exact Mx.
    - destruct (mtv_spec _ _ (r_lams (s_res fac bfgs s)) Fj) as [M1 M2].
      pose proof (inf_norm_maxl (dual_residual (K := RSc) p v2 v4 (r_lams (s_res fac bfgs s)))) as Mx.
      apply maxl_nth in Mx. destruct Mx as [_ Mx]. unfold dual_residual in *. cbn in El, M1.
      rewrite vadd_length in Mx by (cbn; congruence). cbn in Mx. rewrite El in Mx.
      destruct Mx as [Mx|(i & Hi & Mx)]; [left; exact Mx|right]. exists i. split; [exact Hi|].
      rewrite vadd_nth, M2 in Mx by (try exact Hi; cbn; congruence). exact Mx.
  Qed.

  Notation solve := (solve (K := RSc) spow integrate px_val px_grad px_hess fac fac_compute fac_signature fac_solve bfgs bfgs_update qr).
  Lemma fit_prox m sets fs : sets_fit sets fs -> sets_fit (map (set_prox (K := RSc) m) sets) fs.
  Proof.
    intros [H F]. split.
    - clear F. induction H as [|c f cs fs Hc H IH]; cbn; constructor; auto. destruct c; exact Hc.
    - apply Forall_forall. intros c Hc. apply in_map_iff in Hc as (c' & <- & Hc'). rewrite Forall_forall in F.
      specialize (F c' Hc'). destruct c'; cbn in *; auto.
  Qed.
  Lemma smax_R_ge a b : b <= smax (K := RSc) a b /\ a <= smax (K := RSc) a b.
  Proof. unfold smax. cbn. rcase; lra. Qed.

  Lemma solve_kkt fo fi fls fin P p (s : state) x0 lams0 s' :
    mul_update P = MM_NEWTON -> 0 < mu_init P -> 0 < mu_lower P -> sets_fit (s_sets _ _ s) (p_cons p) ->
    solve fo fi fls fin P p (Some s) x0 lams0 = Ret (s', SUCCESS) ->
    let r := s_res _ _ s' in
    0 < r_mu r /\ s_mu _ _ s' = r_mu r /\
    kkt_residuals p (map (set_prox (K := RSc) (r_mu r)) (s_sets _ _ s)) (r_mu r) (r_x r) (r_lams r) (r_prim_infeas r) (r_dual_infeas r) /\
    r_prim_infeas r < target_tol P /\ r_dual_infeas r < target_tol P.
  Proof.
    intros Nw H0 Hl Fit H.
    assert (C : mu_closed (K := RSc) P (fun m => 0 < m)).
    { split; [exact H0|]. intros m Hm _. pose proof (smax_R_ge (m * mu_factor P) (mu_lower P)). cbn in *. lra. }
    destruct (solve_success _ _ _ _ _ _ _ _ _ _ _ _ _ _ _ _ _ _ _ _ _ _ _ C H)
      as (a & t & [_ [u Tp]] & (Pa & _ & Pc) & Sa & Ua & Na & Fr & En & St & -> & -> & _).
    pose proof (after_bcl_keeps spow fac bfgs P t) as Kp. cbv zeta in Kp.
    destruct Kp as (_ & _ & _ & Kx & _ & Kd & Kpr & _ & _ & _ & Km & _ & _ & _ & _ & Kl). specialize (Kl Nw).
    cbn [set_conv s_res r_mu r_x r_lams r_prim_infeas r_dual_infeas]. rewrite Kx, Kd, Kpr, Km, Kl.
    unfold stop_ok in St. rewrite Kd, Kpr in St. cbn in St. rhyp.
    pose proof (smax_R_ge (r_prim_infeas (s_res _ _ t)) (r_dual_infeas (s_res _ _ t))) as [G1 G2]. cbn in G1, G2.
    destruct Fr as (F1 & F2 & F3 & F4 & F5 & F6 & F7 & F8 & F9 & F10 & F11 & F12). cbn in F1, F2, F3, F4, F5, F6, F7, F8, F9, F10, F11, F12.
    rewrite F11.
    split; [exact Pa|]. split.
    { destruct (after_bcl_pen spow fac bfgs P t) as [(-> & _)|(m & _ & _ & _ & Bad & _)]; [exact F1|]. exfalso.
      cbn in Bad. rhyp. rewrite F5, Tp in Bad. pose proof (smax_R_ge u (target_tol P)). cbn in *. lra. }
    split; [|split; lra].
    destruct En as (b & d & D & Fb & _ & [(-> & _ & _)|(_ & _ & _ & Oc & Ep & Ed)]).
    - destruct Fb as (B1 & _ & _ & _ & _ & B6 & _). cbn in B1, B6.
      apply diagnose_frame in D as D'. destruct D' as (_ & _ & _ & _ & Dx & Dl & _).
      rewrite Dx, Dl. unfold sets_from in Sa.
      apply diagnose_kkt in D.
      + rewrite B1, B6 in D. rewrite <- Sa. exact D.
      + rewrite B6, Sa. apply fit_prox. exact Fit.
      + rewrite B6, B1. exact Pc.
      + rewrite B1. cbn in Pa. lra.
    - exfalso. cbn in Oc. rhyp. apply diagnose_frame in D as (_ & _ & _ & _ & _ & _ & Do).
      rewrite Do, <- Ep, <- Ed in Oc. cbn in Oc. lra.
  Qed.
End R.

(** *** Inertia *)
Lemma inertia_loop_spec sig : forall a b c,
  (Forall (fun z => z = 1 \/ z = -1 \/ z = 0)%Z sig ->
   inertia_tuple_loop sig a b c = Some (a + count 1 sig, b + count (-1) sig, c + count 0 sig)%nat) /\
  (inertia_tuple_loop sig a b c <> None -> Forall (fun z => z = 1 \/ z = -1 \/ z = 0)%Z sig).
Proof.
  induction sig as [|z sig IH]; intros a b c; cbn [inertia_tuple_loop count].
  - split; [intros _; rewrite !Nat.add_0_r; reflexivity|constructor].
  - destruct (Z.eqb_spec z 1) as [->|N1]; [|destruct (Z.eqb_spec z (-1)) as [->|N2]; [|destruct (Z.eqb_spec z 0) as [->|N3]]].
    + destruct (IH (S a) b c) as [I1 I2]. split.
      * intros H. inversion H; subst. rewrite I1 by assumption. cbn. f_equal. f_equal. f_equal. lia.
      * intros H. constructor; auto.
    + destruct (IH a (S b) c) as [I1 I2]. split.
      * intros H. inversion H; subst. rewrite I1 by assumption. cbn. f_equal. f_equal. f_equal. lia.
      * intros H. constructor; auto.
    + destruct (IH a b (S c)) as [I1 I2]. split.
      * intros H. inversion H; subst. rewrite I1 by assumption. cbn. f_equal. f_equal. lia.
      * intros H. constructor; auto.
    + split; [|congruence]. intros H. inversion H; subst. exfalso. intuition congruence.
Qed.
Lemma check_inertia_spec ndx nc sig :
  (Forall (fun z => z = 1 \/ z = -1 \/ z = 0)%Z sig ->
   check_inertia ndx nc sig =
     Some (if (count 0 sig =? 0)%nat then
             (if (count 1 sig =? ndx)%nat && (count (-1) sig =? nc)%nat then INERTIA_OK else INERTIA_BAD)
           else INERTIA_HAS_ZEROS)) /\
  (~ Forall (fun z => z = 1 \/ z = -1 \/ z = 0)%Z sig -> check_inertia ndx nc sig = None).
Proof.
  unfold check_inertia, inertia_tuple. destruct (inertia_loop_spec sig 0 0 0) as [I1 I2]. split.
  - intros H. rewrite I1 by exact H. cbn [Nat.add]. f_equal.
    destruct (count 0 sig =? 0)%nat, (count 1 sig =? ndx)%nat, (count (-1) sig =? nc)%nat; reflexivity.
  - intros H. destruct (inertia_tuple_loop sig 0 0 0) eqn:E; [|reflexivity]. exfalso. apply H, I2. congruence.
Qed.

(** *** Regularisation of the KKT matrix *)
Lemma map2_ext2 {A B C} (f g : A -> B -> C) l m : (forall a b, f a b = g a b) -> map2 f l m = map2 g l m.
Proof. intros H. revert m. induction l as [|a l IH]; intros [|b m]; cbn; auto. rewrite H, IH. reflexivity. Qed.
Lemma map2_map2 {A B C D} (f : A -> C -> D) (g : A -> B -> C) l m :
  map2 f l (map2 g l m) = map2 (fun a b => f a (g a b)) l m.
Proof. revert m. induction l as [|a l IH]; intros [|b m]; cbn; auto. rewrite IH. reflexivity. Qed.
Lemma map2_seq_id {B} (f : nat -> B -> B) s m : (forall i b, f i b = b) -> map2 f (seq s (length m)) m = m.
Proof. intros H. revert s. induction m as [|b m IH]; intros s; cbn; auto. rewrite H, IH. reflexivity. Qed.
Lemma map2_seq_length {B C} (f : nat -> B -> C) s (m : list B) : length (map2 f (seq s (length m)) m) = length m.
Proof. rewrite map2_length, seq_length. lia. Qed.

Lemma upd_diag_twice (op op' : R -> R -> R) ndx dl (M : list (list R)) :
  (forall a, op' (op a dl) dl = a) -> upd_diag (K := RSc) op' ndx dl (upd_diag (K := RSc) op ndx dl M) = M.
Proof.
  intros H. unfold upd_diag. cbn [car RSc]. rewrite map2_seq_length, map2_map2. apply map2_seq_id.
  intros i row. rewrite map2_seq_length, map2_map2. apply map2_seq_id.
  intros j a. destruct (_ && _); auto.
Qed.
Lemma upd_diag_zero (M : list (list R)) ndx : upd_diag (K := RSc) Rminus ndx 0 M = M.
Proof.
  unfold upd_diag. cbn [car RSc]. apply map2_seq_id. intros i row. apply map2_seq_id. intros j a. destruct (_ && _); lra.
Qed.

Lemma nth_map2_seq {B C} (f : nat -> B -> C) (m : list B) s i b0 c0 : (i < length m)%nat ->
  nth i (map2 f (seq s (length m)) m) c0 = f (s + i)%nat (nth i m b0).
Proof.
  revert s i. induction m as [|b m IH]; intros s i Hi; cbn in *; [lia|].
  destruct i; [rewrite Nat.add_0_r; reflexivity|]. rewrite IH by lia. rewrite Nat.add_succ_r. reflexivity.
Qed.
(** Entries of a matrix with [delta] added to the first [ndx] diagonal entries. *)
Lemma upd_diag_get op ndx dl (M : list (list R)) i j : (i < length M)%nat -> (j < length (nth i M []))%nat ->
  mget (K := RSc) (upd_diag (K := RSc) op ndx dl M) i j =
  if (i =? j)%nat && (i <? ndx)%nat then op (mget (K := RSc) M i j) dl else mget (K := RSc) M i j.
Proof.
  intros Hi Hj. unfold mget, upd_diag. cbn [car RSc] in *.
  rewrite (nth_map2_seq _ M 0 i [] []) by exact Hi. cbn [Nat.add].
  rewrite (nth_map2_seq _ (nth i M []) 0 j 0 0) by exact Hj. reflexivity.
Qed.

(** [N] is [M] with [delta] added to its first [ndx] diagonal entries. *)
Lemma upd_diag_plus ndx dl M : plus_diag ndx dl M (upd_diag (K := RSc) Rplus ndx dl M).
Proof.
  split; [|split].
  - unfold upd_diag. apply map2_seq_length.
  - intros i. unfold upd_diag. destruct (Nat.lt_ge_cases i (length M)) as [H|H].
    + rewrite (nth_map2_seq _ M 0 i [] []) by exact H. apply map2_seq_length.
    + rewrite !nth_overflow; auto. cbn [car RSc]. rewrite map2_seq_length. exact H.
  - intros i j Hi Hj. pose proof (upd_diag_get Rplus ndx dl M i j Hi Hj) as H. unfold mget in H. cbn [car RSc s0] in H.
    rewrite H. destruct (_ && _); lra.
Qed.
Lemma plus_diag_zero ndx M : plus_diag ndx 0 M M.
Proof. split; [reflexivity|]. split; [reflexivity|]. intros. destruct (_ && _); lra. Qed.

Section Inertia.
  Variables (fac : Type) (fac_compute : fac -> list (list R) -> fac) (fac_signature : fac -> list Z).
  Lemma inertia_exact : forall fuel P ndx nc M F delta dl M' F' delta' dl',
    0 <= delta -> 0 < delta_nz_init P -> 0 < delta_min P -> 0 <= del_inc_k P -> 0 <= del_inc_big P ->
    inertia_loop (K := RSc) fac fac_compute fac_signature fuel P ndx nc M F delta dl = Ret (M', F', delta', dl') ->
    M' = M /\
    ((exists F0 N, F' = fac_compute F0 N /\ plus_diag ndx delta' M N /\ 0 <= delta' <= delta_max P /\ dl' = delta' /\
        check_inertia ndx nc (fac_signature F') = Some INERTIA_OK)
     \/ (delta_max P < delta' /\ dl' = dl)).
  Proof.
    induction fuel as [|f IH]; intros P ndx nc M F delta dl M' F' delta' dl' Hd Hnz Hmin Hk Hb H; [discriminate|].
    cbn [inertia_loop] in H. cbn [sleb sltb s0 RSc] in H.
    destruct (Rleb delta (delta_max P)) eqn:El.
    - set (M1 := if Rltb 0 delta then upd_diag (K := RSc) sadd ndx delta M else M) in *.
      assert (E2 : upd_diag (K := RSc) ssub ndx delta M1 = M).
      { unfold M1. destruct (Rltb 0 delta) eqn:E0; rhyp.
        - apply (upd_diag_twice Rplus Rminus). intros a. lra.
        - assert (delta = 0) as -> by lra. apply upd_diag_zero. }
      assert (E1 : plus_diag ndx delta M M1).
      { unfold M1. destruct (Rltb 0 delta) eqn:E0; rhyp.
        - apply upd_diag_plus.
        - assert (delta = 0) as -> by lra. apply plus_diag_zero. }
      clearbody M1. cbv zeta in H. cbn [car RSc] in H. rewrite E2 in H. rhyp.
      assert (Hrec : forall d, (inertia_loop (K := RSc) fac fac_compute fac_signature f P ndx nc M (fac_compute F M1) d dl = Ret (M', F', delta', dl')) -> 0 <= d -> 
         M' = M /\
        ((exists F0 N, F' = fac_compute F0 N /\ plus_diag ndx delta' M N /\ 0 <= delta' <= delta_max P /\ dl' = delta' /\
            check_inertia ndx nc (fac_signature F') = Some INERTIA_OK)
         \/ (delta_max P < delta' /\ dl' = dl))).
      { intros d Hr Hdd. exact (IH _ _ _ _ _ _ _ _ _ _ _ Hdd Hnz Hmin Hk Hb Hr). }
      assert (Hnn : forall c : R, 0 <= (if Reqb delta 0 then if Reqb dl 0 then delta_nz_init P else smax (K := RSc) (delta_min P) c
                              else if Reqb dl 0 then delta * del_inc_big P else delta * del_inc_k P)).
      { intros c. destruct (Reqb delta 0), (Reqb dl 0); try lra.
        - pose proof (smax_R_ge (delta_min P) c). cbn in *. lra.
        - apply Rmult_le_pos; assumption.
        - apply Rmult_le_pos; assumption. }
      destruct (check_inertia ndx nc (fac_signature (fac_compute F M1))) as [[| |]|] eqn:Ec.
      + injection H as <- <- <- <-. split; [reflexivity|]. left. exists F, M1. repeat split; auto; try apply E1.
      + apply Hrec in H; [exact H|apply Hnn].
      + apply Hrec in H; [exact H|apply Hnn].
      + discriminate.
    - injection H as <- <- <- <-. rhyp. split; [reflexivity|]. right. auto.
  Qed.
End Inertia.

(** *** KKT matrix *)
Lemma mtab_get r c f i j : (i < r)%nat -> (j < c)%nat -> mget (K := RSc) (mtab (K := RSc) r c f) i j = f i j.
Proof.
  intros Hi Hj. unfold mget, mtab.
  rewrite (nth_indep _ [] (map (f 0%nat) (seq 0 c))) by (rewrite map_length, seq_length; exact Hi).
  rewrite (map_nth (fun i => map (f i) (seq 0 c)) (seq 0 r) 0%nat i), seq_nth by exact Hi. cbn [Nat.add].
  rewrite (nth_indep _ _ (f i 0%nat)) by (rewrite map_length, seq_length; exact Hj).
  rewrite (map_nth (f i) (seq 0 c) 0%nat j), seq_nth by exact Hj. reflexivity.
Qed.
Lemma kkt_blocks ndx nd A Jp d i j : (i < ndx + nd)%nat -> (j < ndx + nd)%nat ->
  mget (K := RSc) (assemble_kkt (K := RSc) ndx nd A Jp d) i j =
  if (i <? ndx)%nat then (if (j <? ndx)%nat then mget (K := RSc) A i j else mget (K := RSc) Jp (j - ndx) i)
  else if (j <? ndx)%nat then mget (K := RSc) Jp (i - ndx) j
  else if (i =? j)%nat then nth (i - ndx) d 0 else 0.
Proof. intros Hi Hj. unfold assemble_kkt. apply mtab_get; assumption. Qed.
Lemma kkt_symmetric ndx nd A Jp d :
  (forall i j, (i < ndx)%nat -> (j < ndx)%nat -> mget (K := RSc) A i j = mget (K := RSc) A j i) ->
  forall i j, (i < ndx + nd)%nat -> (j < ndx + nd)%nat ->
  mget (K := RSc) (assemble_kkt (K := RSc) ndx nd A Jp d) i j = mget (K := RSc) (assemble_kkt (K := RSc) ndx nd A Jp d) j i.
Proof.
  intros HA i j Hi Hj. rewrite !kkt_blocks by assumption.
  destruct (Nat.ltb_spec i ndx), (Nat.ltb_spec j ndx); auto.
  rewrite (Nat.eqb_sym j i). destruct (Nat.eqb_spec i j); [subst; reflexivity|reflexivity].
Qed.
