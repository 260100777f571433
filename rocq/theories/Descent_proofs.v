(** The step of the solver is a descent direction of the merit function. *)
From Coq Require Import Reals List Bool Arith ZArith Lia Lra.
From Verif Require Import Scalar Cset_model Cset_spec Cset_proofs Armijo_model Problem_model Solver_model Solver_spec Merit_spec
  Solver_proofs SolverR_proofs Merit_proofs SolverS_proofs Lin_spec Lin_proofs Ldlt_spec Ldlt_proofs Bk_spec BkV_proofs Inertia_proofs BkX_proofs Descent_spec.
Import ListNotations.
Local Open Scope R_scope.
Local Notation mx := (nat -> nat -> R).

Lemma sumn_rsum n f : sumn n f = rsum n f.
Proof. induction n as [|n IH]; cbn; [reflexivity|]. rewrite IH. reflexivity. Qed.

(** ** The identity on functions *)
Lemma row_equation np nd (A : mx) g x k : regularised np (np + nd) A -> (k < nd)%nat ->
  mvec (np + nd) (mirror A) x (np + k) = - g (np + k)%nat ->
  rsum np (fun i => A (np + k)%nat i * x i) + A (np + k)%nat (np + k)%nat * x (np + k)%nat = - g (np + k)%nat.
Proof.
  intros [R1 R2] Hk H. unfold mvec in H. rewrite rsum_split in H. rewrite (rsum_one nd _ k Hk) in H.
  - rewrite (rsum_ext np _ (fun i => A (np + k)%nat i * x i)) in H by (intros i Hi; unfold mirror; bd; reflexivity).
    unfold mirror in H. rewrite Nat.leb_refl in H. exact H.
  - intros j Hj Ne. unfold mirror. bd; rewrite R2 by lia; ring.
Qed.
Lemma descent_core np nd (A : mx) g x mg md mu w : 0 < mu -> regularised np (np + nd) A ->
  (forall i, (i < np + nd)%nat -> mvec (np + nd) (mirror A) x i = - g i) ->
  (forall i, (i < np)%nat -> mg i = g i - rsum nd (fun k => A (np + k)%nat i * (2 / mu * md k))) ->
  (forall k, (k < nd)%nat -> (A (np + k)%nat (np + k)%nat = - mu /\ g (np + k)%nat = - md k /\ w k = mu) \/
     ((forall i, (i < np)%nat -> A (np + k)%nat i = 0) /\ w k = mu / 2 /\ g (np + k)%nat * (mu / 2) = md k * A (np + k)%nat (np + k)%nat)) ->
  rsum np (fun i => mg i * x i) + rsum nd (fun k => md k * x (np + k)%nat) = - al_form np (np + nd) A x - rsum nd (fun k => md k * md k / w k).
Proof.
  intros Hmu Rg H Hm Hk. pose proof (kkt_descent np (np + nd) A g x ltac:(lia) Rg H) as D. replace (np + nd - np)%nat with nd in D by lia.
  set (J := fun k => rsum np (fun i => A (np + k)%nat i * x i)).
  assert (S : rsum np (fun i => mg i * x i) = rsum np (fun i => x i * (g i + rsum nd (fun k => A (np + k)%nat i * (g (np + k)%nat / - A (np + k)%nat (np + k)%nat))))
            - rsum nd (fun k => J k * (2 / mu * md k + g (np + k)%nat / - A (np + k)%nat (np + k)%nat))).
  { rewrite (rsum_ext np (fun i => mg i * x i) (fun i => x i * (g i + rsum nd (fun k => A (np + k)%nat i * (g (np + k)%nat / - A (np + k)%nat (np + k)%nat)))
       - rsum nd (fun k => A (np + k)%nat i * x i * (2 / mu * md k + g (np + k)%nat / - A (np + k)%nat (np + k)%nat)))).
    - rewrite rsum_minus. f_equal. rewrite rsum_swap. apply rsum_ext. intros k Hk0. rewrite rsum_scale_r. reflexivity.
    - intros i Hi. rewrite Hm by exact Hi.
      rewrite (rsum_ext nd (fun k => A (np + k)%nat i * x i * _) (fun k => x i * (A (np + k)%nat i * (2 / mu * md k)) + x i * (A (np + k)%nat i * (g (np + k)%nat / - A (np + k)%nat (np + k)%nat)))) by (intros; ring).
      rewrite rsum_plus, !rsum_scale. ring. }
  rewrite S, D.
  enough (E : rsum nd (fun k => md k * x (np + k)%nat) - rsum nd (fun k => J k * (2 / mu * md k + g (np + k)%nat / - A (np + k)%nat (np + k)%nat)) = - rsum nd (fun k => md k * md k / w k)) by lra.
  rewrite <- rsum_minus. replace (- rsum nd (fun k => md k * md k / w k)) with (-1 * rsum nd (fun k => md k * md k / w k)) by ring. rewrite <- rsum_scale.
  apply rsum_ext. intros k Hk0. pose proof (row_equation np nd A g x k Rg Hk0 (H (np + k)%nat ltac:(lia))) as E. change (J k + A (np + k)%nat (np + k)%nat * x (np + k)%nat = - g (np + k)%nat) in E.
  destruct Rg as [R1 _]. specialize (R1 (np + k)%nat ltac:(lia) ltac:(lia)). destruct (Hk k Hk0) as [(D1 & D2 & ->)|(D1 & -> & D2)].
  - rewrite D1, D2 in E. rewrite D1, D2. assert (EJ : J k = md k + mu * x (np + k)%nat) by lra. rewrite EJ. field. lra.
  - assert (J0 : J k = 0) by (unfold J; apply rsum_zero; intros i Hi; rewrite D1 by exact Hi; ring). rewrite J0 in *.
    set (a := A (np + k)%nat (np + k)%nat) in *.
    assert (X : x (np + k)%nat = - (2 / mu * md k)).
    { apply (Rmult_eq_reg_l a); [|lra]. replace (a * x (np + k)%nat) with (- g (np + k)%nat) by lra. 
      replace (a * - (2 / mu * md k)) with (- (2 / mu * (md k * a))) by ring. rewrite <- D2. field. lra. }
    rewrite X. field. lra.
Qed.
(** Without descent the merit function is stationary. *)
Lemma descent_strict np nd (A : mx) g x mg md mu w : 0 < mu -> regularised np (np + nd) A -> al_convex np (np + nd) A ->
  (forall i, (i < np + nd)%nat -> mvec (np + nd) (mirror A) x i = - g i) ->
  (forall i, (i < np)%nat -> mg i = g i - rsum nd (fun k => A (np + k)%nat i * (2 / mu * md k))) ->
  (forall k, (k < nd)%nat -> (A (np + k)%nat (np + k)%nat = - mu /\ g (np + k)%nat = - md k /\ w k = mu) \/
     ((forall i, (i < np)%nat -> A (np + k)%nat i = 0) /\ w k = mu / 2 /\ g (np + k)%nat * (mu / 2) = md k * A (np + k)%nat (np + k)%nat)) ->
  rsum np (fun i => mg i * x i) + rsum nd (fun k => md k * x (np + k)%nat) < 0 \/
  ((forall i, (i < np)%nat -> mg i = 0) /\ (forall k, (k < nd)%nat -> md k = 0) /\ forall i, (i < np + nd)%nat -> x i = 0).
Proof.
  intros Hmu Rg Cx H Hm Hk. rewrite (descent_core np nd A g x mg md mu w Hmu Rg H Hm Hk).
  assert (W : forall k, (k < nd)%nat -> 0 < w k) by (intros k Hk0; destruct (Hk k Hk0) as [(_ & _ & ->)|(_ & -> & _)]; lra).
  assert (Q : forall n, (n <= nd)%nat -> 0 <= rsum n (fun k => md k * md k / w k) /\ (rsum n (fun k => md k * md k / w k) = 0 -> forall k, (k < n)%nat -> md k = 0)).
  { induction n as [|n IH]; intros Hn; [split; [cbn; lra|intros; lia]|]. destruct (IH ltac:(lia)) as [I1 I2]. cbn [rsum].
    assert (Z : 0 <= md n * md n / w n) by (unfold Rdiv; apply Rmult_le_pos; [apply Rle_0_sqr|left; apply Rinv_0_lt_compat, W; lia]).
    split; [lra|]. intros E k Hk0. destruct (Nat.eq_dec k n) as [->|]; [|apply I2; [lra|lia]].
    assert (E2 : md n * md n / w n = 0) by lra. unfold Rdiv in E2. apply Rmult_integral in E2. destruct E2 as [E2|E2].
    - apply Rmult_integral in E2. tauto.
    - exfalso. pose proof (Rinv_0_lt_compat _ (W n ltac:(lia))). lra. }
  destruct (Q nd (le_n _)) as [Q1 Q2].
  destruct (zero_or_not np x) as [Z|Z]; [|left; pose proof (Cx x Z); lra].
  assert (F0 : al_form np (np + nd) A x = 0).
  { unfold al_form, form. rewrite (rsum_zero np) by (intros i Hi; apply rsum_zero; intros j Hj; rewrite (Z j Hj); ring).
    rewrite rsum_zero; [ring|]. intros k Hk0. rewrite (rsum_zero np) by (intros j Hj; rewrite (Z j Hj); ring). unfold Rdiv. ring. }
  rewrite F0. destruct (Rle_lt_or_eq_dec _ _ Q1) as [L|E]; [left; lra|right]. specialize (Q2 (eq_sym E)).
  assert (X0 : forall k, (k < nd)%nat -> x (np + k)%nat = 0).
  { intros k Hk0. pose proof (row_equation np nd A g x k Rg Hk0 (H (np + k)%nat ltac:(lia))) as R. rewrite rsum_zero in R by (intros i Hi; rewrite (Z i Hi); ring).
    destruct Rg as [R1 _]. specialize (R1 (np + k)%nat ltac:(lia) ltac:(lia)).
    assert (G0 : g (np + k)%nat = 0).
    { destruct (Hk k Hk0) as [(_ & -> & _)|(_ & _ & E1)]; [rewrite Q2 by exact Hk0; ring|]. rewrite Q2 in E1 by exact Hk0. rewrite Rmult_0_l in E1. apply Rmult_integral in E1. destruct E1; [assumption|lra]. }
    rewrite G0 in R. assert (A (np + k)%nat (np + k)%nat * x (np + k)%nat = 0) by lra. apply Rmult_integral in H0. destruct H0; [lra|assumption]. }
  assert (XN : forall i, (i < np + nd)%nat -> x i = 0).
  { intros i Hi. destruct (Nat.lt_ge_cases i np) as [L|L]; [apply Z, L|]. replace i with (np + (i - np))%nat by lia. apply X0. lia. }
  split; [|split; assumption]. intros i Hi. rewrite Hm by exact Hi. rewrite rsum_zero by (intros k Hk0; rewrite Q2 by exact Hk0; ring).
  pose proof (H i ltac:(lia)) as HI. unfold mvec in HI. rewrite rsum_zero in HI by (intros j Hj; rewrite XN by exact Hj; ring). lra.
Qed.

(** ** Pieces of the projections *)
Definition csame (k : coord) (x y : R) : Prop :=
  match k with
  | KEq => True
  | KNeg => 0 < x <-> 0 < y
  | KBox lo up => (up < x <-> up < y) /\ (x < lo <-> y < lo)
  | KL1 _ => False
  end.
Lemma csame_act k x y : cok k -> csame k x y -> cact k x = cact k y /\
  (if cact k x then ccone k x - ccone k y = x - y else ccone k x = 0 /\ ccone k y = 0).
Proof.
  intros Ho H. destruct k as [| |lo up|m]; cbn [csame cok] in *; [split; [reflexivity|cbn; lra]| | |tauto].
  - assert (E : Rltb 0 x = Rltb 0 y) by (destruct (Rltb 0 x) eqn:A, (Rltb 0 y) eqn:B; rewrite ?Rltb_true, ?Rltb_false in *; try reflexivity; exfalso; lra || tauto).
    split; [exact E|]. ck; try lra; exfalso; (discriminate || lra).
  - destruct H as [H1 H2]. unfold cact, ccone, cproj, box1, smin, smax. cbn [sltb RSc].
    destruct (Rltb up x) eqn:A; [apply Rltb_true in A|apply Rltb_false in A]; cbn [orb].
    + assert (B : up < y) by tauto. rewrite (proj2 (Rltb_true up y) B). cbn [orb]. split; [reflexivity|]. ck; lra.
    + assert (B : y <= up) by (destruct (Rle_lt_dec y up); tauto || (exfalso; apply H1 in r; lra)). rewrite (proj2 (Rltb_false up y) B). cbn [orb].
      destruct (Rltb x lo) eqn:C; [apply Rltb_true in C|apply Rltb_false in C].
      * assert (D : y < lo) by tauto. rewrite (proj2 (Rltb_true y lo) D). split; [reflexivity|]. ck; lra.
      * assert (D : lo <= y) by (destruct (Rle_lt_dec lo y); tauto || (exfalso; apply H2 in r; lra)). rewrite (proj2 (Rltb_false y lo) D). split; [reflexivity|]. ck; lra.
Qed.
Lemma nth_map2_box lo up k : (k < length lo)%nat -> length up = length lo -> nth k (map2 KBox lo up) KEq = KBox (nth k lo 0) (nth k up 0).
Proof. revert up k. induction lo as [|a lo IH]; intros [|b up] k H1 H2; cbn in *; try lia. destruct k; [reflexivity|]. apply IH; lia. Qed.
Lemma nth_repeat_lt {A} (a d : A) n k : (k < n)%nat -> nth k (repeat a n) d = a.
Proof. revert k. induction n as [|n IH]; intros [|k] H; cbn; try lia; auto. apply IH. lia. Qed.
Lemma nth_firstn_lt {A} (l : list A) n k d : (k < n)%nat -> nth k (firstn n l) d = nth k l d.
Proof. revert l k. induction n as [|n IH]; intros [|a l] [|k] H; cbn; try lia; auto. apply IH. lia. Qed.
Lemma nth_skipn_add {A} (l : list A) n k d : nth k (skipn n l) d = nth (n + k) l d.
Proof. revert l. induction n as [|n IH]; intros [|a l]; cbn; auto. destruct k; reflexivity. Qed.
Lemma same_piece_coords c : forall n z w, shape c n -> same_piece c z w ->
  forall k, (k < n)%nat -> csame (nth k (coords c n) KEq) (nth k z 0) (nth k w 0).
Proof.
  induction c as [m|m|m l u|m|m cs IH] using cset_ind'; intros n z w Hs H k Hk.
  - cbn [coords]. rewrite nth_repeat_lt by exact Hk. exact I.
  - cbn [coords]. rewrite nth_repeat_lt by exact Hk. apply H.
  - destruct Hs as (H1 & H2 & _). cbn [coords car RSc] in *. rewrite nth_map2_box by lia. apply H. cbn [car RSc] in *. lia.
  - destruct H.
  - rewrite shape_prod in Hs. cbn [coords]. revert n z w Hs H k Hk. induction cs as [|[c j] cs IHcs]; intros n z w Hs H k Hk.
    + cbn in Hs. lia.
    + cbn [shape_go] in Hs. destruct Hs as (H1 & H2 & H3). destruct H as [H4 H5]. inversion IH as [|? ? J1 J2]; subst. cbn [fst] in J1. cbn [flat_map fst snd].
      pose proof (coords_length c j H2) as Lc. destruct (Nat.lt_ge_cases k j) as [L|L].
      * rewrite app_nth1 by lia. specialize (J1 j (firstn j z) (firstn j w) H2 H4 k L). rewrite !nth_firstn_lt in J1 by exact L. exact J1.
      * rewrite app_nth2 by lia. rewrite Lc. specialize (IHcs J2 (n - j)%nat (skipn j z) (skipn j w) H3 H5 (k - j)%nat ltac:(lia)).
        rewrite !nth_skipn_add in IHcs. replace (j + (k - j))%nat with k in IHcs by lia. exact IHcs.
Qed.

(** ** What the solver computes, entry by entry *)
Lemma map3_hpj_nth ks z (v : list R) k : length ks = length z -> length v = length z -> (k < length z)%nat ->
  nth k (map (fun row : list R => nth 0 row 0) (map3 hpj ks z (map (fun a => [a]) v))) 0 =
  if cact (nth k ks KEq) (nth k z 0) then 0 else nth k v 0.
Proof.
  revert z v k. induction ks as [|c ks IH]; intros [|x z] [|y v] k H1 H2 Hk; cbn in *; try lia.
  destruct k; [unfold hpj; destruct (cact c x); reflexivity|]. apply IH; lia.
Qed.
Lemma map3_hcj_get ks z (J : list (list R)) k i : length ks = length z -> length J = length z -> (k < length z)%nat ->
  nth i (nth k (map3 hcj ks z J) []) 0 = if cact (nth k ks KEq) (nth k z 0) then nth i (nth k J []) 0 else 0.
Proof.
  revert z J k. induction ks as [|c ks IH]; intros [|x z] [|r J] k H1 H2 Hk; cbn in *; try lia.
  destruct k; [|apply IH; lia]. unfold hcj. destruct (cact c x); [reflexivity|]. clear. revert i. induction r; intros [|i]; cbn; auto.
Qed.
Lemma map3_hcj_rows n ks z (J : list (list R)) : Forall (fun row => length row = n) J -> Forall (fun row => length row = n) (map3 hcj ks z J).
Proof.
  intros H. revert ks z. induction H as [|r J Hr H IH]; intros [|k ks] [|x z]; cbn; constructor; auto.
  unfold hcj. destruct (cact k x); [exact Hr|]. rewrite map_length. exact Hr.
Qed.
Section Diagnose.
  Variables (px_val : R -> list R -> list R -> R)
            (px_grad : R -> list R -> list R -> list R)
            (px_hess : R -> list R -> list R -> list (list R))
            (fac : Type)
            (bfgs : Type) (bfgs_update : bfgs -> list R -> list R -> list (list R) -> bfgs * list (list R)).
  Notation state := (@state RSc fac bfgs).
  Notation diagnose := (diagnose (K := RSc) px_val px_grad px_hess fac bfgs bfgs_update).

  Lemma mult_full (P : @params RSc) (p : @problem RSc) (s : state) c l m :
    let nd := rows_of (p_cons p) in let w := s_ws _ _ s in let ks := stack_coords (s_sets _ _ s) (p_cons p) in
    sets_fit (s_sets _ _ s) (p_cons p) ->
    length c = nd -> length l = nd -> length (w_lams_prev _ _ w) = nd -> length (w_plus _ _ w) = nd -> length (w_pdal _ _ w) = nd ->
    compute_multipliers (K := RSc) fac bfgs P p s c l = Ret m ->
    length (m_shift m) = nd /\ length (m_shift_pd m) = nd /\ length (m_plus m) = nd /\ length (m_pdal m) = nd /\
    length (m_plus_r m) = nd /\ length (m_pdal_r m) = nd /\
    forall k, (k < nd)%nat ->
      nth k (m_shift_pd m) 0 = nth k (m_shift m) 0 - 1 / 2 * s_mu _ _ s * nth k l 0 /\
      nth k (m_plus m) 0 = s_mu_inv _ _ s * ccone (nth k ks KEq) (nth k (m_shift m) 0) /\
      nth k (m_pdal m) 0 = ccone (nth k ks KEq) (nth k (m_shift_pd m) 0) * (s_mu_inv _ _ s / pdal_beta P) /\
      nth k (m_plus_r m) 0 = (if cact (nth k ks KEq) (nth k (m_shift m) 0) then 0 else nth k (m_plus m) 0) /\
      nth k (m_pdal_r m) 0 = (if cact (nth k ks KEq) (nth k (m_shift_pd m) 0) then 0 else nth k (m_pdal m) 0).
  Proof.
    cbv zeta. intros Fit Lc Ll Lp L1 L2 H. destruct (mult_closed fac bfgs P p s c l Fit Lc Ll Lp L1 L2) as (m' & E & S1 & S2 & S3 & S4 & S5 & S6).
    rewrite H in E. injection E as <-. do 4 (split; [assumption|]).
    pose proof (fit_shape _ _ Fit) as Sh. pose proof (stack_coords_length _ _ Fit) as Lk.
    unfold compute_multipliers in H. change (stack p (s_sets fac bfgs s)) with (product_of (s_sets fac bfgs s) (map f_nr (p_cons p))) in H.
    set (st := product_of (s_sets fac bfgs s) (map f_nr (p_cons p))) in *.
    change (stack_coords (s_sets fac bfgs s) (p_cons p)) with (coords st (rows_of (p_cons p))) in *.
    set (ks := coords st (rows_of (p_cons p))) in *. set (nd := rows_of (p_cons p)) in *.
    inv_bind H. inv_bind H. inv_bind H. inv_bind H. injection H as <-. cbn [m_shift m_shift_pd m_plus m_pdal m_plus_r m_pdal_r] in *.
    set (shift := vadd (K := RSc) c (vscale (K := RSc) (s_mu _ _ s) (w_lams_prev _ _ (s_ws _ _ s)))) in *.
    set (spd := vsub (K := RSc) shift (vscale (K := RSc) (shalf (K := RSc) * s_mu _ _ s)%S l)) in *.
    rewrite (normal_cone_coords st nd shift _ Sh S1 L1) in E. cbn [ub] in E. injection E as <-.
    assert (Pj : forall z v u : list R, length z = nd -> length v = nd -> ub (proj_jac_vec (K := RSc) st z v) = Ret u ->
       length u = nd /\ forall k, (k < nd)%nat -> nth k u 0 = if cact (nth k ks KEq) (nth k z 0) then 0 else nth k v 0).
    { intros z v u Hz Hv Hu. unfold proj_jac_vec in Hu. rewrite (proj_jac_coords st nd z _ Sh Hz) in Hu by (rewrite map_length; exact Hv).
      fold ks in Hu. unfold ub in Hu. apply (f_equal (fun o => match o with Ret x => x | _ => [] end)) in Hu. cbv beta iota in Hu. subst u. split; [rewrite map_length, map3_length, map_length; cbn [car RSc] in *; lia|].
      intros k Hk. apply (map3_hpj_nth ks z v k); cbn [car RSc] in *; congruence || lia. }
    destruct (Pj _ _ _ S1 S3 E1) as [Q1 Q2]. destruct (Pj _ _ _ S2 S4 E2) as [Q3 Q4]. split; [exact Q1|]. split; [exact Q3|].
    intros k Hk. split; [|split; [|split; [|split]]].
    - unfold spd. rewrite vsub_nth by (unfold vscale; rewrite map_length; cbn [car RSc] in *; congruence). rewrite vscale_nth. unfold shalf, slit. cbn. lra.
    - rewrite vscale_nth. f_equal. apply map3_hcone_nth; cbn [car RSc] in *; congruence || lia.
    - apply S6. exact Hk.
    - apply Q2, Hk.
    - apply Q4, Hk.
  Qed.
  Lemma diagnose_full (P : @params RSc) p (s : state) d : diagnose P p s = Ret d ->
    exists f c g J mg,
      evaluate_problem p (r_x (s_res _ _ s)) = Ret (f, c) /\
      derivs_problem p (r_x (s_res _ _ s)) = Ret (g, J) /\
      compute_multipliers fac bfgs P p s c (r_lams (s_res _ _ s)) = Ret (d_m _ _ d) /\
      d_J _ _ d = J /\
      cone_jac (product_of (s_sets _ _ s) (map f_nr (p_cons p))) (match kkt_sys P with KKT_CLASSIC => m_shift (d_m _ _ d) | KKT_PRIMAL_DUAL => m_shift_pd (d_m _ _ d) end) J = Some (d_Jp _ _ d) /\
      merit_gradient P p (s_sets _ _ s) g J (r_lams (s_res _ _ s)) (m_pdal (d_m _ _ d)) = Some mg /\
      (let pg := px_grad (s_rho _ _ s) (s_target _ _ s) (r_x (s_res _ _ s)) in
       let on := Rltb 0 (s_rho _ _ s) in let head := dual_residual (K := RSc) p g J (r_lams (s_res _ _ s)) in
       d_mg _ _ d = (if on then vadd (K := RSc) (fst mg) pg else fst mg) /\ d_md _ _ d = snd mg /\
       d_rhs _ _ d = (if on then vadd (K := RSc) head pg else head) ++
         match kkt_sys P with
         | KKT_CLASSIC => vscale (K := RSc) (s_mu _ _ s) (vsub (K := RSc) (m_plus (d_m _ _ d)) (r_lams (s_res _ _ s)))
         | KKT_PRIMAL_DUAL => vscale (K := RSc) (shalf (K := RSc) * s_mu _ _ s)%S (vsub (K := RSc) (m_pdal (d_m _ _ d)) (r_lams (s_res _ _ s)))
         end) /\
      r_lams (s_res _ _ (d_state _ _ d)) = r_lams (s_res _ _ s).
  Proof.
    unfold Solver_model.diagnose. intros H. crack H.
    injection H as <-. cbn [d_rhs d_mg d_md d_m d_J d_Jp d_state s_res r_lams].
    repeat match goal with
    | H : ub (merit_gradient _ _ _ _ _ _ _) = _ |- _ => unfold ub in H at 1
    | H : ub (cone_jac _ _ _) = _ |- _ => unfold ub in H at 1
    end.
    repeat match goal with
    | H : match cone_jac ?a ?b ?c with _ => _ end = _ |- _ => destruct (cone_jac a b c) eqn:?; [|discriminate]; injection H as <-
    | H : match merit_gradient ?a ?b ?c ?d ?e ?f ?g with _ => _ end = _ |- _ => destruct (merit_gradient a b c d e f g) eqn:?; [|discriminate]; injection H as <-
    end.
    do 5 eexists.
    split; [eassumption|]. split; [eassumption|]. split; [eassumption|]. split; [reflexivity|]. split; [eassumption|]. split; [eassumption|].
    split; [|reflexivity]. cbv zeta. split; [|split]; cbn [sltb s0 RSc]; destruct (Rltb 0 (s_rho _ _ s)); reflexivity.
  Qed.
End Diagnose.

Lemma jt_rsum J : forall v i, length v = length J -> jt_lam J v i = rsum (length J) (fun k => nth k v 0 * nth i (nth k J []) 0).
Proof.
  induction J as [|r J IH]; intros [|a v] i H; cbn [length] in *; try discriminate; [reflexivity|].
  rewrite rsum_head. cbn [jt_lam nth]. rewrite (IH v i) by lia. reflexivity.
Qed.
Lemma derivs_spec (p : @problem RSc) x g J : derivs_problem p x = Ret (g, J) ->
  length g = p_ndx p /\ length J = rows_of (p_cons p) /\ Forall (fun row => length row = p_ndx p) J.
Proof.
  unfold derivs_problem. intros H. inv_bind H. inv_bind H. inv_bind H. injection H as -> ->.
  apply jac_cons_spec in E1. destruct E1 as (EJ & LJ & RJ). split; [|split; assumption].
  unfold sized in E0. destruct (_ =? _)%nat eqn:En in E0; [|discriminate]. apply Nat.eqb_eq in En. injection E0 as E0. subst. exact En.
Qed.
Lemma row_active mu lam sh spd pl pd c1 c2 : 0 < mu -> spd = sh - 1 / 2 * mu * lam -> pl = 1 / mu * c1 -> pd = c2 * (1 / mu / (1 / 2)) -> c1 - c2 = sh - spd ->
  mu * (pl - lam) = - (mu / 2 * (lam - pd)).
Proof. intros H -> -> -> E. replace c1 with (c2 + 1 / 2 * mu * lam) by lra. field. lra. Qed.
Lemma row_inactive mu lam pl pd c1 c2 : 0 < mu -> pl = 1 / mu * c1 -> pd = c2 * (1 / mu / (1 / 2)) -> c1 = 0 -> c2 = 0 ->
  pl = pd /\ mu * (pl - lam) * (mu / 2) = mu / 2 * (lam - pd) * - mu.
Proof. intros H -> -> -> ->. split; field; lra. Qed.
Lemma row_pd mu lam pd : mu / 2 * (pd - lam) = - (mu / 2 * (lam - pd)).
Proof. field. Qed.
Lemma row_pd2 mu lam pd : mu / 2 * (pd - lam) * (mu / 2) = mu / 2 * (lam - pd) * (- mu / 2).
Proof. field. Qed.
Lemma head_split nd a b F1 F2 F3 F4 : (forall k, (k < nd)%nat -> F1 k = F2 k + F3 k - F4 k) -> a + b + rsum nd F1 = a + b + rsum nd F2 + rsum nd F3 - rsum nd F4.
Proof. intros H. rewrite (rsum_ext nd F1 (fun k => F2 k + F3 k - F4 k)) by exact H. rewrite rsum_minus, rsum_plus. ring. Qed.
Lemma head_active mu lam pd j md r jp aj : 0 < mu -> md = mu / 2 * (lam - pd) -> r = 0 -> aj = jp -> jp = j -> pd * j = lam * jp + r * j - aj * (2 / mu * md).
Proof. intros H -> -> -> ->. field. lra. Qed.
Lemma head_inactive mu lam pd j md r jp aj : r = pd -> aj = jp -> jp = 0 -> pd * j = lam * jp + r * j - aj * (2 / mu * md).
Proof. intros -> -> ->. ring. Qed.
Ltac lc := cbn [car RSc] in *; congruence.
Lemma system_facts (O : oracles RSc) (P : @params RSc) (p : @problem RSc) (s : solver_state O) d dd delta M1 :
  let ndx := p_ndx p in let nd := rows_of (p_cons p) in let A := entries M1 in let mu := mu s in
  let g := fun i => nth i (step_rhs (o_fac O) (o_bfgs O) P p d) 0 in
  consistent p s -> pdal_beta P = 1 / 2 -> run_diagnose O P p s = Ret d -> agrees P p s (d_m _ _ d) ->
  kkt_dual_diag P p mu (sets s) (m_shift_pd (d_m _ _ d)) = Ret dd ->
  plus_diag ndx delta (step_matrix (o_fac O) (o_bfgs O) P p d dd) M1 ->
  length (d_mg _ _ d) = ndx /\ length (d_md _ _ d) = nd /\ length (step_rhs (o_fac O) (o_bfgs O) P p d) = (ndx + nd)%nat /\
  regularised ndx (ndx + nd) A /\
  (forall i, (i < ndx)%nat -> nth i (d_mg _ _ d) 0 = g i - rsum nd (fun k => A (ndx + k)%nat i * (2 / mu * nth k (d_md _ _ d) 0))) /\
  exists w, forall k, (k < nd)%nat -> (A (ndx + k)%nat (ndx + k)%nat = - mu /\ g (ndx + k)%nat = - nth k (d_md _ _ d) 0 /\ w k = mu) \/
     ((forall i, (i < ndx)%nat -> A (ndx + k)%nat i = 0) /\ w k = mu / 2 /\ g (ndx + k)%nat * (mu / 2) = nth k (d_md _ _ d) 0 * A (ndx + k)%nat (ndx + k)%nat).
Proof.
  intros ndx nd A mu g (Hmu & Hinv & Fit & Mu & Ll & Lp & L1 & L2 & Lpx) Hb Hd Ag Hdd PD.
  change (0 < mu) in Hmu. change (s_mu_inv _ _ s = 1 / mu) in Hinv. set (ks := stack_coords (sets s) (p_cons p)).
  destruct (diagnose_full _ _ _ _ _ _ P p s d Hd) as (f & c & g0 & J & mgp & E1 & E2 & E3 & E4 & E5 & E6 & E7 & E8). cbv zeta in E7. destruct E7 as (E7 & E9 & E10).
  unfold evaluate_problem in E1. inv_bind E1. inv_bind E1. injection E1 as -> ->. apply eval_cons_spec in E0. destruct E0 as [_ Lc].
  apply derivs_spec in E2. destruct E2 as (Lg & LJ & RJ). fold ndx in Lg, RJ. fold nd in LJ.
  set (m := d_m _ _ d) in *. set (lam := r_lams (res s)) in *. change (r_lams (s_res _ _ s)) with lam in *.
  destruct (mult_full _ _ P p s c lam m Fit Lc Ll Lp L1 L2 E3) as (S1 & S2 & S3 & S4 & S6 & S7 & S5). fold ks nd in S1, S2, S3, S4, S5, S6, S7. change (s_mu _ _ s) with mu in *. change (s_sets _ _ s) with (sets s) in *. fold ks in S5.
  pose proof (fit_shape _ _ Fit) as Sh. fold nd in Sh. pose proof (stack_coords_length _ _ Fit) as Lk. fold ks nd in Lk.
  assert (Ok : forall k, cok (nth k ks KEq)) by (intros k; apply (stack_coords_ok _ _ mu Fit Mu k)).
  (* the Jacobian of the system *)
  set (z := match kkt_sys P with KKT_CLASSIC => m_shift m | KKT_PRIMAL_DUAL => m_shift_pd m end) in *.
  assert (Lz : length z = nd) by (unfold z; destruct (kkt_sys P); assumption).
  rewrite (cone_jac_coords _ nd z J Sh Lz LJ) in E5. apply (f_equal (fun o => match o with Some x => x | _ => [] end)) in E5. cbv beta iota in E5. change (coords (product_of (sets s) (map f_nr (p_cons p))) nd) with ks in E5.
  assert (Jp : forall k i, (k < nd)%nat -> nth i (nth k (d_Jp _ _ d) []) 0 = if cact (nth k ks KEq) (nth k z 0) then nth i (nth k J []) 0 else 0).
  { intros k i Hk. rewrite <- E5. apply map3_hcj_get; cbn [car RSc] in *; congruence || lia. }
  assert (LJp : length (d_Jp _ _ d) = nd) by (rewrite <- E5; rewrite map3_length; cbn [car RSc] in *; lia).
  assert (RJp : Forall (fun row => length row = ndx) (d_Jp _ _ d)) by (rewrite <- E5; apply map3_hcj_rows, RJ).
  (* the diagonal *)
  destruct (dual_diag P p mu (sets s) (m_shift_pd m) (repeat false nd) Fit S2 (repeat_length _ _)) as (dd' & act & D1 & D2 & D3 & D4 & D5).
  rewrite Hdd in D1. injection D1 as <-. fold nd in D3, D4, D5.
  assert (D6 : forall k, (k < nd)%nat -> nth k dd 0 = match kkt_sys P with KKT_CLASSIC => - mu | KKT_PRIMAL_DUAL => if cact (nth k ks KEq) (nth k (m_shift_pd m) 0) then - mu else - mu / 2 end).
  { intros k Hk. rewrite D5 by exact Hk. rewrite (active_coords _ nd (m_shift_pd m) _ Sh S2 (repeat_length _ _)) in D2. apply (f_equal (fun o => match o with Some x => x | _ => [] end)) in D2. cbv beta iota in D2. subst act.
    change (coords (product_of (sets s) (map f_nr (p_cons p))) nd) with ks. rewrite (map3_hact_nth ks (m_shift_pd m) (repeat false nd) k); [reflexivity|..]; rewrite ?repeat_length; cbn [car RSc] in *; congruence || lia. }
  (* the matrix *)
  assert (EA : forall i j, (i < ndx + nd)%nat -> (j < ndx + nd)%nat -> A i j = mget (K := RSc) (step_matrix (o_fac O) (o_bfgs O) P p d dd) i j + (if Nat.eqb i j && Nat.ltb i ndx then delta else 0)).
  { destruct PD as (P1 & P2 & P3). intros i j Hi Hj. unfold A, entries.
    assert (SM : length (step_matrix (o_fac O) (o_bfgs O) P p d dd) = (ndx + nd)%nat /\ length (nth i (step_matrix (o_fac O) (o_bfgs O) P p d dd) []) = (ndx + nd)%nat).
    { unfold step_matrix, assemble_kkt. rewrite dims_rows. apply (mtab_size (ndx + nd) (ndx + nd)), Hi. }
    destruct SM as [M2 M3]. apply P3; [exact (eq_ind_r (fun n => (i < n)%nat) Hi M2)|exact (eq_ind_r (fun n => (j < n)%nat) Hj M3)]. }
  assert (AJ : forall k i, (k < nd)%nat -> (i < ndx)%nat -> A (ndx + k)%nat i = nth i (nth k (d_Jp _ _ d) []) 0).
  { intros k i Hk Hi. rewrite EA by lia. unfold step_matrix. rewrite dims_rows. fold ndx nd. rewrite kkt_blocks by lia. bd. replace (ndx + k - ndx)%nat with k by lia. unfold mget. cbn [s0 RSc]. lra. }
  assert (AD : forall k, (k < nd)%nat -> A (ndx + k)%nat (ndx + k)%nat = nth k dd 0).
  { intros k Hk. rewrite EA by lia. unfold step_matrix. rewrite dims_rows. fold ndx nd. rewrite kkt_blocks by lia. bd. replace (ndx + k - ndx)%nat with k by lia. cbn [s0 RSc]. lra. }
  assert (A0 : forall i j, (ndx <= j)%nat -> (j < i)%nat -> (i < ndx + nd)%nat -> A i j = 0).
  { intros i j H1 H2 H3. rewrite EA by lia. unfold step_matrix. rewrite dims_rows. fold ndx nd. rewrite kkt_blocks by lia. bd. cbn [s0 RSc]. lra. }
  assert (Dn : forall k, (k < nd)%nat -> nth k dd 0 < 0).
  { intros k Hk. rewrite D6 by exact Hk. destruct (kkt_sys P); [lra|]. destruct (cact _ _); lra. }
  (* gradients *)
  change (length lam = nd) in Ll.
  unfold merit_gradient in E6. destruct (dual_loop_closed (pdal_beta P) (sets s) (p_cons p) mu Fit Mu lam (m_pdal m) Ll S4) as (ls & qs & md & B1 & B2 & B3 & B4 & B5).
  unfold dims in E6. cbn [car RSc] in *. rewrite B1, B2, B3 in E6. injection E6 as <-. cbn [fst snd] in E7, E9. rewrite Hb in B5. fold ndx in E7.
  set (pg := if Rltb 0 (s_rho _ _ s) then o_px_grad O (s_rho _ _ s) (s_target _ _ s) (r_x (s_res _ _ s)) else vzero (K := RSc) ndx).
  assert (LV : length (vzero (K := RSc) ndx) = ndx /\ forall i, nth i (vzero (K := RSc) ndx) 0 = 0).
  { unfold vzero. split; [apply repeat_length|]. intros i. destruct (Nat.lt_ge_cases i ndx) as [L|L]; [apply nth_repeat_lt, L|]. apply nth_overflow. rewrite repeat_length. exact L. }
  destruct LV as [LV NV].
  assert (LPG : length pg = ndx).
  { unfold pg. destruct (Rltb 0 (s_rho _ _ s)) eqn:Er; [apply Lpx; apply Rltb_true in Er; exact Er|exact LV]. }
  destruct (mtv_spec ndx J lam RJ) as [T1 T2]. destruct (mtv_spec ndx J (m_pdal m) RJ) as [T3 T4].
  destruct (mtv_spec ndx (d_Jp _ _ d) lam RJp) as [T5 T6].
  set (r := match kkt_sys P with KKT_CLASSIC => m_plus_r m | KKT_PRIMAL_DUAL => m_pdal_r m end) in *.
  destruct (mtv_spec ndx J r RJ) as [T7 T8].
  assert (HL : forall v, length v = ndx -> length (vadd (K := RSc) v pg) = ndx /\ (if Rltb 0 (s_rho _ _ s) then vadd (K := RSc) v (o_px_grad O (s_rho _ _ s) (s_target _ _ s) (r_x (s_res _ _ s))) else v) = vadd (K := RSc) v pg).
  { intros v Lv. split; [rewrite vadd_length by lc; exact Lv|]. unfold pg. destruct (Rltb 0 (s_rho _ _ s)) eqn:Er; [reflexivity|].
    apply (nth_ext _ _ 0 0); [rewrite vadd_length by lc; reflexivity|]. intros i _. rewrite vadd_nth by lc. rewrite NV. lra. }
  assert (LG : length (vadd (K := RSc) g0 (mtv (K := RSc) ndx J (m_pdal m))) = ndx) by (rewrite vadd_length by lc; exact Lg).
  assert (LH : length (dual_residual (K := RSc) p g0 J lam) = ndx) by (unfold dual_residual; rewrite vadd_length; fold ndx; lc).
  destruct (HL _ LG) as [LG' EG]. pose proof (eq_trans E7 EG) as E7'. destruct (HL _ LH) as [LH' EH].
  set (tail := match kkt_sys P with KKT_CLASSIC => _ | KKT_PRIMAL_DUAL => _ end) in E10.
  assert (E10' : d_rhs _ _ d = vadd (K := RSc) (dual_residual (K := RSc) p g0 J lam) pg ++ tail) by (rewrite E10; apply (f_equal (fun v => v ++ tail)), EH). clear EG EH E7 E10.
  assert (LT : length tail = nd) by (unfold tail, vscale; destruct (kkt_sys P); rewrite map_length, vsub_length; cbn [car RSc] in *; congruence).
  set (corr := vadd (K := RSc) (vadd (K := RSc) (vsub (K := RSc) (vzero (K := RSc) ndx) (mtv (K := RSc) ndx J lam)) (mtv (K := RSc) ndx (d_Jp _ _ d) lam)) (mtv (K := RSc) ndx J r)).
  assert (LS : length (vsub (K := RSc) (vzero (K := RSc) ndx) (mtv (K := RSc) ndx J lam)) = ndx) by (rewrite vsub_length; lc).
  assert (LS2 : length (vadd (K := RSc) (vsub (K := RSc) (vzero (K := RSc) ndx) (mtv (K := RSc) ndx J lam)) (mtv (K := RSc) ndx (d_Jp _ _ d) lam)) = ndx) by (rewrite vadd_length; lc).
  assert (LCo : length corr = ndx) by (unfold corr; rewrite vadd_length; lc).
  assert (ER : step_rhs (o_fac O) (o_bfgs O) P p d = vadd (K := RSc) (vadd (K := RSc) (dual_residual (K := RSc) p g0 J lam) pg) corr ++ tail).
  { unfold step_rhs. rewrite E8, E4, E10'. fold ndx m r. cbn [car RSc] in *. rewrite firstn_app, skipn_app. cbn [car RSc] in *. rewrite LH', Nat.sub_diag, firstn_all2, skipn_all2 by lia. cbn [firstn skipn app]. rewrite app_nil_r. reflexivity. }
  assert (LR : length (vadd (K := RSc) (vadd (K := RSc) (dual_residual (K := RSc) p g0 J lam) pg) corr) = ndx) by (rewrite vadd_length; lc).
  assert (GH : forall i, (i < ndx)%nat -> g i = nth i g0 0 + nth i pg 0 + rsum nd (fun k => nth k lam 0 * nth i (nth k (d_Jp _ _ d) []) 0) + rsum nd (fun k => nth k r 0 * nth i (nth k J []) 0)).
  { intros i Hi. unfold g. rewrite ER, app_nth1 by (cbn [car RSc] in *; lia). rewrite !vadd_nth by lc.
    unfold corr. rewrite !vadd_nth by lc. rewrite vsub_nth by lc. rewrite NV. unfold dual_residual. fold ndx. rewrite vadd_nth by lc.
    rewrite T2, T6, T8 by exact Hi. rewrite !jt_rsum.
    - cbn [car RSc] in *. rewrite LJ, LJp. ring.
    - assert (length r = nd) by (unfold r; destruct (kkt_sys P); assumption). cbn [car RSc] in *; congruence.
    - cbn [car RSc] in *; congruence.
    - cbn [car RSc] in *; congruence. }
  assert (GT : forall k, (k < nd)%nat -> g (ndx + k)%nat = nth k tail 0).
  { intros k Hk. unfold g. rewrite ER, app_nth2 by (cbn [car RSc] in *; lia). f_equal. cbn [car RSc] in *. lia. }
  assert (GM : forall i, (i < ndx)%nat -> nth i (d_mg _ _ d) 0 = nth i g0 0 + nth i pg 0 + rsum nd (fun k => nth k (m_pdal m) 0 * nth i (nth k J []) 0)).
  { intros i Hi. rewrite E7'. rewrite !vadd_nth by lc. rewrite T4 by exact Hi. rewrite jt_rsum by lc. cbn [car RSc] in *. rewrite LJ. ring. }
  split; [rewrite E7'; exact LG'|]. split; [rewrite E9; exact B4|]. split; [rewrite ER, app_length; cbn [car RSc] in *; lia|].
  split; [split; [intros i H1 H2; replace i with (ndx + (i - ndx))%nat by lia; rewrite AD by lia; apply Dn; lia|exact A0]|].
  (* rows *)
  assert (MD : forall k, @eq R (nth k (d_md _ _ d) 0) (mu / 2 * (nth k lam 0 - nth k (m_pdal m) 0))) by (intros k; rewrite E9; etransitivity; [exact (B5 k)|]; assert (HR : forall a b c : R, 1 / 2 * a * (b - c) = a / 2 * (b - c)) by (intros; field); apply HR).
  assert (Row : forall k, (k < nd)%nat ->
     let a := cact (nth k ks KEq) (nth k z 0) in
     (a = true -> nth k r 0 = 0 /\ nth k dd 0 = - mu /\ nth k tail 0 = - nth k (d_md _ _ d) 0) /\
     (a = false -> nth k r 0 = nth k (m_pdal m) 0 /\ nth k tail 0 * (mu / 2) = nth k (d_md _ _ d) 0 * nth k dd 0)).
  { intros k Hk a. destruct (S5 k Hk) as (Q1 & Q2 & Q3 & Q4 & Q5). rewrite MD, (D6 k Hk). unfold agrees in Ag.
    assert (NT : nth k tail 0 = match kkt_sys P with KKT_CLASSIC => mu * (nth k (m_plus m) 0 - nth k lam 0) | KKT_PRIMAL_DUAL => mu / 2 * (nth k (m_pdal m) 0 - nth k lam 0) end).
    { unfold tail. destruct (kkt_sys P); (etransitivity; [apply vscale_nth|]).
      - apply (f_equal (Rmult mu)). exact (vsub_nth _ _ k (eq_trans S3 (eq_sym Ll))).
      - etransitivity; [apply (f_equal (Rmult _)); exact (vsub_nth _ _ k (eq_trans S4 (eq_sym Ll)))|]. unfold shalf, slit. cbn. lra. }
    unfold r, a, z in *. clear a. destruct (kkt_sys P).
    - destruct Ag as [Ag|Ag]; [discriminate Ag|].
      pose proof (same_piece_coords _ nd _ _ Sh Ag k Hk) as Sm. change (coords (product_of (sets s) (map f_nr (p_cons p))) nd) with ks in Sm.
      destruct (csame_act _ _ _ (Ok k) Sm) as [C1 C2]. rewrite Hb, Hinv in Q3. rewrite Hinv in Q2. split; intros Ca; rewrite Ca in Q4, C2.
      + split; [exact Q4|]. split; [reflexivity|]. etransitivity; [exact NT|]. eapply row_active; eassumption.
      + destruct C2 as [C2 C3]. destruct (row_inactive mu (nth k lam 0) _ _ _ _ Hmu Q2 Q3 C2 C3) as [R1 R2]. split; [exact (eq_trans Q4 R1)|]. rewrite NT. exact R2.
    - split; intros Ca; rewrite Ca in Q5 |- *.
      + split; [exact Q5|]. split; [reflexivity|]. etransitivity; [exact NT|]. apply row_pd.
      + split; [exact Q5|]. rewrite NT. apply row_pd2. }
  split.
  - intros i Hi. etransitivity; [exact (GM i Hi)|]. rewrite (GH i Hi). apply head_split. intros k Hk. pose proof (AJ k i Hk Hi) as X1. pose proof (Jp k i Hk) as X2. destruct (Row k Hk) as [Ra Rb].
    destruct (cact (nth k ks KEq) (nth k z 0)); [destruct (Ra eq_refl) as [R1 _]|destruct (Rb eq_refl) as [R1 _]]; [exact (head_active _ _ _ _ _ _ _ _ Hmu (MD k) R1 X1 X2)|exact (head_inactive _ _ _ _ _ _ _ _ R1 X1 X2)].
  - exists (fun k => if cact (nth k ks KEq) (nth k z 0) then mu else mu / 2). intros k Hk. destruct (Row k Hk) as [Ra Rb]. rewrite AD, GT by exact Hk.
    destruct (cact (nth k ks KEq) (nth k z 0)) eqn:Ca.
    + left. destruct (Ra eq_refl) as (_ & R2 & R3). auto.
    + right. split; [|split; [reflexivity|apply (Rb eq_refl)]]. intros i Hi. rewrite AJ by assumption. rewrite Jp, Ca by assumption. reflexivity.
Qed.

(** ** The slope along the exact step *)
Lemma wsum_bounds mu nd (md w : nat -> R) : 0 < mu -> (forall k, (k < nd)%nat -> w k = mu \/ w k = mu / 2) ->
  rsum nd (fun k => md k * md k) / mu <= rsum nd (fun k => md k * md k / w k) <= 2 * rsum nd (fun k => md k * md k) / mu.
Proof.
  intros Hmu. induction nd as [|n IH]; intros H; cbn [rsum]; [unfold Rdiv; lra|]. destruct (IH ltac:(auto)) as [I1 I2]. pose proof (Rle_0_sqr (md n)) as Q. unfold Rsqr in Q.
  pose proof (Rinv_0_lt_compat _ Hmu) as V. assert (Q2 : 0 <= md n * md n * / mu) by (apply Rmult_le_pos; lra).
  destruct (H n ltac:(lia)) as [E|E]; rewrite E; unfold Rdiv in *; rewrite ?Rinv_mult, ?Rinv_inv; lra.
Qed.
Lemma step_slope (O : oracles RSc) (P : @params RSc) (p : @problem RSc) (s : solver_state O) d dd delta M1 x :
  let ndx := p_ndx p in let nd := rows_of (p_cons p) in
  consistent p s -> pdal_beta P = 1 / 2 -> run_diagnose O P p s = Ret d -> agrees P p s (d_m _ _ d) ->
  kkt_dual_diag P p (mu s) (sets s) (m_shift_pd (d_m _ _ d)) = Ret dd ->
  plus_diag ndx delta (step_matrix (o_fac O) (o_bfgs O) P p d dd) M1 ->
  solves (ndx + nd) (entries M1) x (fun i => - nth i (step_rhs (o_fac O) (o_bfgs O) P p d) 0) ->
  (let q := rsum nd (fun k => nth k (d_md _ _ d) 0 * nth k (d_md _ _ d) 0) / mu s in
   - al_form ndx (ndx + nd) (entries M1) x - 2 * q <= slope p d x <= - al_form ndx (ndx + nd) (entries M1) x - q) /\
  (al_convex ndx (ndx + nd) (entries M1) ->
   slope p d x < 0 \/ ((forall i, (i < ndx)%nat -> nth i (d_mg _ _ d) 0 = 0) /\ (forall k, (k < nd)%nat -> nth k (d_md _ _ d) 0 = 0) /\ forall i, (i < ndx + nd)%nat -> x i = 0)).
Proof.
  intros ndx nd Co Hb Hd Ag Hdd PD Hs. pose proof Co as (Hmu & _).
  destruct (system_facts O P p s d dd delta M1 Co Hb Hd Ag Hdd PD) as (_ & _ & _ & Rg & Hm & w & Hw). fold ndx nd in Rg, Hm, Hw. split.
  - cbv zeta. unfold slope. fold ndx nd. rewrite (descent_core ndx nd (entries M1) _ x (fun i => nth i (d_mg _ _ d) 0) (fun k => nth k (d_md _ _ d) 0) (mu s) w Hmu Rg Hs Hm Hw).
    assert (W : forall k, (k < nd)%nat -> w k = mu s \/ w k = mu s / 2) by (intros k Hk; destruct (Hw k Hk) as [(_ & _ & E)|(_ & E & _)]; auto).
    pose proof (wsum_bounds (mu s) nd (fun k => nth k (d_md _ _ d) 0) w Hmu W) as B. cbn beta in B. unfold Rdiv in *. lra.
  - intros Cx. exact (descent_strict ndx nd (entries M1) _ x (fun i => nth i (d_mg _ _ d) 0) (fun k => nth k (d_md _ _ d) 0) (mu s) w Hmu Rg Cx Hs Hm Hw).
Qed.

(** ** Refinement with the wrong matrix *)
Definition schur (np nd : nat) (A : mx) (i j : nat) : R :=
  mirror A i j + rsum nd (fun k => A (np + k)%nat i * A (np + k)%nat j / - A (np + k)%nat (np + k)%nat).
Lemma schur_sym np nd A i j : schur np nd A i j = schur np nd A j i.
Proof. unfold schur. f_equal; [unfold mirror; bd; f_equal; lia|]. apply rsum_ext. intros. f_equal. ring. Qed.
Lemma schur_eq np nd A c b : regularised np (np + nd) A -> (forall i, (i < np + nd)%nat -> mvec (np + nd) (mirror A) c i = b i) ->
  forall i, (i < np)%nat -> rsum np (fun j => schur np nd A i j * c j) = b i + rsum nd (fun k => A (np + k)%nat i * (b (np + k)%nat / - A (np + k)%nat (np + k)%nat)).
Proof.
  intros Rg H i Hi. set (J := fun k => rsum np (fun j => A (np + k)%nat j * c j)).
  assert (B : forall k, (k < nd)%nat -> J k + A (np + k)%nat (np + k)%nat * c (np + k)%nat = b (np + k)%nat).
  { intros k Hk. pose proof (row_equation np nd A (fun i => - b i) c k Rg Hk) as R. cbn beta in R. rewrite Ropp_involutive in R. apply R. rewrite H by lia. ring. }
  pose proof (H i ltac:(lia)) as T. unfold mvec in T. rewrite rsum_split in T. rewrite (rsum_ext nd _ (fun k => A (np + k)%nat i * c (np + k)%nat)) in T by (intros k Hk; unfold mirror; bd; reflexivity).
  rewrite <- T. unfold schur. rewrite (rsum_ext np _ (fun j => mirror A i j * c j + rsum nd (fun k => A (np + k)%nat i / - A (np + k)%nat (np + k)%nat * (A (np + k)%nat j * c j)))).
  2:{ intros j Hj. rewrite Rmult_plus_distr_r. f_equal. rewrite <- rsum_scale_r. apply rsum_ext. intros k Hk. unfold Rdiv. ring. }
  rewrite rsum_plus, rsum_swap. rewrite Rplus_assoc. f_equal. rewrite <- rsum_plus. apply rsum_ext. intros k Hk. rewrite rsum_scale. change (rsum np (fun j => A (np + k)%nat j * c j)) with (J k).
  rewrite <- (B k Hk). destruct Rg as [R1 _]. specialize (R1 (np + k)%nat ltac:(lia) ltac:(lia)). field. lra.
Qed.
Lemma schur_form np nd A x : al_form np (np + nd) A x = rsum np (fun i => x i * rsum np (fun j => schur np nd A i j * x j)).
Proof.
  unfold al_form. replace (np + nd - np)%nat with nd by lia. unfold form.
  rewrite (rsum_ext np (fun i => x i * _) (fun i => rsum np (fun j => x i * mirror A i j * x j) + rsum nd (fun k => A (np + k)%nat i * x i * (rsum np (fun j => A (np + k)%nat j * x j) / - A (np + k)%nat (np + k)%nat)))).
  - rewrite rsum_plus. f_equal. rewrite rsum_swap. apply rsum_ext. intros k Hk. rewrite rsum_scale_r. unfold Rdiv. ring.
  - intros i Hi. unfold schur.
    rewrite (rsum_ext np (fun j => (mirror A i j + _) * x j) (fun j => mirror A i j * x j + rsum nd (fun k => A (np + k)%nat i / - A (np + k)%nat (np + k)%nat * (A (np + k)%nat j * x j)))).
    2:{ intros j Hj. rewrite Rmult_plus_distr_r. f_equal. rewrite <- rsum_scale_r. apply rsum_ext. intros k Hk. unfold Rdiv. ring. }
    rewrite rsum_plus, Rmult_plus_distr_l. f_equal.
    + rewrite <- rsum_scale. apply rsum_ext. intros; ring.
    + rewrite rsum_swap, <- rsum_scale. apply rsum_ext. intros k Hk. rewrite rsum_scale. unfold Rdiv. ring.
Qed.
(** Repeated solves S u_(j+1) = delta u_j keep a nonnegative product with S u_0. *)
Lemma chain_nonneg np (S : mx) delta (u : nat -> nat -> R) : 0 <= delta -> (forall i j, S i j = S j i) ->
  (forall x, 0 <= rsum np (fun i => x i * rsum np (fun j => S i j * x j))) ->
  (forall n i, (i < np)%nat -> rsum np (fun j => S i j * u (n + 1)%nat j) = delta * u n i) ->
  forall n, 0 <= rsum np (fun i => u n i * rsum np (fun j => S i j * u 0%nat j)).
Proof.
  intros Hd Sy Ps Hu. set (b := fun n m => rsum np (fun i => u n i * rsum np (fun j => S i j * u m j))).
  assert (Bs : forall n m, b n m = b m n).
  { intros n m. unfold b. rewrite (rsum_ext np _ (fun i => rsum np (fun j => u n i * (S i j * u m j)))) by (intros; rewrite rsum_scale; reflexivity). rewrite rsum_swap.
    apply rsum_ext. intros j Hj. rewrite <- rsum_scale. apply rsum_ext. intros i Hi. rewrite (Sy i j). ring. }
  assert (B1 : forall n m, b n (m + 1)%nat = delta * rsum np (fun i => u n i * u m i)).
  { intros n m. unfold b. rewrite <- rsum_scale. apply rsum_ext. intros i Hi. rewrite Hu by exact Hi. ring. }
  assert (Sh : forall n m, b n (m + 1)%nat = b (n + 1)%nat m).
  { intros n m. rewrite (Bs (n + 1)%nat m), !B1. f_equal. apply rsum_ext. intros; ring. }
  assert (Sk : forall k n m, b n (m + k)%nat = b (n + k)%nat m).
  { induction k as [|k IH]; intros n m; [rewrite !Nat.add_0_r; reflexivity|]. replace (m + Datatypes.S k)%nat with (m + k + 1)%nat by lia. rewrite Sh, IH. f_equal. lia. }
  intros n. change (0 <= b n 0%nat). rewrite Bs. destruct (Nat.even n) eqn:Ev.
  - apply Nat.even_spec in Ev. destruct Ev as [k ->]. replace (2 * k)%nat with (k + k)%nat by lia. rewrite Sk. cbn [Nat.add]. apply Ps.
  - assert (Od : Nat.odd n = true) by (unfold Nat.odd; rewrite Ev; reflexivity). apply Nat.odd_spec in Od. destruct Od as [k ->]. replace (2 * k + 1)%nat with (k + 1 + k)%nat by lia. rewrite Sk. cbn [Nat.add]. rewrite B1.
    apply Rmult_le_pos; [exact Hd|]. clear. induction np; cbn; [lra|]. pose proof (Rle_0_sqr (u k np)) as Q. unfold Rsqr in Q. lra.
Qed.
