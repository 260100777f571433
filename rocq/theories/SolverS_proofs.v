(** Penalty schedule, tolerances, diagonal blocks, NaN guard, equality-constrained merit value. *)
From Coq Require Import Reals List Bool Arith ZArith Lia Lra.
From Verif Require Import Scalar Cset_model Cset_spec Cset_proofs Armijo_model Problem_model Solver_model Solver_spec Merit_spec Solver_proofs SolverR_proofs Merit_proofs.
Import ListNotations.
Local Open Scope R_scope.

(** ** NaN guard *)
Lemma bad_vec_X (v : list xr) : bad_vec (K := XSc) v = true <-> Exists (fun a => a = XNaN \/ exists s, a = XInf s) v.
Proof.
  unfold bad_vec. rewrite existsb_exists, Exists_exists. split; intros (a & Hi & H); exists a; (split; [exact Hi|]).
  - destruct a; cbn in H; eauto. discriminate.
  - destruct H as [->|[s ->]]; reflexivity.
Qed.

(** ** Penalty schedule *)
Section Sched.
  Variables (spow : R -> R -> R) (fac bfgs : Type).
  Notation state := (@state RSc fac bfgs).
  Notation bcl := (bcl_update (K := RSc) spow fac bfgs).
  Definition failed (t : state) : Prop := s_prim_tol _ _ t <= r_prim_infeas (s_res _ _ t).

  Lemma bcl_failed P (t : state) : failed t -> 
    s_mu _ _ (bcl P t) = if Reqb (s_mu _ _ t) (mu_lower P) then mu_init P else Rmax (s_mu _ _ t * mu_factor P) (mu_lower P).
  Proof.
    intros H. unfold failed in H. unfold bcl_update. cbn [sltb RSc]. destruct (Rltb _ _) eqn:E; rhyp; [lra|].
    unfold tol_failure, set_tols, update_penalty. cbn [s_mu seqb RSc].
    destruct (Reqb (s_mu _ _ t) (mu_lower P)) eqn:E2; cbn [set_penalty s_mu]; [reflexivity|].
    unfold smax. cbn [sltb smul RSc]. unfold Rmax. destruct (Rle_dec _ _) as [L|L].
    - destruct (Rltb _ _) eqn:E3; rhyp; lra.
    - destruct (Rltb _ _) eqn:E3; rhyp; lra.
  Qed.

  Lemma schedule P N (st tr : nat -> state) :
    0 < mu_lower P < mu_init P -> 0 < mu_factor P < 1 ->
    mu_init P * mu_factor P ^ N <= mu_lower P -> (forall j, (j < N)%nat -> mu_lower P < mu_init P * mu_factor P ^ j) ->
    s_mu _ _ (st 0%nat) = mu_init P ->
    (forall k, s_mu _ _ (tr k) = s_mu _ _ (st k) /\ failed (tr k) /\ s_mu _ _ (st (S k)) = s_mu _ _ (bcl P (tr k))) ->
    forall k, s_mu _ _ (st k) = if (k mod S N =? N)%nat then mu_lower P else mu_init P * mu_factor P ^ (k mod S N).
  Proof.
    intros Hmu Hf HN HN1 H0 Hst.
    assert (Np : (0 < N)%nat). { destruct N; [cbn in HN; lra|lia]. }
    induction k as [|k IH].
    - rewrite Nat.mod_0_l by lia. destruct (Nat.eqb_spec 0 N); [lia|]. cbn [pow]. rewrite Rmult_1_r. exact H0.
    - destruct (Hst k) as (Et & Fa & ->). rewrite (bcl_failed P (tr k) Fa), Et, IH.
      pose proof (Nat.mod_upper_bound k (S N) ltac:(lia)) as Hb.
      pose proof (Nat.div_mod k (S N) ltac:(lia)) as Dm.
      destruct (Nat.eqb_spec (k mod S N) N) as [E|E].
      + assert (E1 : (S k mod S N = 0)%nat).
        { replace (S k) with ((k / S N + 1) * S N)%nat by nia. apply Nat.mod_mul. lia. }
        rewrite E1. destruct (Nat.eqb_spec 0 N); [lia|]. cbn [pow]. rewrite Rmult_1_r.
        destruct (Reqb (mu_lower P) (mu_lower P)) eqn:E2; rhyp; [reflexivity|lra].
      + assert (E1 : (S k mod S N = S (k mod S N))%nat).
        { symmetry. apply (Nat.mod_unique _ _ (k / S N)); lia. }
        rewrite E1. set (j := (k mod S N)%nat) in *. assert (Hj : (j < N)%nat) by lia. pose proof (HN1 j Hj) as HN1j.
        destruct (Reqb _ _) eqn:E2; rhyp; [lra|]. cbn [pow].
        destruct (Nat.eqb_spec (S j) N) as [E3|E3].
        * rewrite <- E3 in HN. cbn [pow] in HN. rewrite Rmax_right; lra.
        * assert (Hj2 : mu_lower P < mu_init P * mu_factor P ^ S j).
          { apply HN1. lia. }
          cbn [pow] in Hj2. rewrite Rmax_left; lra.
  Qed.

  (** ** Tolerances *)
  Lemma bcl_floors P (s : state) :
    inner_tol_min P <= s_inner_tol _ _ (bcl P s) /\ target_tol P <= s_prim_tol _ _ (bcl P s).
  Proof.
    unfold bcl_update. destruct (sltb _ _); cbn [tol_success tol_failure set_tols s_inner_tol s_prim_tol];
      split; apply smax_R_ge.
  Qed.
  Lemma bcl_tightens P (s : state) :
    (forall a e, 0 < a <= 1 -> 0 <= e -> 0 <= spow a e <= 1) ->
    0 < s_mu _ _ s <= mu_upper P -> 0 <= dual_beta P -> 0 <= prim_beta P ->
    0 <= s_inner_tol _ _ s -> 0 <= s_prim_tol _ _ s ->
    inner_tol_min P <= s_inner_tol _ _ s -> target_tol P <= s_prim_tol _ _ s ->
    r_prim_infeas (s_res _ _ s) < s_prim_tol _ _ s ->
    s_inner_tol _ _ (bcl P s) <= s_inner_tol _ _ s /\ s_prim_tol _ _ (bcl P s) <= s_prim_tol _ _ s /\ s_mu _ _ (bcl P s) = s_mu _ _ s.
  Proof.
    intros Hp Hm Hd Hb I0 P0 If Pf Ok. unfold bcl_update. cbn [sltb RSc]. destruct (Rltb _ _) eqn:E; rhyp; [|lra].
    unfold tol_success, set_tols. cbn [s_inner_tol s_prim_tol s_mu accept_multipliers].
    assert (Hq : 0 < s_mu _ _ s / mu_upper P <= 1).
    { split; [apply Rdiv_lt_0_compat; lra|]. apply (Rmult_le_reg_r (mu_upper P)); [lra|]. unfold Rdiv. rewrite Rmult_assoc, Rinv_l by lra. lra. }
    assert (M : forall t u f, 0 <= t -> f <= t -> 0 <= u <= 1 -> smax (K := RSc) (t * u) f <= t).
    { intros t u f Ht Hf Hu. assert (t * u <= t) by (rewrite <- (Rmult_1_r t) at 2; apply Rmult_le_compat_l; lra).
      unfold smax. cbn [sltb RSc]. destruct (Rltb _ _); lra. }
    split; [|split; [|reflexivity]]; apply M; try assumption; apply Hp; assumption.
  Qed.
End Sched.

(** ** Lower right diagonal of the KKT matrix *)
Lemma map3_hcj_nth ks z (v : list R) k : length ks = length z -> length v = length z -> (k < length z)%nat ->
  nth k (map (fun row : list R => nth 0 row 0) (map3 hcj ks z (map (fun a => [a]) v))) 0 =
  if cact (nth k ks KEq) (nth k z 0) then nth k v 0 else 0.
Proof.
  revert z v k. induction ks as [|c ks IH]; intros [|x z] [|y v] k H1 H2 Hk; cbn in *; try lia.
  destruct k; [unfold hcj; destruct (cact c x); reflexivity|]. apply IH; lia.
Qed.
Lemma map3_hact_nth ks z (o : list bool) k : length ks = length z -> length o = length z -> (k < length z)%nat ->
  nth k (map3 hact ks z o) false = cact (nth k ks KEq) (nth k z 0).
Proof.
  revert z o k. induction ks as [|c ks IH]; intros [|x z] [|y o] k H1 H2 Hk; cbn in *; try lia.
  destruct k; [reflexivity|]. apply IH; lia.
Qed.
Lemma numdual_rows (p : @problem RSc) : numdual p = rows_of (p_cons p).
Proof. unfold numdual, dims. induction (p_cons p); cbn; [reflexivity|]. rewrite IHl. reflexivity. Qed.

Lemma dual_diag (P : @params RSc) (p : @problem RSc) mu sets z o :
  sets_fit sets (p_cons p) -> length z = rows_of (p_cons p) -> length o = rows_of (p_cons p) ->
  exists d act, kkt_dual_diag P p mu sets z = Ret d /\ active_set (product_of sets (map f_nr (p_cons p))) z o = Some act /\
    length d = rows_of (p_cons p) /\ length act = rows_of (p_cons p) /\
    forall k, (k < rows_of (p_cons p))%nat ->
      nth k d 0 = match kkt_sys P with KKT_CLASSIC => - mu | KKT_PRIMAL_DUAL => if nth k act false then - mu else - mu / 2 end.
Proof.
  intros Fit Lz Lo. pose proof (fit_shape _ _ Fit) as Sh. pose proof (stack_coords_length _ _ Fit) as Lk.
  unfold stack_coords in Lk.
  unfold kkt_dual_diag. change (stack p sets) with (product_of sets (map f_nr (p_cons p))).
  set (st := product_of sets (map f_nr (p_cons p))) in *.
  rewrite (active_coords st (rows_of (p_cons p)) z o Sh Lz Lo).
  rewrite numdual_rows. set (nd := rows_of (p_cons p)) in *.
  assert (Lr : length (repeat (- mu) nd) = nd) by apply repeat_length.
  destruct (kkt_sys P).
  - exists (repeat (- mu) nd). eexists. split; [reflexivity|]. split; [reflexivity|]. split; [exact Lr|].
    split; [rewrite map3_length; cbn [car RSc] in *; lia|]. intros k Hk.
    pose proof (repeat_spec nd (- mu) (nth k (repeat (- mu) nd) 0)) as R. apply R. apply nth_In. rewrite Lr. exact Hk.
  - unfold cone_jac_vec. rewrite (cone_jac_coords st nd z _ Sh Lz) by (rewrite map_length; exact Lr). cbn [ub bind].
    eexists. eexists. split; [reflexivity|]. split; [reflexivity|].
    set (v2 := map (fun row : list (car RSc) => nth 0 row 0%S) (map3 hcj (coords st nd) z (map (fun a : car RSc => [a]) (repeat (- mu)%S nd)))).
    assert (L2 : length v2 = nd) by (unfold v2; rewrite map_length, map3_length, map_length; cbn [car RSc sopp] in *; lia).
    split; [unfold vscale; rewrite map_length, vadd_length; cbn [car RSc sopp] in *; congruence|].
    split; [rewrite map3_length; cbn [car RSc] in *; lia|].
    intros k Hk. rewrite vscale_nth, vadd_nth by (cbn [car RSc sopp] in *; congruence).
    rewrite (map3_hact_nth (coords st nd) z o k) by (cbn [car RSc] in *; congruence || lia).
    assert (Nr : nth k (repeat (- mu) nd) 0 = - mu).
    { pose proof (repeat_spec nd (- mu) (nth k (repeat (- mu) nd) 0)) as R. apply R. apply nth_In. rewrite Lr. exact Hk. }
    assert (N2 : nth k v2 0 = if cact (nth k (coords st nd) KEq) (nth k z 0) then - mu else 0).
    { unfold v2. etransitivity; [apply (map3_hcj_nth (coords st nd) z (repeat (- mu) nd) k); cbn [car RSc] in *; congruence || lia|].
      rewrite Nr. reflexivity. }
    cbn [car RSc] in *. rewrite N2. cbn [sopp RSc]. rewrite Nr. unfold shalf, slit. cbn. destruct (cact _ _); lra.
Qed.

(** ** The assembled Hessian block is symmetric *)
Lemma madd_get n A B i j : square n A -> square n B -> (i < n)%nat -> (j < n)%nat ->
  nth j (nth i (madd (K := RSc) A B) []) 0 = nth j (nth i A []) 0 + nth j (nth i B []) 0.
Proof.
  intros [LA FA] [LB FB] Hi Hj. unfold madd.
  assert (H : forall (a b : list (list R)) i, length a = length b -> (i < length a)%nat ->
     nth i (map2 (vadd (K := RSc)) a b) [] = vadd (K := RSc) (nth i a []) (nth i b [])).
  { clear. induction a as [|x a IH]; intros [|y b] i H Hi; cbn in *; try lia. destruct i; [reflexivity|]. apply IH; lia. }
  etransitivity; [apply f_equal with (f := fun r => nth j r 0); apply H; cbn [car RSc] in *; lia|].
  rewrite Forall_forall in FA, FB. apply vadd_nth.
  rewrite FA, FB; auto; apply nth_In; cbn [car RSc] in *; lia.
Qed.
Lemma madd_square n A B : square n A -> square n B -> square n (madd (K := RSc) A B).
Proof.
  intros [LA FA] [LB FB]. unfold madd. split.
  - rewrite map2_length. cbn [car RSc] in *. lia.
  - clear LA LB. revert B FB. induction FA as [|x A Hx FA IH]; intros [|y B] FB; cbn; constructor; inversion FB; subst; auto.
    rewrite vadd_length; cbn [car RSc] in *; congruence.
Qed.
Lemma madd_sym n A B : square n A -> square n B -> sym n A -> sym n B -> sym n (madd (K := RSc) A B).
Proof. intros QA QB SA SB i j Hi Hj. rewrite !(madd_get n) by assumption. rewrite SA, SB by assumption. reflexivity. Qed.
Lemma hess_sym (P : @params RSc) n rho H PH V :
  square n H -> sym n H -> (0 < rho -> square n PH /\ sym n PH) -> Forall (fun v => square n v /\ sym n v) V ->
  square n (kkt_hess P rho H PH V) /\ sym n (kkt_hess P rho H PH V).
Proof.
  intros QH SH HP HV. unfold kkt_hess. cbn [sltb s0 RSc].
  set (A := if Rltb 0 rho then madd (K := RSc) H PH else H).
  assert (QA : square n A /\ sym n A).
  { unfold A. destruct (Rltb 0 rho) eqn:E; rhyp; [|auto]. destruct (HP E) as [Q S]. split; [apply madd_square|apply madd_sym]; assumption. }
  clearbody A. destruct (hess_approx P); try exact QA.
  revert A QA. induction HV as [|v V [Qv Sv] HV IH]; intros A [QA SA]; [split; assumption|].
  apply IH. split; [apply madd_square|apply madd_sym]; assumption.
Qed.

(** ** Equality constraints: the merit value *)
Lemma coords_eq mu fs : stack_coords (map (fun _ => CEq (K := RSc) mu) fs) fs = repeat KEq (rows_of fs).
Proof.
  unfold stack_coords, product_of. cbn [coords]. induction fs as [|f fs IH]; [reflexivity|].
  cbn [map combine flat_map rows_of fst snd coords]. rewrite IH. symmetry. apply repeat_app.
Qed.
Lemma eq_fit mu (fs : list (@cfun RSc)) : sets_fit (map (fun _ => CEq (K := RSc) mu) fs) fs.
Proof. split; induction fs; cbn; constructor; auto; exact I. Qed.
Lemma eq_mu mu (fs : list (@cfun RSc)) : Forall (fun c : rset => mu_of c = mu) (map (fun _ => CEq (K := RSc) mu) fs).
Proof. induction fs; constructor; auto. Qed.
Lemma shifted_nth c mu l k : length l = length c -> nth k (shifted c mu l) 0 = nth k c 0 + mu * nth k l 0.
Proof.
  revert l k. induction c as [|a c IH]; intros [|b l] k H; cbn in *; try discriminate; destruct k; try lra; apply IH; lia.
Qed.
Lemma shifted_length c mu l : length l = length c -> length (shifted c mu l) = length c.
Proof. revert l. induction c as [|a c IH]; intros [|b l] H; cbn in *; try discriminate; [reflexivity|]. rewrite IH; lia. Qed.
Lemma minus_nth a : forall b k, length a = length b -> nth k (minus a b) 0 = nth k a 0 - nth k b 0.
Proof. induction a as [|x a IH]; intros [|y b] k H; cbn in *; try discriminate; destruct k; try lra; apply IH; lia. Qed.
Lemma minus_length a : forall b, length a = length b -> length (minus a b) = length a.
Proof. induction a as [|x a IH]; intros [|y b] H; cbn in *; try discriminate; [reflexivity|]. rewrite IH; lia. Qed.

Lemma merit_equality (P : @params RSc) (p : @problem RSc) (fac bfgs : Type) (s : @state RSc fac bfgs) f c l :
  let mu := s_mu _ _ s in let le := w_lams_prev _ _ (s_ws _ _ s) in let nd := rows_of (p_cons p) in
  0 < mu -> s_sets _ _ s = map (fun _ => CEq (K := RSc) mu) (p_cons p) ->
  length c = nd -> length l = nd -> length le = nd -> length (w_plus _ _ (s_ws _ _ s)) = nd -> length (w_pdal _ _ (s_ws _ _ s)) = nd ->
  exists m, compute_multipliers fac bfgs P p s c l = Ret m /\
    merit_value p (s_sets _ _ s) f (m_shift_pd m) l =
      Some (f + inner (shifted c mu le) (shifted c mu le) / (2 * mu)
              + inner (shifted c mu (minus le l)) (shifted c mu (minus le l)) / (2 * mu)).
Proof.
  intros mu le nd Hmu Es Lc Ll Lle L1 L2.
  assert (Fit : sets_fit (s_sets _ _ s) (p_cons p)) by (rewrite Es; apply eq_fit).
  destruct (mult_closed fac bfgs P p s c l Fit Lc Ll Lle L1 L2) as (m & E & _ & S2 & _ & _ & S5 & _).
  exists m. split; [exact E|].
  rewrite (merit_value_closed p (s_sets _ _ s) mu f (m_shift_pd m) l Fit) by (rewrite ?Es; auto; try apply eq_mu).
  f_equal. rewrite Es, coords_eq. fold nd in S5 |- *.
  assert (Lm : length (minus le l) = nd) by (rewrite minus_length; cbn [car RSc] in *; unfold nd in *; congruence).
  assert (La : length (shifted c mu le) = nd) by (rewrite shifted_length; cbn [car RSc] in *; unfold nd in *; congruence).
  assert (Lb : length (shifted c mu (minus le l)) = nd) by (rewrite shifted_length; cbn [car RSc] in *; unfold nd in *; congruence).
  rewrite (inner_sumn _ _ nd La La), (inner_sumn _ _ nd Lb Lb).
  assert (Lml : length le = length l) by (cbn [car RSc] in *; unfold nd in *; congruence).
  assert (Llc : length le = length c) by (cbn [car RSc] in *; unfold nd in *; congruence).
  assert (Lmc : length (minus le l) = length c) by (cbn [car RSc] in *; unfold nd in *; congruence).
  unfold Rdiv. rewrite !(Rmult_comm _ (/ (2 * mu))). rewrite (Rmult_assoc mu), (Rmult_comm mu).
  rewrite !Rplus_assoc. f_equal.
  replace (sumn nd (fun k => nth k l 0 * nth k l 0) * / 4 * mu) with (mu / 4 * sumn nd (fun k => nth k l 0 * nth k l 0)) by lra.
  rewrite <- !sumn_scale, <- !sumn_plus. apply sumn_ext. intros k Hk.
  rewrite !shifted_nth, minus_nth by assumption. rewrite S5 by exact Hk.
  replace (nth k (repeat KEq nd) KEq) with KEq.
  2:{ symmetry. apply (repeat_spec nd KEq). apply nth_In. rewrite repeat_length. exact Hk. }
  unfold env1. cbn [cproj cpen]. fold mu le.
  assert (G : forall a b d u : R, 0 < u ->
    2 * (0 + (a + u * b - 1 / 2 * u * d - 0) * (a + u * b - 1 / 2 * u * d - 0) / (2 * u)) + u / 4 * (d * d) =
    / (2 * u) * ((a + u * b) * (a + u * b)) + / (2 * u) * ((a + u * (b - d)) * (a + u * (b - d)))).
  { intros. field. lra. }
  apply G. exact Hmu.
Qed.
