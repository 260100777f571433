(** Self-reference, finite differences, rigid transformations. *)
From Coq Require Import Reals List Arith Bool Lia Lra.
From Verif Require Import Scalar Cset_spec Cset_proofs Problem_model Merit_proofs Manifold_model Manifold_spec Manifold_proofs ManifoldR_proofs
  Function_model Function_spec Function_proofs FunctionE_proofs FunctionJ_proofs FunctionH_proofs.
Import ListNotations.
Local Open Scope R_scope.

(** * Evaluations change cached values only *)
Lemma call_skel n : (forall h r x v h', eval (K := RSc) n h r x = Ret (v, h') -> skel h h') /\
  (forall h r x v h', call (K := RSc) n h r x = Ret (v, h') -> skel h h').
Proof.
  induction n as [|n [IHe IHc]]; [split; discriminate|].
  split; intros h r x v h' E.
  - rewrite eval_S in E. destruct (nth_error h r) as [o|]; [|discriminate]. cbn [ub bind] in E. destruct o.
    + destruct (user _); try discriminate. injection E as _ <-. apply sim_refl.
    + destruct (mv _ _) as [y| | |]; try discriminate. cbn [bind] in E. destruct (vop _ _ _) as [y'| | |]; try discriminate. injection E as _ <-. apply sim_refl.
    + destruct (difference _ _ _); try discriminate. injection E as _ <-. apply sim_refl.
    + destruct (rigid_eval _ _); try discriminate. injection E as _ <-. apply sim_refl.
    + destruct (eval n h g x) as [[y h1]| | |] eqn:E1; try discriminate. cbn [bind] in E. eapply sim_trans; [eapply IHe; exact E1|eapply IHe; exact E].
    + destruct (call n h r x) as [[y h1]| | |] eqn:E1; try discriminate. injection E as _ <-. eapply IHc; exact E1.
    + destruct (call n h r x) as [[y h1]| | |] eqn:E1; try discriminate. injection E as _ <-. eapply IHc; exact E1.
    + destruct (call n h r x) as [[y h1]| | |] eqn:E1; try discriminate. injection E as _ <-. eapply IHc; exact E1.
    + eapply IHe; exact E.
    + eapply IHe; exact E.
  - rewrite call_S in E. destruct (nth_error h r) as [o|]; [|discriminate]. cbn [ub bind] in E. destruct o; try discriminate.
    + destruct (eval n h f x) as [[y h1]| | |] eqn:E1; try discriminate. cbn [bind] in E. destruct (ub _); try discriminate. injection E as _ <-. eapply IHe; exact E1.
    + revert E. generalize (s0 (s := RSc)) as acc. revert h ws. induction cs as [|c cs IH]; intros h [|w ws] acc E; cbn [sum_call] in E; try discriminate.
      * injection E as _ <-. apply sim_refl.
      * injection E as _ <-. apply sim_refl.
      * destruct (call n h c x) as [[y h1]| | |] eqn:E1; try discriminate. cbn [bind] in E. eapply sim_trans; [eapply IHc; exact E1|eapply IH; exact E].
    + destruct (eval n h res x) as [[y h1]| | |] eqn:E1; try discriminate. cbn [bind] in E. destruct (mv _ _) as [y1| | |]; try discriminate. cbn [bind] in E.
      destruct (dot y y1) as [y2| | |]; try discriminate. cbn [bind] in E. destruct (dot y slope) as [y3| | |]; try discriminate. injection E as _ <-.
      eapply sim_trans; [eapply IHe; exact E1|]. apply update_sim. intros o _. apply set_err_like.
Qed.
(** A sum with itself among its components never returns a value. *)
Lemma self_call h s dx dv rs ws : nth_error h s = Some (OSum dx dv rs ws) -> In s rs -> length ws = length rs ->
  forall n x c h', call (K := RSc) n h s x <> Ret (c, h').
Proof.
  intros E I L n x. revert h E. induction n as [|n IH]; intros h E c h' C; [discriminate|].
  rewrite call_S, E in C. cbn [ub bind] in C.
  assert (G : forall rs' ws' h1 acc, nth_error h1 s = Some (OSum dx dv rs ws) -> In s rs' -> sum_call (K := RSc) (call n) x rs' ws' acc h1 <> Ret (c, h')).
  { clear C h E. induction rs' as [|p rs' IH']; intros [|w ws'] h1 acc E I' C; try contradiction; try discriminate.
    cbn [sum_call] in C. destruct (call n h1 p x) as [[y h2]| | |] eqn:E1; try discriminate. cbn [bind] in C.
    destruct I' as [->|I']; [exact (IH h1 E _ _ E1)|]. eapply IH'; [|exact I'|exact C].
    pose proof (proj2 (call_skel n) _ _ _ _ _ E1 s) as S. rewrite E in S. destruct (nth_error h2 s) as [o|]; [|contradiction].
    destruct S as [<-|(a0 & a1 & a2 & a3 & a4 & a5 & a6 & a7 & a8 & Q & _)]; [reflexivity|discriminate]. }
  eapply G; eassumption.
Qed.

(** * Finite differences *)
Lemma nth_map_seq (f : nat -> R) n k : (k < n)%nat -> nth k (map f (seq 0 n)) 0 = f k.
Proof. intros H. rewrite (nth_indep _ 0 (f n)) by (rewrite map_length, seq_length; exact H). rewrite map_nth, seq_nth by exact H. reflexivity. Qed.
Lemma der_eq f x l l' : derivable_pt_lim f x l -> l = l' -> derivable_pt_lim f x l'.
Proof. intros H <-. exact H. Qed.
Lemma unit_line n i e : (i < n)%nat -> unit_step (K := RSc) n i e = line (axis n i) e.
Proof.
  intros H. unfold unit_step, line, axis. rewrite map_map. revert n H. induction i as [|i IH]; intros [|n] H; try lia.
  - cbn [repeat app seq map]. f_equal; [symmetry; apply Rmult_1_r|]. replace (S n - 1)%nat with n by lia. rewrite <- seq_shift, map_map.
    transitivity (map (fun _ => 0) (seq 0 n)); [|apply map_ext; intros; symmetry; apply Rmult_0_r].
    generalize 0%nat. induction n as [|n IH]; intros k; [reflexivity|]. cbn. f_equal. apply IH; lia.
  - cbn [repeat app seq map]. f_equal; [symmetry; apply Rmult_0_r|]. rewrite <- seq_shift, map_map. replace (S n - S (S i))%nat with (n - S i)%nat by lia.
    rewrite (IH n) by lia. apply map_ext. intros a. reflexivity.
Qed.
Lemma unit_line_neg n i e : (i < n)%nat -> vneg (unit_step (K := RSc) n i e) = line (axis n i) (- e).
Proof.
  intros H. rewrite unit_line by exact H. unfold vneg, line. rewrite map_map. apply map_ext. intros a. symmetry. apply Ropp_mult_distr_l_reverse.
Qed.
Lemma set_col_ok r c i v J : mat r c J -> length v = r -> (i < c)%nat ->
  exists J', set_col (K := RSc) i v J = Ret J' /\ mat r c J' /\
    forall k j, (k < r)%nat -> nth j (nth k J' []) 0 = if Nat.eqb j i then nth k v 0 else nth j (nth k J []) 0.
Proof.
  intros [LJ FJ] Lv Hi. unfold set_col, chk. assert (T : forallb (fun row : rvec => Nat.ltb i (length row)) J = true).
  { apply forallb_forall. intros row Hr. rewrite Forall_forall in FJ. apply Nat.ltb_lt. rewrite (FJ row Hr). exact Hi. }
  cbn [car RSc] in *. rewrite T, Lv, LJ, Nat.eqb_refl. cbn [andb bind]. eexists. split; [reflexivity|].
  assert (Lr : forall row, length row = c -> forall a : R, length (firstn i row ++ a :: skipn (S i) row) = c).
  { intros row H a. rewrite app_length. cbn [length]. rewrite firstn_length, skipn_length. lia. }
  split.
  - split; [rewrite map2_length; lia|]. clear T LJ Lv. revert v. induction FJ as [|row J H FJ IH]; intros [|a v]; cbn; constructor; auto. apply Lr. exact H.
  - intros k j Hk. rewrite (nth_map2_gen _ J v k [] 0 []) by lia.
    assert (Hr : length (nth k J []) = c) by (rewrite Forall_forall in FJ; apply FJ, nth_In; lia).
    assert (Lf : length (firstn i (nth k J [])) = i) by (rewrite firstn_length; lia).
    destruct (Nat.eqb_spec j i) as [->|N].
    + rewrite app_nth2, Lf, Nat.sub_diag by lia. reflexivity.
    + destruct (le_lt_dec i j) as [G|G].
      * rewrite app_nth2 by lia. rewrite Lf. destruct (j - i)%nat as [|m] eqn:Em; [lia|]. cbn [nth].
        transitivity (nth (S i + m) (nth k J []) 0); [|f_equal; lia]. generalize (nth k J []). generalize (S i). clear. intros p l. revert l.
        induction p as [|p IH]; intros [|a l]; try reflexivity; [destruct m; reflexivity|]. cbn. apply IH.
      * rewrite app_nth1 by lia. generalize (nth k J []). revert j G N. clear. induction i as [|i IH]; intros j G N l; [lia|].
        destruct l as [|a l]; [reflexivity|]. destruct j as [|j]; [reflexivity|]. cbn. apply IH; lia.
Qed.
Lemma nonneg_step (g g' : R -> R) e : 0 <= g 0 -> (forall t, 0 <= t <= e -> derivable_pt_lim g t (g' t)) -> (forall t, 0 <= t <= e -> 0 <= g' t) ->
  forall t, 0 <= t <= e -> 0 <= g t.
Proof.
  intros H0 D H t Ht. destruct (Req_dec t 0) as [->|N]; [exact H0|].
  destruct (MVT_cor2 g g' 0 t) as (c & E & Hc); [lra| |].
  - intros c Hc. apply D. lra.
  - assert (0 <= g' c) by (apply H; lra). assert (0 <= g' c * (t - 0)) by (apply Rmult_le_pos; lra). lra.
Qed.
Lemma der_opp f t l : derivable_pt_lim f (- t) l -> derivable_pt_lim (fun t => f (- t)) t (- l).
Proof.
  intros H. apply der_eq with (l := l * - (1)); [|ring].
  apply (derivable_pt_lim_comp (fun t => - t) f); [|exact H]. apply (derivable_pt_lim_opp (fun t => t)), derivable_pt_lim_id.
Qed.
Lemma central_bound (y y1 y2 y3 : R -> R) M e : 0 < e ->
  (forall t, Rabs t <= e -> derivable_pt_lim y t (y1 t) /\ derivable_pt_lim y1 t (y2 t) /\ derivable_pt_lim y2 t (y3 t) /\ Rabs (y3 t) <= M) ->
  Rabs ((y e - y (- e)) / (2 * e) - y1 0) <= M * (e * e) / 6.
Proof.
  intros He H.
  assert (T : forall t, 0 <= t <= e -> Rabs t <= e /\ Rabs (- t) <= e). { intros t Ht. rewrite Rabs_Ropp. rewrite Rabs_pos_eq; lra. }
  assert (B : forall s, s = 1 \/ s = - (1) -> 0 <= M * (e * (e * e)) / 3 - s * (y e - y (- e) - 2 * e * y1 0)).
  { intros s Hs.
    assert (Mul : forall c f t l, derivable_pt_lim f t l -> derivable_pt_lim (fun t => c * f t) t (c * l)).
    { intros c f t l D. apply (derivable_pt_lim_scal f c t l D). }
    assert (G2 : forall t, 0 <= t <= e -> 0 <= 2 * M * t - s * (y2 t - y2 (- t))).
    { apply (nonneg_step _ (fun t => 2 * M - s * (y3 t + y3 (- t)))).
      - rewrite Ropp_0. lra.
      - intros t Ht. destruct (T t Ht) as [T1 T2]. apply (derivable_pt_lim_minus (fun t => 2 * M * t) (fun t => s * (y2 t - y2 (- t)))).
        + apply der_eq with (l := 2 * M * 1); [|ring]. apply Mul, derivable_pt_lim_id.
        + apply Mul. apply der_eq with (l := y3 t - - y3 (- t)); [|ring]. apply (derivable_pt_lim_minus y2 (fun t => y2 (- t))); [apply H; exact T1|].
          apply der_opp. apply H. exact T2.
      - intros t Ht. destruct (T t Ht) as [T1 T2]. destruct (H _ T1) as (_ & _ & _ & A1). destruct (H _ T2) as (_ & _ & _ & A2).
        apply Rabs_le in A1 || apply Rabs_def2 in A1 || idtac. assert (- M <= y3 t <= M) by (split; [pose proof (Rle_abs (- y3 t)) as Q; rewrite Rabs_Ropp in Q; lra|pose proof (Rle_abs (y3 t)); lra]).
        assert (- M <= y3 (- t) <= M) by (split; [pose proof (Rle_abs (- y3 (- t))) as Q; rewrite Rabs_Ropp in Q; lra|pose proof (Rle_abs (y3 (- t))); lra]).
        destruct Hs as [-> | ->]; lra. }
    assert (G1 : forall t, 0 <= t <= e -> 0 <= M * (t * t) - s * (y1 t + y1 (- t) - 2 * y1 0)).
    { apply (nonneg_step _ (fun t => 2 * M * t - s * (y2 t - y2 (- t)))); [|..].
      - rewrite Ropp_0. lra.
      - intros t Ht. destruct (T t Ht) as [T1 T2]. apply (derivable_pt_lim_minus (fun t => M * (t * t)) (fun t => s * (y1 t + y1 (- t) - 2 * y1 0))).
        + apply der_eq with (l := M * (1 * t + t * 1)); [|ring]. apply Mul. apply (derivable_pt_lim_mult (fun t => t) (fun t => t)); apply derivable_pt_lim_id.
        + apply Mul. apply der_eq with (l := (y2 t + - y2 (- t)) - 0); [|ring]. apply (derivable_pt_lim_minus (fun t => y1 t + y1 (- t)) (fun _ => 2 * y1 0)); [|apply derivable_pt_lim_const].
          apply (derivable_pt_lim_plus y1 (fun t => y1 (- t))); [apply H; exact T1|]. apply der_opp. apply H. exact T2.
      - exact G2. }
    assert (G0 : forall t, 0 <= t <= e -> 0 <= M * (t * (t * t)) / 3 - s * (y t - y (- t) - 2 * t * y1 0)).
    { apply (nonneg_step _ (fun t => M * (t * t) - s * (y1 t + y1 (- t) - 2 * y1 0))); [|..].
      - rewrite Ropp_0. lra.
      - intros t Ht. destruct (T t Ht) as [T1 T2]. apply (derivable_pt_lim_minus (fun t => M * (t * (t * t)) / 3) (fun t => s * (y t - y (- t) - 2 * t * y1 0))).
        + apply der_eq with (l := (M / 3) * (1 * (t * t) + t * (1 * t + t * 1))); [|field].
          apply (derivable_pt_lim_ext (fun t => (M / 3) * (t * (t * t)))); [intros; field|]. apply Mul.
          apply (derivable_pt_lim_mult (fun t => t) (fun t => t * t)); [apply derivable_pt_lim_id|]. apply (derivable_pt_lim_mult (fun t => t) (fun t => t)); apply derivable_pt_lim_id.
        + apply Mul. apply der_eq with (l := (y1 t - - y1 (- t)) - 2 * y1 0); [|ring]. apply (derivable_pt_lim_minus (fun t => y t - y (- t)) (fun t => 2 * t * y1 0)).
          * apply (derivable_pt_lim_minus y (fun t => y (- t))); [apply H; exact T1|]. apply der_opp. apply H. exact T2.
          * apply (derivable_pt_lim_ext (fun t => (2 * y1 0) * t)); [intros; ring|]. apply der_eq with (l := 2 * y1 0 * 1); [|ring]. apply Mul, derivable_pt_lim_id.
      - exact G1. }
    apply G0. lra. }
  pose proof (B 1 (or_introl eq_refl)) as B1. pose proof (B (- (1)) (or_intror eq_refl)) as B2.
  replace ((y e - y (- e)) / (2 * e) - y1 0) with ((y e - y (- e) - 2 * e * y1 0) / (2 * e)) by (field; lra).
  assert (E : M * (e * e) / 6 = M * (e * (e * e)) / 3 / (2 * e)) by (field; lra). rewrite E.
  assert (P : 0 < / (2 * e)) by (apply Rinv_0_lt_compat; lra).
  apply Rabs_le. unfold Rdiv at 1 3 4. split.
  - replace (- (M * (e * (e * e)) / 3 * / (2 * e))) with ((- (M * (e * (e * e)) / 3)) * / (2 * e)) by ring. apply Rmult_le_compat_r; lra.
  - apply Rmult_le_compat_r; lra.
Qed.
Lemma smooth_velocity m M e f : 0 < e -> smooth_curve m M e f -> exists y z, f e = Ret y /\ f (- e) = Ret z /\ length y = m /\ length z = m /\
  forall c, length c = m -> (forall k, (k < m)%nat -> nth k c 0 = (nth k y 0 - nth k z 0) / (2 * e)) -> close_velocity M e f c.
Proof.
  intros He (y & y1 & y2 & y3 & Hf & H).
  exists (map (fun k => y k e) (seq 0 m)), (map (fun k => y k (- e)) (seq 0 m)).
  split; [apply Hf; rewrite Rabs_pos_eq; lra|]. split; [apply Hf; rewrite Rabs_Ropp, Rabs_pos_eq; lra|].
  rewrite !map_length, seq_length. split; [reflexivity|]. split; [reflexivity|]. intros c Lc Hc.
  exists (map (fun k => y1 k 0) (seq 0 m)). rewrite map_length, seq_length. split; [|split; [exact Lc|]].
  - exists (fun t => map (fun k => y k t) (seq 0 m)), e. split; [exact He|]. split; [|split].
    + intros t Ht. apply Hf. lra.
    + intros t. now rewrite !map_length.
    + intros k Hk. rewrite map_length, seq_length in Hk. rewrite nth_map_seq by exact Hk.
      apply (derivable_pt_lim_ext (y k)); [intros t; symmetry; apply (nth_map_seq (fun k => y k t)); exact Hk|]. apply H; [exact Hk|]. rewrite Rabs_R0. lra.
  - intros k Hk. rewrite Hc by exact Hk. rewrite !(nth_map_seq _ m k) by exact Hk.
    apply (central_bound (y k) (y1 k) (y2 k) (y3 k)); [exact He|]. intros t Ht. apply H; assumption.
Qed.
Lemma smooth_nonneg m M e f : 0 < e -> (0 < m)%nat -> smooth_curve m M e f -> 0 <= M.
Proof. intros He Hm (y & y1 & y2 & y3 & _ & H). destruct (H 0%nat 0 Hm) as (_ & _ & _ & B); [rewrite Rabs_R0; lra|]. pose proof (Rabs_pos (y3 0%nat 0)). lra. Qed.
Lemma close_exact e f c : close_velocity 0 e f c -> velocity f c.
Proof.
  intros (v & V & L & H). replace c with v; [exact V|]. apply (nth_ext _ _ 0 0); [symmetry; exact L|]. intros k Hk. specialize (H k Hk).
  replace (0 * (e * e) / 6) with 0 in H by field. pose proof (Rabs_pos (nth k c 0 - nth k v 0)) as P. assert (Z : Rabs (nth k c 0 - nth k v 0) = 0) by lra.
  destruct (Req_dec (nth k c 0 - nth k v 0) 0) as [Q|Q]; [lra|]. apply Rabs_no_R0 in Q. contradiction.
Qed.
Lemma fd_loop (s : rspace) e p x dv dr M eps n : (ht e <= n)%nat -> 0 < eps ->
  (forall i, (i < dv)%nat -> smooth_curve dr M eps (fun t => (do z <- integrate s x (line (axis dv i) t); sem e z)%out)) ->
  forall todo i J h, (i + todo = dv)%nat -> mat dr dv J -> repr h p e ->
  (forall j, (j < i)%nat -> close_velocity M eps (fun t => (do z <- integrate s x (line (axis dv j) t); sem e z)%out) (column j J)) ->
  exists J' h', fd_jac_loop (K := RSc) (fun h y => eval n h p y) s dv eps x todo i J h = Ret (J', h') /\ mat dr dv J' /\
    forall j, (j < dv)%nat -> close_velocity M eps (fun t => (do z <- integrate s x (line (axis dv j) t); sem e z)%out) (column j J').
Proof.
  intros Hn He HQ. induction todo as [|todo IH]; intros i J h Hi MJ R Hj.
  - exists J, h. split; [reflexivity|]. split; [exact MJ|]. intros j H. apply Hj. lia.
  - cbn [fd_jac_loop]. rewrite unit_line_neg, unit_line by lia.
    destruct (smooth_velocity _ _ _ _ He (HQ i ltac:(lia))) as (y & z & Ey & Ez & Ly & Lz & DB). cbv beta in Ey, Ez.
    cbn [car RSc] in *. destruct (integrate s x (line (axis dv i) eps)) as [xp| | |] eqn:Exp; try discriminate.
    destruct (integrate s x (line (axis dv i) (- eps))) as [xm| | |] eqn:Exm; try discriminate. cbn [bind] in *.
    rewrite (proj1 (eval_sem e) n h p xp y Hn R Ey). cbn [bind].
    assert (R1 : repr (after h (visits e xp)) p e) by (eapply repr_skel; [apply after_skel|exact R]).
    rewrite (proj1 (eval_sem e) n _ p xm z Hn R1 Ez). cbn [bind].
    rewrite vop_ok by exact (eq_trans Ly (eq_sym Lz)). cbn [bind].
    set (B := map (fun a => sdiv (s := RSc) a (smul (stwo (K := RSc)) eps)) (map2 (ssub (s := RSc)) y z)).
    assert (LB : length B = dr) by (unfold B; rewrite map_length, map2_length; cbn [car RSc] in *; lia).
    assert (V : close_velocity M eps (fun t => (do z <- integrate s x (line (axis dv i) t); sem e z)%out) B).
    { apply DB; [exact LB|]. intros k Hk. unfold B.
      rewrite (nth_indep _ 0 ((fun a => a / (2 * eps)) (0 - 0))) by (rewrite map_length, map2_length; cbn [car RSc] in *; lia).
      refine (eq_trans (map_nth (fun a => a / (2 * eps)) (map2 Rminus y z) (0 - 0) k) _). f_equal. apply (nth_map2_gen Rminus y z k 0 0 (0 - 0)); cbn [car RSc] in *; lia. }
    assert (EB : map (fun a => sdiv (s := RSc) a (smul (stwo (K := RSc)) eps)) (map2 (ssub (s := RSc)) y z) = B) by reflexivity. clearbody B.
    refine (eq_ind_r (fun v => exists J' h', bind (set_col (K := RSc) i v J) _ = Ret (J', h') /\ _) _ EB).
    destruct (set_col_ok dr dv i B J MJ LB ltac:(lia)) as (J1 & E1 & M1 & N1). cbn [car RSc] in *. rewrite E1. cbn [bind].
    apply IH; [lia|exact M1| |].
    + eapply repr_skel; [apply after_skel|exact R1].
    + assert (CE : forall j, column j J1 = map (fun k => if Nat.eqb j i then nth k B 0 else nth k (column j J) 0) (seq 0 dr)).
      { intros j. unfold column. apply (nth_ext _ _ 0 0); [rewrite !map_length, seq_length; exact (proj1 M1)|]. intros k Hk. rewrite map_length, (proj1 M1) in Hk.
        rewrite nth_map_nth, N1 by exact Hk. rewrite nth_map_seq by exact Hk. destruct (Nat.eqb j i); [reflexivity|]. now rewrite nth_map_nth. }
      assert (ID : forall l : rvec, length l = dr -> map (fun k => nth k l 0) (seq 0 dr) = l).
      { intros l <-. clear. induction l as [|a l IHl]; [reflexivity|]. cbn [length seq map nth]. f_equal. rewrite <- seq_shift, map_map. exact IHl. }
      intros j Hji. rewrite CE. destruct (Nat.eqb_spec j i) as [->|Nj].
      * rewrite ID by exact LB. exact V.
      * rewrite ID by (unfold column; rewrite map_length; exact (proj1 MJ)). apply Hj. lia.
Qed.

(** * Finite differences of Jacobians *)
Lemma inner_col_diff j e A B v n : mat n (length (nth 0 A [])) A -> length A = length B -> forall c, mat (length A) c A -> mat (length A) c B -> (j < c)%nat ->
  inner (column j (map (map (fun a => a / (2 * e))) (map2 (map2 Rminus) A B))) v = (inner (column j A) v - inner (column j B) v) / (2 * e).
Proof.
  intros _ L c [_ FA] [_ FB] Hj. unfold column. revert B v L FB. induction FA as [|row A H FA IH]; intros [|rowb B] v L FB; cbn in L; try discriminate.
  - cbn. unfold Rdiv. ring.
  - inversion FB as [|? ? Hb FB']; subst. destruct v as [|b v]; [cbn; unfold Rdiv; ring|]. cbn [map map2 inner]. rewrite (IH B v) by (try lia; assumption).
    replace (nth j (map (fun a => a / (2 * e)) (map2 Rminus row rowb)) 0) with ((nth j row 0 - nth j rowb 0) / (2 * e)); [unfold Rdiv; ring|].
    rewrite (nth_indep (map _ _) 0 ((fun a => a / (2 * e)) (0 - 0))) by (rewrite map_length, map2_length; lia).
    rewrite (map_nth (fun a => a / (2 * e))). f_equal. symmetry. apply nth_map2_gen; lia.
Qed.
Lemma map_mat r c (f : R -> R) A : mat r c A -> mat r c (map (map f) A).
Proof.
  intros [L F]. split; [now rewrite map_length|]. rewrite Forall_forall in *. intros row H. apply in_map_iff in H. destruct H as (z & <- & Hz). rewrite map_length. auto.
Qed.
Lemma fd_vhp junk (s : rspace) u p x v M eps n : 0 < eps -> length v = e_nr u -> (1 <= n)%nat ->
  (forall y old, mat (e_nr u) (e_ndx u) old -> exists J, e_jac u y old = Some J /\ e_jac u y (zeros (K := RSc) (e_nr u) (e_ndx u)) = Some J /\ mat (e_nr u) (e_ndx u) J) ->
  (forall i, (i < e_ndx u)%nat -> smooth_curve (e_ndx u) M eps (vec_jac u s x v (axis (e_ndx u) i))) ->
  forall todo i Jp Jm H h, (i + todo = e_ndx u)%nat -> mat (e_nr u) (e_ndx u) Jp -> mat (e_nr u) (e_ndx u) Jm -> mat (e_ndx u) (e_ndx u) H -> nth_error h p = Some (OExt u) ->
  (forall j, (j < i)%nat -> close_velocity M eps (vec_jac u s x v (axis (e_ndx u) j)) (column j H)) ->
  exists H' h', fd_vhp_loop (K := RSc) (fun h y J => jac junk n h p y J) s (e_ndx u) eps x v todo i Jp Jm H h = Ret (H', h') /\ mat (e_ndx u) (e_ndx u) H' /\
    forall j, (j < e_ndx u)%nat -> close_velocity M eps (vec_jac u s x v (axis (e_ndx u) j)) (column j H').
Proof.
  intros He Lv Hn HJ HQ. set (dv := e_ndx u) in *. set (dr := e_nr u) in *.
  induction todo as [|todo IH]; intros i Jp Jm H h Hi MJp MJm MH Hp Hj.
  - exists H, h. split; [reflexivity|]. split; [exact MH|]. intros j Hlt. apply Hj. lia.
  - cbn [fd_vhp_loop]. rewrite unit_line_neg, unit_line by lia.
    destruct (smooth_velocity _ _ _ _ He (HQ i ltac:(lia))) as (y & z & Ey & Ez & Ly & Lz & DB). pose proof Ey as Ey0. pose proof Ez as Ez0. unfold vec_jac in Ey, Ez. change (repeat (repeat 0 (e_ndx u)) (e_nr u)) with (zeros (K := RSc) dr dv) in Ey, Ez.
    cbn [car RSc] in *. destruct (integrate s x (line (axis dv i) eps)) as [xp| | |] eqn:Exp; try discriminate.
    destruct (integrate s x (line (axis dv i) (- eps))) as [xm| | |] eqn:Exm; try discriminate. cbn [bind] in *.
    assert (EJ : forall y old h, nth_error h p = Some (OExt u) -> mat dr dv old -> exists J, jac (K := RSc) junk n h p y old = Ret (J, h) /\ e_jac u y (zeros (K := RSc) dr dv) = Some J /\ mat dr dv J).
    { clear - HJ Hn. intros y old h Hp M. destruct n as [|n]; [lia|]. destruct (HJ y old M) as (J & E1 & E2 & MJ). exists J. split; [|split; assumption].
      rewrite jac_S, Hp. cbn [ub bind]. cbn [car RSc] in *. rewrite E1. cbn [user bind]. rewrite (like_ok dr dv) by assumption. reflexivity. }
    destruct (EJ xp Jp h Hp MJp) as (J1 & E1 & Q1 & M1). destruct (EJ xm Jm h Hp MJm) as (J2 & E2 & Q2 & M2).
    cbn [car RSc] in *. fold dv in Ey, Ez. fold dr in Ey, Ez. rewrite Q1 in Ey. rewrite Q2 in Ez. cbn [user bind] in Ey, Ez. injection Ey as <-. injection Ez as <-.
    rewrite E1. cbn [bind]. rewrite E2. cbn [bind]. rewrite (mop_ok _ dr dv) by assumption. cbn [bind].
    set (Dm := map (map (fun a : R => a / (2 * eps))) (map2 (map2 Rminus) J1 J2)).
    assert (MD : mat dr dv Dm) by (apply map_mat, map2_mat; assumption). pose proof (transp_mat _ _ _ MD) as MT.
    set (B := mat_vec (transp (K := RSc) dv Dm) v).
    assert (LB : length B = dv) by (unfold B; rewrite mat_vec_len; exact (proj1 MT)).
    assert (EV : mv (K := RSc) (transp (K := RSc) dv Dm) v = Ret B) by (apply mv_ok; rewrite Lv; exact (proj2 MT)).
    assert (V : close_velocity M eps (vec_jac u s x v (axis dv i)) B).
    { apply DB; [exact LB|]. intros k Hk'. unfold B. change (fun j : nat => column j J1) with (fun j => map (fun row : rvec => nth j row 0) J1). change (fun j : nat => column j J2) with (fun j => map (fun row : rvec => nth j row 0) J2). change (map (fun j => map (fun row : rvec => nth j row 0) J1) (seq 0 dv)) with (transp (K := RSc) dv J1). change (map (fun j => map (fun row : rvec => nth j row 0) J2) (seq 0 dv)) with (transp (K := RSc) dv J2). rewrite !nth_mat_vec, !nth_transp by exact Hk'.
      apply (inner_col_diff k eps J1 J2 v dr) with (c := dv); try exact Hk'.
      - split; [exact (proj1 M1)|]. destruct M1 as [L1 F1]. destruct J1 as [|r0 J1]; [constructor|]. inversion F1; subst. cbn [nth]. eapply Forall_impl; [|exact F1]. cbn. congruence.
      - exact (eq_trans (proj1 M1) (eq_sym (proj1 M2))).
      - split; [reflexivity|exact (proj2 M1)].
      - split; [exact (eq_trans (proj1 M2) (eq_sym (proj1 M1)))|exact (proj2 M2)]. }
    clearbody B.
    refine (eq_ind_r (fun v => exists J' h', bind v _ = Ret (J', h') /\ _) _ EV). cbn [bind].
    destruct (set_col_ok dv dv i B H MH LB ltac:(lia)) as (H1 & E3 & M3 & N3). cbn [car RSc] in *. rewrite E3. cbn [bind].
    apply IH; [lia|exact M1|exact M2|exact M3|exact Hp|].
    assert (CE : forall j, column j H1 = map (fun k => if Nat.eqb j i then nth k B 0 else nth k (column j H) 0) (seq 0 dv)).
    { intros j. unfold column. apply (nth_ext _ _ 0 0); [rewrite !map_length, seq_length; exact (proj1 M3)|]. intros k Hk. rewrite map_length, (proj1 M3) in Hk.
      rewrite nth_map_nth, N3 by exact Hk. rewrite nth_map_seq by exact Hk. destruct (Nat.eqb j i); [reflexivity|]. now rewrite nth_map_nth. }
    assert (ID : forall l : rvec, length l = dv -> map (fun k => nth k l 0) (seq 0 dv) = l).
    { intros l <-. clear. induction l as [|a l IHl]; [reflexivity|]. cbn [length seq map nth]. f_equal. rewrite <- seq_shift, map_map. exact IHl. }
    intros j Hji. rewrite CE. destruct (Nat.eqb_spec j i) as [->|Nj].
    + rewrite ID by exact LB. exact V.
    + rewrite ID by (unfold column; rewrite map_length; exact (proj1 MH)). apply Hj. lia.
Qed.
Lemma zeros_mat r c : mat r c (zeros (K := RSc) r c).
Proof. unfold zeros. split; [apply repeat_length|]. apply Forall_forall. intros row H. apply repeat_spec in H as ->. apply repeat_length. Qed.

(** * Rigid transformations *)
Lemma rotate_matrix x y z w v : length v = 3%nat -> mat_vec (quat_matrix (K := RSc) x y z w) v = rotate [x; y; z; w] v.
Proof.
  intros L. destruct v as [|a [|b [|c [|? ?]]]]; try discriminate. cbn. unfold stwo; cbn. 
  f_equal; [|f_equal; [|f_equal]]; ring.
Qed.
Ltac der_auto := match goal with
  | |- derivable_pt_lim (fun t => @?f t + @?g t) ?x _ => eapply (derivable_pt_lim_plus f g x); der_auto
  | |- derivable_pt_lim (fun t => @?f t - @?g t) ?x _ => eapply (derivable_pt_lim_minus f g x); der_auto
  | |- derivable_pt_lim (fun t => @?f t * @?g t) ?x _ => eapply (derivable_pt_lim_mult f g x); der_auto
  | |- derivable_pt_lim (fun t => ?c) ?x _ => apply derivable_pt_lim_const
  | |- derivable_pt_lim (fun t => ?f t) ?x _ => change (fun t => f t) with f; eassumption
  | |- derivable_pt_lim ?f ?x _ => eassumption
  end.
(** x = (t1, t2, t3, qx, qy, qz, qw). *)
Lemma rigid_derivative p t q v o (g : R -> outcome rvec) old : length p = 3%nat -> length t = 3%nat -> length q = 4%nat -> length v = 3%nat -> length o = 3%nat ->
  inner q q = 1 -> g 0 = Ret (t ++ q) -> velocity g (rotate q v ++ quat_rate q o) -> mat 3 6 old ->
  exists J, rigid_jac (K := RSc) p (t ++ q) old = Ret J /\ mat 3 6 J /\ velocity (fun s => (do y <- g s; rigid_eval (K := RSc) p y)%out) (mat_vec J (v ++ o)).
Proof.
  intros Lp Lt Lq Lv Lo U G0 V Mo.
  destruct p as [|p1 [|p2 [|p3 [|? ?]]]]; try discriminate. destruct t as [|t1 [|t2 [|t3 [|? ?]]]]; try discriminate.
  destruct q as [|qx [|qy [|qz [|qw [|? ?]]]]]; try discriminate. destruct v as [|v1 [|v2 [|v3 [|? ?]]]]; try discriminate.
  destruct o as [|o1 [|o2 [|o3 [|? ?]]]]; try discriminate.
  eexists. split; [|split].
  - cbn [app rigid_jac]. unfold mm. cbn -[like]. apply (like_ok 3 6); [exact Mo|]. split; [reflexivity|]. repeat constructor.
  - split; [reflexivity|]. repeat constructor.
  - cbn [inner] in U. eapply velocity_bind; [exact V| |reflexivity].
    intros h [Lh Dh] H0. rewrite G0 in H0. injection H0 as H0.
    cbn [app rotate quat_rate length map2 map cross] in Lh, Dh.
    assert (Eh : forall s, h s = [nth 0 (h s) 0; nth 1 (h s) 0; nth 2 (h s) 0; nth 3 (h s) 0; nth 4 (h s) 0; nth 5 (h s) 0; nth 6 (h s) 0]).
    { intros s. specialize (Lh s). destruct (h s) as [|a0 [|a1 [|a2 [|a3 [|a4 [|a5 [|a6 [|? ?]]]]]]]]; try discriminate. reflexivity. }
    pose proof (Dh 0%nat ltac:(lia)) as D0. pose proof (Dh 1%nat ltac:(lia)) as D1. pose proof (Dh 2%nat ltac:(lia)) as D2.
    pose proof (Dh 3%nat ltac:(lia)) as D3. pose proof (Dh 4%nat ltac:(lia)) as D4. pose proof (Dh 5%nat ltac:(lia)) as D5. pose proof (Dh 6%nat ltac:(lia)) as D6.
    clear Dh. cbn [nth] in D0, D1, D2, D3, D4, D5, D6.
    pose (x0 := fun s => nth 0 (h s) 0). pose (x1 := fun s => nth 1 (h s) 0). pose (x2 := fun s => nth 2 (h s) 0). pose (x3 := fun s => nth 3 (h s) 0).
    pose (x4 := fun s => nth 4 (h s) 0). pose (x5 := fun s => nth 5 (h s) 0). pose (x6 := fun s => nth 6 (h s) 0).
    change (fun t => nth 0 (h t) 0) with x0 in D0. change (fun t => nth 1 (h t) 0) with x1 in D1. change (fun t => nth 2 (h t) 0) with x2 in D2.
    change (fun t => nth 3 (h t) 0) with x3 in D3. change (fun t => nth 4 (h t) 0) with x4 in D4. change (fun t => nth 5 (h t) 0) with x5 in D5.
    change (fun t => nth 6 (h t) 0) with x6 in D6.
    assert (E : forall s, h s = [x0 s; x1 s; x2 s; x3 s; x4 s; x5 s; x6 s]) by exact Eh. clear Eh.
    assert (Z0 : x3 0 = qx /\ x4 0 = qy /\ x5 0 = qz /\ x6 0 = qw). { rewrite E in H0. injection H0. auto. }
    destruct Z0 as (Z3 & Z4 & Z5 & Z6). clearbody x0 x1 x2 x3 x4 x5 x6.
    exists (fun s => [x0 s + ((1 - (2 * x4 s * x4 s + 2 * x5 s * x5 s)) * p1 + (2 * x4 s * x3 s - 2 * x5 s * x6 s) * p2 + (2 * x5 s * x3 s + 2 * x4 s * x6 s) * p3);
                      x1 s + ((2 * x4 s * x3 s + 2 * x5 s * x6 s) * p1 + (1 - (2 * x3 s * x3 s + 2 * x5 s * x5 s)) * p2 + (2 * x5 s * x4 s - 2 * x3 s * x6 s) * p3);
                      x2 s + ((2 * x5 s * x3 s - 2 * x4 s * x6 s) * p1 + (2 * x5 s * x4 s + 2 * x3 s * x6 s) * p2 + (1 - (2 * x3 s * x3 s + 2 * x4 s * x4 s)) * p3)]).
    split.
    { intros s. rewrite E. unfold rigid_eval, quat_matrix, mv, chk. cbn. f_equal. f_equal; [|f_equal; [|f_equal]]; ring. }
    split; [reflexivity|].
    intros [|[|[|i]]] Hi; [| | |cbn in Hi; lia]; cbn [nth mat_vec map];
      (eapply der_eq; [der_auto|]); rewrite ?Z3, ?Z4, ?Z5, ?Z6; unfold stwo; cbn.
    + enough (X : forall l r : R, l = r + (qx * qx + (qy * qy + (qz * qz + (qw * qw + 0))) - 1) * (o2 * p3 - o3 * p2) -> l = r) by (apply X; field).
      intros l r H. rewrite U in H. lra.
    + enough (X : forall l r : R, l = r + (qx * qx + (qy * qy + (qz * qz + (qw * qw + 0))) - 1) * (o3 * p1 - o1 * p3) -> l = r) by (apply X; field).
      intros l r H. rewrite U in H. lra.
    + enough (X : forall l r : R, l = r + (qx * qx + (qy * qy + (qz * qz + (qw * qw + 0))) - 1) * (o1 * p2 - o2 * p1) -> l = r) by (apply X; field).
      intros l r H. rewrite U in H. lra.
Qed.
(** On a manifold whose geodesics are those of rigid motions, the function is usable. *)
Lemma rigid_good D (s : rspace) p t q : length p = 3%nat -> length t = 3%nat -> length q = 4%nat -> inner q q = 1 -> ndx s = 6%nat ->
  (forall v o g, length v = 3%nat -> length o = 3%nat -> path (Geo s) (t ++ q) (v ++ o) g -> velocity g (rotate q v ++ quat_rate q o)) ->
  good D (Geo s) (t ++ q) (XBase (ORigid p)) 3.
Proof.
  intros Lp Lt Lq U Ds H. cbn. split; [exact Ds|]. split; [reflexivity|]. split.
  - destruct p as [|p1 [|p2 [|p3 [|? ?]]]]; try discriminate. destruct t as [|t1 [|t2 [|t3 [|? ?]]]]; try discriminate.
    destruct q as [|qx [|qy [|qz [|qw [|? ?]]]]]; try discriminate. eexists. split; reflexivity.
  - intros old Mo. cbn [pk_dim] in *. rewrite Ds in Mo |- *.
    assert (Ex : exists J, rigid_jac (K := RSc) p (t ++ q) old = Ret J /\ mat 3 6 J).
    { destruct p as [|p1 [|p2 [|p3 [|? ?]]]]; try discriminate. destruct t as [|t1 [|t2 [|t3 [|? ?]]]]; try discriminate.
      destruct q as [|qx [|qy [|qz [|qw [|? ?]]]]]; try discriminate. eexists. split.
      - cbn [app rigid_jac]. unfold mm. cbn -[like]. apply (like_ok 3 6); [exact Mo|]. split; [reflexivity|]. repeat constructor.
      - split; [reflexivity|]. repeat constructor. }
    destruct Ex as (J & EJ & MJ). exists J. split; [exact EJ|]. split; [exact MJ|].
    intros w g Lw Pg. assert (Lw1 : length (firstn 3 w) = 3%nat) by (rewrite firstn_length; lia). assert (Lw2 : length (skipn 3 w) = 3%nat) by (rewrite skipn_length; lia).
    pose proof (firstn_skipn 3 w) as Ew. rewrite <- Ew in Pg |- *.
    destruct (rigid_derivative p t q (firstn 3 w) (skipn 3 w) g old Lp Lt Lq Lw1 Lw2 U (proj1 Pg) (H _ _ g Lw1 Lw2 Pg) Mo) as (J' & EJ' & _ & V).
    cbn [car RSc] in *. rewrite EJ in EJ'. injection EJ' as <-. exact V.
Qed.
