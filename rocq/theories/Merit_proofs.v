(** The merit function over the reals: closed form, derivative along a step. *)
From Coq Require Import Reals List Bool Arith ZArith Lia Lra.
From Verif Require Import Scalar Cset_model Cset_spec Cset_proofs Armijo_model Problem_model Solver_model Solver_spec Merit_spec Solver_proofs SolverR_proofs.
Import ListNotations.
Local Open Scope R_scope.

(** *** Finite sums *)
Fixpoint sumn (n : nat) (F : nat -> R) : R := match n with O => 0 | S k => sumn k F + F k end.
Lemma sumn_ext n F G : (forall i, (i < n)%nat -> F i = G i) -> sumn n F = sumn n G.
Proof. induction n as [|n IH]; intros H; cbn; [reflexivity|]. rewrite IH, H; auto. Qed.
Lemma sumn_plus n F G : sumn n (fun i => F i + G i) = sumn n F + sumn n G.
Proof. induction n as [|n IH]; cbn; [lra|]. rewrite IH. lra. Qed.
Lemma sumn_scale n a F : sumn n (fun i => a * F i) = a * sumn n F.
Proof. induction n as [|n IH]; cbn; [lra|]. rewrite IH. lra. Qed.
Lemma sumn_head n F : sumn (S n) F = F 0%nat + sumn n (fun i => F (S i)).
Proof. induction n as [|n IH]; [cbn; lra|]. cbn [sumn] in *. rewrite IH. cbn. lra. Qed.
Lemma sumn_zero n F : (forall i, (i < n)%nat -> F i = 0) -> sumn n F = 0.
Proof. induction n as [|n IH]; intros H; cbn; [reflexivity|]. rewrite IH, H; auto; lra. Qed.
Lemma sumn_deriv n (F : nat -> R -> R) F' t :
  (forall i, (i < n)%nat -> derivable_pt_lim (F i) t (F' i)) ->
  derivable_pt_lim (fun u => sumn n (fun i => F i u)) t (sumn n F').
Proof.
  induction n as [|n IH]; intros H; cbn.
  - apply derivable_pt_lim_const.
  - apply (derivable_pt_lim_plus (fun u => sumn n (fun i => F i u)) (F n)); auto.
Qed.
Lemma vdot_sumn (u v : list R) : forall n, length u = n -> length v = n ->
  vdot (K := RSc) u v = sumn n (fun i => nth i u 0 * nth i v 0).
Proof.
  unfold vdot, vsum. cbn [s0 sadd RSc car].
  assert (H : forall acc n, length u = n -> length v = n ->
     fold_left Rplus (map2 (smul : car RSc -> car RSc -> car RSc) u v) acc = acc + sumn n (fun i => nth i u 0 * nth i v 0)).
  { revert v. induction u as [|a u IH]; intros [|b v] acc n Hu Hv; cbn in *; subst; try discriminate.
    - cbn. lra.
    - rewrite (IH v (acc + a * b) (length u)) by lia. rewrite (sumn_head (length u)). cbn. lra. }
  intros n Hu Hv. etransitivity; [apply (H 0 n Hu Hv)|lra].
Qed.
Lemma jt_sum J : forall pd n dx, 
  sumn n (fun i => jt_lam J pd i * nth i dx 0) =
  sumn (Nat.min (length J) (length pd)) (fun k => nth k pd 0 * sumn n (fun i => nth i (nth k J []) 0 * nth i dx 0)).
Proof.
  induction J as [|r J IH]; intros pd n dx.
  - cbn [jt_lam length Nat.min sumn]. apply sumn_zero. intros; lra.
  - destruct pd as [|l pd]; [cbn [jt_lam length Nat.min sumn]; apply sumn_zero; intros; lra|].
    cbn [jt_lam length Nat.min]. rewrite sumn_head. cbn [nth].
    rewrite <- (IH pd n dx). rewrite <- sumn_scale, <- sumn_plus. apply sumn_ext. intros i _. lra.
Qed.

(** *** The scalar Moreau envelope is differentiable *)
Definition env1 (mu : R) (k : coord) (x : R) : R := cpen k (cproj k x) + (x - cproj k x) * (x - cproj k x) / (2 * mu).
Lemma env1_upper mu k x y : cok k -> cmu mu k -> 0 < mu ->
  env1 mu k y - env1 mu k x <= (y - x) * ccone k x / mu + (y - x) * (y - x) / (2 * mu).
Proof.
  intros Ho Hm Hmu. unfold env1.
  pose proof (cvar k mu y (cproj k x) Ho Hm ltac:(lra) (cproj_cin _ _ Ho)) as V.
  pose proof (cone_sum k x) as Sx. pose proof (cone_sum k y) as Sy.
  set (px := cproj k x) in *. set (py := cproj k y) in *. set (qx := ccone k x) in *. set (qy := ccone k y) in *.
  replace (x - px) with qx by lra. replace (y - py) with qy by lra.
  assert (G : mu * (cpen k py - cpen k px) <= qy * (py - px)) by lra.
  apply (Rmult_le_reg_l mu); [lra|].
  replace (mu * (cpen k py + qy * qy / (2 * mu) - (cpen k px + qx * qx / (2 * mu))))
    with (mu * (cpen k py - cpen k px) + (qy * qy - qx * qx) / 2) by (field; lra).
  replace (mu * ((y - x) * qx / mu + (y - x) * (y - x) / (2 * mu))) with ((y - x) * qx + (y - x) * (y - x) / 2) by (field; lra).
  pose proof (Rle_0_sqr (py - px)) as Hq. unfold Rsqr in Hq.
  replace y with (py + qy) by lra. replace x with (px + qx) by lra. nra.
Qed.
Lemma ccone_mono mu k x y : cok k -> cmu mu k -> 0 < mu -> 0 <= (y - x) * (ccone k y - ccone k x).
Proof.
  intros Ho Hm Hmu. pose proof (cnonexp k mu x y Ho Hm ltac:(lra)) as N.
  pose proof (cone_sum k x) as Sx. pose proof (cone_sum k y) as Sy.
  set (px := cproj k x) in *. set (py := cproj k y) in *.
  replace (ccone k y) with (y - py) by lra. replace (ccone k x) with (x - px) by lra.
  (* (y-x)(y-x-(py-px)) >= 0 from |py-px| <= |y-x| *)
  set (a := y - x) in *. set (b := py - px).
  replace (y - py - (x - px)) with (a - b) by (unfold a, b; lra).
  assert (N2 : b * b <= a * a) by (unfold a, b; nra).
  pose proof (Rle_0_sqr (a - b)) as Hq. unfold Rsqr in Hq. nra.
Qed.
Lemma env1_bound mu k x h : cok k -> cmu mu k -> 0 < mu ->
  Rabs (env1 mu k (x + h) - env1 mu k x - h * (ccone k x / mu)) <= h * h / (2 * mu).
Proof.
  intros Ho Hm Hmu. pose proof (env1_upper mu k x (x + h) Ho Hm Hmu) as U.
  pose proof (env1_upper mu k (x + h) x Ho Hm Hmu) as L.
  pose proof (ccone_mono mu k x (x + h) Ho Hm Hmu) as M.
  replace (x + h - x) with h in * by lra. replace (x - (x + h)) with (- h) in * by lra.
  assert (M2 : h * ccone k x / mu <= h * ccone k (x + h) / mu).
  { unfold Rdiv. apply Rmult_le_compat_r; [left; apply Rinv_0_lt_compat; lra|lra]. }
  replace (- h * ccone k (x + h) / mu) with (- (h * ccone k (x + h) / mu)) in L by (field; lra).
  replace (- h * - h / (2 * mu)) with (h * h / (2 * mu)) in L by (field; lra).
  replace (h * (ccone k x / mu)) with (h * ccone k x / mu) by (field; lra).
  apply Rabs_le. lra.
Qed.
Lemma env1_deriv mu k x : cok k -> cmu mu k -> 0 < mu -> derivable_pt_lim (env1 mu k) x (ccone k x / mu).
Proof.
  intros Ho Hm Hmu eps He. assert (Hd : 0 < mu * eps) by (apply Rmult_lt_0_compat; lra).
  exists (mkposreal _ Hd). intros h Hh Hlt. cbn in Hlt.
  pose proof (env1_bound mu k x h Ho Hm Hmu) as B.
  assert (Hp : 0 < Rabs h) by (apply Rabs_pos_lt; exact Hh).
  replace ((env1 mu k (x + h) - env1 mu k x) / h - ccone k x / mu)
    with ((env1 mu k (x + h) - env1 mu k x - h * (ccone k x / mu)) / h) by (field; split; lra).
  unfold Rdiv at 1. rewrite Rabs_mult, (Rabs_inv h).
  apply (Rmult_lt_reg_r (Rabs h)); [exact Hp|].
  rewrite Rmult_assoc, Rinv_l, Rmult_1_r by lra.
  eapply Rle_lt_trans; [exact B|]. replace (h * h) with (Rabs h * Rabs h) by (rewrite <- Rabs_mult; apply Rabs_pos_eq; apply Rle_0_sqr).
  replace (Rabs h * Rabs h / (2 * mu)) with (Rabs h * (Rabs h / (2 * mu))) by (field; lra).
  rewrite (Rmult_comm eps). apply Rmult_lt_compat_l; [exact Hp|].
  apply (Rmult_lt_reg_r (2 * mu)); [lra|]. unfold Rdiv. rewrite Rmult_assoc, Rinv_l by lra. nra.
Qed.

(** *** Closed form of the merit function *)
Lemma sumk_sumn f ks z : length ks = length z -> sumk f ks z = sumn (length ks) (fun i => f (nth i ks KEq) (nth i z 0)).
Proof.
  revert z. induction ks as [|k ks IH]; intros [|x z] H; cbn [length] in *; try discriminate; [reflexivity|].
  rewrite sumn_head. cbn. rewrite IH by lia. reflexivity.
Qed.
Lemma env_coords mu c n z o : shape c n -> l1_mu (mu_of c) c -> 0 < mu_of c -> mu_of c = mu -> length z = n -> length o = n ->
  exists q, moreau_env c z o = Some (sumk (env1 mu) (coords c n) z, q).
Proof.
  intros Hs Hl Hp Hm Hz Ho. destruct (lem_env c n z o Hs Hl Hp Hz Ho) as (p & q & e & P1 & P2 & P3 & P4).
  exists q. rewrite P2. f_equal. f_equal. rewrite P3. rewrite Hm.
  pose proof (coords_length c n Hs) as Lk.
  rewrite (projection_coords c n z o Hs Hz Ho) in P1. injection P1 as <-.
  rewrite (penalty_coords c n) by (auto; rewrite map3_length; cbn in *; lia).
  clear - Hz Ho Lk. cbn [car RSc] in *. revert Lk. generalize (coords c n) as ks.
  intros ks Lk. subst n. revert o ks Ho Lk.
  induction z as [|x z IH]; intros [|y o] [|k ks] Ho Lk; cbn in *; try discriminate; [unfold Rdiv; lra|].
  specialize (IH o ks ltac:(lia) ltac:(lia)). rewrite <- IH. unfold env1, hproj. unfold Rdiv. ring.
Qed.
Fixpoint sumsq (l : list R) : R := match l with [] => 0 | a :: r => a * a + sumsq r end.
Lemma sumsq_app a b : sumsq (a ++ b) = sumsq a + sumsq b.
Proof. induction a; cbn; lra. Qed.
Lemma vsqnorm_sumsq (l : list R) : vsqnorm (K := RSc) l = sumsq l.
Proof.
  unfold vsqnorm. rewrite (vdot_sumn l l (length l) eq_refl eq_refl).
  induction l as [|a l IH]; [reflexivity|]. cbn [length]. rewrite sumn_head. cbn. rewrite IH. reflexivity.
Qed.
Lemma sumsq_sumn l : sumsq l = sumn (length l) (fun i => nth i l 0 * nth i l 0).
Proof. induction l as [|a l IH]; [reflexivity|]. cbn [length]. rewrite sumn_head. cbn. rewrite IH. reflexivity. Qed.

Definition stack_coords (sets : list rset) (fs : list (@cfun RSc)) : list coord :=
  coords (product_of sets (map f_nr fs)) (rows_of fs).

Lemma merit_closed sets fs mu : sets_fit sets fs -> Forall (fun c => mu_of c = mu) sets -> 0 < mu ->
  forall z lam res, length z = rows_of fs -> length lam = rows_of fs ->
  exists pd ls, blocks_of (K := RSc) (map f_nr fs) z = Some pd /\ blocks_of (K := RSc) (map f_nr fs) lam = Some ls /\
    merit_loop (K := RSc) sets pd ls res = Some (res + 2 * sumk (env1 mu) (stack_coords sets fs) z + mu * sumsq lam / 4).
Proof.
  intros [Fit Fl] Mu Hmu. unfold stack_coords, product_of. cbn [coords].
  induction Fit as [|c f cs fs Hc Fit IH]; intros z lam res Hz Hl; cbn [map combine flat_map rows_of] in *.
  - destruct z, lam; try discriminate. exists [], []. cbn. repeat split. f_equal. cbn [car RSc]. unfold Rdiv. lra.
  - inversion Fl; inversion Mu; subst. cbn [car RSc] in *.
    assert (L1 : length (firstn (f_nr f) z) = f_nr f) by (rewrite firstn_length; lia).
    assert (L2 : length (firstn (f_nr f) lam) = f_nr f) by (rewrite firstn_length; lia).
    assert (L3 : length (skipn (f_nr f) z) = rows_of fs) by (rewrite skipn_length; lia).
    assert (L4 : length (skipn (f_nr f) lam) = rows_of fs) by (rewrite skipn_length; lia).
    assert (Hl1 : l1_mu (mu_of c) c).
    { destruct c; try exact I; [reflexivity|]. apply no_l1_l1_mu. assumption. }
    destruct (env_coords (mu_of c) c (f_nr f) (firstn (f_nr f) z) (firstn (f_nr f) z) Hc Hl1 Hmu eq_refl L1 L1) as (q & Eq).
    destruct (IH H2 H6 (skipn (f_nr f) z) (skipn (f_nr f) lam)
                (res + 2 * sumk (env1 (mu_of c)) (coords c (f_nr f)) (firstn (f_nr f) z)
                   + mu_of c * sumsq (firstn (f_nr f) lam) / 4) L3 L4) as (pd & ls & B1 & B2 & B3).
    exists (firstn (f_nr f) z :: pd), (firstn (f_nr f) lam :: ls). cbn [blocks_of]. cbn [car RSc] in *.
    destruct (Nat.leb_spec (f_nr f) (length z)) as [_|]; [|lia].
    destruct (Nat.leb_spec (f_nr f) (length lam)) as [_|]; [|lia].
    cbn [car RSc] in *. rewrite B1, B2. split; [reflexivity|]. split; [reflexivity|].
    cbn [merit_loop]. cbn [car RSc] in *. rewrite Eq. rewrite vsqnorm_sumsq. cbn [sadd smul sdiv sofZ RSc].
    etransitivity; [exact B3|]. f_equal.
    assert (L5 : length (coords c (f_nr f)) = length (firstn (f_nr f) z)).
    { rewrite coords_length by exact Hc. cbn in *. lia. }
    rewrite <- (firstn_skipn (f_nr f) z) at 3. rewrite <- (firstn_skipn (f_nr f) lam) at 3.
    cbn [fst snd]. rewrite sumk_app by exact L5. rewrite sumsq_app. field.
Qed.

Lemma stack_coords_length sets fs : sets_fit sets fs -> length (stack_coords sets fs) = rows_of fs.
Proof. intros H. apply coords_length. apply fit_shape. exact H. Qed.
Lemma stack_coords_ok sets fs mu : sets_fit sets fs -> Forall (fun c => mu_of c = mu) sets ->
  forall k, cok (nth k (stack_coords sets fs) KEq) /\ cmu mu (nth k (stack_coords sets fs) KEq).
Proof.
  intros H M k. pose proof (shape_cok _ _ (fit_shape _ _ H)) as A. pose proof (l1_mu_cmu _ _ (fit_l1 _ _ mu H M) (rows_of fs)) as B.
  fold (stack_coords sets fs) in A, B. destruct (Nat.lt_ge_cases k (length (stack_coords sets fs))) as [L|L].
  - rewrite Forall_forall in A, B. split; [apply A|apply B]; apply nth_In; exact L.
  - rewrite nth_overflow by exact L. cbn. auto.
Qed.
Lemma map3_hcone_nth ks z o k : length ks = length z -> length o = length z -> (k < length z)%nat ->
  nth k (map3 hcone ks z o) 0 = ccone (nth k ks KEq) (nth k z 0).
Proof.
  revert z o k. induction ks as [|c ks IH]; intros [|x z] [|y o] k H1 H2 Hk; cbn in *; try lia.
  destruct k; [reflexivity|]. apply IH; lia.
Qed.
Lemma vsub_nth (a b : list R) i : length a = length b -> nth i (vsub (K := RSc) a b) 0 = nth i a 0 - nth i b 0.
Proof.
  revert b i. induction a as [|x a IH]; intros [|y b] i H; cbn in *; try discriminate.
  - destruct i; lra.
  - destruct i; [reflexivity|]. apply IH. lia.
Qed.
Lemma vsub_length (a b : list R) : length a = length b -> length (vsub (K := RSc) a b) = length a.
Proof. intros H. unfold vsub. rewrite map2_length. cbn in *. lia. Qed.
Lemma map_mul_nth k (a : list R) i : nth i (map (fun x => x * k) a) 0 = nth i a 0 * k.
Proof.
  destruct (Nat.lt_ge_cases i (length a)) as [H|H].
  - rewrite (nth_indep _ 0 ((fun x => x * k) 0)) by (rewrite map_length; exact H). exact (map_nth (fun x => x * k) a 0 i).
  - rewrite !nth_overflow; [lra|exact H|rewrite map_length; exact H].
Qed.

Lemma inner_sumn (u v : list R) n : length u = n -> length v = n -> inner u v = sumn n (fun i => nth i u 0 * nth i v 0).
Proof.
  revert v n. induction u as [|a u IH]; intros [|b v] n Hu Hv; cbn in *; subst; try discriminate; [reflexivity|].
  rewrite (sumn_head (length u)). rewrite (IH v (length u)) by lia. reflexivity.
Qed.
Lemma vdot_inner (u v : list R) : length u = length v -> vdot (K := RSc) u v = inner u v.
Proof. intros H. rewrite (vdot_sumn u v (length v) H eq_refl), (inner_sumn u v (length v) H eq_refl). reflexivity. Qed.
Lemma stacked_values_fun x fs : forall a b, stacked_values x fs a -> stacked_values x fs b -> a = b.
Proof.
  induction fs as [|f fs IH]; intros a b Ha Hb; inversion Ha; inversion Hb; subst; [reflexivity|].
  cbn [car RSc] in *. f_equal; [congruence|apply IH; assumption].
Qed.
Lemma eval_cons_total x fs c : stacked_values x fs c -> eval_cons (K := RSc) fs x = Ret c.
Proof.
  induction 1 as [|f fs v c Hf Hl Hs IH]; [reflexivity|]. cbn. cbn [car RSc] in *. rewrite Hf. cbn. unfold sized. cbn [car RSc] in *.
  rewrite Hl, Nat.eqb_refl. cbn. rewrite IH. reflexivity.
Qed.
Lemma stacked_values_length x fs c : stacked_values x fs c -> length c = rows_of fs.
Proof. induction 1; cbn; [reflexivity|]. rewrite app_length. cbn [car RSc] in *. lia. Qed.

Lemma dual_loop_closed beta sets fs mu : sets_fit sets fs -> Forall (fun c => mu_of c = mu) sets ->
  forall lam q, length lam = rows_of fs -> length q = rows_of fs ->
  exists ls qs d, blocks_of (K := RSc) (map f_nr fs) lam = Some ls /\ blocks_of (K := RSc) (map f_nr fs) q = Some qs /\
    merit_dual_loop (K := RSc) beta sets ls qs = Some d /\ length d = rows_of fs /\
    forall k, nth k d 0 = beta * mu * (nth k lam 0 - nth k q 0).
Proof.
  intros [Fit _] Mu. induction Fit as [|c f cs fs Hc Fit IH]; intros lam q Hz Hl; cbn [map rows_of] in *.
  - destruct lam, q; try discriminate. exists [], [], []. cbn. repeat split. intros [|k]; cbn; lra.
  - inversion Mu; subst. cbn [car RSc] in *.
    assert (L1 : length (firstn (f_nr f) lam) = f_nr f) by (rewrite firstn_length; lia).
    assert (L2 : length (firstn (f_nr f) q) = f_nr f) by (rewrite firstn_length; lia).
    assert (L3 : length (skipn (f_nr f) lam) = rows_of fs) by (rewrite skipn_length; lia).
    assert (L4 : length (skipn (f_nr f) q) = rows_of fs) by (rewrite skipn_length; lia).
    destruct (IH H2 _ _ L3 L4) as (ls & qs & d & B1 & B2 & B3 & B4 & B5).
    exists (firstn (f_nr f) lam :: ls), (firstn (f_nr f) q :: qs). eexists. cbn [blocks_of]. cbn [car RSc] in *.
    destruct (Nat.leb_spec (f_nr f) (length lam)) as [_|]; [|lia].
    destruct (Nat.leb_spec (f_nr f) (length q)) as [_|]; [|lia].
    cbn [car RSc] in *. rewrite B1, B2. split; [reflexivity|]. split; [reflexivity|].
    cbn [merit_dual_loop]. cbn [car RSc] in *. rewrite B3. split; [reflexivity|].
    set (v := vsub (K := RSc) (firstn (f_nr f) lam) (firstn (f_nr f) q)).
    assert (Lv : length v = f_nr f) by (unfold v; rewrite vsub_length; congruence).
    split; [rewrite app_length, map_length; cbn [car RSc] in *; lia|].
    intros k. assert (N : forall v : list R, nth k v 0 = nth k (firstn (f_nr f) v ++ skipn (f_nr f) v) 0) by (intros; rewrite firstn_skipn; reflexivity).
    destruct (Nat.lt_ge_cases k (f_nr f)) as [Hk|Hk].
    + rewrite app_nth1 by (rewrite map_length; cbn [car RSc] in *; lia).
      transitivity ((fun a => 0 + beta * mu_of c * a) (nth k v 0)).
      { rewrite (nth_indep _ 0 ((fun a => 0 + beta * mu_of c * a) 0)) by (rewrite map_length; cbn [car RSc] in *; lia).
        exact (map_nth (fun a => 0 + beta * mu_of c * a) v 0 k). }
      cbn beta. unfold v. rewrite vsub_nth by congruence.
      rewrite (N lam), (N q).
      rewrite !app_nth1 by (cbn [car RSc] in *; lia). lra.
    + rewrite app_nth2 by (rewrite map_length; cbn [car RSc] in *; lia). rewrite map_length.
      cbn [car RSc] in *. rewrite Lv.
      etransitivity; [apply B5|].
      rewrite (N lam), (N q).
      rewrite !app_nth2 by (cbn [car RSc] in *; lia). cbn [car RSc] in *. rewrite L1, L2. reflexivity. 
Qed.

Section Merit.
  Variables (integrate : list R -> list R -> list R)
            (px_val : R -> list R -> list R -> R)
            (px_grad : R -> list R -> list R -> list R)
            (px_hess : R -> list R -> list R -> list (list R))
            (fac : Type)
            (bfgs : Type) (bfgs_update : bfgs -> list R -> list R -> list (list R) -> bfgs * list (list R)).
  Notation state := (@state RSc fac bfgs).
  Notation diagnose := (diagnose (K := RSc) px_val px_grad px_hess fac bfgs bfgs_update).
  Notation phi_eval := (phi_eval (K := RSc) integrate px_val fac bfgs).

  Lemma mult_closed (P : @params RSc) (p : @problem RSc) (s : state) c l :
    let nd := rows_of (p_cons p) in let w := s_ws _ _ s in
    sets_fit (s_sets _ _ s) (p_cons p) ->
    length c = nd -> length l = nd -> length (w_lams_prev _ _ w) = nd -> length (w_plus _ _ w) = nd -> length (w_pdal _ _ w) = nd ->
    exists m, compute_multipliers (K := RSc) fac bfgs P p s c l = Ret m /\
      length (m_shift m) = nd /\ length (m_shift_pd m) = nd /\ length (m_plus m) = nd /\ length (m_pdal m) = nd /\
      (forall k, (k < nd)%nat -> nth k (m_shift_pd m) 0 = nth k c 0 + s_mu _ _ s * nth k (w_lams_prev _ _ w) 0 - 1 / 2 * s_mu _ _ s * nth k l 0) /\
      (forall k, (k < nd)%nat -> nth k (m_pdal m) 0 =
         ccone (nth k (stack_coords (s_sets _ _ s) (p_cons p)) KEq) (nth k (m_shift_pd m) 0) * (s_mu_inv _ _ s / pdal_beta P)).
  Proof.
    cbv zeta. intros Fit Lc Ll Lp L1 L2. unfold compute_multipliers. cbn [car RSc] in *.
    pose proof (fit_shape _ _ Fit) as Sh. pose proof (stack_coords_length _ _ Fit) as Lk.
    change (stack p (s_sets fac bfgs s)) with (product_of (s_sets fac bfgs s) (map f_nr (p_cons p))).
    set (st := product_of (s_sets fac bfgs s) (map f_nr (p_cons p))) in *.
    set (shift := vadd (K := RSc) c (vscale (K := RSc) (s_mu _ _ s) (w_lams_prev _ _ (s_ws _ _ s)))).
    assert (Lsc : length (vscale (K := RSc) (s_mu _ _ s) (w_lams_prev _ _ (s_ws _ _ s))) = length c).
    { unfold vscale. rewrite map_length. cbn [car RSc] in *. congruence. }
    assert (Ls : length shift = rows_of (p_cons p)).
    { unfold shift. rewrite vadd_length; cbn [car RSc] in *; congruence. }
    rewrite (normal_cone_coords st (rows_of (p_cons p)) shift (w_plus _ _ (s_ws _ _ s)) Sh Ls L1). cbn [ub bind].
    set (spd := vsub (K := RSc) shift (vscale (K := RSc) (shalf (K := RSc) * s_mu _ _ s)%S l)).
    assert (Lsl : length shift = length (vscale (K := RSc) (shalf (K := RSc) * s_mu _ _ s)%S l)).
    { unfold vscale. rewrite map_length. cbn [car RSc] in *. congruence. }
    assert (Lspd : length spd = rows_of (p_cons p)).
    { unfold spd. rewrite vsub_length; cbn [car RSc] in *; congruence. }
    rewrite (normal_cone_coords st (rows_of (p_cons p)) spd (w_pdal _ _ (s_ws _ _ s)) Sh Lspd L2). cbn [ub bind].
    assert (Pj : forall z v : list R, length z = rows_of (p_cons p) -> length v = rows_of (p_cons p) ->
       exists u, proj_jac_vec (K := RSc) st z v = Some u).
    { intros z v Hz Hv. unfold proj_jac_vec. rewrite (proj_jac_coords st (rows_of (p_cons p)) z _ Sh Hz).
      - eexists. reflexivity.
      - rewrite map_length. exact Hv. }
    fold (stack_coords (s_sets fac bfgs s) (p_cons p)) in *.
    set (ks := coords st (rows_of (p_cons p))) in *. change (stack_coords (s_sets fac bfgs s) (p_cons p)) with ks in *.
    set (plus := vscale (K := RSc) (s_mu_inv _ _ s) (map3 hcone ks shift (w_plus _ _ (s_ws _ _ s)))).
    set (pdal := map (fun a : car RSc => (a * (s_mu_inv _ _ s / pdal_beta P))%S) (map3 hcone ks spd (w_pdal _ _ (s_ws _ _ s)))).
    assert (Lplus : length plus = rows_of (p_cons p)).
    { unfold plus, vscale. rewrite map_length, map3_length. cbn [car RSc] in *. lia. }
    assert (Lpdal : length pdal = rows_of (p_cons p)).
    { unfold pdal. rewrite map_length, map3_length. cbn [car RSc] in *. lia. }
    destruct (Pj shift plus Ls Lplus) as (u1 & E1). destruct (Pj spd pdal Lspd Lpdal) as (u2 & E2).
    rewrite E1. cbn [ub bind].
    match goal with |- context [proj_jac_vec st spd ?q] => change q with pdal end.
    rewrite E2. cbn [ub bind].
    eexists. split; [reflexivity|]. cbn [m_shift m_shift_pd m_plus m_pdal].
    repeat (split; [assumption|]). split.
    - intros k Hk. unfold spd, shift. rewrite vsub_nth by exact Lsl. rewrite vadd_nth by (symmetry; exact Lsc). rewrite !vscale_nth.
      unfold shalf, slit. cbn. lra.
    - intros k Hk. unfold pdal. cbn [smul RSc]. rewrite map_mul_nth. f_equal.
      apply map3_hcone_nth; cbn [car RSc] in *; congruence || lia.
  Qed.

  Lemma diagnose_merit (P : @params RSc) p (s : state) d : diagnose P p s = Ret d ->
    exists f c m g J mer mg,
      evaluate_problem p (r_x (s_res _ _ s)) = Ret (f, c) /\
      derivs_problem p (r_x (s_res _ _ s)) = Ret (g, J) /\
      compute_multipliers fac bfgs P p s c (r_lams (s_res _ _ s)) = Ret m /\
      merit_value p (s_sets _ _ s) f (m_shift_pd m) (r_lams (s_res _ _ s)) = Some mer /\
      merit_gradient P p (s_sets _ _ s) g J (r_lams (s_res _ _ s)) (m_pdal m) = Some mg /\
      r_merit (s_res _ _ (d_state _ _ d)) = (if Rltb 0 (s_rho _ _ s) then mer + px_val (s_rho _ _ s) (s_target _ _ s) (r_x (s_res _ _ s)) else mer) /\
      d_mg _ _ d = (if Rltb 0 (s_rho _ _ s) then vadd (K := RSc) (fst mg) (px_grad (s_rho _ _ s) (s_target _ _ s) (r_x (s_res _ _ s))) else fst mg) /\
      d_md _ _ d = snd mg /\
      r_x (s_res _ _ (d_state _ _ d)) = r_x (s_res _ _ s) /\ r_lams (s_res _ _ (d_state _ _ d)) = r_lams (s_res _ _ s) /\
      s_mu _ _ (d_state _ _ d) = s_mu _ _ s /\ s_mu_inv _ _ (d_state _ _ d) = s_mu_inv _ _ s /\
      s_rho _ _ (d_state _ _ d) = s_rho _ _ s /\ s_target _ _ (d_state _ _ d) = s_target _ _ s /\
      s_sets _ _ (d_state _ _ d) = s_sets _ _ s /\
      w_lams_prev _ _ (s_ws _ _ (d_state _ _ d)) = w_lams_prev _ _ (s_ws _ _ s) /\
      w_plus _ _ (s_ws _ _ (d_state _ _ d)) = m_plus m /\ w_pdal _ _ (s_ws _ _ (d_state _ _ d)) = m_pdal m.
  Proof.
    unfold Solver_model.diagnose. intros H. crack H.
    injection H as <-. cbn [d_rhs d_mg d_md d_inner_crit d_outer_crit d_state s_res s_mu s_mu_inv s_rho s_target s_sets s_ws r_merit r_x r_lams w_lams_prev w_plus w_pdal].
    repeat match goal with
    | H : ub (merit_value _ _ _ _ _) = _ |- _ => unfold ub in H at 1
    | H : ub (merit_gradient _ _ _ _ _ _ _) = _ |- _ => unfold ub in H at 1
    end.
    repeat match goal with
    | H : match merit_value ?a ?b ?c ?d ?e with _ => _ end = _ |- _ => destruct (merit_value a b c d e) eqn:?; [|discriminate]; injection H as <-
    | H : match merit_gradient ?a ?b ?c ?d ?e ?f ?g with _ => _ end = _ |- _ => destruct (merit_gradient a b c d e f g) eqn:?; [|discriminate]; injection H as <-
    end.
    repeat match goal with H : ub _ = Ret _ |- _ => clear H end.
    do 7 eexists.
    repeat match goal with |- _ /\ _ => split end; try eassumption; try reflexivity.
    cbn [sltb s0 RSc]. destruct (Rltb 0 (s_rho _ _ s)); reflexivity.
  Qed.

  (** The merit function along a step, in closed form. *)
  Definition phi_closed (sets : list rset) (p : @problem RSc) mu (le l dl : list R) (F X : R -> R) (C : R -> list R) (t : R) : R :=
    F t + 2 * sumn (rows_of (p_cons p)) (fun k =>
        env1 mu (nth k (stack_coords sets (p_cons p)) KEq) (nth k (C t) 0 + mu * nth k le 0 - 1 / 2 * mu * (nth k l 0 + t * nth k dl 0)))
      + mu * sumn (rows_of (p_cons p)) (fun k => (nth k l 0 + t * nth k dl 0) * (nth k l 0 + t * nth k dl 0)) / 4 + X t.

  Lemma merit_value_closed (p : @problem RSc) sets mu f z lam : sets_fit sets (p_cons p) -> Forall (fun c => mu_of c = mu) sets -> 0 < mu ->
    length z = rows_of (p_cons p) -> length lam = rows_of (p_cons p) ->
    merit_value p sets f z lam = Some (f + 2 * sumn (rows_of (p_cons p)) (fun k => env1 mu (nth k (stack_coords sets (p_cons p)) KEq) (nth k z 0))
       + mu * sumn (rows_of (p_cons p)) (fun k => nth k lam 0 * nth k lam 0) / 4).
  Proof.
    intros Fit Mu Hmu Lz Ll. destruct (merit_closed sets (p_cons p) mu Fit Mu Hmu z lam f Lz Ll) as (pd & ls & B1 & B2 & B3).
    unfold merit_value, dims. rewrite B1, B2, B3. f_equal. f_equal; [f_equal; f_equal|].
    - pose proof (stack_coords_length _ _ Fit) as Lk. cbn [car RSc] in *. rewrite sumk_sumn by congruence. rewrite Lk. reflexivity.
    - rewrite sumsq_sumn. cbn [car RSc] in *. rewrite Ll. reflexivity.
  Qed.

  Lemma phi_is_closed (P : @params RSc) (p : @problem RSc) (s : state) dx dl F C mu :
    mu = s_mu _ _ s -> sets_fit (s_sets _ _ s) (p_cons p) -> Forall (fun c => mu_of c = mu) (s_sets _ _ s) -> 0 < mu ->
    let nd := rows_of (p_cons p) in let w := s_ws _ _ s in let curve := fun t => integrate (r_x (s_res _ _ s)) (scaled t dx) in
    length (r_lams (s_res _ _ s)) = nd -> length dl = nd ->
    length (w_lams_prev _ _ w) = nd -> length (w_plus _ _ w) = nd -> length (w_pdal _ _ w) = nd ->
    (forall t, p_cost p (curve t) = Some (F t)) -> (forall t, stacked_values (curve t) (p_cons p) (C t)) ->
    forall t, exists m, phi_eval P p s dx dl t = Ret
      (phi_closed (s_sets _ _ s) p mu (w_lams_prev _ _ w) (r_lams (s_res _ _ s)) dl F (fun t => px_val (s_rho _ _ s) (s_target _ _ s) (curve t)) C t, m).
  Proof.
    intros Emu Fit Mu Hmu nd w curve Ll Ldl Lp L1 L2 HF HC t. unfold Solver_model.phi_eval, try_step.
    change (vscale (K := RSc) t dx) with (scaled t dx). fold (curve t).
    unfold evaluate_problem. rewrite HF. cbn [user bind]. rewrite (eval_cons_total _ _ _ (HC t)). cbn [bind].
    pose proof (stacked_values_length _ _ _ (HC t)) as Lc.
    set (lt := vadd (K := RSc) (r_lams (s_res _ _ s)) (vscale (K := RSc) t dl)).
    assert (Lsc : length (vscale (K := RSc) t dl) = length (r_lams (s_res _ _ s))) by (unfold vscale; rewrite map_length; cbn [car RSc] in *; congruence).
    assert (Llt : length lt = nd) by (unfold lt; rewrite vadd_length; cbn [car RSc] in *; congruence).
    destruct (mult_closed P p s (C t) lt Fit Lc Llt Lp L1 L2) as (m & E & _ & S2 & _ & _ & S5 & _).
    rewrite E. cbn [bind].
    rewrite (merit_value_closed p (s_sets _ _ s) mu (F t) (m_shift_pd m) lt Fit Mu Hmu S2 Llt). cbn [ub bind].
    exists m. f_equal. f_equal. unfold phi_closed. cbn [sadd RSc]. f_equal.
    assert (Nl : forall k, nth k lt 0 = nth k (r_lams (s_res _ _ s)) 0 + t * nth k dl 0).
    { intros k. unfold lt. rewrite vadd_nth by (symmetry; exact Lsc). rewrite vscale_nth. reflexivity. }
    f_equal; [f_equal; f_equal|f_equal; f_equal]; apply sumn_ext; intros k Hk.
    - f_equal. rewrite S5 by exact Hk. rewrite Nl. rewrite <- Emu. reflexivity.
    - rewrite Nl. reflexivity.
  Qed.

  Lemma lim_ext (f g : R -> R) x l : (forall t, f t = g t) -> derivable_pt_lim f x l -> derivable_pt_lim g x l.
  Proof. intros E H eps He. destruct (H eps He) as (d & Hd). exists d. intros h Hh Hl. rewrite <- !E. apply Hd; assumption. Qed.

  Lemma phi_closed_deriv sets p mu le l dl F X C f' x' (c' : nat -> R) :
    sets_fit sets (p_cons p) -> Forall (fun c => mu_of c = mu) sets -> 0 < mu ->
    derivable_pt_lim F 0 f' -> derivable_pt_lim X 0 x' ->
    (forall k, (k < rows_of (p_cons p))%nat -> derivable_pt_lim (fun t => nth k (C t) 0) 0 (c' k)) ->
    derivable_pt_lim (phi_closed sets p mu le l dl F X C) 0
      (f' + 2 * sumn (rows_of (p_cons p)) (fun k =>
          ccone (nth k (stack_coords sets (p_cons p)) KEq) (nth k (C 0) 0 + mu * nth k le 0 - 1 / 2 * mu * nth k l 0) / mu
          * (c' k - 1 / 2 * mu * nth k dl 0))
       + mu * sumn (rows_of (p_cons p)) (fun k => 2 * (nth k l 0 * nth k dl 0)) / 4 + x').
  Proof.
    intros Fit Mu Hmu HF HX HC. unfold phi_closed.
    set (nd := rows_of (p_cons p)) in *. set (ks := stack_coords sets (p_cons p)).
    set (A := fun t => sumn nd (fun k => env1 mu (nth k ks KEq) (nth k (C t) 0 + mu * nth k le 0 - 1 / 2 * mu * (nth k l 0 + t * nth k dl 0)))).
    set (B := fun t => sumn nd (fun k => (nth k l 0 + t * nth k dl 0) * (nth k l 0 + t * nth k dl 0))).
    set (A' := sumn nd (fun k => ccone (nth k ks KEq) (nth k (C 0) 0 + mu * nth k le 0 - 1 / 2 * mu * nth k l 0) / mu
          * (c' k - 1 / 2 * mu * nth k dl 0))).
    set (B' := sumn nd (fun k => 2 * (nth k l 0 * nth k dl 0))).
    assert (DL : forall k, derivable_pt_lim (fun t => nth k l 0 + t * nth k dl 0) 0 (nth k dl 0)).
    { intros k eps He. exists (mkposreal 1 Rlt_0_1). intros h Hh _.
      replace ((nth k l 0 + (0 + h) * nth k dl 0 - (nth k l 0 + 0 * nth k dl 0)) / h - nth k dl 0) with 0 by (field; exact Hh).
      rewrite Rabs_R0. exact He. }
    assert (DA : derivable_pt_lim A 0 A').
    { unfold A, A'. apply (sumn_deriv nd (fun k t => env1 mu (nth k ks KEq) (nth k (C t) 0 + mu * nth k le 0 - 1 / 2 * mu * (nth k l 0 + t * nth k dl 0)))).
      intros k Hk. set (u := fun t => nth k (C t) 0 + mu * nth k le 0 - 1 / 2 * mu * (nth k l 0 + t * nth k dl 0)).
      assert (Du : derivable_pt_lim u 0 (c' k - 1 / 2 * mu * nth k dl 0)).
      { unfold u. replace (c' k - 1 / 2 * mu * nth k dl 0) with (c' k + 0 - 1 / 2 * mu * nth k dl 0) by lra.
        apply (derivable_pt_lim_minus (fun t => nth k (C t) 0 + mu * nth k le 0) (fun t => 1 / 2 * mu * (nth k l 0 + t * nth k dl 0))).
        - apply (derivable_pt_lim_plus (fun t => nth k (C t) 0) (fun _ => mu * nth k le 0)); [apply HC; exact Hk|apply derivable_pt_lim_const].
        - apply (derivable_pt_lim_scal (fun t => nth k l 0 + t * nth k dl 0)). apply DL. }
      destruct (stack_coords_ok sets (p_cons p) mu Fit Mu k) as [Ok Om].
      apply (derivable_pt_lim_comp u (env1 mu (nth k ks KEq)) 0); [exact Du|].
      replace (nth k (C 0) 0 + mu * nth k le 0 - 1 / 2 * mu * nth k l 0) with (u 0) by (unfold u; lra).
      apply env1_deriv; assumption. }
    assert (DB : derivable_pt_lim B 0 B').
    { unfold B, B'. apply (sumn_deriv nd (fun k t => (nth k l 0 + t * nth k dl 0) * (nth k l 0 + t * nth k dl 0))).
      intros k _. pose proof (derivable_pt_lim_mult _ _ _ _ _ (DL k) (DL k)) as D. cbn in D.
      replace (2 * (nth k l 0 * nth k dl 0)) with (nth k dl 0 * (nth k l 0 + 0 * nth k dl 0) + (nth k l 0 + 0 * nth k dl 0) * nth k dl 0) by lra.
      exact D. }
    apply (derivable_pt_lim_plus (fun t => F t + 2 * A t + mu * B t / 4) X); [|exact HX].
    apply (derivable_pt_lim_plus (fun t => F t + 2 * A t) (fun t => mu * B t / 4)).
    - apply (derivable_pt_lim_plus F (fun t => 2 * A t)); [exact HF|]. apply (derivable_pt_lim_scal A). exact DA.
    - replace (mu * B' / 4) with (mu / 4 * B') by lra.
      apply (lim_ext (fun t => mu / 4 * B t)); [intros; lra|]. apply (derivable_pt_lim_scal B). exact DB.
  Qed.

  Lemma merit_derivative (P : @params RSc) (p : @problem RSc) (s : state) d dx dl :
    let mu := s_mu _ _ s in let nd := rows_of (p_cons p) in let w := s_ws _ _ s in
    let x := r_x (s_res _ _ s) in let curve := fun t => integrate x (scaled t dx) in
    pdal_beta P = 1 / 2 -> 0 < mu -> s_mu_inv _ _ s = 1 / mu -> 0 <= s_rho _ _ s ->
    sets_fit (s_sets _ _ s) (p_cons p) -> Forall (fun c => mu_of c = mu) (s_sets _ _ s) ->
    length dx = p_ndx p -> length dl = nd -> length (r_lams (s_res _ _ s)) = nd ->
    length (w_lams_prev _ _ w) = nd -> length (w_plus _ _ w) = nd -> length (w_pdal _ _ w) = nd ->
    smooth_along p x dx curve ->
    prox_along (s_rho _ _ s) (px_val (s_rho _ _ s) (s_target _ _ s)) (px_grad (s_rho _ _ s) (s_target _ _ s)) x dx curve ->
    diagnose P p s = Ret d ->
    exists phi : R -> R,
      (forall t, exists m, phi_eval P p (d_state _ _ d) dx dl t = Ret (phi t, m)) /\
      phi 0 = r_merit (s_res _ _ (d_state _ _ d)) /\
      derivable_pt_lim phi 0 (inner (d_mg _ _ d) dx + inner (d_md _ _ d) dl) /\
      length (d_mg _ _ d) = length dx /\ length (d_md _ _ d) = length dl.
  Proof.
    intros mu nd w x curve Hb Hmu Hinv Hrho Fit Mu Ldx Ldl Ll Lp L1 L2 (Hx & F & C & HF & HC & HG & HJ) (PX0 & PX1) H.
    destruct (diagnose_merit P p s d H) as (f & c & m & g & J & mer & mg & E1 & E2 & E3 & E4 & E5 & E6 & E7 & E8 & X1 & X2 & X3 & X4 & X5 & X6 & X7 & X8 & X9 & X10).
    (* pieces of the evaluation at x *)
    fold x in E1, E2. unfold evaluate_problem in E1. inv_bind E1. inv_bind E1. injection E1 as -> ->.
    apply eval_cons_spec in E0. destruct E0 as [Ec Lc].
    assert (Ef : p_cost p x = Some f) by (unfold user in E; destruct (p_cost p x); [congruence|discriminate]).
    unfold derivs_problem in E2. inv_bind E2. inv_bind E2. inv_bind E2. injection E2 as -> ->.
    assert (Eg : p_grad p x = Some g /\ length g = p_ndx p).
    { unfold user in E0. destruct (p_grad p x); [|discriminate]. injection E0 as ->. unfold sized in E1.
      destruct (_ =? _)%nat eqn:En in E1; [|discriminate]. apply Nat.eqb_eq in En. injection E1 as E1. subst. auto. }
    destruct Eg as [Eg Lg]. apply jac_cons_spec in E9. destruct E9 as (EJ & LJ & RJ).
    assert (Ec0 : C 0 = c).
    { apply (stacked_values_fun x (p_cons p)); [|exact Ec]. rewrite <- Hx. apply HC. }
    assert (Ef0 : F 0 = f) by (specialize (HF 0); rewrite Hx, Ef in HF; congruence).
    destruct (mult_closed P p s c (r_lams (s_res _ _ s)) Fit Lc Ll Lp L1 L2) as (m' & Em & S1 & S2 & S3 & S4 & S5 & S6).
    rewrite E3 in Em. injection Em as <-.
    rewrite (merit_value_closed p (s_sets _ _ s) mu f (m_shift_pd m) (r_lams (s_res _ _ s)) Fit Mu Hmu S2 Ll) in E4. injection E4 as E4.
    unfold merit_gradient, dims in E5.
    destruct (dual_loop_closed (pdal_beta P) (s_sets _ _ s) (p_cons p) mu Fit Mu _ _ Ll S4) as (ls & qs & dd & B1 & B2 & B3 & B4 & B5).
    rewrite B1, B2, B3 in E5. injection E5 as <-. cbn [fst snd] in *.
    destruct (mtv_spec (p_ndx p) J (m_pdal m) RJ) as [Lm Nm].
    assert (Lgm : length (vadd (K := RSc) g (mtv (K := RSc) (p_ndx p) J (m_pdal m))) = p_ndx p) by (rewrite vadd_length; cbn [car RSc] in *; congruence).
    set (X := fun t => px_val (s_rho _ _ s) (s_target _ _ s) (curve t)).
    set (phi := phi_closed (s_sets _ _ s) p mu (w_lams_prev _ _ w) (r_lams (s_res _ _ s)) dl F X C).
    exists phi. split; [|split; [|split]].
    - intros t. subst phi X.
      pose proof (phi_is_closed P p (d_state _ _ d) dx dl F C mu) as PC. cbv zeta in PC. rewrite X1, X2, X3, X5, X6, X7, X8, X9, X10 in PC.
      apply PC; auto.
    - rewrite E6.
      assert (Ph : phi 0 = mer + X 0).
      { unfold phi, phi_closed. rewrite <- E4, Ef0, Ec0. f_equal.
        f_equal; [f_equal; f_equal|f_equal; f_equal]; apply sumn_ext; intros k Hk; [|ring].
        f_equal. rewrite S5 by exact Hk. unfold mu, w. cbn [car RSc]. lra. }
      rewrite Ph. unfold X. rewrite Hx. destruct (Rltb 0 (s_rho _ _ s)) eqn:On; [reflexivity|].
      rhyp. assert (R0 : s_rho _ _ s = 0) by lra. specialize (PX0 R0 0). rewrite Hx in PX0. rewrite PX0. lra.
    - assert (DX : derivable_pt_lim X 0 (if Rltb 0 (s_rho _ _ s) then inner (px_grad (s_rho _ _ s) (s_target _ _ s) x) dx else 0)).
      { destruct (Rltb 0 (s_rho _ _ s)) eqn:On; rhyp; [apply PX1; assumption|].
        assert (R0 : s_rho _ _ s = 0) by lra. apply (lim_ext (fun _ => 0)); [intros t; unfold X; rewrite PX0; auto|apply derivable_pt_lim_const]. }
      pose proof (phi_closed_deriv (s_sets _ _ s) p mu (w_lams_prev _ _ w) (r_lams (s_res _ _ s)) dl F X C _ _ _ Fit Mu Hmu (HG g Eg) DX (HJ J EJ)) as D.
      fold phi in D.
      match type of D with derivable_pt_lim _ _ ?a => replace (inner (d_mg _ _ d) dx + inner (d_md _ _ d) dl) with a; [exact D|] end.
      rewrite Ec0. clear D DX.
      assert (I1 : inner (d_mg _ _ d) dx = inner g dx + sumn nd (fun k => nth k (m_pdal m) 0 * inner (nth k J []) dx)
                 + (if Rltb 0 (s_rho _ _ s) then inner (px_grad (s_rho _ _ s) (s_target _ _ s) x) dx else 0)).
      { assert (I0 : inner (vadd (K := RSc) g (mtv (K := RSc) (p_ndx p) J (m_pdal m))) dx
                     = inner g dx + sumn nd (fun k => nth k (m_pdal m) 0 * inner (nth k J []) dx)).
        { rewrite (inner_sumn _ dx (p_ndx p) Lgm Ldx), (inner_sumn g dx (p_ndx p) Lg Ldx).
          replace nd with (Nat.min (length J) (length (m_pdal m))).
          2:{ cbn [car RSc] in *. rewrite LJ, S4. apply Nat.min_id. }
          transitivity (sumn (p_ndx p) (fun i => nth i g 0 * nth i dx 0) + sumn (p_ndx p) (fun i => jt_lam J (m_pdal m) i * nth i dx 0)).
          { rewrite <- sumn_plus. apply sumn_ext. intros i Hi. rewrite vadd_nth by (cbn [car RSc] in *; congruence).
            rewrite Nm by exact Hi. cbn [car RSc] in *. ring. }
          f_equal. rewrite jt_sum. apply sumn_ext. intros k Hk. f_equal. symmetry. apply inner_sumn; [|exact Ldx].
          rewrite Forall_forall in RJ. apply RJ. apply nth_In. cbn [car RSc] in *. lia. }
        rewrite E7. destruct (Rltb 0 (s_rho _ _ s)) eqn:On; [|rewrite I0; lra].
        rhyp. destruct (PX1 On) as [Lpx _]. fold x. rewrite <- I0.
        set (gv := vadd (K := RSc) g (mtv (K := RSc) (p_ndx p) J (m_pdal m))) in *.
        set (q := px_grad (s_rho _ _ s) (s_target _ _ s) x) in *. rewrite Ldx in Lpx.
        assert (Lvq : length (vadd (K := RSc) gv q) = p_ndx p) by (rewrite vadd_length; cbn [car RSc] in *; congruence).
        rewrite (inner_sumn _ dx (p_ndx p) Lvq Ldx), (inner_sumn gv dx (p_ndx p) Lgm Ldx), (inner_sumn q dx (p_ndx p) Lpx Ldx).
        rewrite <- sumn_plus. apply sumn_ext. intros i _. rewrite vadd_nth by (cbn [car RSc] in *; congruence). lra. }
      assert (I2 : inner (d_md _ _ d) dl = sumn nd (fun k => 1 / 2 * mu * (nth k (r_lams (s_res _ _ s)) 0 - nth k (m_pdal m) 0) * nth k dl 0)).
      { rewrite E8, (inner_sumn dd dl nd B4 Ldl). apply sumn_ext. intros k _. rewrite B5, Hb. reflexivity. }
      rewrite I1, I2. fold nd.
      set (q := if Rltb 0 (s_rho _ _ s) then inner (px_grad (s_rho _ _ s) (s_target _ _ s) x) dx else 0).
      assert (SE : 2 * sumn nd (fun k => ccone (nth k (stack_coords (s_sets fac bfgs s) (p_cons p)) KEq)
                   (nth k c 0 + mu * nth k (w_lams_prev fac bfgs w) 0 - 1 / 2 * mu * nth k (r_lams (s_res fac bfgs s)) 0) / mu
                    * (inner (nth k J []) dx - 1 / 2 * mu * nth k dl 0))
                + mu * sumn nd (fun k => 2 * (nth k (r_lams (s_res fac bfgs s)) 0 * nth k dl 0)) / 4
              = sumn nd (fun k => nth k (m_pdal m) 0 * inner (nth k J []) dx)
                + sumn nd (fun k => 1 / 2 * mu * (nth k (r_lams (s_res _ _ s)) 0 - nth k (m_pdal m) 0) * nth k dl 0)).
      { rewrite <- sumn_plus. replace (mu * sumn nd (fun k => 2 * (nth k (r_lams (s_res fac bfgs s)) 0 * nth k dl 0)) / 4)
          with (mu / 4 * sumn nd (fun k => 2 * (nth k (r_lams (s_res fac bfgs s)) 0 * nth k dl 0))) by lra.
        rewrite <- !sumn_scale, <- sumn_plus. apply sumn_ext. intros k Hk. rewrite S6 by exact Hk. rewrite S5 by exact Hk.
        rewrite Hinv, Hb. fold mu w. field. lra. }
      match goal with |- ?a + ?b + ?c + ?d = _ => transitivity (a + (b + c) + d); [ring|] end.
      match type of SE with _ = ?r => transitivity (inner g dx + r + q); [f_equal; f_equal; exact SE|ring] end.
    - split.
      + rewrite E7, Ldx. destruct (Rltb 0 (s_rho _ _ s)) eqn:On; [|exact Lgm]. rhyp. destruct (PX1 On) as [Lpx _].
        rewrite vadd_length; [exact Lgm|]. cbn [car RSc] in *. fold x. congruence.
      + rewrite E8. cbn [car RSc] in *. unfold nd in *. congruence.
  Qed.
End Merit.
