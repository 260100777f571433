(** Proofs for the manifolds over the reals: inverses, derivatives, interpolation. *)
From Coq Require Import Reals List Bool Arith Lia Lra Ranalysis.
From Verif Require Import Scalar Cset_model Cset_spec Cset_proofs Problem_model Manifold_model Manifold_spec Manifold_proofs.
Import ListNotations.
Local Open Scope R_scope.

(** The predicates of a space with a binary view. *)
Record ppaired (S s1 s2 : rspace) : Prop := {
  pp_pair : paired S s1 s2;
  pp_pt : forall D x, point D S x <-> exists a b, x = a ++ b /\ point D s1 a /\ point D s2 b;
  pp_tg : forall D x, tangent D S x <-> exists a b, x = a ++ b /\ tangent D s1 a /\ tangent D s2 b;
  pp_near : forall D x y, near D S x y <->
    exists a b a' b', x = a ++ b /\ y = a' ++ b' /\ near D s1 a a' /\ near D s2 b b';
  pp_leaves : forall P, leaves P S <-> leaves P s1 /\ leaves P s2 }.
Lemma ppaired_cons c r : ppaired (SProd (c :: r)) c (SProd r).
Proof. constructor; try reflexivity. apply paired_cons. Qed.
Lemma ppaired_bundle s : ppaired (SBundle s) s (SVec (ndx s)).
Proof.
  constructor; try reflexivity; [apply paired_bundle| cbn; tauto].
Qed.

Lemma rspace_ind (P : rspace -> Prop) :
  (forall n, P (SVec n)) -> (forall l, P (SLeaf l)) -> P (SProd []) ->
  (forall S s1 s2, ppaired S s1 s2 -> P s1 -> P s2 -> P S) -> forall s, P s.
Proof.
  intros HV HL HN HP s. induction s as [n|l| |c r|b IH] using space_ind2; auto.
  - eapply HP; [apply ppaired_cons|..]; assumption.
  - eapply HP; [apply ppaired_bundle|..]; auto.
Qed.

Lemma near_points D s : forall x y, near D s x y -> point D s x /\ point D s y.
Proof.
  induction s as [n|l| |S s1 s2 PP IH1 IH2] using rspace_ind; cbn; auto.
  - tauto.
  - intros x y H. apply (pp_near _ _ _ PP) in H as (a & b & a' & b' & -> & -> & H1 & H2).
    apply IH1 in H1 as [? ?]. apply IH2 in H2 as [? ?].
    split; apply (pp_pt _ _ _ PP); eauto 7.
Qed.
Lemma point_len D s : leaves (leaf_sized D) s -> forall x, point D s x -> length x = nx s.
Proof.
  induction s as [n|l| |S s1 s2 PP IH1 IH2] using rspace_ind; intros HL x H.
  - exact H.
  - now apply (lz_pt _ _ HL).
  - cbn in *. now subst.
  - apply (pp_leaves _ _ _ PP) in HL as [? ?]. apply (pp_pt _ _ _ PP) in H as (a & b & -> & ? & ?).
    rewrite app_length, (pr_nx _ _ _ (pp_pair _ _ _ PP)), IH1, IH2; auto.
Qed.
Lemma tangent_len D s : leaves (leaf_sized D) s -> forall x, tangent D s x -> length x = ndx s.
Proof.
  induction s as [n|l| |S s1 s2 PP IH1 IH2] using rspace_ind; intros HL x H.
  - exact H.
  - now apply (lz_tg _ _ HL).
  - cbn in *. now subst.
  - apply (pp_leaves _ _ _ PP) in HL as [? ?]. apply (pp_tg _ _ _ PP) in H as (a & b & -> & ? & ?).
    rewrite app_length, (pr_ndx _ _ _ (pp_pair _ _ _ PP)), IH1, IH2; auto.
Qed.

Lemma leaf_int D l x v : leaf_sized D l -> integrate (SLeaf l) x v = l_integrate l x v.
Proof.
  intros HS. cbn. destruct (l_integrate l x v) as [y| | |] eqn:E; try reflexivity. cbn.
  apply fixed_ok. eapply lz_int; eauto.
Qed.
Lemma leaf_diff D l x v : leaf_sized D l -> difference (SLeaf l) x v = l_difference l x v.
Proof.
  intros HS. cbn. destruct (l_difference l x v) as [y| | |] eqn:E; try reflexivity. cbn.
  apply fixed_ok. eapply lz_diff; eauto.
Qed.

Lemma vec_int n (x v : rvec) : length x = n -> length v = n -> integrate (K:=RSc) (SVec n) x v = Ret (map2 Rplus x v).
Proof.
  intros Hx Hv. cbn. unfold vop. cbn [car RSc] in *. rewrite Hx, Hv, Nat.eqb_refl. cbn.
  apply fixed_ok. cbn [car RSc] in *. rewrite map2_length. lia.
Qed.
Lemma vec_diff n (x v : rvec) : length x = n -> length v = n -> difference (K:=RSc) (SVec n) x v = Ret (map2 Rminus v x).
Proof.
  intros Hx Hv. cbn. unfold vop. cbn [car RSc] in *. rewrite Hx, Hv, Nat.eqb_refl. cbn.
  apply fixed_ok. cbn [car RSc] in *. rewrite map2_length. lia.
Qed.
Lemma map2_pm (x v : rvec) : length x = length v -> map2 Rminus (map2 Rplus x v) x = v.
Proof.
  revert v. induction x as [|a x IH]; intros [|b v] H; cbn in *; try discriminate; [reflexivity|].
  rewrite IH by lia. f_equal. ring.
Qed.
Lemma map2_mp (x y : rvec) : length x = length y -> map2 Rplus x (map2 Rminus y x) = y.
Proof.
  revert y. induction x as [|a x IH]; intros [|b v] H; cbn in *; try discriminate; [reflexivity|].
  rewrite IH by lia. f_equal. ring.
Qed.

Lemma lem_inverse D s : leaves (leaf_sized D) s -> leaves (leaf_inverse D) s ->
  (forall x v, point D s x -> tangent D s v ->
     exists y, integrate s x v = Ret y /\ point D s y /\ near D s x y /\ difference s x y = Ret v) /\
  (forall x y, near D s x y -> exists v, difference s x y = Ret v /\ tangent D s v /\ integrate s x v = Ret y).
Proof.
  induction s as [n|l| |S s1 s2 PP IH1 IH2] using rspace_ind; intros HZ HI.
  - split.
    + intros x v Hx Hv. cbn in Hx, Hv. exists (map2 Rplus x v).
      assert (length (map2 Rplus x v) = n) by (rewrite map2_length; lia).
      rewrite vec_int, vec_diff, map2_pm by (assumption || lia). cbn. auto.
    + intros x y [Hx Hy]. exists (map2 Rminus y x).
      assert (length (map2 Rminus y x) = n) by (rewrite map2_length; lia).
      rewrite vec_int, vec_diff, map2_mp by (assumption || lia). cbn. auto.
  - cbn [leaves] in HZ, HI. split.
    + intros x v Hx Hv. rewrite (leaf_int D) by assumption. destruct (li_int _ _ HI x v Hx Hv) as (y & E1 & E2 & E3 & E4).
      exists y. rewrite (leaf_diff D) by assumption. cbn in *. auto 8.
    + intros x y (Hx & Hy & Hn). rewrite (leaf_diff D) by assumption. destruct (li_diff _ _ HI x y Hx Hy Hn) as (v & E1 & E2 & E3).
      exists v. rewrite (leaf_int D) by assumption. cbn in *. auto 8.
  - split.
    + intros x v Hx Hv. cbn in Hx, Hv. subst. exists []. cbn. auto.
    + intros x y Hx. cbn in Hx. destruct Hx as [-> ->]. exists []. cbn. auto.
  - apply (pp_leaves _ _ _ PP) in HZ as [HZ1 HZ2]. apply (pp_leaves _ _ _ PP) in HI as [HI1 HI2].
    destruct (IH1 HZ1 HI1) as [A1 B1]. destruct (IH2 HZ2 HI2) as [A2 B2]. pose proof (pp_pair _ _ _ PP) as P.
    split.
    + intros x v Hx Hv. apply (pp_pt _ _ _ PP) in Hx as (a & b & -> & Ha & Hb). apply (pp_tg _ _ _ PP) in Hv as (va & vb & -> & Hva & Hvb).
      destruct (A1 _ _ Ha Hva) as (y1 & E1 & F1 & N1 & D1). destruct (A2 _ _ Hb Hvb) as (y2 & E2 & F2 & N2 & D2).
      exists (y1 ++ y2).
      rewrite (pr_int _ _ _ P) by (apply (point_len D) || apply (tangent_len D); assumption).
      rewrite (pr_diff _ _ _ P) by (apply (point_len D); assumption).
      rewrite E1, E2, D1, D2. cbn.
      split; [reflexivity|]. split; [apply (pp_pt _ _ _ PP); eauto 7|]. split; [apply (pp_near _ _ _ PP); eauto 9|reflexivity].
    + intros x y Hn. apply (pp_near _ _ _ PP) in Hn as (a & b & a' & b' & -> & -> & H1 & H2).
      destruct (B1 _ _ H1) as (v1 & E1 & T1 & F1). destruct (B2 _ _ H2) as (v2 & E2 & T2 & F2).
      apply near_points in H1 as [Ha Ha']. apply near_points in H2 as [Hb Hb'].
      exists (v1 ++ v2).
      rewrite (pr_int _ _ _ P) by (apply (point_len D) || apply (tangent_len D); assumption).
      rewrite (pr_diff _ _ _ P) by (apply (point_len D); assumption).
      rewrite E1, E2, F1, F2. cbn.
      split; [reflexivity|]. split; [apply (pp_tg _ _ _ PP); eauto 7|reflexivity].
Qed.

(** * Derivatives *)
Lemma velocity_app f1 f2 f w1 w2 : velocity f1 w1 -> velocity f2 w2 ->
  (forall t g1 g2, f1 t = Ret g1 -> f2 t = Ret g2 -> f t = Ret (g1 ++ g2)) -> velocity f (w1 ++ w2).
Proof.
  intros (g1 & e1 & P1 & F1 & L1 & D1) (g2 & e2 & P2 & F2 & L2 & D2) H.
  exists (fun t => g1 t ++ g2 t), (Rmin e1 e2). split; [now apply Rmin_glb_lt|]. split; [|split].
  - intros t Ht. apply H; [apply F1 | apply F2]; eapply Rlt_le_trans; try exact Ht; [apply Rmin_l|apply Rmin_r].
  - intros t. now rewrite !app_length, L1, L2.
  - intros i Hi. rewrite app_length in Hi. destruct (Nat.lt_ge_cases i (length w1)).
    + rewrite app_nth1 by assumption.
      eapply derivable_pt_lim_ext; [|apply D1; assumption]. intros t. cbn. now rewrite app_nth1 by now rewrite L1.
    + rewrite app_nth2 by lia.
      eapply derivable_pt_lim_ext; [|apply (D2 (i - length w1)%nat); lia]. intros t. cbn. rewrite app_nth2, L1 by (rewrite L1; lia). reflexivity.
Qed.
Lemma inner_app a b c d : length a = length c -> inner (a ++ b) (c ++ d) = inner a c + inner b d.
Proof.
  revert c. induction a as [|x a IH]; intros [|y c] H; cbn in *; try discriminate; [lra|].
  rewrite IH by lia. ring.
Qed.
Lemma inner_zeros n w : inner (repeat 0 n) w = 0.
Proof. revert w. induction n as [|n IH]; intros [|y w]; cbn; try reflexivity. rewrite IH. ring. Qed.
Lemma mat_vec_block n1 n2 J1 J2 w1 w2 : Forall (fun row => length row = n1) J1 -> length w1 = n1 ->
  mat_vec (map (fun row => row ++ repeat 0 n2) J1 ++ map (fun row => repeat 0 n1 ++ row) J2) (w1 ++ w2) =
  mat_vec J1 w1 ++ mat_vec J2 w2.
Proof.
  intros F Hw. unfold mat_vec. rewrite map_app, !map_map. f_equal; apply map_ext_in; intros row Hr.
  - rewrite Forall_forall in F. rewrite inner_app by (rewrite F by assumption; lia). rewrite inner_zeros. ring.
  - rewrite inner_app by now rewrite repeat_length. rewrite inner_zeros. ring.
Qed.
Lemma square_block n1 n2 J1 J2 : square_rows n1 J1 -> square_rows n2 J2 ->
  square_rows (n1 + n2) (map (fun row => row ++ repeat 0 n2) J1 ++ map (fun row => repeat 0 n1 ++ row) J2).
Proof.
  intros [L1 F1] [L2 F2]. split; [rewrite app_length, !map_length; lia|]. apply Forall_app. split; apply Forall_forall; intros row H;
    apply in_map_iff in H as (r & <- & H); rewrite app_length, repeat_length.
  - rewrite Forall_forall in F1. rewrite F1; auto.
  - rewrite Forall_forall in F2. rewrite F2; auto.
Qed.
Lemma zeros_square n : square_rows n (zeros (K:=RSc) n n).
Proof.
  unfold zeros. split; [apply repeat_length|]. apply Forall_forall. intros r H. apply repeat_spec in H as ->. apply repeat_length.
Qed.
Lemma line_app a b t : line (a ++ b) t = line a t ++ line b t.
Proof. apply map_app. Qed.
Lemma along_app a b c d t : length a = length c -> along (a ++ b) (c ++ d) t = along a c t ++ along b d t.
Proof. apply map2_app. Qed.
Lemma line_len a t : length (line a t) = length a.
Proof. apply map_length. Qed.
Lemma along_len a b t : length a = length b -> length (along a b t) = length b.
Proof. intros H. unfold along. rewrite map2_length. lia. Qed.

Lemma split_len {A} (w : list A) n1 n2 : length w = (n1 + n2)%nat -> exists a b, w = a ++ b /\ length a = n1 /\ length b = n2.
Proof.
  intros H. exists (firstn n1 w), (skipn n1 w). rewrite firstn_skipn, firstn_length, skipn_length. repeat split; lia.
Qed.

Lemma curve_int_pair S s1 s2 arg a b va vb y1 y2 w1 w2 t g1 g2 : paired S s1 s2 ->
  length a = nx s1 -> length b = nx s2 -> length va = ndx s1 -> length vb = ndx s2 ->
  length y1 = nx s1 -> length y2 = nx s2 -> length w1 = ndx s1 -> length w2 = ndx s2 ->
  curve_int (integrate s1) (difference s1) arg a va y1 w1 t = Ret g1 ->
  curve_int (integrate s2) (difference s2) arg b vb y2 w2 t = Ret g2 ->
  curve_int (integrate S) (difference S) arg (a ++ b) (va ++ vb) (y1 ++ y2) (w1 ++ w2) t = Ret (g1 ++ g2).
Proof.
  intros P La Lb Lva Lvb Ly1 Ly2 Lw1 Lw2 H1 H2. cbn [car RSc] in *. unfold curve_int in *. destruct arg as [|arg].
  - apply bind_inv in H1 as (x1 & E1 & H1). apply bind_inv in H1 as (z1 & F1 & H1).
    apply bind_inv in H2 as (x2 & E2 & H2). apply bind_inv in H2 as (z2 & F2 & H2).
    pose proof (integrate_len _ _ _ _ E1). pose proof (integrate_len _ _ _ _ E2).
    pose proof (integrate_len _ _ _ _ F1). pose proof (integrate_len _ _ _ _ F2).
    rewrite line_app, (pr_int _ _ _ P), E1, E2 by (rewrite ?line_len; assumption). cbn.
    rewrite (pr_int _ _ _ P), F1, F2 by assumption. cbn.
    rewrite (pr_diff _ _ _ P), H1, H2 by assumption. reflexivity.
  - apply bind_inv in H1 as (z1 & F1 & H1). apply bind_inv in H2 as (z2 & F2 & H2).
    pose proof (integrate_len _ _ _ _ F1). pose proof (integrate_len _ _ _ _ F2).
    rewrite along_app, (pr_int _ _ _ P), F1, F2 by (rewrite ?along_len; cbn [car RSc] in *; congruence). cbn.
    rewrite (pr_diff _ _ _ P), H1, H2 by assumption. reflexivity.
Qed.
Lemma curve_diff_pair S s1 s2 arg a b y1 y2 w1 w2 t g1 g2 : paired S s1 s2 ->
  length a = nx s1 -> length b = nx s2 ->
  length y1 = nx s1 -> length y2 = nx s2 -> length w1 = ndx s1 -> length w2 = ndx s2 ->
  curve_diff (integrate s1) (difference s1) arg a y1 w1 t = Ret g1 ->
  curve_diff (integrate s2) (difference s2) arg b y2 w2 t = Ret g2 ->
  curve_diff (integrate S) (difference S) arg (a ++ b) (y1 ++ y2) (w1 ++ w2) t = Ret (g1 ++ g2).
Proof.
  intros P La Lb Ly1 Ly2 Lw1 Lw2 H1 H2. unfold curve_diff in *. destruct arg as [|arg];
    apply bind_inv in H1 as (x1 & E1 & H1); apply bind_inv in H2 as (x2 & E2 & H2);
    pose proof (integrate_len _ _ _ _ E1); pose proof (integrate_len _ _ _ _ E2);
    rewrite line_app, (pr_int _ _ _ P), E1, E2 by (rewrite ?line_len; assumption); cbn;
    rewrite (pr_diff _ _ _ P), H1, H2 by assumption; reflexivity.
Qed.

(** Straight curves. *)
Lemma velocity_line (f : R -> outcome rvec) c w (a : rvec) : length a = length w ->
  (forall t, f t = Ret (map2 (fun p q => p + t * (c * q)) a w)) -> velocity f (map (fun q => c * q) w).
Proof.
  intros La H. exists (fun t => map2 (fun p q => p + t * (c * q)) a w), 1. split; [lra|]. split; [auto|]. split.
  - intros t. rewrite map2_length, map_length. lia.
  - clear f H. revert a La. induction w as [|q w IH]; intros [|p a] La i Hi; cbn in *; try lia.
    destruct i as [|i].
    + intros eps He. exists (mkposreal 1 Rlt_0_1). intros h Hh _.
      replace ((p + (0 + h) * (c * q) - (p + 0 * (c * q))) / h - c * q) with 0 by (field; assumption).
      rewrite Rabs_R0. exact He.
    + apply IH; lia.
Qed.

Lemma inner_unit c i k w : length w = (i + S k)%nat -> inner (repeat 0 i ++ c :: repeat 0 k) w = c * nth i w 0.
Proof.
  revert w. induction i as [|i IH]; intros [|y w] H; cbn in *; try discriminate.
  - rewrite inner_zeros. ring.
  - rewrite IH by lia. ring.
Qed.
Lemma mat_vec_eye c w : mat_vec (eye_scaled (K:=RSc) c (length w)) w = map (fun q => c * q) w.
Proof.
  unfold mat_vec, eye_scaled. rewrite map_map.
  transitivity (map (fun i => c * nth i w 0) (seq 0 (length w))).
  - apply map_ext_in. intros i Hi. apply in_seq in Hi. apply inner_unit. cbn [car RSc]. lia.
  - clear. induction w as [|y w IH]; [reflexivity|]. cbn. f_equal. rewrite <- seq_shift, map_map. exact IH.
Qed.
Lemma eye_square c n : square_rows n (eye_scaled (K:=RSc) c n).
Proof. exact (eye_rows c n). Qed.

Ltac lists := repeat (match goal with
  | H : length ?l = S _ |- _ => is_var l; destruct l; cbn in H; [discriminate|injection H as H]
  end).
Lemma straight1 (x v w : rvec) t : length x = length w -> length v = length w ->
  map2 Rminus (map2 Rplus x (along v w t)) (map2 Rplus x v) = map2 (fun p q => p + t * (1 * q)) (repeat 0 (length w)) w.
Proof.
  revert x v. induction w as [|q w IH]; intros [|a x] [|b v] Hx Hv; cbn in *; try discriminate; [reflexivity|].
  unfold along in IH. rewrite IH by lia. f_equal. ring.
Qed.
Lemma straight0 (x v w : rvec) t : length x = length w -> length v = length w ->
  map2 Rminus (map2 Rplus (map2 Rplus x (line w t)) v) (map2 Rplus x v) = map2 (fun p q => p + t * (1 * q)) (repeat 0 (length w)) w.
Proof.
  revert x v. induction w as [|q w IH]; intros [|a x] [|b v] Hx Hv; cbn in *; try discriminate; [reflexivity|].
  unfold line in IH. rewrite IH by lia. f_equal. ring.
Qed.
Lemma straight2 (x y w : rvec) t : length x = length w -> length y = length w ->
  map2 Rminus y (map2 Rplus x (line w t)) = map2 (fun p q => p + t * (-1 * q)) (map2 Rminus y x) w.
Proof.
  revert x y. induction w as [|q w IH]; intros [|a x] [|b v] Hx Hv; cbn in *; try discriminate; [reflexivity|].
  unfold line in IH. rewrite IH by lia. f_equal. ring.
Qed.
Lemma straight3 (x y w : rvec) t : length x = length w -> length y = length w ->
  map2 Rminus (map2 Rplus y (line w t)) x = map2 (fun p q => p + t * (1 * q)) (map2 Rminus y x) w.
Proof.
  revert x y. induction w as [|q w IH]; intros [|a x] [|b v] Hx Hv; cbn in *; try discriminate; [reflexivity|].
  unfold line in IH. rewrite IH by lia. f_equal. ring.
Qed.

Lemma velocity_ext f f' w : (forall t, f t = f' t) -> velocity f w -> velocity f' w.
Proof. intros E (g & e & H1 & H2 & H3). exists g, e. split; [exact H1|]. split; [|exact H3]. intros t Ht. rewrite <- E. auto. Qed.

Lemma lem_Jint D s : leaves (leaf_sized D) s -> leaves (leaf_jacobians D) s ->
  forall x v arg old, point D s x -> tangent D s v -> (arg < 2)%nat -> square_rows (ndx s) old ->
  exists J y, Jintegrate s x v arg old = Ret J /\ square_rows (ndx s) J /\ integrate s x v = Ret y /\
    forall w, length w = ndx s -> velocity (curve_int (integrate s) (difference s) arg x v y w) (mat_vec J w).
Proof.
  induction s as [n|l| |S s1 s2 PP IH1 IH2] using rspace_ind; intros HZ HI x v arg old Hx Hv Harg Hold.
  - exists (eye_scaled (K:=RSc) 1 n), (map2 Rplus x v). cbn in Hx, Hv.
    split; [reflexivity|]. split; [apply eye_square|]. split; [now apply vec_int|].
    intros w Hw. cbn in Hw. rewrite <- Hw in Hx, Hv |- *. rewrite mat_vec_eye.
    assert (length (map2 Rplus x v) = length w) by (rewrite map2_length; lia).
    eapply velocity_line with (a := repeat 0 (length w)); [apply repeat_length|].
    intros t. destruct arg as [|[|]]; [| |lia]; unfold curve_int.
    + assert (length (map2 Rplus x (line w t)) = length w) by (rewrite map2_length, line_len; lia).
      rewrite vec_int by (rewrite ?line_len; congruence). cbn [bind]. rewrite vec_int by congruence. cbn [bind].
      rewrite vec_diff by (rewrite ?map2_length, ?line_len; lia). now rewrite straight0 by lia.
    + rewrite vec_int by (rewrite ?along_len; congruence). cbn [bind].
      rewrite vec_diff by (rewrite ?map2_length, ?along_len; lia). now rewrite straight1 by lia.
  - cbn [leaves] in HZ, HI. cbn [point tangent ndx] in *. destruct (lj_int _ _ HI x v arg old Hx Hv Harg Hold) as (J & y & E1 & E2 & E3 & E4).
    exists J, y. rewrite (leaf_int D) by assumption. split; [exact E1|]. split; [exact E2|]. split; [exact E3|].
    intros w Hw. eapply velocity_ext; [|apply E4, Hw]. intros t. unfold curve_int.
    destruct arg; repeat (rewrite (leaf_int D) by assumption; apply bind_ext; intros ? _); now rewrite (leaf_diff D).
  - cbn in Hx, Hv. subst. exists [], []. split; [reflexivity|]. split; [split; [reflexivity|constructor]|]. split; [reflexivity|].
    intros [|] Hw; [|discriminate]. exists (fun _ => []), 1. split; [lra|]. split; [|split].
    + intros t _. destruct arg; reflexivity.
    + reflexivity.
    + cbn. intros i Hi. lia.
  - apply (pp_leaves _ _ _ PP) in HZ as [HZ1 HZ2]. apply (pp_leaves _ _ _ PP) in HI as [HI1 HI2].
    pose proof (pp_pair _ _ _ PP) as P.
    apply (pp_pt _ _ _ PP) in Hx as (a & b & -> & Ha & Hb). apply (pp_tg _ _ _ PP) in Hv as (va & vb & -> & Hva & Hvb).
    destruct (IH1 HZ1 HI1 a va arg _ Ha Hva Harg (zeros_square _)) as (J1 & y1 & A1 & A2 & A3 & A4).
    destruct (IH2 HZ2 HI2 b vb arg _ Hb Hvb Harg (zeros_square _)) as (J2 & y2 & B1 & B2 & B3 & B4).
    apply (point_len D) in Ha, Hb; try assumption. apply (tangent_len D) in Hva, Hvb; try assumption.
    eexists _, (y1 ++ y2). split.
    { rewrite (pr_jint _ _ _ P), A1 by assumption. cbn [bind]. rewrite fixed2_ok by apply A2. cbn [bind]. rewrite B1. reflexivity. }
    rewrite (pr_ndx _ _ _ P). split; [now apply square_block|]. split.
    { rewrite (pr_int _ _ _ P), A3, B3 by assumption. reflexivity. }
    intros w Hw. apply split_len in Hw as (w1 & w2 & -> & L1 & L2).
    cbn [s0 RSc]. rewrite mat_vec_block; [|apply A2|assumption].
    eapply velocity_app; [apply A4, L1|apply B4, L2|]. intros t g1 g2 G1 G2. eapply curve_int_pair; eauto using (integrate_len (K:=RSc)).
Qed.

Lemma lem_Jdiff D s : leaves (leaf_sized D) s -> leaves (leaf_jacobians D) s ->
  forall x0 x1 arg old, near D s x0 x1 -> (arg < 2)%nat -> square_rows (ndx s) old ->
  exists J, Jdifference s x0 x1 arg old = Ret J /\ square_rows (ndx s) J /\
    forall w, length w = ndx s -> velocity (curve_diff (integrate s) (difference s) arg x0 x1 w) (mat_vec J w).
Proof.
  induction s as [n|l| |S s1 s2 PP IH1 IH2] using rspace_ind; intros HZ HI x0 x1 arg old Hn Harg Hold.
  - destruct Hn as [H0 H1]. exists (eye_scaled (K:=RSc) (match arg with O => -1 | _ => 1 end) n).
    split; [destruct arg as [|[|]]; [| |lia]; reflexivity|]. split; [apply eye_square|].
    intros w Hw. cbn in Hw. rewrite <- Hw in H0, H1 |- *. rewrite mat_vec_eye.
    eapply velocity_line with (a := map2 Rminus x1 x0); [rewrite map2_length; lia|].
    intros t. destruct arg as [|[|]]; [| |lia]; unfold curve_diff.
    + rewrite vec_int by (rewrite ?line_len; congruence). cbn [bind].
      rewrite vec_diff by (rewrite ?map2_length, ?line_len; lia). now rewrite straight2 by lia.
    + rewrite vec_int by (rewrite ?line_len; congruence). cbn [bind].
      rewrite vec_diff by (rewrite ?map2_length, ?line_len; lia). now rewrite straight3 by lia.
  - cbn [leaves] in HZ, HI. cbn [near ndx] in *. destruct Hn as (H0 & H1 & Hn).
    destruct (lj_diff _ _ HI x0 x1 arg old H0 H1 Hn Harg Hold) as (J & E1 & E2 & E4).
    exists J. split; [exact E1|]. split; [exact E2|].
    intros w Hw. eapply velocity_ext; [|apply E4, Hw]. intros t. unfold curve_diff.
    destruct arg; repeat (rewrite (leaf_int D) by assumption; apply bind_ext; intros ? _); now rewrite (leaf_diff D).
  - cbn in Hn. destruct Hn as [-> ->]. exists []. split; [reflexivity|]. split; [split; [reflexivity|constructor]|].
    intros [|] Hw; [|discriminate]. exists (fun _ => []), 1. split; [lra|]. split; [|split].
    + intros t _. destruct arg; reflexivity.
    + reflexivity.
    + cbn. intros i Hi. lia.
  - apply (pp_leaves _ _ _ PP) in HZ as [HZ1 HZ2]. apply (pp_leaves _ _ _ PP) in HI as [HI1 HI2].
    pose proof (pp_pair _ _ _ PP) as P.
    apply (pp_near _ _ _ PP) in Hn as (a & b & a' & b' & -> & -> & H1 & H2).
    destruct (IH1 HZ1 HI1 a a' arg _ H1 Harg (zeros_square _)) as (J1 & A1 & A2 & A4).
    destruct (IH2 HZ2 HI2 b b' arg _ H2 Harg (zeros_square _)) as (J2 & B1 & B2 & B4).
    apply near_points in H1 as [Ha Ha']. apply near_points in H2 as [Hb Hb'].
    apply (point_len D) in Ha, Hb, Ha', Hb'; try assumption.
    eexists. split.
    { rewrite (pr_jdiff _ _ _ P), A1 by assumption. cbn [bind]. rewrite fixed2_ok by apply A2. cbn [bind]. rewrite B1. reflexivity. }
    rewrite (pr_ndx _ _ _ P). split; [now apply square_block|].
    intros w Hw. apply split_len in Hw as (w1 & w2 & -> & L1 & L2).
    cbn [s0 RSc]. rewrite mat_vec_block; [|apply A2|assumption].
    eapply velocity_app; [apply A4, L1|apply B4, L2|]. intros t g1 g2 G1 G2. eapply curve_diff_pair; eauto.
Qed.

(** * Flat spaces *)
Lemma flat_pair S s1 s2 : ppaired S s1 s2 -> flat S -> flat s1 /\ flat s2.
Proof. intros PP. apply (pp_leaves _ _ _ PP). Qed.
Lemma flat_dim s : flat s -> nx s = ndx s.
Proof.
  induction s as [n|l| |S s1 s2 PP IH1 IH2] using rspace_ind; intros HF; [reflexivity|destruct HF|reflexivity|].
  destruct (flat_pair _ _ _ PP HF) as [F1 F2]. pose proof (pp_pair _ _ _ PP) as P.
  rewrite (pr_nx _ _ _ P), (pr_ndx _ _ _ P), IH1, IH2; auto.
Qed.
Lemma flat_int s : flat s -> forall x v, length x = nx s -> length v = ndx s -> integrate s x v = Ret (map2 Rplus x v).
Proof.
  induction s as [n|l| |S s1 s2 PP IH1 IH2] using rspace_ind; intros HF x v Hx Hv.
  - now apply vec_int.
  - destruct HF.
  - destruct x; [|discriminate]. reflexivity.
  - destruct (flat_pair _ _ _ PP HF) as [F1 F2]. pose proof (pp_pair _ _ _ PP) as P.
    rewrite (pr_nx _ _ _ P) in Hx. rewrite (pr_ndx _ _ _ P) in Hv.
    apply split_len in Hx as (a & b & -> & La & Lb). apply split_len in Hv as (c & d & -> & Lc & Ld).
    rewrite (pr_int _ _ _ P), IH1, IH2 by assumption. cbn [bind]. rewrite map2_app; [reflexivity|].
    pose proof (flat_dim _ F1). cbn [car RSc] in *. lia.
Qed.
Lemma flat_diff s : flat s -> forall x y, length x = nx s -> length y = nx s -> difference s x y = Ret (map2 Rminus y x).
Proof.
  induction s as [n|l| |S s1 s2 PP IH1 IH2] using rspace_ind; intros HF x v Hx Hv.
  - now apply vec_diff.
  - destruct HF.
  - destruct x; [|discriminate]. destruct v; [|discriminate]. reflexivity.
  - destruct (flat_pair _ _ _ PP HF) as [F1 F2]. pose proof (pp_pair _ _ _ PP) as P.
    rewrite (pr_nx _ _ _ P) in Hx, Hv.
    apply split_len in Hx as (a & b & -> & La & Lb). apply split_len in Hv as (c & d & -> & Lc & Ld).
    rewrite (pr_diff _ _ _ P), IH1, IH2 by assumption. cbn [bind]. rewrite map2_app; [reflexivity|]. cbn [car RSc] in *. congruence.
Qed.
Lemma eye_block c n1 n2 :
  map (fun row => row ++ repeat 0 n2) (eye_scaled (K:=RSc) c n1) ++ map (fun row => repeat 0 n1 ++ row) (eye_scaled (K:=RSc) c n2) =
  eye_scaled (K:=RSc) c (n1 + n2).
Proof.
  assert (SP : forall k n, seq (n1 + k) n = map (fun i => (n1 + i)%nat) (seq k n)).
  { intros k n. revert k. induction n as [|n IH]; intros k; [reflexivity|]. cbn. f_equal. rewrite <- Nat.add_succ_r. apply IH. }
  unfold eye_scaled. rewrite !map_map, seq_app, map_app. apply (f_equal2 (@app (list R))).
  - apply map_ext_in. intros i Hi. apply in_seq in Hi. rewrite <- app_assoc. cbn. rewrite <- repeat_app. do 3 f_equal. lia.
  - replace (0 + n1)%nat with (n1 + 0)%nat by lia. rewrite SP, map_map. apply map_ext_in. intros i Hi. apply in_seq in Hi.
    cbn. rewrite repeat_app, <- app_assoc. do 4 f_equal. lia.
Qed.
Lemma flat_Jint s : flat s -> forall x v arg old, length x = nx s -> length v = ndx s ->
  Jintegrate s x v arg old = Ret (eye_scaled (K:=RSc) 1 (ndx s)).
Proof.
  induction s as [n|l| |S s1 s2 PP IH1 IH2] using rspace_ind; intros HF x v arg old Hx Hv.
  - reflexivity.
  - destruct HF.
  - reflexivity.
  - destruct (flat_pair _ _ _ PP HF) as [F1 F2]. pose proof (pp_pair _ _ _ PP) as P.
    rewrite (pr_nx _ _ _ P) in Hx. rewrite (pr_ndx _ _ _ P) in Hv.
    apply split_len in Hx as (a & b & -> & La & Lb). apply split_len in Hv as (c & d & -> & Lc & Ld).
    rewrite (pr_jint _ _ _ P), IH1, IH2 by assumption. cbn [bind]. rewrite fixed2_ok by apply eye_rows. cbn [bind].
    rewrite (pr_ndx _ _ _ P). f_equal. apply eye_block.
Qed.
Lemma flat_Jdiff s : flat s -> forall x v arg old, (arg < 2)%nat -> length x = nx s -> length v = nx s ->
  Jdifference s x v arg old = Ret (eye_scaled (K:=RSc) (match arg with O => -1 | _ => 1 end) (ndx s)).
Proof.
  induction s as [n|l| |S s1 s2 PP IH1 IH2] using rspace_ind; intros HF x v arg old Harg Hx Hv.
  - destruct arg as [|[|]]; [| |lia]; reflexivity.
  - destruct HF.
  - reflexivity.
  - destruct (flat_pair _ _ _ PP HF) as [F1 F2]. pose proof (pp_pair _ _ _ PP) as P.
    rewrite (pr_nx _ _ _ P) in Hx, Hv.
    apply split_len in Hx as (a & b & -> & La & Lb). apply split_len in Hv as (c & d & -> & Lc & Ld).
    rewrite (pr_jdiff _ _ _ P), IH1, IH2 by assumption. cbn [bind]. rewrite fixed2_ok by apply eye_rows. cbn [bind].
    rewrite (pr_ndx _ _ _ P). f_equal. apply eye_block.
Qed.
Lemma nth_repeat0 i n : nth i (repeat 0 n) 0 = 0.
Proof. revert i. induction n; intros [|i]; cbn; auto. Qed.
Lemma eye_identity c n : scaled_identity c n (eye_scaled (K:=RSc) c n).
Proof.
  split; [apply eye_square|]. intros i j Hi Hj. unfold eye_scaled.
  set (F := fun i => repeat (@s0 RSc) i ++ c :: repeat (@s0 RSc) (n - Datatypes.S i)).
  rewrite (nth_indep _ [] (F O)) by (rewrite map_length, seq_length; exact Hi).
  rewrite (map_nth F (seq 0 n) O), seq_nth by assumption. unfold F. cbn [plus s0 RSc].
  destruct (Nat.eqb_spec i j) as [->|Hne].
  - rewrite app_nth2; rewrite repeat_length; [|lia]. now rewrite Nat.sub_diag.
  - destruct (Nat.lt_ge_cases j i).
    + rewrite app_nth1 by now rewrite repeat_length. apply nth_repeat0.
    + rewrite app_nth2 by (rewrite repeat_length; lia). rewrite repeat_length.
      cbn. destruct (j - i)%nat eqn:E; [lia|]. apply nth_repeat0.
Qed.
Lemma lem_flat_jac s : flat s -> forall x y v old, length x = nx s -> length y = nx s -> length v = ndx s ->
  (forall arg, exists J, Jintegrate s x v arg old = Ret J /\ scaled_identity 1 (ndx s) J) /\
  (exists J, Jdifference s x y 0 old = Ret J /\ scaled_identity (-1) (ndx s) J) /\
  (exists J, Jdifference s x y 1 old = Ret J /\ scaled_identity 1 (ndx s) J).
Proof.
  intros HF x y v old Hx Hy Hv. split; [|split].
  - intros arg. rewrite flat_Jint by assumption. eauto using eye_identity.
  - rewrite flat_Jdiff by (assumption || lia). eauto using eye_identity.
  - rewrite flat_Jdiff by (assumption || lia). eauto using eye_identity.
Qed.
Lemma lem_flat_inverse s : flat s -> forall x y v, length x = nx s -> length y = nx s -> length v = ndx s ->
  (exists d, difference s x y = Ret d /\ length d = ndx s /\ integrate s x d = Ret y) /\
  (exists z, integrate s x v = Ret z /\ length z = nx s /\ difference s x z = Ret v).
Proof.
  intros HF x y v Hx Hy Hv. pose proof (flat_dim _ HF) as E. cbn [car RSc] in *. split.
  - exists (map2 Rminus y x). assert (L : length (map2 Rminus y x) = ndx s) by (rewrite map2_length; lia).
    rewrite flat_diff, flat_int, map2_mp by (assumption || lia). auto.
  - exists (map2 Rplus x v). assert (L : length (map2 Rplus x v) = nx s) by (rewrite map2_length; lia).
    rewrite flat_diff, flat_int, map2_pm by (assumption || lia). auto.
Qed.

(** * Interpolation *)
Lemma int_zero D s : leaves (leaf_sized D) s -> leaves (leaf_ends D) s ->
  forall x, point D s x -> integrate s x (repeat 0 (ndx s)) = Ret x.
Proof.
  induction s as [n|l| |S s1 s2 PP IH1 IH2] using rspace_ind; intros HZ HE x Hx.
  - rewrite vec_int by (exact Hx || apply repeat_length). f_equal. cbn in Hx |- *. subst n.
    clear. induction x as [|a x IH]; cbn; [reflexivity|]. rewrite IH. f_equal. ring.
  - cbn [leaves ndx] in *. rewrite (leaf_int D) by assumption. now apply (le_zero _ _ HE).
  - cbn in Hx. subst. reflexivity.
  - apply (pp_leaves _ _ _ PP) in HZ as [HZ1 HZ2]. apply (pp_leaves _ _ _ PP) in HE as [HE1 HE2].
    pose proof (pp_pair _ _ _ PP) as P. apply (pp_pt _ _ _ PP) in Hx as (a & b & -> & Ha & Hb).
    rewrite (pr_ndx _ _ _ P), repeat_app.
    rewrite (pr_int _ _ _ P) by (apply (point_len D) || apply repeat_length; assumption).
    now rewrite IH1, IH2 by assumption.
Qed.
Lemma scale_one (v : rvec) : vscale (K:=RSc) 1 v = v.
Proof. unfold vscale. cbn. induction v as [|a v IH]; cbn; [reflexivity|]. cbn in IH. rewrite IH. f_equal. ring. Qed.
Lemma scale_zero (v : rvec) : vscale (K:=RSc) 0 v = repeat 0 (length v).
Proof. unfold vscale. cbn. induction v as [|a v IH]; cbn; [reflexivity|]. cbn in IH. rewrite IH. f_equal. ring. Qed.
Lemma leaf_interp D l x y u : leaf_sized D l -> interpolate (SLeaf l) x y u = l_interpolate l x y u.
Proof.
  intros HS. cbn. destruct (l_interpolate l x y u) as [z| | |] eqn:E; try reflexivity. cbn.
  apply fixed_ok. eapply lz_interp; eauto.
Qed.
Lemma lem_interp_ends D s : leaves (leaf_sized D) s -> leaves (leaf_inverse D) s -> leaves (leaf_ends D) s ->
  (forall b, s <> SBundle b) ->
  forall x y, near D s x y -> interpolate s x y 0 = Ret x /\ interpolate s x y 1 = Ret y.
Proof.
  intros HZ HI HE HB x y Hn. destruct s as [n|l|cs|b].
  - destruct Hn as [Hx Hy]. cbn -[map2]. unfold vop, vscale. cbn [car RSc] in *. rewrite !map_length, Hx, Hy, Nat.eqb_refl. cbn -[map2].
    rewrite !fixed_ok by (cbn [car RSc]; rewrite map2_length, !map_length; lia). subst n.
    split; f_equal; clear HZ HI HE HB; revert y Hy; induction x as [|a x IH]; intros [|b y] Hy; try discriminate; try reflexivity;
      cbn in *; f_equal; try (apply IH; lia); ring.
  - destruct Hn as (Hx & Hy & Hn). cbn [leaves] in *. rewrite !(leaf_interp D) by assumption.
    split; [apply (le_0 _ _ HE)|apply (le_1 _ _ HE)]; assumption.
  - cbn [interpolate]. unfold interpolate_default. destruct (lem_inverse D _ HZ HI) as [_ B].
    destruct (B _ _ Hn) as (v & E1 & E2 & E3). rewrite E1. cbn [bind]. split.
    + rewrite scale_zero. cbn [car RSc]. rewrite (tangent_len D _ HZ v E2). apply (int_zero D); auto. apply (near_points _ _ _ _ Hn).
    + now rewrite scale_one.
  - exfalso. eapply HB. reflexivity.
Qed.
Lemma lem_interp_bundle n (p0 v0 p1 v1 : rvec) u : length p0 = n -> length v0 = n -> length p1 = n -> length v1 = n ->
  exists q, interpolate (SBundle (SVec n)) (p0 ++ v0) (p1 ++ v1) u = Ret (q ++ q) /\
    length q = n /\ forall i, (i < n)%nat -> nth i q 0 = (1 - u) * nth i p0 0 + u * nth i p1 0.
Proof.
  intros H1 H2 H3 H4. exists (map2 (fun a b => (1 - u) * a + u * b) p0 p1).
  cbn [interpolate nx ndx]. rewrite !seg_app_l by assumption. cbn [bind].
  unfold vop, vscale. cbn [car RSc] in *. rewrite !map_length, H1, H3, Nat.eqb_refl. cbn [bind].
  rewrite fixed_ok by (cbn [car RSc]; rewrite map2_length, !map_length; lia). cbn [bind].
  split; [|split; [rewrite map2_length; lia|]].
  - do 2 f_equal; cbn; clear - H1 H3; subst n; revert p1 H3; induction p0 as [|a p IH]; intros [|b y] Hy; try discriminate; try reflexivity;
      cbn in *; f_equal; try (apply IH; lia); ring.
  - clear - H1 H3. subst n. revert p1 H3. induction p0 as [|a p IH]; intros [|b y] Hy [|i] Hi; cbn in *; try lia; try discriminate; auto.
    apply IH; lia.
Qed.
Lemma lem_interp_flat s : flat s -> (forall b, s <> SBundle b) -> forall x y u, length x = nx s -> length y = nx s ->
  exists z, interpolate s x y u = Ret z /\ length z = nx s /\
    forall i, (i < nx s)%nat -> nth i z 0 = (1 - u) * nth i x 0 + u * nth i y 0.
Proof.
  intros HF HB x y u Hx Hy. exists (map2 (fun a b => (1 - u) * a + u * b) x y). cbn [car RSc] in *.
  split; [|split; [rewrite map2_length; lia|]].
  2:{ clear HF HB. rewrite <- Hx. assert (E : length x = length y) by lia. clear Hx Hy. revert y E.
      induction x as [|a p IH]; intros [|b y] Hy [|i] Hi; cbn in *; try lia; try discriminate; auto. apply IH; lia. }
  destruct s as [n|l|cs|b].
  - cbn [interpolate]. unfold vop, vscale. cbn [car RSc]. rewrite !map_length, Hx, Hy. cbn [nx]. rewrite Nat.eqb_refl. cbn [bind].
    rewrite fixed_ok by (cbn [car RSc]; rewrite map2_length, !map_length; cbn in *; lia). f_equal. cbn in Hx, Hy. subst n. clear HF HB. revert y Hy.
    cbn. induction x as [|a p IH]; intros [|b y] Hy; try discriminate; try reflexivity; cbn in *; f_equal; try (apply IH; lia); ring.
  - destruct HF.
  - cbn [interpolate]. unfold interpolate_default. rewrite flat_diff by assumption. cbn [bind].
    pose proof (flat_dim _ HF).
    rewrite flat_int by (unfold vscale; try assumption; cbn [car RSc]; rewrite map_length, map2_length; lia). f_equal.
    assert (E : length x = length y) by lia. clear -E. cbn. revert y E. unfold vscale.
    induction x as [|a p IH]; intros [|b y] Hy; try discriminate; try reflexivity; cbn in *; f_equal; try (apply IH; lia); ring.
  - exfalso. eapply HB. reflexivity.
Qed.
Lemma lem_transport_flat s : flat s -> forall x v arg J,
  length x = nx s -> length v = ndx s -> length J = ndx s -> transport s x v arg J = Ret J.
Proof.
  induction s as [n|l| |c r IH1 IH2|b IH] using space_ind2; intros HF x v arg J Hx Hv HJ.
  - reflexivity.
  - destruct HF.
  - reflexivity.
  - destruct HF as [F1 F2]. rewrite nx_cons in Hx. rewrite ndx_cons in Hv, HJ.
    apply split_len in Hx as (a & b & -> & La & Lb). apply split_len in Hv as (va & vb & -> & Lc & Ld).
    apply split_len in HJ as (J1 & J2 & -> & Le & Lf). apply lem_transport_cons; try assumption; [apply IH1|apply IH2]; assumption.
  - cbn [leaves] in HF. cbn [nx] in Hx. cbn [ndx] in Hv, HJ.
    replace (2 * ndx b)%nat with (ndx b + ndx b)%nat in * by lia.
    apply split_len in Hx as (a & x2 & -> & La & Lb). apply split_len in Hv as (va & vb & -> & Lc & Ld).
    apply split_len in HJ as (J1 & J2 & -> & Le & Lf). apply lem_transport_bundle; try assumption. apply IH; assumption.
Qed.
