(** The line search on a merit function with a quadratic upper bound. *)
From Coq Require Import Reals List Bool Arith ZArith Lia Lra Psatz.
From Verif Require Import Scalar Armijo_model Armijo_proofs.
Import ListNotations.
Local Open Scope R_scope.

Section Smooth.
  Variable qr : xr -> xr -> xr -> xr -> xr -> xr -> xr * xr.
  Variable phi : list xr -> xr -> option xr.
  Variable o : ls_options XSc.
  Variables (f : R -> R) (am c1 cm cM q d L ab m : R) (k : nat).
  Hypothesis Eam : alpha_min o = XFin am.
  Hypothesis Ec1 : armijo_c1 o = XFin c1.
  Hypothesis Ecm : contraction_min o = XFin cm.
  Hypothesis EcM : contraction_max o = XFin cM.
  Hypothesis Hphi : forall tr a, phi tr (XFin a) = Some (XFin (f a)).
  Hypothesis Hc : 0 < cm <= cM.
  Hypothesis Hq : cM <= q /\ 1 / 2 <= q < 1.
  Hypothesis Hm : 0 < m /\ m <= cm /\ m <= 1 / 2.
  Hypothesis Hd : d < 0.
  Hypothesis Hab : 0 < ab.
  Hypothesis Hacc : forall a, 0 <= a <= 1 -> a <= ab -> f a <= f 0 + c1 * a * d.
  Hypothesis Ham : am < m * ab.
  Hypothesis Hk : q ^ k <= ab.

  Lemma pow_dec a b : (a <= b)%nat -> q ^ b <= q ^ a.
  Proof.
    intros H. replace b with (a + (b - a))%nat by lia. rewrite pow_add.
    assert (0 <= q ^ a) by (apply pow_le; lra).
    assert (q ^ (b - a) <= 1).
    { rewrite <- (pow1 (b - a)). apply pow_incr. lra. }
    nra.
  Qed.

  Lemma smooth_main n : forall alpha p tr a l' tr' ea ep,
    0 < alpha <= 1 -> (alpha = 1 \/ m * ab <= alpha) -> alpha <= q ^ ea ->
    (p = sample0 (K := XSc) \/ exists ap, p = sample2 (K := XSc) (XFin ap) (XFin (f ap)) /\ ab < ap <= 1 /\ ap <= q ^ ep) ->
    (ep <= ea <= S ep)%nat -> (2 * k <= n + ea + ep)%nat ->
    main_loop (K := XSc) qr phi n o (XFin (f 0)) (XFin d) (XFin alpha) (sample2 (K := XSc) (XFin alpha) (XFin (f alpha))) p tr = (a, l', tr') ->
    exists r, a = XFin r /\ l' = sample2 (K := XSc) (XFin r) (XFin (f r)) /\ (r = 1 \/ m * ab <= r) /\ 0 < r <= 1 /\ f r <= f 0 + c1 * r * d.
  Proof.
    induction n as [|n IH]; intros alpha p tr a l' tr' ea ep Ha Hlo Hea Hp Hle Hsum H.
    - cbn in H. injection H as <- <- <-. exists alpha. repeat split; auto; try lra.
      apply Hacc; [lra|]. apply Rle_trans with (q ^ ea); auto. apply Rle_trans with (q ^ k); auto. apply pow_dec. lia.
    - cbn [main_loop] in H. cbn [sphi sample2] in H. rewrite Ec1 in H.
      change (@sleb XSc (@ssub XSc (XFin (f alpha)) (XFin (f 0))) (@smul XSc (@smul XSc (XFin c1) (XFin alpha)) (XFin d)))
        with (Rleb (f alpha - f 0) (c1 * alpha * d)) in H.
      destruct (Rleb (f alpha - f 0) (c1 * alpha * d)) eqn:E.
      + injection H as <- <- <-. apply Rleb_true in E. exists alpha. repeat split; auto; try lra.
      + apply Rleb_false in E.
        assert (Hbig : ab < alpha).
        { destruct (Rle_or_lt alpha ab) as [Hle'|]; auto. exfalso. specialize (Hacc alpha ltac:(lra) Hle'). lra. }
        assert (Hnn : ~ (d = 0 /\ f alpha = f 0)) by lra.
        assert (Hcc : cm * alpha <= cM * alpha) by nra.
        change (@s0 XSc) with (XFin 0) in H.
        set (nx := next_alpha (K := XSc) qr o (sample3 (K := XSc) (XFin 0) (XFin (f 0)) (XFin d)) (sample2 (K := XSc) (XFin alpha) (XFin (f alpha))) p (XFin alpha)) in *.
        assert (N : (nx = XNaN /\ p <> sample0 (K := XSc)) \/ exists x, nx = XFin x /\ m * alpha <= x <= q * alpha).
        { unfold nx, next_alpha. destruct (interp o).
          - right. rewrite half_X. eexists. split; [reflexivity|]. nra.
          - right. rewrite Ecm, EcM. destruct (minimize_quad_total qr (f 0) d alpha (f alpha) (cm * alpha) (cM * alpha)) as (x & Ex & Hx); auto; try lra.
            exists x. split; [exact Ex|]. nra.
          - rewrite Ecm, EcM. destruct Hp as [->|(ap & -> & _)].
            + right. destruct (minimize_quad_total qr (f 0) d alpha (f alpha) (cm * alpha) (cM * alpha)) as (x & Ex & Hx); auto; try lra.
              exists x. split; [exact Ex|]. nra.
            + cbn [svalid sample2].
              destruct (minimize_X qr (sample3 (K := XSc) (XFin 0) (XFin (f 0)) (XFin d)) (sample2 (K := XSc) (XFin alpha) (XFin (f alpha)))
                 (Some (sample2 (K := XSc) (XFin ap) (XFin (f ap)))) (cm * alpha) (cM * alpha) Hcc) as [Ex|(x & Ex & Hx)].
              * left. split; [exact Ex|discriminate].
              * right. exists x. split; [exact Ex|]. nra. }
        assert (G : exists b e, guard_alpha (K := XSc) o p nx = XFin b /\ m * ab < b /\ b <= 1 /\ b <= q ^ e /\ (ea <= e <= S ea)%nat /\ (2 * k <= n + e + ea)%nat).
        { destruct N as [[En Hps]|(x & Ex & Hx)].
          - destruct Hp as [->|(ap & -> & Hap & Hapq)]; [congruence|].
            exists (cm * ap), (S ep). rewrite En. unfold guard_alpha. cbn -[pow]. rewrite Ecm. cbn -[pow]. split; [reflexivity|].
            assert (0 <= q ^ ep) by (apply pow_le; lra).
            repeat split; try lia; try nra. cbn. nra.
          - exists x, (S ea). split.
            + rewrite Ex. unfold guard_alpha, smax. cbn. rewrite Eam. cbn. rewrite (proj2 (Rltb_false _ _)); auto. nra.
            + repeat split; try lia; try nra. cbn. nra. }
        destruct G as (b & e & Eg & Hb & Hb1 & Hbe & He & Hs). rewrite Eg, Hphi in H.
        assert (Hm0 : 0 < m * ab) by nra.
        rewrite Eam in H. change (@sleb XSc (XFin b) (XFin am)) with (Rleb b am) in H.
        replace (Rleb b am) with false in H by (symmetry; apply Rleb_false; lra).
        apply (IH b _ _ _ _ _ e ea) in H; auto; try lra; try lia.
        right. exists alpha. repeat split; auto; lra.
  Qed.
End Smooth.

Lemma smooth_run qr phi (o : ls_options XSc) (f : R -> R) am c1 cm cM q d L k fuel :
  alpha_min o = XFin am -> armijo_c1 o = XFin c1 -> contraction_min o = XFin cm -> contraction_max o = XFin cM ->
  (forall tr a, phi tr (XFin a) = Some (XFin (f a))) ->
  0 < cm <= cM -> cM <= q -> 1 / 2 <= q < 1 -> c1 < 1 -> d < 0 -> 0 < L ->
  (forall a, 0 <= a <= 1 -> f a <= f 0 + d * a + L / 2 * (a * a)) ->
  let ab := 2 * (1 - c1) * - d / L in
  am < Rmin cm (1 / 2) * ab -> am <= 1 -> q ^ k <= ab -> (2 * k <= max_num_steps o)%nat -> (0 < fuel)%nat ->
  xltb (XFin (Rabs d)) (dphi_thresh o) = false ->
  exists r a, run (K := XSc) qr phi fuel o (XFin (f 0)) (XFin d) = Some r /\ r_alpha r = XFin a /\ r_phi r = XFin (f a) /\
    Rmin 1 (Rmin cm (1 / 2) * ab) <= a <= 1 /\ f a <= f 0 + c1 * a * d.
Proof.
  intros Eam Ec1 Ecm EcM Hphi Hc Hq Hq2 Hc1 Hd HL Hf ab Ham Ham1 Hk Hn Hfuel Ht.
  assert (Hab : 0 < ab) by (unfold ab; apply Rmult_lt_0_compat; [nra|apply Rinv_0_lt_compat; lra]).
  assert (HL2 : ab * L = 2 * (1 - c1) * - d) by (unfold ab; field; lra).
  set (m := Rmin cm (1 / 2)) in *.
  assert (Hm : 0 < m /\ m <= cm /\ m <= 1 / 2).
  { unfold m. repeat split; [apply Rmin_glb_lt; lra|apply Rmin_l|apply Rmin_r]. }
  assert (Hacc : forall a, 0 <= a <= 1 -> a <= ab -> f a <= f 0 + c1 * a * d).
  { intros a Ha Hle. specialize (Hf a Ha). assert (L / 2 * (a * a) <= a * ((1 - c1) * - d)); [|nra].
    replace (L / 2 * (a * a)) with (a * (L * a / 2)) by field. apply Rmult_le_compat_l; [lra|]. nra. }
  destruct (main_loop (K := XSc) qr phi (max_num_steps o) o (XFin (f 0)) (XFin d) (XFin 1) (sample2 (K := XSc) (XFin 1) (XFin (f 1))) (sample0 (K := XSc)) [XFin 1]) as [[a l'] tr'] eqn:E.
  pose proof E as E'.
  apply (smooth_main qr phi o f am c1 cm cM q d ab m k) with (ea := 0%nat) (ep := 0%nat) in E; auto; try lia; cbn; try lra.
  destruct E as (r & -> & -> & Hlo & Hr & Hdec).
  assert (Hrm : am <= r) by (destruct Hlo; lra).
  exists (mkRes (K := XSc) (XFin (f r)) (XFin r) tr'), r. split.
  - unfold run. destruct fuel as [|fu]; [lia|]. cbn [first_loop]. change (@s1 XSc) with (XFin 1). rewrite Hphi.
    change (@sltb XSc (@sabs XSc (XFin d)) (dphi_thresh o)) with (xltb (XFin (Rabs d)) (dphi_thresh o)). rewrite Ht.
    match goal with |- context [@main_loop ?K ?a ?b ?c ?d ?e ?f ?g ?h ?i ?j] => assert (E2 : @main_loop K a b c d e f g h i j = _) by exact E'; rewrite E2 end.
    f_equal. cbn [sphi sample2]. f_equal. unfold smax. cbn. rewrite Eam. cbn. rewrite (proj2 (Rltb_false _ _)); auto.
  - cbn. repeat split; auto; try lra. unfold Rmin at 1. destruct (Rle_dec 1 (m * ab)); destruct Hlo; lra.
Qed.

(** The hypotheses hold for f a = a^2 - a with the default options: L = 2, slope -1. *)
Lemma smooth_example : let o := ls_default (K := XSc) in let f := fun a => a * a - a in
  exists am c1 cm cM, alpha_min o = XFin am /\ armijo_c1 o = XFin c1 /\ contraction_min o = XFin cm /\ contraction_max o = XFin cM /\
  0 < cm <= cM /\ cM <= 4 / 5 /\ c1 < 1 /\ (forall a, 0 <= a <= 1 -> f a <= f 0 + -1 * a + 2 / 2 * (a * a)) /\
  (let ab := 2 * (1 - c1) * - -1 / 2 in am < Rmin cm (1 / 2) * ab /\ (4 / 5) ^ 1 <= ab) /\ am <= 1 /\ (2 * 1 <= max_num_steps o)%nat /\
  xltb (XFin (Rabs (-1))) (dphi_thresh o) = false.
Proof.
  cbv zeta. exists (1 / 1000000), (1 / 10000), (1 / 2), (4 / 5).
  assert (L : forall a b : Z, IZR b <> 0 -> @slit XSc a b = XFin (IZR a / IZR b)).
  { intros a b H. unfold slit. cbn. rewrite (proj2 (Reqb_false _ _)); auto. }
  unfold ls_default. cbn [alpha_min armijo_c1 contraction_min contraction_max dphi_thresh max_num_steps].
  rewrite !L by lra. rewrite Rmin_left by lra.
  repeat split; try lra; try lia.
  - intros. lra.
  - cbn. apply Rltb_false. rewrite Rabs_left by lra. lra.
Qed.
