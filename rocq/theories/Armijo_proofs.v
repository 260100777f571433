(** Proofs about the line search. *)
From Coq Require Import Reals List Bool Arith ZArith Lia Lra Psatz Floats.SpecFloat.
From Verif Require Import Scalar Armijo_model.
Import ListNotations.

(** ** Any scalar type: structure of the search *)
Section AnyScalar.
  Context {K : Sc}.
  Variable qr : car K -> car K -> car K -> car K -> car K -> car K -> car K * car K.
  Variable phi : list (car K) -> car K -> option (car K).
  Variable o : ls_options K.
  Notation first_loop := (first_loop phi).
  Notation main_loop := (main_loop qr phi).
  Notation run := (run qr phi).

  Lemma main_trace_len n phi0 dphi0 : forall alpha (l p : sample _) tr a l' tr',
    main_loop n o phi0 dphi0 alpha l p tr = (a, l', tr') ->
    (length tr <= length tr' <= length tr + n)%nat.
  Proof.
    induction n as [|n IH]; intros alpha l p tr a l' tr' H; cbn in H.
    - injection H as <- <- <-. lia.
    - destruct (_ <=? _)%S.
      + injection H as <- <- <-. lia.
      + destruct (phi tr _) as [v|].
        * destruct (_ <=? _)%S; [injection H as <- <- <-; cbn; lia|].
          apply IH in H. cbn in H. lia.
        * apply IH in H. cbn in H. lia.
  Qed.

  (** Everything when no evaluation throws. *)
  Hypothesis nothrow : forall tr a, phi tr a <> None.

  Lemma first_nothrow fuel alpha tr : (0 < fuel)%nat ->
    exists v, first_loop fuel o alpha tr = Some (alpha, sample2 alpha v, alpha :: tr) /\ phi tr alpha = Some v.
  Proof.
    destruct fuel as [|f]; [lia|]. intros _. cbn. destruct (phi tr alpha) as [v|] eqn:E.
    - exists v. auto.
    - destruct (nothrow _ _ E).
  Qed.

  Lemma main_nothrow n phi0 dphi0 : forall alpha l p tr a l' tr' rest v,
    tr = alpha :: rest -> phi rest alpha = Some v -> sphi l = v ->
    main_loop n o phi0 dphi0 alpha l p tr = (a, l', tr') ->
    exists rest', tr' = a :: rest' /\ phi rest' a = Some (sphi l') /\
      ((sphi l' - phi0 <=? armijo_c1 o * a * dphi0)%S = true \/
       (a <=? alpha_min o)%S = true \/ length tr' = (length tr + n)%nat).
  Proof.
    induction n as [|n IH]; intros alpha l p tr a l' tr' rest v Htr Hphi Hl H; cbn in H.
    - injection H as <- <- <-. exists rest. subst. repeat split; auto; right; right; lia.
    - destruct (sphi l - phi0 <=? armijo_c1 o * alpha * dphi0)%S eqn:E.
      + injection H as <- <- <-. exists rest. subst. repeat split; auto.
      + set (b := guard_alpha _ _ _) in H. destruct (phi tr b) as [w|] eqn:Ew.
        * destruct (b <=? alpha_min o)%S eqn:Eb.
          -- injection H as <- <- <-. exists tr. repeat split; auto.
          -- destruct (IH b (sample2 b w) l (b :: tr) a l' tr' tr w eq_refl Ew eq_refl H) as (r' & A & B & C).
             exists r'. repeat split; auto. destruct C as [C|[C|C]]; auto.
             right; right. cbn in C. lia.
        * destruct (nothrow _ _ Ew).
  Qed.

  Lemma run_nothrow fuel phi0 dphi0 : (0 < fuel)%nat ->
    exists a rest v, run fuel o phi0 dphi0 =
        Some (mkRes v (if (sabs dphi0 <? dphi_thresh o)%S then a else smax a (alpha_min o)) (a :: rest))
      /\ phi rest a = Some v /\
      ((sabs dphi0 <? dphi_thresh o)%S = false ->
         (v - phi0 <=? armijo_c1 o * a * dphi0)%S = true \/
         (a <=? alpha_min o)%S = true \/ length (a :: rest) = S (max_num_steps o)) /\
      ((sabs dphi0 <? dphi_thresh o)%S = true -> a = s1 /\ rest = []).
  Proof.
    intros Hf. unfold Armijo_model.run.
    destruct (first_nothrow fuel s1 [] Hf) as (v & E & Hv). rewrite E.
    destruct (sabs dphi0 <? dphi_thresh o)%S.
    - exists s1, [], v. repeat split; auto; discriminate.
    - destruct (Armijo_model.main_loop _ _ _ _ _ _ _ _ _ _) as [[a l] t] eqn:M.
      apply (main_nothrow _ _ _ s1 (sample2 s1 v) sample0 [s1] _ _ _ [] v eq_refl Hv eq_refl) in M.
      destruct M as (r & -> & B & C). exists a, r, (sphi l). repeat split; auto; discriminate.
  Qed.
End AnyScalar.

(** ** First loop over the extended reals *)
Local Open Scope R_scope.

Lemma half_X r : @smul XSc (XFin r) shalf = XFin (r * (1 / 2)).
Proof.
  unfold shalf, slit. cbn. unfold Reqb. destruct (Req_EM_T 2 0); [lra|]. reflexivity.
Qed.

Definition in01 (x : xr) : Prop := exists r, x = XFin r /\ 0 <= r <= 1.

Record opts_ok (o : ls_options XSc) : Prop := {
  ok_min : exists am, alpha_min o = XFin am /\ 0 < am <= 1;
  ok_cmin : in01 (contraction_min o);
  ok_cmax : in01 (contraction_max o)
}.

Lemma in01_mul a b : in01 a -> in01 b -> in01 (xmul a b).
Proof. intros (x & -> & Hx) (y & -> & Hy). cbn. exists (x * y). split; auto. nra. Qed.

Section XRun.
  Variable qr : xr -> xr -> xr -> xr -> xr -> xr -> xr * xr.
  Variable phi : list xr -> xr -> option xr.
  Variable o : ls_options XSc.
  Hypothesis Hok : opts_ok o.

  Lemma first_X k : forall fuel a tr, 0 < a <= 1 -> (exists am, alpha_min o = XFin am /\ am <= a) ->
    (exists am, alpha_min o = XFin am /\ a * (1 / 2) ^ (S k) <= am) -> (S k <= fuel)%nat ->
    exists al l tr', first_loop (K := XSc) phi fuel o (XFin a) tr = Some (al, l, tr') /\
      in01 al /\ xleb (alpha_min o) al = true /\ in01 (sa l) /\
      (length tr < length tr' <= length tr + S k)%nat.
  Proof.
    destruct Hok as [[am0 [Ham0 Hr0]] _ _].
    induction k as [|k IH]; intros fuel a tr Ha [am [Ham Hle]] [am' [Ham' Hk]] Hf;
      rewrite Ham0 in Ham, Ham'; injection Ham as <-; injection Ham' as <-;
      (destruct fuel as [|f]; [lia|]); cbn [first_loop]; destruct (phi tr (XFin a)) as [v|].
    - exists (XFin a), (sample2 (K := XSc) (XFin a) v), (XFin a :: tr).
      repeat split; cbn; try lia; try (exists a; split; auto; lra).
      rewrite Ham0. cbn. rewrite (proj2 (Rleb_true _ _)); auto.
    - rewrite half_X. cbn -[first_loop]. rewrite Ham0. cbn -[first_loop].
      replace (Rleb (a * (1 / 2)) am0) with true by (symmetry; apply Rleb_true; cbn in Hk; lra).
      exists (XFin am0), (sample0 (K := XSc)), (XFin a :: tr).
      repeat split; cbn; try lia; try (exists am0; split; auto; lra); try (exists 0; split; auto; lra).
      apply Rleb_true; lra.
    - exists (XFin a), (sample2 (K := XSc) (XFin a) v), (XFin a :: tr).
      repeat split; cbn; try lia; try (exists a; split; auto; lra).
      rewrite Ham0. cbn. rewrite (proj2 (Rleb_true _ _)); auto.
    - rewrite half_X. cbn -[first_loop]. rewrite Ham0. cbn -[first_loop].
      destruct (Rleb (a * (1 / 2)) am0) eqn:E; rhyp.
      + exists (XFin am0), (sample0 (K := XSc)), (XFin a :: tr).
        repeat split; cbn; try lia; try (exists am0; split; auto; lra); try (exists 0; split; auto; lra).
        apply Rleb_true; lra.
      + destruct (IH f (a * (1/2)) (XFin a :: tr)) as (al & l & tr' & H1 & H2 & H3 & H4 & H5).
        * lra.
        * exists am0; split; auto; lra.
        * exists am0; split; auto. cbn in *. lra.
        * lia.
        * exists al, l, tr'. cbn in H5. rewrite Ham0 in H3. repeat split; auto; lia.
  Qed.

  Lemma clip_X poly an mn mx : in01 mn -> in01 mx ->
    clip (K := XSc) poly an mn mx = XNaN \/ in01 (clip (K := XSc) poly an mn mx).
  Proof.
    intros (a & -> & Ha) (b & -> & Hb). unfold clip. cbn.
    destruct an as [| [|] |r]; cbn.
    - left; auto.
    - right. destruct (xltb _ _); [exists a|exists b]; auto.
    - right. destruct (xltb _ _); [exists a|exists b]; auto.
    - right. destruct (Rltb b r) eqn:E1; cbn; [destruct (xltb _ _); [exists a|exists b]; auto|].
      destruct (Rltb r a) eqn:E2; [destruct (xltb _ _); [exists a|exists b]; auto|].
      rhyp. exists r. split; auto; lra.
  Qed.

  Lemma next_X lb latest previous al : in01 al ->
    let a := next_alpha (K := XSc) qr o lb latest previous al in a = XNaN \/ in01 a.
  Proof.
    intros Hal. destruct Hok as [_ H1 H2]. cbv zeta. unfold next_alpha, minimize_interpolant.
    assert (C1 : in01 (xmul (contraction_min o) al)) by (apply in01_mul; auto).
    assert (C2 : in01 (xmul (contraction_max o) al)) by (apply in01_mul; auto).
    destruct (interp o).
    - right. destruct Hal as (r & -> & Hr). rewrite half_X. exists (r * (1/2)). split; auto; lra.
    - destruct (quad_interp lb latest). apply clip_X; auto.
    - destruct (svalid previous).
      + destruct (cubic_interp (K := XSc) qr lb latest previous). apply clip_X; auto.
      + destruct (quad_interp lb latest). apply clip_X; auto.
  Qed.

  Lemma guard_X (previous : sample XSc) (a : xr) : in01 (sa previous) -> a = XNaN \/ in01 a ->
    in01 (guard_alpha (K := XSc) o previous a).
  Proof.
    intros Hp Ha. unfold guard_alpha. destruct Hok as [[am [Eam Ham]] H1 H2].
    destruct Ha as [->|Ha].
    - apply in01_mul; auto.
    - destruct Ha as (r & -> & Hr). cbn. unfold smax. cbn. rewrite Eam. cbn.
      destruct (Rltb r am) eqn:E; rhyp; [exists am|exists r]; split; auto; lra.
  Qed.

  Lemma main_X n phi0 dphi0 : forall alpha (l p : sample XSc) tr a l' tr',
    in01 alpha -> in01 (sa l) -> in01 (sa p) ->
    main_loop (K := XSc) qr phi n o phi0 dphi0 alpha l p tr = (a, l', tr') ->
    in01 a /\ in01 (sa l').
  Proof.
    induction n as [|n IH]; intros alpha l p tr a l' tr' Ha Hl Hp H; cbn [main_loop] in H.
    - injection H as <- <- <-. auto.
    - destruct (_ <=? _)%S.
      + injection H as <- <- <-. auto.
      + set (b := guard_alpha _ _ _) in H.
        assert (Hb : in01 b) by (apply guard_X; auto; apply next_X; auto).
        destruct (phi tr b) as [v|].
        * destruct (b <=? alpha_min o)%S; [injection H as <- <- <-; auto|].
          eapply IH; [exact Hb| | |exact H]; auto.
        * eapply IH; [exact Hb| | |exact H]; auto.
  Qed.

  Lemma smax_min (a : xr) : in01 a -> in01 (smax (K := XSc) a (alpha_min o)) /\
     xleb (alpha_min o) (smax (K := XSc) a (alpha_min o)) = true.
  Proof.
    intros (r & -> & Hr). destruct Hok as [[am [Eam Ham]] _ _]. unfold smax. cbn. rewrite Eam. cbn.
    destruct (Rltb r am) eqn:E; rhyp; cbn; split; try (eexists; split; eauto; lra);
      apply Rleb_true; lra.
  Qed.

  Lemma run_X phi0 dphi0 k fuel :
    (exists am, alpha_min o = XFin am /\ (1 / 2) ^ (S k) <= am) -> (S k <= fuel)%nat ->
    exists r, run (K := XSc) qr phi fuel o phi0 dphi0 = Some r /\
      in01 (r_alpha r) /\ xleb (alpha_min o) (r_alpha r) = true /\
      (1 <= length (r_trace r) <= S k + max_num_steps o)%nat.
  Proof.
    intros (am & Eam & Hk) Hf. pose proof Hok as [[am' [Eam' Ham]] _ _].
    rewrite Eam in Eam'. injection Eam' as <-.
    destruct (first_X k fuel 1 []) as (al & l & tr & E & A1 & A2 & A3 & A4); try lra; auto.
    { exists am; split; auto; lra. } { exists am; split; auto; lra. }
    unfold run. replace (@s1 XSc) with (XFin 1) by reflexivity. rewrite E.
    destruct (_ <? _)%S.
    - eexists; split; [reflexivity|]. cbn in *. repeat split; auto; lia.
    - destruct (main_loop _ _ _ _ _ _ _ _ _ _) as [[a l'] t] eqn:M.
      assert (P0 : in01 (sa (sample0 (K := XSc)))) by (exists 0; split; auto; lra).
      pose proof (main_X _ _ _ _ _ _ _ _ _ _ A1 A3 P0 M) as [B1 B2].
      apply main_trace_len in M.
      eexists; split; [reflexivity|]. cbn -[xleb] in *.
      destruct (smax_min a B1). repeat split; auto; lia.
  Qed.
End XRun.

Lemma half_pow_small am : 0 < am -> exists k, (1 / 2) ^ (S k) <= am.
Proof.
  intros H. destruct (pow_lt_1_zero (1 / 2)) with (y := am) as [N HN]; auto.
  { rewrite Rabs_pos_eq; lra. }
  exists N. specialize (HN (S N) ltac:(lia)). rewrite Rabs_pos_eq in HN; [lra|].
  apply pow_le. lra.
Qed.

(** ** Sufficient decrease over the extended reals *)
Lemma xleb_total_fin a b : xleb (XFin a) (XFin b) = false -> b < a.
Proof. cbn. intros H. rhyp. auto. Qed.

Lemma run_decrease qr phi (o : ls_options XSc) phi0 dphi0 fuel am :
  (forall tr a, phi tr a <> None) -> alpha_min o = XFin am -> 0 < am <= 1 ->
  in01 (contraction_min o) -> in01 (contraction_max o) -> (0 < fuel)%nat ->
  xltb (xabs dphi0) (dphi_thresh o) = false ->
  exists r, run (K := XSc) qr phi fuel o phi0 dphi0 = Some r /\
    (xleb (xsub (r_phi r) phi0) (xmul (xmul (armijo_c1 o) (r_alpha r)) dphi0) = true
     \/ r_alpha r = alpha_min o
     \/ length (r_trace r) = S (max_num_steps o)).
Proof.
  intros Hn Eam Ham C1 C2 Hf Hd.
  assert (Hok : opts_ok o) by (constructor; eauto).
  destruct (run_nothrow (K := XSc) qr phi o Hn fuel phi0 dphi0 Hf) as (a & rest & v & E & Hv & H & _).
  cbn -[run] in E, H. rewrite Hd in E, H. specialize (H eq_refl).
  eexists. split; [exact E|]. cbn [r_phi r_alpha r_trace].
  assert (Ha : in01 a).
  { unfold run in E. destruct (first_nothrow (K := XSc) phi o Hn fuel (XFin 1) [] Hf) as (w & Ew & Hw).
    replace (@s1 XSc) with (XFin 1) in E by reflexivity. rewrite Ew in E.
    change (xltb (xabs dphi0) (dphi_thresh o)) with (@sltb XSc (@sabs XSc dphi0) (dphi_thresh o)) in Hd.
    rewrite Hd in E.
    destruct (main_loop _ _ _ _ _ _ _ _ _ _) as [[a' l'] t'] eqn:M.
    assert (P0 : in01 (sa (sample0 (K := XSc)))) by (exists 0; split; auto; lra).
    assert (P1 : in01 (XFin 1)) by (exists 1; split; auto; lra).
    pose proof M as M'.
    apply (main_nothrow (K := XSc) qr phi o Hn _ _ _ _ _ _ _ _ _ _ [] w eq_refl) in M'.
    - destruct M' as (rr & -> & _). injection E as _ _ <- _.
      exact (proj1 (main_X qr phi o Hok _ _ _ (XFin 1) (sample2 (K := XSc) (XFin 1) w) (sample0 (K := XSc)) _ _ _ _ P1 P1 P0 M)).
    - exact Hw.
    - reflexivity. }
  destruct Ha as (r & -> & Hr).
  destruct H as [H|[H|H]].
  - destruct (Rltb r am) eqn:Er; rhyp.
    + right; left. unfold smax. cbn. rewrite Eam. cbn. rewrite (proj2 (Rltb_true _ _)); auto.
    + left. replace (smax (K := XSc) (XFin r) (alpha_min o)) with (XFin r : car XSc); [exact H|].
      unfold smax. cbn. rewrite Eam. cbn. rewrite (proj2 (Rltb_false _ _)); auto.
  - right; left. rewrite Eam in *. cbn in H. rhyp. unfold smax. cbn.
    destruct (Rltb r am) eqn:Er; auto. rhyp. f_equal. lra.
  - right; right. auto.
Qed.

(** ** Bisection and quadratic interpolation never produce NaN on finite data *)
Definition xfin (x : xr) := exists r, x = XFin r.

Lemma quad_noNaN (c0 : sample XSc) p0 d0 a v :
  sa c0 = XFin a -> 0 < a -> sphi c0 = XFin v -> ~ (d0 = 0 /\ v = p0) ->
  snd (quad_interp (sample3 (K := XSc) (XFin 0) (XFin p0) (XFin d0)) c0) <> XNaN.
Proof.
  intros Ea Ha Ev H. unfold quad_interp. cbn. rewrite Ea, Ev. cbn.
  assert (E : Reqb (a * a) 0 = false) by (apply Reqb_false; nra). rewrite E. cbn.
  destruct (Reqb (2 * ((v - p0 - a * d0) / (a * a))) 0) eqn:E1; rhyp; [|discriminate].
  destruct (Reqb (- d0) 0) eqn:E2; rhyp; [|discriminate].
  exfalso. apply H. assert (d0 = 0) by lra. subst. split; auto.
  assert (v - p0 - a * 0 = 0).
  { replace (v - p0 - a * 0) with ((v - p0 - a * 0) / (a * a) * (a * a)) by (field; nra). nra. }
  lra.
Qed.

Lemma clip_noNaN poly an a b : an <> XNaN -> a <= b ->
  exists r, clip (K := XSc) poly an (XFin a) (XFin b) = XFin r /\ a <= r <= b.
Proof.
  intros Hn Hab. unfold clip. cbn.
  destruct an as [| [|] |r]; cbn; try congruence.
  - destruct (xltb _ _); [exists a|exists b]; split; auto; lra.
  - destruct (xltb _ _); [exists a|exists b]; split; auto; lra.
  - destruct (Rltb b r) eqn:E1; cbn; [destruct (xltb _ _); [exists a|exists b]; split; auto; lra|].
    destruct (Rltb r a) eqn:E2; [destruct (xltb _ _); [exists a|exists b]; split; auto; lra|].
    rhyp. exists r. split; auto; lra.
Qed.

Lemma clip_edges_noNaN poly an a b : an <> XNaN ->
  exists r, clip (K := XSc) poly an (XFin a) (XFin b) = XFin r.
Proof.
  intros Hn. unfold clip. cbn.
  destruct an as [| [|] |r]; cbn; try congruence.
  - destruct (xltb _ _); eauto.
  - destruct (xltb _ _); eauto.
  - destruct (Rltb b r || Rltb r a); [destruct (xltb _ _)|]; eauto.
Qed.

Lemma clip_nan poly an a b : clip (K := XSc) poly an (XFin a) (XFin b) = XNaN -> an = XNaN.
Proof.
  intros H. destruct an as [|s|r]; auto.
  - destruct (clip_edges_noNaN poly (XInf s) a b) as [x E]; [discriminate|congruence].
  - destruct (clip_edges_noNaN poly (XFin r) a b) as [x E]; [discriminate|congruence].
Qed.

Section Quad.
  Variable qr : xr -> xr -> xr -> xr -> xr -> xr -> xr * xr.
  Variable phi : list xr -> xr -> option xr.
  Variable o : ls_options XSc.
  Variables am p0 d0 c1 cm cM : R.
  Hypothesis Eam : alpha_min o = XFin am.
  Hypothesis Ham : 0 < am.
  Hypothesis Ec1 : armijo_c1 o = XFin c1.
  Hypothesis Ecm : contraction_min o = XFin cm.
  Hypothesis EcM : contraction_max o = XFin cM.
  Hypothesis Hint : interp o <> CUBIC.
  Hypothesis Hphi : forall tr a, exists v, phi tr a = Some (XFin v).

  Lemma quad_main n : forall alpha l p tr a l' tr',
    am <= alpha -> sa l = XFin alpha -> (exists v, sphi l = XFin v) ->
    main_loop (K := XSc) qr phi n o (XFin p0) (XFin d0) (XFin alpha) l p tr = (a, l', tr') ->
    exists r, a = XFin r /\ am <= r.
  Proof.
    induction n as [|n IH]; intros alpha l p tr a l' tr' Ha El Ev H; cbn [main_loop] in H.
    - injection H as <- <- <-. eauto.
    - destruct (_ <=? _)%S eqn:E.
      + injection H as <- <- <-. eauto.
      + destruct Ev as [v Ev]. rewrite Ev, Ec1 in E. cbn in E. rhyp.
        assert (N : exists r, next_alpha (K := XSc) qr o (sample3 (K := XSc) (XFin 0) (XFin p0) (XFin d0)) l p (XFin alpha) = XFin r).
        { unfold next_alpha. destruct (interp o); [|unfold minimize_interpolant|destruct (Hint eq_refl)].
          - rewrite half_X. eauto.
          - rewrite Ecm, EcM.
            pose proof (quad_noNaN l p0 d0 alpha v El ltac:(lra) Ev) as Q.
            destruct (quad_interp _ _) as [poly an]. cbn [snd] in Q.
            apply (clip_edges_noNaN poly an (cm * alpha) (cM * alpha)). apply Q.
            intros [-> ->]. lra. }
        destruct N as [r Er]. cbn -[main_loop next_alpha] in H.
        assert (G : exists b, guard_alpha (K := XSc) o p (XFin r) = XFin b /\ am <= b).
        { unfold guard_alpha, smax. cbn. rewrite Eam. cbn. destruct (Rltb r am) eqn:Er'; rhyp; eexists; split; eauto; lra. }
        destruct G as (b & Eb & Hb).
        rewrite Er in H. rewrite Eb in H. destruct (Hphi tr (XFin b)) as [w Hw]. rewrite Hw in H.
        destruct (xleb _ _).
        * injection H as <- <- <-. eauto.
        * eapply (IH b (sample2 (K := XSc) (XFin b) (XFin w))); eauto; exists w; reflexivity.
  Qed.
End Quad.

Lemma run_quad qr phi (o : ls_options XSc) am p0 d0 c1 cm cM fuel :
  alpha_min o = XFin am -> 0 < am <= 1 -> armijo_c1 o = XFin c1 ->
  contraction_min o = XFin cm -> contraction_max o = XFin cM -> interp o <> CUBIC ->
  (forall tr a, exists v, phi tr a = Some (XFin v)) -> (0 < fuel)%nat ->
  exists r rest, run (K := XSc) qr phi fuel o (XFin p0) (XFin d0) = Some r /\
    r_trace r = r_alpha r :: rest /\ phi rest (r_alpha r) = Some (r_phi r).
Proof.
  intros Eam Ham Ec1 Ecm EcM Hint Hphi Hf.
  assert (Hn : forall tr a, phi tr a <> None) by (intros tr a; destruct (Hphi tr a) as [v ->]; discriminate).
  destruct (run_nothrow (K := XSc) qr phi o Hn fuel (XFin p0) (XFin d0) Hf) as (a & rest & v & E & Hv & _ & HS).
  exists (mkRes (K := XSc) v (if (@sltb XSc (@sabs XSc (XFin d0)) (dphi_thresh o)) then a else smax (K := XSc) a (alpha_min o)) (a :: rest)), rest.
  split; [exact E|]. cbn [r_phi r_alpha r_trace].
  destruct (@sltb XSc _ _) eqn:Es; [auto|].
  assert (Ha : exists r, a = XFin r /\ am <= r).
  { unfold run in E. destruct (first_nothrow (K := XSc) phi o Hn fuel (XFin 1) [] Hf) as (w & Ew & Hw).
    change (@s1 XSc) with (XFin 1) in E. rewrite Ew, Es in E.
    destruct (main_loop _ _ _ _ _ _ _ _ _ _) as [[a' l'] t'] eqn:M.
    pose proof M as M'.
    apply (main_nothrow (K := XSc) qr phi o Hn _ _ _ (XFin 1) (sample2 (K := XSc) (XFin 1) w) (sample0 (K := XSc)) _ _ _ _ [] w eq_refl Hw eq_refl) in M'.
    destruct M' as (rr & -> & _). injection E as _ _ <- _.
    destruct (Hphi [] (XFin 1)) as [w' Hw']. rewrite Hw' in Hw. injection Hw as <-.
    eapply (quad_main qr phi o am p0 d0 c1 cm cM Eam ltac:(lra) Ec1 Ecm EcM Hint Hphi _ 1
       (sample2 (K := XSc) (XFin 1) (XFin w'))); [lra|reflexivity|cbn; eauto|exact M]. }
  destruct Ha as (r & -> & Hr).
  replace (smax (K := XSc) (XFin r) (alpha_min o)) with (XFin r); auto.
  unfold smax. cbn. rewrite Eam. cbn. rewrite (proj2 (Rltb_false _ _)); auto.
Qed.

(** ** Interpolation *)
Lemma minimize_any (K : Sc) qr lb l p (mn mx : car K) :
  let r := minimize_interpolant qr lb l p mn mx in
  r = mn \/ r = mx \/ (sltb mx r = false /\ sltb r mn = false).
Proof.
  cbv zeta. unfold minimize_interpolant. destruct (match p with None => _ | Some _ => _ end) as [poly an].
  unfold clip. destruct (sltb mx an) eqn:E1; cbn.
  - destruct (sltb (poly_eval poly mn) (poly_eval poly mx)); auto.
  - destruct (sltb an mn) eqn:E2; [destruct (sltb (poly_eval poly mn) (poly_eval poly mx)); auto|]. auto.
Qed.

Lemma minimize_X qr (lb l : sample XSc) p a b : a <= b ->
  let r := minimize_interpolant (K := XSc) qr lb l p (XFin a) (XFin b) in
  r = XNaN \/ exists x, r = XFin x /\ a <= x <= b.
Proof.
  intros Hab. cbv zeta. unfold minimize_interpolant. destruct (match p with None => _ | Some _ => _ end) as [poly an].
  destruct an as [|s|x] eqn:E.
  - left. reflexivity.
  - right. apply clip_noNaN; auto. discriminate.
  - right. apply clip_noNaN; auto. discriminate.
Qed.

Lemma minimize_quad_total qr p0 d0 al v a b : a <= b -> 0 < al -> ~ (d0 = 0 /\ v = p0) ->
  exists x, minimize_interpolant (K := XSc) qr (sample3 (K := XSc) (XFin 0) (XFin p0) (XFin d0))
              (sample2 (K := XSc) (XFin al) (XFin v)) None (XFin a) (XFin b) = XFin x /\ a <= x <= b.
Proof.
  intros Hab Hal H. unfold minimize_interpolant.
  pose proof (quad_noNaN (sample2 (K := XSc) (XFin al) (XFin v)) p0 d0 al v eq_refl Hal eq_refl H) as Q.
  destruct (quad_interp _ _) as [poly an]. apply clip_noNaN; auto.
Qed.

Lemma minimize_cubic_nan qr p0 d0 (l p : sample XSc) a b k3 k2 :
  (forall m00 m01 m10 m11 b0 b1, qr m00 m01 m10 m11 b0 b1 = (XFin k3, XFin k2)) ->
  (minimize_interpolant (K := XSc) qr (sample3 (K := XSc) (XFin 0) (XFin p0) (XFin d0)) l (Some p) (XFin a) (XFin b) = XNaN
   <-> k2 * k2 - 3 * k3 * d0 < 0 \/ (k3 = 0 /\ 0 <= k2)).
Proof.
  intros Hqr. unfold minimize_interpolant, cubic_interp. cbn [sdphi sphi sample3]. rewrite Hqr. cbn.
  destruct (Rltb (k2 * k2 + - (3 * k3 * d0)) 0) eqn:E; rhyp.
  - replace (Rltb (k2 * k2 - 3 * k3 * d0) 0) with true by (symmetry; apply Rltb_true; lra).
    cbn. split; [left; lra|]. reflexivity.
  - replace (Rltb (k2 * k2 - 3 * k3 * d0) 0) with false by (symmetry; apply Rltb_false; lra). cbn.
    destruct (Reqb (3 * k3) 0) eqn:E3; rhyp.
    + assert (k3 = 0) by lra. subst k3.
      replace (k2 * k2 - 3 * 0 * d0) with (Rsqr k2) by (unfold Rsqr; lra).
      rewrite sqrt_Rsqr_abs.
      destruct (Reqb (- k2 + Rabs k2) 0) eqn:E4; rhyp.
      * split; [|reflexivity]. intros _. right. split; auto.
        destruct (Rle_or_lt 0 k2); auto. rewrite Rabs_left in E4 by auto. lra.
      * split.
        -- intros Hc. apply clip_nan in Hc. discriminate.
        -- intros [H|[_ H]]; exfalso; [pose proof (Rle_0_sqr k2); unfold Rsqr in *; lra|].
           rewrite Rabs_pos_eq in E4 by auto. lra.
    + split.
      * intros Hc. apply clip_nan in Hc. discriminate.
      * intros [H|[H _]]; exfalso; lra.
Qed.

(** Quadratic and cubic fits over the reals. *)
Lemma quad_fits p0 d0 al v (Hal : al <> 0) :
  let '(poly, an) := quad_interp (K := RSc) (sample3 (K := RSc) 0 p0 d0) (sample2 (K := RSc) al v) in
  poly_eval (K := RSc) poly 0 = p0 /\ poly_eval (K := RSc) poly al = v /\
  (exists d, poly_deriv (K := RSc) poly = Some d /\ poly_eval (K := RSc) d 0 = d0 /\
     (v - p0 <> al * d0 -> poly_eval (K := RSc) d an = 0)) /\
  (al * d0 < v - p0 -> forall t, poly_eval (K := RSc) poly an <= poly_eval (K := RSc) poly t).
Proof.
  unfold quad_interp. cbn [sphi sdphi sa sample2 sample3].
  set (a := ((v - p0 - al * d0) / (al * al))%R).
  change (((v - p0 - al * d0) / (al * al))%S) with (a : car RSc).
  cbn. repeat split.
  - lra.
  - unfold a. field. auto.
  - eexists. split; [reflexivity|]. cbn. split; [lra|].
    intros H. assert (a <> 0).
    { unfold a. intros E. apply H. assert (v - p0 - al * d0 = 0); [|lra].
      replace (v - p0 - al * d0) with ((v - p0 - al * d0) / (al * al) * (al * al)) by (field; auto). rewrite E. lra. }
    unfold stwo. cbn. field. auto.
  - intros H t. assert (0 < a).
    { unfold a. apply Rdiv_lt_0_compat; [lra|]. nra. }
    unfold stwo. cbn.
    assert (E : forall x, ((0 * x + a) * x + d0) * x + p0 = a * (x + d0 / (2 * a)) * (x + d0 / (2 * a)) + (p0 - d0 * d0 / (4 * a))).
    { intros x. field. lra. }
    rewrite !E. replace (- d0 / (2 * a) + d0 / (2 * a)) with 0 by (field; lra).
    pose proof (Rle_0_sqr (t + d0 / (2 * a))) as Q. unfold Rsqr in Q. nra.
Qed.

Lemma cubic_det a0 a1 : a0 <> 0 -> a1 <> 0 -> a0 <> a1 -> a0 * a0 * a0 * (a1 * a1) - a0 * a0 * (a1 * a1 * a1) <> 0.
Proof.
  intros H0 H1 H. replace (a0 * a0 * a0 * (a1 * a1) - a0 * a0 * (a1 * a1 * a1)) with ((a0 * a0) * (a1 * a1) * (a0 - a1)) by ring.
  repeat apply Rmult_integral_contrapositive_currified; auto. lra.
Qed.

Lemma cubic_fits_iff p0 d0 a0 v0 a1 v1 : a0 <> 0 -> a1 <> 0 -> a0 <> a1 ->
  let poly := fst (cubic_interp (K := RSc) (cramer (K := RSc)) (sample3 (K := RSc) 0 p0 d0)
                          (sample2 (K := RSc) a0 v0) (sample2 (K := RSc) a1 v1)) in
  poly_eval (K := RSc) poly a0 - p0 - d0 * a0 = v1 - p0 - d0 * a1 /\
  poly_eval (K := RSc) poly a1 - p0 - d0 * a1 = v0 - p0 - d0 * a0 /\
  (poly_eval (K := RSc) poly a0 = v0 /\ poly_eval (K := RSc) poly a1 = v1
   <-> v0 - d0 * a0 = v1 - d0 * a1).
Proof.
  intros H0 H1 H. pose proof (cubic_det a0 a1 H0 H1 H) as D. cbv zeta.
  unfold cubic_interp, cramer. cbn.
  set (r1 := v1 - p0 - d0 * a1). set (r0 := v0 - p0 - d0 * a0).
  set (dd := a0 * a0 * a0 * (a1 * a1) - a0 * a0 * (a1 * a1 * a1)) in *.
  assert (E0 : ((((0 * a0 + (r1 * (a1 * a1) - a0 * a0 * r0) / dd) * a0 + (a0 * a0 * a0 * r0 - r1 * (a1 * a1 * a1)) / dd) * a0 + d0) * a0 + p0) = p0 + d0 * a0 + r1).
  { unfold dd in *. field. auto. }
  assert (E1 : ((((0 * a1 + (r1 * (a1 * a1) - a0 * a0 * r0) / dd) * a1 + (a0 * a0 * a0 * r0 - r1 * (a1 * a1 * a1)) / dd) * a1 + d0) * a1 + p0) = p0 + d0 * a1 + r0).
  { unfold dd in *. field. auto. }
  rewrite E0, E1. split; [ring|]. split; [ring|]. unfold r0, r1. lra.
Qed.

(** With the right-hand side entries in the order of the matrix rows the fit is exact. *)
Lemma cubic_corrected p0 d0 a0 v0 a1 v1 : a0 <> 0 -> a1 <> 0 -> a0 <> a1 ->
  let '(k3, k2) := cramer (K := RSc) (a0 * a0 * a0) (a0 * a0) (a1 * a1 * a1) (a1 * a1)
                     (v0 - p0 - d0 * a0) (v1 - p0 - d0 * a1) in
  poly_eval (K := RSc) [k3; k2; d0; p0] a0 = v0 /\ poly_eval (K := RSc) [k3; k2; d0; p0] a1 = v1 /\
  poly_eval (K := RSc) [k3; k2; d0; p0] 0 = p0.
Proof.
  intros H0 H1 H. pose proof (cubic_det a0 a1 H0 H1 H) as D. unfold cramer. cbn.
  repeat split; try (field; auto); lra.
Qed.

(** ** Polynomials *)
From Verif Require Import Armijo_spec.
Lemma horner cs : forall a r, fold_left (fun r c => r * a + c) cs r = r * a ^ (length cs) + psum cs a.
Proof.
  induction cs as [|c cs IH]; intros a r; cbn [fold_left psum length pow]; [lra|].
  rewrite IH. ring.
Qed.
Lemma poly_eval_psum cs a : poly_eval (K := RSc) cs a = psum cs a.
Proof. assert (H : fold_left (fun r c => r * a + c) cs 0 = psum cs a) by (rewrite horner; ring). exact H. Qed.

Lemma deriv_loop_length (deg i : Z) (cs : list R) : length (deriv_loop (K := RSc) deg i cs) = pred (length cs).
Proof.
  revert i; induction cs as [|c cs IH]; intros i; auto. destruct cs as [|c' cs]; auto.
  cbn [deriv_loop length pred]. change (S (length (deriv_loop (K := RSc) deg (i + 1) (c' :: cs))) = S (length cs)).
  rewrite IH. reflexivity.
Qed.

Lemma deriv_loop_correct (cs : list R) x : forall deg i, cs <> [] ->
  (deg - i = Z.of_nat (length cs) - 1)%Z ->
  derivable_pt_lim (psum cs) x (psum (deriv_loop (K := RSc) deg i cs) x).
Proof.
  induction cs as [|c cs IH]; intros deg i Hne Hd; [congruence|].
  destruct cs as [|c' cs].
  - cbn. apply derivable_pt_lim_ext with (f := fct_cte (c * 1 + 0)); [reflexivity|].
    apply derivable_pt_lim_const.
  - set (r := c' :: cs) in *.
    change (deriv_loop (K := RSc) deg i (c :: r)) with
      (@cons R (c * (IZR deg - IZR i)) (deriv_loop (K := RSc) deg (i + 1) r)).
    cbn [psum]. rewrite deriv_loop_length.
    apply derivable_pt_lim_plus with (f1 := fun x => c * x ^ length r) (f2 := psum r).
    + assert (E : IZR deg - IZR i = INR (length r)).
      { rewrite <- minus_IZR, Hd. cbn [length]. rewrite INR_IZR_INZ. f_equal. lia. }
      rewrite E.
      assert (D := derivable_pt_lim_scal (fun x => x ^ length r) c x _ (derivable_pt_lim_pow x (length r))).
      replace (c * INR (length r) * x ^ pred (length r)) with (c * (INR (length r) * x ^ pred (length r))) by ring.
      exact D.
    + apply IH; [discriminate|]. cbn [length] in *. lia.
Qed.

Lemma poly_deriv_correct (cs d : list R) : poly_deriv (K := RSc) cs = Some d ->
  forall x, derivable_pt_lim (fun a => poly_eval (K := RSc) cs a) x (poly_eval (K := RSc) d x).
Proof.
  intros H x. apply derivable_pt_lim_ext with (f := psum cs).
  { intros t. symmetry. apply poly_eval_psum. }
  rewrite poly_eval_psum.
  destruct cs as [|c [|c' cs]]; unfold poly_deriv in H; try discriminate.
  - injection H as <-. apply (derivable_pt_lim_ext (fct_cte (c * 1 + 0))); [reflexivity|].
    cbn. replace (0 * 1 + 0) with 0 by ring. apply derivable_pt_lim_const.
  - assert (E : d = deriv_loop (K := RSc) (Z.of_nat (length (c :: c' :: cs)) - 1) 0 (c :: c' :: cs)).
    { symmetry. apply (f_equal (fun x => match x with Some y => y | None => [] end)) in H. exact H. }
    rewrite E. apply (deriv_loop_correct (c :: c' :: cs) x _ 0); [discriminate|]. rewrite Z.sub_0_r. reflexivity.
Qed.

(** ** Binary64: the exception loop ends for every non-negative alpha_min *)
Section F64.
  Definition half (a : spec_float) : spec_float := @smul FSc a shalf.
  Lemma iter_r k a : Nat.iter k half (half a) = half (Nat.iter k half a).
  Proof.
    induction k as [|k IH]; [reflexivity|].
    change (half (Nat.iter k half (half a)) = half (half (Nat.iter k half a))). now rewrite IH.
  Qed.
  Lemma first_loop_none phi (o : ls_options FSc) fuel : forall alpha tr,
    first_loop (K := FSc) phi fuel o alpha tr = None ->
    forall k, (k < fuel)%nat -> @sleb FSc (Nat.iter (S k) half alpha) (alpha_min o) = false.
  Proof.
    induction fuel as [|f IH]; intros alpha tr H k Hk; [lia|].
    cbn [first_loop] in H. destruct (phi tr alpha) as [v|]; [discriminate|].
    destruct (@sleb FSc (alpha * shalf)%S (alpha_min o)) eqn:E; [discriminate|].
    destruct k as [|k]; [exact E|].
    specialize (IH _ _ H k ltac:(lia)).
    change (Nat.iter (S (S k)) half alpha) with (half (Nat.iter (S k) half alpha)).
    rewrite <- iter_r. exact IH.
  Qed.
  Lemma half_chain : Nat.iter 1100 half (@s1 FSc) = S754_zero false.
  Proof. vm_compute. reflexivity. Qed.
  Lemma first_loop_f64 phi (o : ls_options FSc) : @sleb FSc (@s0 FSc) (alpha_min o) = true ->
    first_loop (K := FSc) phi 1100 o (@s1 FSc) [] <> None.
  Proof.
    intros Ho H. pose proof (first_loop_none phi o 1100 _ _ H 1099 ltac:(lia)) as E.
    change (S 1099) with 1100%nat in E. rewrite half_chain in E. cbn -[SFleb] in E, Ho. congruence.
  Qed.
  Lemma run_f64 qr phi (o : ls_options FSc) phi0 dphi0 : @sleb FSc (@s0 FSc) (alpha_min o) = true ->
    exists r, run (K := FSc) qr phi 1100 o phi0 dphi0 = Some r /\
      (length (r_trace r) <= 1100 + max_num_steps o)%nat.
  Proof.
    intros Ho. unfold run. pose proof (first_loop_f64 phi o Ho) as F.
    assert (L : forall fuel alpha tr al l t, first_loop (K := FSc) phi fuel o alpha tr = Some (al, l, t) ->
              (length t <= length tr + fuel)%nat).
    { clear. induction fuel as [|f IH]; intros alpha tr al l t H; cbn in H; [discriminate|].
      destruct (phi tr alpha); [injection H as <- <- <-; cbn [length car FSc] in *; lia|].
      destruct (SFleb _ _); [injection H as <- <- <-; cbn [length car FSc] in *; lia|]. apply IH in H. cbn [length car FSc] in *; lia. }
    destruct (first_loop _ _ _ _ _) as [[[al l] t]|] eqn:E; [|congruence].
    apply L in E. cbn [length] in E.
    destruct (_ <? _)%S.
    - eexists; split; [reflexivity|]. cbn [r_trace length car FSc] in *; lia.
    - destruct (main_loop _ _ _ _ _ _ _ _ _ _) as [[a l'] t'] eqn:M. apply main_trace_len in M.
      eexists; split; [reflexivity|]. cbn [r_trace length car FSc] in *; lia.
  Qed.
  (** With a negative alpha_min an always-throwing merit loops for ever. *)
  Definition chain : list spec_float :=
    (fix go n a := match n with O => [] | S n' => a :: go n' (half a) end) 1100%nat (@s1 FSc).
  Definition sf_eqb (a b : spec_float) : bool :=
    match a, b with
    | S754_zero s, S754_zero t => Bool.eqb s t
    | S754_finite s m e, S754_finite t m' e' => Bool.eqb s t && Pos.eqb m m' && Z.eqb e e'
    | _, _ => false
    end.
  Lemma sf_eqb_eq a b : sf_eqb a b = true -> a = b.
  Proof.
    destruct a, b; cbn; try discriminate; intros H.
    - apply Bool.eqb_prop in H. congruence.
    - apply andb_true_iff in H. destruct H as [H H3]. apply andb_true_iff in H. destruct H as [H1 H2].
      apply Bool.eqb_prop in H1. apply Pos.eqb_eq in H2. apply Z.eqb_eq in H3. congruence.
  Qed.
  Definition minus_one : spec_float := @sopp FSc (@s1 FSc).
  Lemma chain_closed : forallb (fun a => existsb (sf_eqb (half a)) chain && negb (SFleb (half a) minus_one)) chain = true.
  Proof. vm_compute. reflexivity. Qed.
  Lemma chain_diverges (o : ls_options FSc) : alpha_min o = minus_one ->
    forall fuel alpha tr, In alpha chain -> first_loop (K := FSc) (fun _ _ => None) fuel o alpha tr = None.
  Proof.
    intros Ho. induction fuel as [|f IH]; intros alpha tr Hin; [reflexivity|]. cbn [first_loop]. cbv zeta.
    pose proof chain_closed as C. rewrite forallb_forall in C. specialize (C _ Hin).
    apply andb_true_iff in C. destruct C as [C1 C2]. rewrite Ho.
    apply negb_true_iff in C2. change (@smul FSc alpha shalf) with (half alpha).
    change (@sleb FSc (half alpha) minus_one) with (SFleb (half alpha) minus_one). rewrite C2.
    apply IH. apply existsb_exists in C1. destruct C1 as (b & Hb & Eb). apply sf_eqb_eq in Eb. rewrite Eb. exact Hb.
  Qed.
End F64.

(** * The step proposed in the loop minimises the interpolant *)
Lemma quad_step_min (qr : R -> R -> R -> R -> R -> R -> R * R) (o : ls_options RSc) prev p0 d0 al v c2 :
  interp o = QUADRATIC \/ (interp o = CUBIC /\ svalid prev = false) ->
  0 < al -> al * d0 < v - p0 -> c2 * al * al + d0 * al + p0 = v ->
  contraction_min o <= contraction_max o ->
  let r := next_alpha (K := RSc) qr o (sample3 (K := RSc) 0 p0 d0) (sample2 (K := RSc) al v) prev al in
  contraction_min o * al <= r <= contraction_max o * al /\
  forall t, contraction_min o * al <= t <= contraction_max o * al ->
    c2 * r * r + d0 * r + p0 <= c2 * t * t + d0 * t + p0.
Proof.
  intros HI Hal Hd Hv Hc. cbv zeta.
  assert (E : next_alpha (K := RSc) qr o (sample3 (K := RSc) 0 p0 d0) (sample2 (K := RSc) al v) prev al =
    clip (K := RSc) [c2; d0; p0] (- d0 / (2 * c2)) (contraction_min o * al) (contraction_max o * al)).
  { assert (Q : quad_interp (K := RSc) (sample3 (K := RSc) 0 p0 d0) (sample2 (K := RSc) al v) = ([c2; d0; p0], - d0 / (2 * c2))).
    { unfold quad_interp, stwo. cbn. replace ((v - p0 - al * d0) / (al * al)) with c2; [reflexivity|]. subst v. field. lra. }
    unfold next_alpha, minimize_interpolant. destruct HI as [-> | [-> ->]]; rewrite Q; reflexivity. }
  rewrite E. set (mn := contraction_min o * al). set (mx := contraction_max o * al).
  assert (C2 : 0 < c2).
  { apply Rmult_lt_reg_r with (al * al); [nra|]. rewrite Rmult_0_l. replace (c2 * (al * al)) with (v - p0 - d0 * al) by (subst v; ring). lra. }
  assert (M : mn <= mx) by (unfold mn, mx; apply Rmult_le_compat_r; lra).
  set (s := - d0 / (2 * c2)). assert (Es : d0 = - 2 * c2 * s) by (unfold s; field; lra).
  assert (PE : forall t, poly_eval (K := RSc) [c2; d0; p0] t = c2 * t * t + d0 * t + p0).
  { intros t. unfold poly_eval. cbn. ring. }
  assert (G : forall t, c2 * t * t + d0 * t + p0 = c2 * ((t - s) * (t - s)) + (p0 - c2 * (s * s))) by (intros t; rewrite Es; ring).
  assert (GM : forall a b, (a - s) * (a - s) <= (b - s) * (b - s) -> c2 * a * a + d0 * a + p0 <= c2 * b * b + d0 * b + p0).
  { intros a b L. rewrite !G. apply Rplus_le_compat_r. apply Rmult_le_compat_l; lra. }
  assert (GL : forall a b, c2 * a * a + d0 * a + p0 < c2 * b * b + d0 * b + p0 -> (a - s) * (a - s) < (b - s) * (b - s)).
  { intros a b L. destruct (Rlt_le_dec ((a - s) * (a - s)) ((b - s) * (b - s))) as [|X]; [assumption|]. apply GM in X. lra. }
  unfold clip. cbn -[poly_eval]. rewrite !PE. clearbody s. clear E.
  destruct (Rltb mx s) eqn:T1; [|destruct (Rltb s mn) eqn:T2]; cbn [orb].
  - apply Rltb_true in T1. destruct (Rltb (c2 * mn * mn + _ + _) _) eqn:T3.
    + exfalso. apply Rltb_true in T3. apply GL in T3. nra.
    + split; [lra|]. intros t Ht. apply GM. nra.
  - apply Rltb_true in T2. destruct (Rltb (c2 * mn * mn + _ + _) _) eqn:T3.
    + split; [lra|]. intros t Ht. apply GM. nra.
    + apply Rltb_false in T3. assert (mx = mn).
      { destruct (Rle_lt_or_eq_dec _ _ M) as [L|L]; [|congruence]. exfalso. rewrite !G in T3.
        assert ((mn - s) * (mn - s) < (mx - s) * (mx - s)) by nra. nra. }
      split; [lra|]. intros t Ht. replace t with mx by lra. lra.
  - apply Rltb_false in T1, T2. split; [lra|]. intros t Ht. apply GM. replace ((s - s) * (s - s)) with 0 by ring. apply Rle_0_sqr.
Qed.
Lemma cubic_step_min (qr : R -> R -> R -> R -> R -> R -> R * R) (o : ls_options RSc) (lat prev : sample RSc) p0 d0 al k3 k2 t :
  interp o = CUBIC -> svalid prev = true ->
  qr (sa lat * sa lat * sa lat) (sa lat * sa lat) (sa prev * sa prev * sa prev) (sa prev * sa prev)
     (sphi prev - p0 - d0 * sa prev) (sphi lat - p0 - d0 * sa lat) = (k3, k2) -> k3 <> 0 ->
  contraction_min o * al <= t <= contraction_max o * al ->
  3 * k3 * t * t + 2 * k2 * t + d0 = 0 -> 0 <= 6 * k3 * t + 2 * k2 ->
  next_alpha (K := RSc) qr o (sample3 (K := RSc) 0 p0 d0) lat prev al = t.
Proof.
  intros HI HV HQ Hk Ht H1 H2. unfold next_alpha, minimize_interpolant. rewrite HI, HV. unfold cubic_interp. cbn -[sqrt].
  rewrite HQ. cbn -[sqrt].
  assert (S : sqrt (k2 * k2 - 3 * k3 * d0) = 3 * k3 * t + k2).
  { replace (k2 * k2 - 3 * k3 * d0) with ((3 * k3 * t + k2) * (3 * k3 * t + k2)).
    - apply sqrt_square. lra.
    - replace d0 with (- (3 * k3 * t * t + 2 * k2 * t)) by lra. ring. }
  rewrite S. replace ((- k2 + (3 * k3 * t + k2)) / (3 * k3)) with t by (field; lra).
  unfold clip. cbn -[poly_eval]. destruct (Rltb _ t) eqn:T1; [apply Rltb_true in T1; lra|].
  destruct (Rltb t _) eqn:T2; [apply Rltb_true in T2; lra|]. reflexivity.
Qed.
