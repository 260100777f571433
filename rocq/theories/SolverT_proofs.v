(** Termination of the solver over the extended reals. *)
From Coq Require Import Reals List Bool Arith ZArith Lia Lra.
From Verif Require Import Scalar Cset_model Armijo_model Armijo_spec Armijo_proofs Problem_model Solver_model Solver_spec Solver_proofs.
Import ListNotations.
Local Open Scope R_scope.

Definition nonneg (a : xr) : Prop := exists r, a = XFin r /\ 0 <= r.

Lemma loop_unfold (K : Sc) fac fac_compute fac_signature f P ndx nc M (F : fac) delta delta_last :
  inertia_loop (K := K) fac fac_compute fac_signature (S f) P ndx nc M F delta delta_last =
  if sleb delta (delta_max P) then
    let M1 := if sltb s0 delta then upd_diag sadd ndx delta M else M in
    let F1 := fac_compute F M1 in
    let M2 := upd_diag ssub ndx delta M1 in
    match check_inertia ndx nc (fac_signature F1) with
    | None => Throw ErrSignature
    | Some INERTIA_OK => Ret (M2, F1, delta, delta)
    | Some _ =>
        inertia_loop (K := K) fac fac_compute fac_signature f P ndx nc M2 F1
          (if seqb delta s0 then (if seqb delta_last s0 then delta_nz_init P else smax (delta_min P) (smul (del_dec_k P) delta_last))
           else (if seqb delta_last s0 then smul delta (del_inc_big P) else smul delta (del_inc_k P))) delta_last
    end
  else Ret (M, F, delta, delta_last).
Proof. reflexivity. Qed.

Section Inertia.
  Variables (fac : Type) (fac_compute : fac -> list (list xr) -> fac) (fac_signature : fac -> list Z).
  Notation loop := (inertia_loop (K := XSc) fac fac_compute fac_signature).
  Definition ends (o : outcome (list (list xr) * fac * xr * xr)) : Prop :=
    match o with Fuel => False | Ret (_, _, _, dl') => nonneg dl' | _ => True end.

  Variables (P : @params XSc) (k b q M : R).
  Hypotheses (Ek : del_inc_k P = XFin k) (Eb : del_inc_big P = XFin b) (Eq : 1 < q) (Qk : q <= k) (Qb : q <= b)
             (EM : delta_max P = XFin M).

  Lemma grow : forall n ndx nc A F r dl, 0 < r -> nonneg dl -> M < r * q ^ n -> ends (loop (S n) P ndx nc A F (XFin r) dl).
  Proof.
    induction n as [|n IH]; intros ndx nc A F r dl Hr Hdl Hn; rewrite loop_unfold, EM; cbv zeta; cbn [sleb XSc xleb].
    - destruct (Rleb r M) eqn:E; rhyp; [cbn in Hn; lra|]. exact Hdl.
    - destruct (Rleb r M) eqn:E; rhyp; [|exact Hdl].
      destruct (check_inertia _ _ _) as [[| |]|]; cbn [ends]; auto;
        try (exists r; split; [reflexivity|lra]);
        cbn [seqb s0 XSc xeqb]; (destruct (Reqb r 0) eqn:E0; rhyp; [lra|]);
        destruct Hdl as (x & -> & Hx); rewrite Ek, Eb; cbn [xeqb smul XSc xmul];
        (destruct (Reqb x 0)); (apply IH; [apply Rmult_lt_0_compat; lra|exists x; split; auto|]);
        (eapply Rlt_le_trans; [exact Hn|]); rewrite <- tech_pow_Rmult;
        rewrite <- Rmult_assoc; apply Rmult_le_compat_r; try (left; apply pow_lt; lra); apply Rmult_le_compat_l; lra.
  Qed.

  Variables (z m d i : R).
  Hypotheses (Ez : delta_nz_init P = XFin z) (Hz : 0 < z) (Em : delta_min P = XFin m) (Hm : 0 < m)
             (Ed : del_dec_k P = XFin d) (Hd : 0 <= d) (Ei : delta_init P = XFin i) (Hi : 0 <= i).

  Lemma pow_big r : 0 < r -> exists n, M < r * q ^ n.
  Proof.
    intros Hr. destruct (Pow_x_infinity q ltac:(rewrite Rabs_pos_eq; lra) (M / r + 1)) as [n Hn]. exists n.
    specialize (Hn n (le_n _)). rewrite Rabs_pos_eq in Hn by (left; apply pow_lt; lra).
    apply (Rmult_lt_reg_l (/ r)); [apply Rinv_0_lt_compat; exact Hr|].
    rewrite <- Rmult_assoc, Rinv_l, Rmult_1_l by lra. unfold Rdiv in Hn. lra.
  Qed.
  Lemma inertia_stops : exists n, forall fin, (n <= fin)%nat -> inertia_ends (K := XSc) fac fac_compute fac_signature fin P nonneg.
  Proof.
    set (base := Rmin (Rmin z m) (if Rltb 0 i then i else z)).
    assert (Hb : 0 < base).
    { unfold base. destruct (Rltb 0 i) eqn:E; rhyp; repeat apply Rmin_glb_lt; assumption. }
    destruct (pow_big base Hb) as [n Hn]. exists (S (S n)). intros fin Hf ndx nc A F dl Hdl. rewrite Ei. change (ends (loop fin P ndx nc A F (XFin i) dl)).
    assert (Mono : forall r, base <= r -> forall j, (n <= j)%nat -> M < r * q ^ j).
    { intros r Hr j Hj. eapply Rlt_le_trans; [exact Hn|]. apply Rmult_le_compat; try lra.
      - left. apply pow_lt. lra.
      - apply Rle_pow; [lra|exact Hj]. }
    destruct fin as [|[|fin]]; try lia. 
    destruct (Rltb 0 i) eqn:E0.
    - rhyp. apply grow; [assumption|assumption|]. apply Mono; [|lia]. unfold base. apply Rmin_r.
    - rhyp. assert (i = 0) as -> by lra. rewrite loop_unfold, EM. cbv zeta. cbn [sleb XSc xleb].
      destruct (Rleb 0 M) eqn:E; rhyp; [|exact Hdl].
      destruct (check_inertia _ _ _) as [[| |]|]; cbn [ends]; auto;
        try (exists 0; split; [reflexivity|lra]);
        cbn [seqb s0 XSc xeqb]; (destruct (Reqb 0 0) eqn:E1; rhyp; [|lra]);
        destruct Hdl as (x & -> & Hx); rewrite Ez, Em, Ed; unfold smax; cbn [xeqb smul sltb XSc xmul xltb].
      all: destruct (Reqb x 0); [apply grow; [assumption|exists x; auto|apply Mono; [|lia]; unfold base; eapply Rle_trans; apply Rmin_l]|].
      all: destruct (Rltb m (d * x)) eqn:E2; rhyp; apply grow; try lra; try (exists x; auto; fail); apply Mono; try lia;
        (assert (base <= m) by (unfold base; eapply Rle_trans; [apply Rmin_l|apply Rmin_r])); lra.
  Qed.
End Inertia.

(** A negative initial regularisation, or increase factors below 1, make the loop run for ever. *)
Section Diverge.
  Variables (fac : Type) (fac_compute : fac -> list (list xr) -> fac) (fac_signature : fac -> list Z).
  Lemma negative_diverges (P : @params XSc) ndx nc b k :
    (forall F, check_inertia ndx nc (fac_signature F) = Some INERTIA_BAD) ->
    del_inc_big P = XFin b -> del_inc_k P = XFin k -> 0 < b -> 0 < k ->
    (exists D, delta_max P = XFin D /\ 0 <= D) ->
    forall fuel M F r dl, r < 0 -> inertia_loop (K := XSc) fac fac_compute fac_signature fuel P ndx nc M F (XFin r) dl = Fuel.
  Proof.
    intros Bad Eb Ek Hb Hk (D & ED & HD). induction fuel as [|n IH]; intros M F r dl Hr; [reflexivity|].
    rewrite loop_unfold, ED. cbv zeta. cbn [sleb XSc xleb]. destruct (Rleb r D) eqn:E; rhyp; [|lra].
    rewrite Bad. cbn [seqb s0 XSc xeqb]. destruct (Reqb r 0) eqn:E0; rhyp; [lra|].
    rewrite Eb, Ek. cbn [smul XSc xmul].
    destruct (xeqb dl (XFin 0)); apply IH; apply Ropp_lt_cancel; rewrite Ropp_0, <- Ropp_mult_distr_l_reverse; apply Rmult_lt_0_compat; lra.
  Qed.
End Diverge.

Lemma search_stops (P : @params XSc) qr am : alpha_min (lsopt P) = XFin am -> 0 < am <= 1 ->
  between (contraction_min (lsopt P)) 0 1 -> between (contraction_max (lsopt P)) 0 1 ->
  exists n, forall fls, (n <= fls)%nat -> ls_ends (K := XSc) qr fls P.
Proof.
  intros Eam Ham H1 H2. destruct (half_pow_small am ltac:(lra)) as [k Hk].
  exists (S k). intros fls Hf ph phi0 dphi0.
  destruct (run_X qr ph (lsopt P) (Build_opts_ok _ (ex_intro _ am (conj Eam Ham)) H1 H2) phi0 dphi0 k fls
              (ex_intro _ am (conj Eam Hk)) Hf) as (r & E & _). rewrite E. discriminate.
Qed.
