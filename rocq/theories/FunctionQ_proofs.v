(** Linear least squares: the quadratic model is exact. *)
From Coq Require Import Reals List Arith Bool Lia Lra.
From Verif Require Import Scalar Cset_spec Cset_proofs Problem_model Merit_proofs Manifold_model Manifold_spec Manifold_proofs ManifoldR_proofs
  Function_model Function_spec Function_proofs FunctionE_proofs FunctionJ_proofs FunctionH_proofs.
Import ListNotations.
Local Open Scope R_scope.

Definition flatk (k : pk) : Prop := match k with Geo s => flat s | Euc _ => True end.
Lemma shuffle_plus (u v b : rvec) : length u = length v -> length b = length u ->
  map2 Rplus (map2 Rplus u v) b = map2 Rplus (map2 Rplus u b) v.
Proof. revert v b. induction u as [|a u IH]; intros [|c v] [|d b] A B; cbn in *; try discriminate; [reflexivity|]. rewrite IH by lia. f_equal. ring. Qed.
Lemma shuffle_minus (u v b : rvec) : length u = length v -> length b = length u ->
  map2 Rminus (map2 Rplus u v) b = map2 Rplus (map2 Rminus u b) v.
Proof. revert v b. induction u as [|a u IH]; intros [|c v] [|d b] A B; cbn in *; try discriminate; [reflexivity|]. rewrite IH by lia. f_equal. ring. Qed.
Lemma eye_id n w : length w = n -> mat_vec (eye_scaled (K := RSc) 1 n) w = w.
Proof. intros <-. refine (eq_trans (mat_vec_eye 1 w) _). rewrite <- (map_id w) at 2. apply map_ext. intros; ring. Qed.

Lemma affine_step D f : forall k x dr, affine f -> good D k x f dr -> flatk k -> length x = pk_dim k ->
  exists y L, sem f x = Ret y /\ length y = dr /\ mat dr (pk_dim k) L /\
    forall w, length w = pk_dim k -> sem f (map2 Rplus x w) = Ret (map2 Rplus y (mat_vec L w)).
Proof.
  induction f as [o|f g IHf IHg|f IHf|dx dv cs IHc|q W b c f IHf] using fx_ind'; intros k x dr Af G Fk Lx; try contradiction.
  - destruct o; try contradiction; cbn [good good_base] in G.
    + destruct G as (Hk & Hx & MA & Lb & _). rewrite Hk in *. pose proof MA as [A1 A2].
      exists (map2 Rplus (mat_vec A x) b), A. split; [apply linear_val; [rewrite Hx; exact A2|exact (eq_trans A1 (eq_sym Lb))]|].
      split; [rewrite map2_length, mat_vec_len; cbn [car RSc] in *; lia|]. split; [exact MA|].
      intros w Lw. cbn [sem]. rewrite linear_val; [|rewrite map2_length, Lx, Lw, Nat.min_id; exact A2|exact (eq_trans A1 (eq_sym Lb))].
      f_equal. rewrite (mat_vec_add x w A cols) by (first [assumption|split; [reflexivity|exact A2]]).
      apply shuffle_plus; rewrite !mat_vec_len; [reflexivity|exact (eq_trans Lb (eq_sym A1))].
    + destruct G as (-> & G). cbn [affine] in Af. pose proof (flat_dim s Af) as Fd.
      assert (Lk : pk_dim k = ndx s /\ length target = ndx s).
      { destruct k as [s'|m]; cbn [pk_dim] in *.
        - destruct G as (-> & HS & _ & _ & N). split; [reflexivity|]. destruct (near_points D s target x N) as [P _]. etransitivity; [apply (point_len D s HS _ P)|exact Fd].
        - destruct G as (_ & -> & _ & H). auto. }
      destruct Lk as [Hk Lt]. rewrite Hk in *.
      exists (map2 Rminus x target), (eye_scaled (K := RSc) 1 (ndx s)). split; [apply flat_diff; [exact Af|exact (eq_trans Lt (eq_sym Fd))|exact (eq_trans Lx (eq_sym Fd))]|].
      split; [rewrite map2_length; cbn [car RSc] in *; lia|]. split; [apply eye_square|].
      intros w Lw. cbn [sem base_val]. rewrite flat_diff; [|exact Af|exact (eq_trans Lt (eq_sym Fd))|rewrite map2_length; cbn [car RSc] in *; lia].
      f_equal. rewrite eye_id by exact Lw. apply shuffle_minus; cbn [car RSc] in *; congruence.
  - destruct Af as [Af Ag]. destruct G as (Gg & y & Sy & Gf).
    destruct (IHg k x (xnr g) Ag Gg Fk Lx) as (y1 & Lg & S1 & Ly & Mg & Hg). assert (y1 = y) as -> by congruence.
    destruct (IHf (Euc (xnr g)) y dr Af Gf I Ly) as (z & Lf & Sz & Lz & Mf & Hf). cbn [pk_dim] in *.
    destruct (mm_ok dr (xnr g) (pk_dim k) Lf Lg Mf Mg) as (P & _ & MP & VP & _).
    exists z, P. split; [cbn [sem]; rewrite Sy; exact Sz|]. split; [exact Lz|]. split; [exact MP|].
    intros w Lw. cbn [sem]. rewrite Hg by exact Lw. cbn [bind]. rewrite Hf by (rewrite mat_vec_len; exact (proj1 Mg)). rewrite VP by exact Lw. reflexivity.
Qed.
Lemma mat_vec_scal t A w : mat_vec A (map (fun q => t * q) w) = map (fun q => t * q) (mat_vec A w).
Proof. unfold mat_vec. rewrite map_map. apply map_ext. intros row. rewrite inner_comm, inner_scale_l, inner_comm. reflexivity. Qed.
(** Derivative of an affine residual along straight lines. *)
Lemma affine_velocity D s f x dr y L : affine f -> good D (Geo s) x f dr -> flat s -> length x = ndx s -> length y = dr -> mat dr (ndx s) L ->
  (forall w, length w = ndx s -> sem f (map2 Rplus x w) = Ret (map2 Rplus y (mat_vec L w))) ->
  forall w g, length w = ndx s -> path (Geo s) x w g -> velocity (fun t => (do z <- g t; sem f z)%out) (mat_vec L w).
Proof.
  intros Af G F Lx Ly ML H w g Lw [_ [P _]]. replace (mat_vec L w) with (map (fun q => 1 * q) (mat_vec L w)) by (rewrite <- (map_id (mat_vec L w)) at 2; apply map_ext; intros; ring).
  apply velocity_line with (a := y); [rewrite mat_vec_len; exact (eq_trans Ly (eq_sym (proj1 ML)))|]. intros t. rewrite P.
  rewrite flat_int by (rewrite ?line_len, ?flat_dim; assumption). cbn [bind]. rewrite H by (rewrite line_len; exact Lw). f_equal. unfold line. rewrite mat_vec_scal.
  generalize (mat_vec L w). clear. revert y. induction y as [|a y IH]; intros [|b v]; cbn; try reflexivity. rewrite IH. f_equal. ring.
Qed.
Lemma ls_sum dx dv cs : least_squares (XSum dx dv cs) <-> Forall (fun p => least_squares (snd p)) cs.
Proof.
  cbn. induction cs as [|[c f] cs IH]; [split; [constructor|exact (fun _ => I)]|]. rewrite IH. split.
  - intros [A B]. constructor; assumption.
  - intros H. inversion H; subst. auto.
Qed.
Lemma expand D s x w : flat s -> length x = ndx s -> length w = ndx s ->
  forall e, least_squares e -> good D (Geo s) x e 1 ->
  exists v v' d, sem e x = Ret [v] /\ sem e (map2 Rplus x w) = Ret [v'] /\
    velocity (fun t => (do z <- integrate s x (line w t); sem e z)%out) [d] /\
    forall a, gn_form (Geo s) x e w w a -> v' = v + d + a / 2.
Proof.
  intros F Lx Lw. pose (g := fun t => integrate (K := RSc) s x (line w t)).
  assert (Pg : path (Geo s) x w g).
  { assert (E : forall t, g t = Ret (map2 Rplus x (line w t))) by (intros t; unfold g; apply flat_int; [exact F|rewrite flat_dim; assumption|rewrite line_len; exact Lw]).
    split; [|split; [reflexivity|exists 1; split; [lra|eauto]]].
    rewrite E. f_equal. unfold line. assert (L : length x = length w) by congruence. revert L. clear. revert w.
    induction x as [|a x IH]; intros [|b w] L; cbn in *; try discriminate; [reflexivity|]. rewrite IH by lia. f_equal. ring. }
  induction e as [o|f g' IHf IHg|f IHf|dx dv cs IHc|q W b c f IHf] using fx_ind'; intros Ls G; try contradiction.
  - apply ls_sum in Ls. apply good_sum in G. destruct G as (_ & _ & G).
    assert (A : exists v v' d, sum_val cs x = Ret v /\ sum_val cs (map2 Rplus x w) = Ret v' /\
      velocity (fun t => (do z <- g t; do u <- sum_val cs z; Ret [u])%out) [d] /\ forall a, form_all (Geo s) x cs w w a -> v' = v + d + a / 2).
    { revert Ls G. induction IHc as [|[c f] cs Hf _ IH]; intros Ls G.
      - exists 0, 0, 0. split; [reflexivity|]. split; [reflexivity|]. split; [|intros a Fa; cbn in Fa; subst; lra].
        destruct (path_defined _ _ _ _ Pg) as (e & He & V). exists (fun _ => [0]), e. split; [exact He|]. split; [|split; [reflexivity|]].
        + intros t Ht. destruct (V t Ht) as [y ->]. reflexivity.
        + intros [|i] Hi; [|cbn in Hi; lia]. apply derivable_pt_lim_const.
      - inversion Ls as [|? ? L1 L2]; subst. destruct G as (_ & Gf & G). destruct (IH L2 G) as (v & v' & d & E1 & E2 & V & Fm).
        destruct (Hf L1 Gf) as (u & u' & d1 & S1 & S2 & V1 & F1). cbn [snd] in *.
        exists (c * u + v), (c * u' + v'), (c * d1 + d). cbn [sum_val]. rewrite S1, S2. cbn [bind]. rewrite E1, E2. split; [reflexivity|]. split; [reflexivity|]. split.
        + assert (V2 : velocity (fun t => do z <- g t; do u <- sem f z; do v <- sum_val cs z; Ret (u ++ [v]))%out ([d1] ++ [d])).
          { eapply velocity_app; [exact V1|exact V|]. intros t p r. cbv beta. unfold g. destruct (integrate s x (line w t)) as [z| | |]; cbn [bind]; try discriminate.
            intros ->. cbn [bind]. destruct (sum_val cs z) as [b| | |]; cbn [bind]; try discriminate. intros [= <-]. reflexivity. }
          assert (V' : velocity (fun t => do l <- (do z <- g t; do u <- sem f z; do v <- sum_val cs z; Ret (u ++ [v])); match l with [u; v] => Ret [c * u + v] | _ => UB end)%out [c * d1 + d]).
          { eapply velocity_bind with (F := fun l => match l with [u; v] => Ret [c * u + v] | _ => UB end); [exact V2| |reflexivity].
            intros q Fq _. exists (fun t => [c * nth 0 (q t) 0 + nth 1 (q t) 0]). split.
            - intros t. pose proof (proj1 Fq t) as Lq. destruct (q t) as [|? [|? [|? ?]]]; try discriminate. reflexivity.
            - apply flows_1. apply derivable_pt_lim_plus; [apply derivable_pt_lim_scal; exact (proj2 Fq 0%nat ltac:(cbn; lia))|exact (proj2 Fq 1%nat ltac:(cbn; lia))]. }
          eapply velocity_weaken; [exact V'|]. intros t r. cbv beta. destruct (g t) as [z| | |]; cbn [bind]; try discriminate.
          destruct (sem f z) as [p| | |]; cbn [bind]; try discriminate. destruct (sum_val cs z) as [b| | |]; cbn [bind]; try discriminate.
          destruct p as [|p [|p' [|? ?]]]; cbn [app]; try discriminate. intros Ev _. exact Ev.
        + intros a (a1 & a2 & Fa1 & Fa2 & ->). rewrite (F1 a1 Fa1), (Fm a2 Fa2). field. }
    destruct A as (v & v' & d & E1 & E2 & V & Fm). exists v, v', d. rewrite !sem_sum, E1, E2. split; [reflexivity|]. split; [reflexivity|]. split.
    + eapply velocity_ext; [|exact V]. intros t. cbv beta. unfold g. destruct (integrate s x (line w t)); cbn [bind]; try reflexivity. now rewrite sem_sum.
    + intros a Fa. apply form_sum in Fa. auto.
  - destruct G as (_ & MW & SW & Lb & G). cbn [least_squares] in Ls.
    destruct (affine_step D f (Geo s) x (xnr f) Ls G F Lx) as (y & L & Sy & Ly & ML & H). cbn [pk_dim] in *.
    pose proof (affine_velocity D s f x (xnr f) y L Ls G F Lx Ly ML H w g Lw Pg) as V. set (u := mat_vec L w) in *.
    assert (Lu : length u = xnr f) by (unfold u; rewrite mat_vec_len; exact (proj1 ML)).
    assert (Lyu : length (map2 Rplus y u) = xnr f) by (rewrite map2_length, Ly, Lu; apply Nat.min_id).
    eexists _, _, (inner (mat_vec W y) u + inner b u).
    split; [apply (quad_val q W b c f x y Sy); rewrite Ly; assumption|]. split; [apply (quad_val q W b c f _ (map2 Rplus y u)); [apply H; exact Lw| |]; rewrite Lyu; assumption|]. split.
    + eapply velocity_bind with (F := fun y => if forallb (fun row => Nat.eqb (length row) (length y)) W && Nat.eqb (length W) (length y) && Nat.eqb (length b) (length y)
         then Ret [1 / 2 * inner y (mat_vec W y) + inner b y + c] else UB); [exact V| |].
      2: { intros t. cbv beta. unfold g. destruct (integrate s x (line w t)) as [z| | |]; cbn [bind]; reflexivity. }
      intros h' Fh H0. cbv beta in H0. rewrite (proj1 Pg) in H0. cbn [bind] in H0. assert (H0y : h' 0 = y) by congruence.
      exists (fun t => [1 / 2 * inner (h' t) (mat_vec W (h' t)) + inner b (h' t) + c]). split.
      * intros t. assert (Lt : length (h' t) = xnr f) by (rewrite (proj1 Fh); exact Lu). rewrite Lt. destruct MW as [W1 W2].
        pose proof (proj2 (forallb_len _ _) W2) as FW. cbn [car RSc] in *. rewrite FW, W1, Lb, Nat.eqb_refl. reflexivity.
      * apply flows_1. apply shift_plus.
        replace (inner (mat_vec W y) u + inner b u) with (1 / 2 * (inner u (mat_vec W (h' 0)) + inner (h' 0) (mat_vec W u)) + inner b u).
        -- apply derivable_pt_lim_plus; [|apply der_inner_l; [congruence|exact Fh]].
           apply derivable_pt_lim_scal. apply (der_inner u (mat_vec W u) h' (fun t => mat_vec W (h' t))); [rewrite mat_vec_len, Lu; symmetry; exact (proj1 MW)|exact Fh|].
           eapply flows_mat_vec; [exact (proj2 MW)|exact Lu|exact Fh].
        -- rewrite H0y. rewrite (sym_inner W (xnr f) MW SW y u Ly Lu). rewrite (inner_comm (mat_vec W y) u). lra.
    + intros a Fa. cbn [gn_form] in Fa. rewrite (Fa g g u u Pg Pg V V).
      assert (LW : length (mat_vec W y) = xnr f) by (rewrite mat_vec_len; exact (proj1 MW)).
      assert (LW' : length (mat_vec W u) = xnr f) by (rewrite mat_vec_len; exact (proj1 MW)).
      rewrite (mat_vec_add y u W (xnr f)) by (first [assumption|split; [reflexivity|exact (proj2 MW)]]).
      rewrite inner_add_r by (rewrite Lyu; assumption). rewrite !inner_add_l by congruence. rewrite inner_add_r by congruence.
      rewrite (sym_inner W (xnr f) MW SW y u Ly Lu), (inner_comm (mat_vec W y) u). lra.
Qed.
