(** Proofs for C91: a problem made of objects answers like a problem without memory. *)
From Coq Require Import Reals List Arith Bool Lia Lra.
From Verif Require Import Scalar Cset_spec Cset_proofs Cset_model Armijo_model Problem_model Solver_model Merit_proofs Manifold_model Manifold_spec Manifold_proofs ManifoldR_proofs
  Function_model Function_spec Function_proofs FunctionE_proofs FunctionJ_proofs FunctionH_proofs FunctionX_proofs Bfgs_proofs Solver_spec Merit_spec Objects_model Objects_spec.
Import ListNotations.
Local Open Scope R_scope.

(** ** Matrices are determined by their action *)
Lemma rows_eq r c (A B : list rvec) : mat r c A -> mat r c B -> (forall w, length w = c -> mat_vec A w = mat_vec B w) -> A = B.
Proof.
  intros [LA FA] [LB FB] H. rewrite Forall_forall in FA, FB. apply (nth_ext A B [] []); [lia|]. intros i Hi.
  assert (La : length (nth i A []) = c) by (apply FA, nth_In; lia). assert (Lb : length (nth i B []) = c) by (apply FB, nth_In; lia).
  apply (nth_ext _ _ 0 0); [lia|]. intros j Hj. rewrite La in Hj.
  rewrite <- (axis_inner c j (nth i A [])), <- (axis_inner c j (nth i B [])) by assumption.
  specialize (H (axis c j) (axis_len c j)). apply (f_equal (fun v => nth i v 0)) in H. rewrite !nth_mat_vec in H. exact H.
Qed.
Lemma form_eq c (A B : list rvec) : mat c c A -> mat c c B -> (forall u w, length u = c -> length w = c -> inner u (mat_vec A w) = inner u (mat_vec B w)) -> A = B.
Proof.
  intros MA MB H. apply (rows_eq c c); try assumption. intros w Lw. apply (nth_ext _ _ 0 0); [rewrite !mat_vec_len, (proj1 MA), (proj1 MB); reflexivity|].
  intros i Hi. rewrite mat_vec_len, (proj1 MA) in Hi. specialize (H (axis c i) w (axis_len c i) Lw). rewrite !(inner_comm (axis c i)) in H.
  rewrite !axis_inner in H by (rewrite ?mat_vec_len, ?(proj1 MA), ?(proj1 MB); auto). exact H.
Qed.

(** ** Answers do not depend on the heap, as long as the cached residuals belong to the point *)
Section Det.
  Variables (junk : nat -> nat -> R) (D : domain) (s : rspace) (x : rvec) (n : nat).
  Hypothesis paths : forall w, length w = ndx s -> exists g, path (Geo s) x w g.
  Lemma jac_det f dr : good D (Geo s) x f dr -> (ht f <= n)%nat ->
    forall h1 r1 o1 h2 r2 o2, repr h1 r1 f -> warm h1 (visits f x) -> mat dr (ndx s) o1 -> repr h2 r2 f -> warm h2 (visits f x) -> mat dr (ndx s) o2 ->
    exists J h1' h2', jac (K := RSc) junk n h1 r1 x o1 = Ret (J, h1') /\ sim h1 h1' /\ jac (K := RSc) junk n h2 r2 x o2 = Ret (J, h2') /\ mat dr (ndx s) J.
  Proof.
    intros G Hn h1 r1 o1 h2 r2 o2 R1 W1 M1 R2 W2 M2.
    destruct (proj1 (jac_grad_sem junk f) D (Geo s) x dr n h1 r1 o1 G Hn R1 W1 M1) as (J & h1' & E1 & S1 & MJ & V1).
    destruct (proj1 (jac_grad_sem junk f) D (Geo s) x dr n h2 r2 o2 G Hn R2 W2 M2) as (J' & h2' & E2 & _ & MJ' & V2).
    assert (E : J = J').
    { apply (rows_eq dr (ndx s)); try assumption. intros w Lw. destruct (paths w Lw) as [g P]. eapply velocity_unique; [apply (V1 w g); assumption|apply (V2 w g); assumption]. }
    subst J'. exists J, h1', h2'. auto.
  Qed.
  Lemma grad_det e : good D (Geo s) x e 1 -> is_cost e -> (ht e <= n)%nat ->
    forall h1 r1 o1 h2 r2 o2, repr h1 r1 e -> warm h1 (visits e x) -> length o1 = ndx s -> repr h2 r2 e -> warm h2 (visits e x) -> length o2 = ndx s ->
    exists g h1' h2', grad (K := RSc) junk n h1 r1 x o1 = Ret (g, h1') /\ sim h1 h1' /\ grad (K := RSc) junk n h2 r2 x o2 = Ret (g, h2') /\ length g = ndx s.
  Proof.
    intros G Ic Hn h1 r1 o1 h2 r2 o2 R1 W1 M1 R2 W2 M2.
    destruct (proj2 (jac_grad_sem junk e) D (Geo s) x n h1 r1 o1 Ic G ltac:(lia) R1 W1 M1) as (g & h1' & E1 & S1 & MJ & V1).
    destruct (proj2 (jac_grad_sem junk e) D (Geo s) x n h2 r2 o2 Ic G ltac:(lia) R2 W2 M2) as (g' & h2' & E2 & _ & MJ' & V2).
    assert (E : [g] = [g']).
    { apply (rows_eq 1 (ndx s)); try (split; [reflexivity|repeat constructor; assumption]). intros w Lw. destruct (paths w Lw) as [c P].
      eapply velocity_unique; [apply (V1 w c); assumption|apply (V2 w c); assumption]. }
    injection E as <-. exists g, h1', h2'. auto.
  Qed.
  Lemma gn_det e n' : good D (Geo s) x e 1 -> (ht e <= S n')%nat ->
    forall h1 r1 o1 h2 r2 o2, gauss_newton h1 e -> repr h1 r1 e -> warm h1 (visits e x) -> mat (ndx s) (ndx s) o1 ->
    gauss_newton h2 e -> repr h2 r2 e -> warm h2 (visits e x) -> mat (ndx s) (ndx s) o2 ->
    exists H h1' h2', hess (K := RSc) junk n' h1 r1 x o1 = Ret (H, h1') /\ sim h1 h1' /\ hess (K := RSc) junk n' h2 r2 x o2 = Ret (H, h2') /\ mat (ndx s) (ndx s) H.
  Proof.
    intros G Hn h1 r1 o1 h2 r2 o2 N1 R1 W1 M1 N2 R2 W2 M2.
    destruct (hess_sem junk e D (Geo s) x n' h1 r1 o1 N1 G Hn R1 W1 M1) as (H & h1' & E1 & S1 & MH & V1).
    destruct (hess_sem junk e D (Geo s) x n' h2 r2 o2 N2 G Hn R2 W2 M2) as (H' & h2' & E2 & _ & MH' & V2).
    assert (E : H = H').
    { apply (form_eq (ndx s)); try assumption. intros u w Lu Lw. apply (form_unique D (Geo s) x e 1%nat h1 r1 u w); auto. }
    subst H'. exists H, h1', h2'. auto.
  Qed.
  Lemma steady_det u v : steady (ndx s) u -> forall h1 r1 o1 h2 r2 o2 n', repr h1 r1 (XBase (OExt u)) -> repr h2 r2 (XBase (OExt u)) ->
    mat (ndx s) (ndx s) o1 -> mat (ndx s) (ndx s) o2 ->
    exists H, vhp (K := RSc) junk (S n') h1 r1 x v o1 = Ret (H, h1) /\ vhp (K := RSc) junk (S n') h2 r2 x v o2 = Ret (H, h2) /\ mat (ndx s) (ndx s) H.
  Proof.
    intros (H & HH) h1 r1 o1 h2 r2 o2 n' [R1 _] [R2 _] M1 M2. exists (H x v).
    assert (L : forall o, mat (ndx s) (ndx s) o -> like (K := RSc) o (H x v) = Ret (H x v)).
    { intros o Mo. unfold like. destruct (HH x v o Mo) as [_ MH]. destruct (list_eq_dec _ _ _) as [_|N]; [reflexivity|]. exfalso. apply N.
      cbn [car RSc]. rewrite (map_len_mat (ndx s) (ndx s) o Mo), (map_len_mat (ndx s) (ndx s) _ MH). reflexivity. }
    assert (Q : forall h r o, nth_error h r = Some (OExt u) -> mat (ndx s) (ndx s) o -> vhp (K := RSc) junk (S n') h r x v o = Ret (H x v, h)).
    { intros h r o Er Mo. rewrite vhp_S, Er. cbn [ub bind]. rewrite (proj1 (HH x v o Mo)). cbn [user bind]. rewrite (L o Mo). reflexivity. }
    split; [apply Q; assumption|]. split; [apply Q; assumption|]. exact (proj2 (HH x v o1 M1)).
  Qed.
  Lemma hess_det e n' : is_cost e -> good D (Geo s) x e 1 -> (ht e <= S n')%nat ->
    forall h1 r1 o1 h2 r2 o2, steady_cost (ndx s) h1 e -> repr h1 r1 e -> warm h1 (visits e x) -> mat (ndx s) (ndx s) o1 ->
    steady_cost (ndx s) h2 e -> repr h2 r2 e -> warm h2 (visits e x) -> mat (ndx s) (ndx s) o2 ->
    exists H h1' h2', hess (K := RSc) junk n' h1 r1 x o1 = Ret (H, h1') /\ sim h1 h1' /\ hess (K := RSc) junk n' h2 r2 x o2 = Ret (H, h2') /\ mat (ndx s) (ndx s) H.
  Proof.
    intros Ic G Hn h1 r1 o1 h2 r2 o2 [N1|(u & -> & Su)] R1 W1 M1 N2 R2 W2 M2.
    - destruct N2 as [N2|(u & -> & _)]; [|contradiction]. eapply gn_det; eassumption.
    - cbn in Hn. destruct n' as [|[|n']]; try lia. destruct R1 as (q1 & E1 & R1). destruct R2 as (q2 & E2 & R2).
      destruct (steady_det u [1] Su h1 q1 o1 h2 q2 o2 n' R1 R2 M1 M2) as (H & A & B & C). exists H, h1, h2.
      split; [rewrite hess_S, E1; exact A|]. split; [apply sim_refl|]. split; [rewrite hess_S, E2; exact B|exact C].
  Qed.
  Lemma vhp_det f v : good D (Geo s) x f (xnr f) -> (ht f <= n)%nat -> length v = xnr f ->
    forall h1 r1 o1 h2 r2 o2, steady_fun (ndx s) h1 f -> repr h1 r1 f -> warm h1 (visits f x) -> mat (ndx s) (ndx s) o1 ->
    steady_fun (ndx s) h2 f -> repr h2 r2 f -> warm h2 (visits f x) -> mat (ndx s) (ndx s) o2 ->
    exists H h1' h2', vhp (K := RSc) junk n h1 r1 x v o1 = Ret (H, h1') /\ sim h1 h1' /\ vhp (K := RSc) junk n h2 r2 x v o2 = Ret (H, h2') /\ mat (ndx s) (ndx s) H.
  Proof.
    intros G Hn Lv h1 r1 o1 h2 r2 o2 Sf R1 W1 M1 Sf2 R2 W2 M2. destruct n as [|n']; [destruct f; cbn in Hn; lia|].
    destruct Sf as [Df|[(u & -> & Su)|[Ic Sc]]].
    - assert (Z : forall h r o, repr h r f -> mat (ndx s) (ndx s) o -> vhp (K := RSc) junk (S n') h r x v o = Ret (repeat (repeat 0 (ndx s)) (ndx s), h)).
      { intros h r o R Mo. assert (Ez : map (map (fun _ => 0)) o = repeat (repeat 0 (ndx s)) (ndx s)).
        { destruct Mo as [Lo Fo]. rewrite <- Lo at 2. clear -Fo. induction Fo as [|row o Hr _ IH]; [reflexivity|]. cbn. rewrite IH. f_equal.
          rewrite <- Hr. clear. induction row as [|a row IH]; [reflexivity|]. cbn. rewrite <- IH. reflexivity. }
        rewrite vhp_S. destruct f as [b|f g|f|a b cs|q W b c f]; try contradiction.
        - destruct R as [R El]. rewrite R. cbn [ub bind]. destruct b; try contradiction; cbn [car RSc]; f_equal; f_equal; exact Ez.
        - destruct R as (l & q & E & _). rewrite E. cbn [ub bind car RSc]. f_equal. f_equal. exact Ez. }
      exists (repeat (repeat 0 (ndx s)) (ndx s)), h1, h2. split; [apply Z; assumption|]. split; [apply sim_refl|]. split; [apply Z; assumption|].
      split; [apply repeat_length|]. apply Forall_forall. intros row I. apply repeat_spec in I. subst row. apply repeat_length.
    - destruct (steady_det u v Su h1 r1 o1 h2 r2 o2 n' R1 R2 M1 M2) as (H & A & B & C). exists H, h1, h2. split; [exact A|]. split; [apply sim_refl|]. split; [exact B|exact C].
    - assert (Sc2 : steady_cost (ndx s) h2 f).
      { destruct Sf2 as [Df|[(u & -> & _)|[_ Sc2]]]; [|contradiction|exact Sc2]. destruct f; contradiction. }
      assert (Nr : xnr f = 1%nat) by (destruct f; try contradiction; reflexivity). rewrite Nr in *.
      destruct (hess_det f n' Ic G Hn h1 r1 o1 h2 r2 o2 Sc R1 W1 M1 Sc2 R2 W2 M2) as (H & h1' & h2' & A & B & C & E).
      destruct v as [|a [|? ?]]; try discriminate.
      assert (Z : forall h r o h', repr h r f -> hess (K := RSc) junk n' h r x o = Ret (H, h') -> vhp (K := RSc) junk (S n') h r x [a] o = Ret (map (map (fun b => b * a)) H, h')).
      { intros h r o h' R Eh. rewrite vhp_S. destruct f as [b|f g|f|dx dv cs|q W b c f]; try contradiction.
        - destruct R as (q & Er & _). rewrite Er. cbn [ub bind]. rewrite Eh. reflexivity.
        - destruct R as (rs & ws & Er & _). rewrite Er. cbn [ub bind]. rewrite Eh. reflexivity.
        - destruct R as (_ & p & gn & ca & Er & _). rewrite Er. cbn [ub bind]. rewrite Eh. reflexivity. }
      exists (map (map (fun b => b * a)) H), h1', h2'. split; [apply Z; assumption|]. split; [exact B|]. split; [apply Z; assumption|].
      split; [rewrite map_length; exact (proj1 E)|]. apply Forall_map. eapply Forall_impl; [|exact (proj2 E)]. intros row Hr. cbn. rewrite map_length. exact Hr.
  Qed.
End Det.

(** ** The loops over the constraints *)
Definition Rep (s : rspace) (h : heap RSc) (cs : list (nat * nat)) (es : list fx) : Prop :=
  Forall2 (fun c f => repr h (fst c) f /\ snd c = xnr f /\ steady_fun (ndx s) h f) cs es.
Lemma steady_cost_skel d h h' e : skel h h' -> steady_cost d h e -> steady_cost d h' e.
Proof. intros S [G|U]; [left; eapply gauss_skel; eassumption|right; exact U]. Qed.
Lemma steady_skel d h h' f : skel h h' -> steady_fun d h f -> steady_fun d h' f.
Proof. intros S [A|[B|[C E]]]; [left; exact A|right; left; exact B|right; right; split; [exact C|eapply steady_cost_skel; eassumption]]. Qed.
Lemma rep_skel s h h' cs es : skel h h' -> Rep s h cs es -> Rep s h' cs es.
Proof.
  intros S R. induction R as [|c f cs es (A & B & C) _ IH]; constructor; [|exact IH]. split; [eapply repr_skel; eassumption|]. split; [exact B|eapply steady_skel; eassumption].
Qed.
Definition all_visits (es : list fx) (x : rvec) : list (nat * rvec) := flat_map (fun f => visits f x) es.
Lemma eval_loop junk D s x n h cs es : Rep s h cs es -> Forall (fun f => good D (Geo s) x f (xnr f)) es -> Forall (fun f => (ht f <= n)%nat) es ->
  forall h1, skel h h1 -> exists v, eval_objects (K := RSc) n h1 cs x = Ret (v, after h1 (all_visits es x)) /\
    eval_cons (K := RSc) (map (memoryless_fun junk n (ndx s) h) cs) x = Ret v.
Proof.
  intros R. induction R as [|[c nr] f cs es (Rc & Ec & Sf) R IH]; intros G Hn h1 Sk; [exists []; split; reflexivity|].
  apply Forall_cons_iff in G. apply Forall_cons_iff in Hn. destruct G as [Gf G]. destruct Hn as [Hf Hn]. cbn [fst snd] in *. subst nr.
  destruct (good_facts _ _ _ _ _ Gf) as (_ & _ & v & Sv & Lv).
  assert (E1 : eval (K := RSc) n h1 c x = Ret (v, after h1 (visits f x))) by (apply (proj1 (eval_sem f)); [exact Hf|eapply repr_skel; eassumption|exact Sv]).
  assert (E0 : eval (K := RSc) n h c x = Ret (v, after h (visits f x))) by (apply (proj1 (eval_sem f)); assumption).
  destruct (IH G Hn (after h1 (visits f x))) as (w & Ew & Pw). { eapply sim_trans; [exact Sk|apply after_skel]. }
  exists (v ++ w). cbn [eval_objects map eval_cons memoryless_fun f_val f_nr fst snd all_visits flat_map]. split.
  - match goal with |- context [eval n h1 c x] => replace (eval (K := RSc) n h1 c x) with (Ret (v, after h1 (visits f x))) by (symmetry; exact E1) end.
    cbn [bind]. unfold fixed. cbn [car RSc] in *. rewrite Lv, Nat.eqb_refl. cbn [bind]. rewrite Ew. cbn [bind]. rewrite after_app. reflexivity.
  - match goal with |- context [eval n h c x] => replace (eval (K := RSc) n h c x) with (Ret (v, after h (visits f x))) by (symmetry; exact E0) end.
    cbn [got user bind]. unfold sized. cbn [car RSc] in *. rewrite Lv, Nat.eqb_refl. cbn [bind]. rewrite Pw. reflexivity.
Qed.

Lemma warm_fst h a b : warm h (a ++ b) -> warm h a.
Proof. intros W. apply warm_app in W. exact (proj1 W). Qed.
Lemma warm_snd h a b : warm h (a ++ b) -> warm h b.
Proof. intros W. apply warm_app in W. exact (proj2 W). Qed.
Lemma consistent_fst a b : consistent (a ++ b) -> consistent a.
Proof. intros C q u v I J. eapply C; apply in_or_app; left; eassumption. Qed.
Lemma consistent_snd a b : consistent (a ++ b) -> consistent b.
Proof. intros C q u v I J. eapply C; apply in_or_app; right; eassumption. Qed.
Lemma zero_mat r c : mat r c (repeat (repeat 0 c) r).
Proof. split; [apply repeat_length|]. apply Forall_forall. intros row I. apply repeat_spec in I. subst row. apply repeat_length. Qed.
Lemma mat_split a b c (M : list rvec) : mat (a + b) c M -> mat a c (firstn a M) /\ mat b c (skipn a M).
Proof.
  intros [L F]. split; (split; [rewrite ?firstn_length, ?skipn_length; lia|]).
  - rewrite <- (firstn_skipn a M) in F. apply Forall_app in F. exact (proj1 F).
  - rewrite <- (firstn_skipn a M) in F. apply Forall_app in F. exact (proj2 F).
Qed.
Lemma mat_join a b c (A B : list rvec) : mat a c A -> mat b c B -> mat (a + b) c (A ++ B).
Proof. intros [L F] [L' F']. split; [rewrite app_length; lia|apply Forall_app; split; assumption]. Qed.
Lemma sized2_mat r c (M : list rvec) : mat r c M -> sized2 r c M = Ret M.
Proof.
  intros [L F]. unfold sized2. rewrite L, Nat.eqb_refl. cbn [andb]. replace (forallb _ M) with true; [reflexivity|]. symmetry. apply forallb_forall.
  rewrite Forall_forall in F. intros row I. apply Nat.eqb_eq. auto.
Qed.
Lemma jac_loop junk D s x n h0 cs es : (forall w, length w = ndx s -> exists g, path (Geo s) x w g) ->
  Rep s h0 cs es -> Forall (fun f => good D (Geo s) x f (xnr f)) es -> Forall (fun f => (ht f <= n)%nat) es -> consistent (all_visits es x) ->
  forall h old, skel h0 h -> warm h (all_visits es x) -> mat (fold_right Nat.add 0%nat (map snd cs)) (ndx s) old ->
  exists J h', jac_objects (K := RSc) junk n h cs x old = Ret (J, h') /\ sim h h' /\ mat (fold_right Nat.add 0%nat (map snd cs)) (ndx s) J /\
    jac_cons (K := RSc) (ndx s) (map (memoryless_fun junk n (ndx s) h0) cs) x = Ret J.
Proof.
  intros Px R. induction R as [|[c nr] f cs es (Rc & Ec & Sf) R IH]; intros G Hn C h old Sk Wm Mo.
  - exists [], h. split; [reflexivity|]. split; [apply sim_refl|]. split; [split; [reflexivity|constructor]|reflexivity].
  - apply Forall_cons_iff in G. apply Forall_cons_iff in Hn. destruct G as [Gf G]. destruct Hn as [Hf Hn]. cbn [fst snd map fold_right all_visits flat_map] in *. subst nr.
    destruct (mat_split _ _ _ _ Mo) as [Mo1 Mo2]. destruct (good_facts _ _ _ _ _ Gf) as (_ & _ & v & Sv & Lv).
    destruct (after_call h0 c f x Rc (consistent_fst _ _ C)) as [W0 R0].
    destruct (jac_det junk D s x n Px f (xnr f) Gf Hf h c (firstn (xnr f) old) (after h0 (visits f x)) c (repeat (repeat 0 (ndx s)) (xnr f)))
      as (J & h1 & h2 & E1 & S1 & E2 & MJ); try assumption; [eapply repr_skel; eassumption|eapply warm_fst; exact Wm|apply zero_mat|].
    destruct (IH G Hn (consistent_snd _ _ C) h1 (skipn (xnr f) old)) as (M & h' & EM & SM & MM & PM).
    { eapply sim_trans; [exact Sk|apply sim_skel; exact S1]. } { eapply warm_sim; [exact S1|eapply warm_snd; exact Wm]. } { exact Mo2. }
    exists (J ++ M), h'. cbn [jac_objects jac_cons memoryless_fun f_jac f_nr fst snd]. split.
    + cbn [car RSc] in *. rewrite E1. cbn [bind]. rewrite EM. reflexivity.
    + split; [eapply sim_trans; eassumption|]. split; [apply mat_join; assumption|].
      assert (E0 : eval (K := RSc) n h0 c x = Ret (v, after h0 (visits f x))) by (apply (proj1 (eval_sem f)); assumption).
      cbn [car RSc] in *. rewrite E0. cbn [bind]. rewrite E2. cbn [got user bind]. rewrite (sized2_mat (xnr f) (ndx s) J MJ). cbn [bind]. rewrite PM. reflexivity.
Qed.
Lemma vhp_loop junk D s x n use h0 cs es : (forall w, length w = ndx s -> exists g, path (Geo s) x w g) ->
  Rep s h0 cs es -> Forall (fun f => good D (Geo s) x f (xnr f)) es -> Forall (fun f => (ht f <= n)%nat) es -> consistent (all_visits es x) ->
  forall h lams old, skel h0 h -> warm h (all_visits es x) -> map (@length R) lams = map snd cs -> length old = length cs -> Forall (mat (ndx s) (ndx s)) old ->
  exists V h', vhp_objects (K := RSc) junk n h use cs x lams old = Ret (V, h') /\ sim h h' /\ length V = length cs /\ Forall (mat (ndx s) (ndx s)) V /\
    vhp_cons (K := RSc) (ndx s) use (map (memoryless_fun junk n (ndx s) h0) cs) x lams old = Ret V.
Proof.
  intros Px R. induction R as [|[c nr] f cs es (Rc & Ec & Sf) R IH]; intros G Hn C h lams old Sk Wm Ll Lo Mo.
  - exists [], h. split; [reflexivity|]. split; [apply sim_refl|]. split; [reflexivity|]. split; [constructor|reflexivity].
  - apply Forall_cons_iff in G. apply Forall_cons_iff in Hn. destruct G as [Gf G]. destruct Hn as [Hf Hn]. cbn [fst snd map all_visits flat_map length] in *. subst nr.
    destruct lams as [|l ls]; [discriminate|]. destruct old as [|o os]; [discriminate|]. cbn [map] in Ll. injection Ll as L1 Ll. injection Lo as Lo.
    apply Forall_cons_iff in Mo. destruct Mo as [Mo Mos]. destruct (good_facts _ _ _ _ _ Gf) as (_ & _ & v & Sv & Lv).
    destruct (after_call h0 c f x Rc (consistent_fst _ _ C)) as [W0 R0].
    assert (St : exists H h1, (if use then vhp (K := RSc) junk n h c x l o else Ret (o, h)) = Ret (H, h1) /\ sim h h1 /\ mat (ndx s) (ndx s) H /\
      (if use then do H <- user (f_vhp (memoryless_fun junk n (ndx s) h0 (c, xnr f)) x l); sized2 (ndx s) (ndx s) H else Ret o)%out = Ret H).
    { destruct use; [|exists o, h; split; [reflexivity|]; split; [apply sim_refl|]; split; [exact Mo|reflexivity]].
      destruct (vhp_det junk D s x n Px f l Gf Hf L1 h c o (after h0 (visits f x)) c (repeat (repeat 0 (ndx s)) (ndx s))) as (H & h1 & h2 & E1 & S1 & E2 & MH); try assumption;
        [eapply steady_skel; eassumption|eapply repr_skel; eassumption|eapply warm_fst; exact Wm|eapply steady_skel; [apply after_skel|exact Sf]|apply zero_mat|].
      exists H, h1. split; [exact E1|]. split; [exact S1|]. split; [exact MH|].
      assert (E0 : eval (K := RSc) n h0 c x = Ret (v, after h0 (visits f x))) by (apply (proj1 (eval_sem f)); assumption).
      cbn [memoryless_fun f_vhp fst snd]. cbn [car RSc] in *. rewrite E0. cbn [bind]. rewrite E2. cbn [got user bind]. apply sized2_mat. exact MH. }
    destruct St as (H & h1 & E1 & S1 & MH & E2).
    destruct (IH G Hn (consistent_snd _ _ C) h1 ls os) as (V & h' & EV & SV & LV & FV & PV); try assumption.
    { eapply sim_trans; [exact Sk|apply sim_skel; exact S1]. } { eapply warm_sim; [exact S1|eapply warm_snd; exact Wm]. }
    exists (H :: V), h'. cbn [vhp_objects vhp_cons]. split.
    + cbn [car RSc] in *. rewrite E1. cbn [bind]. rewrite EV. reflexivity.
    + split; [eapply sim_trans; eassumption|]. split; [exact (f_equal S LV)|]. split; [constructor; assumption|].
      cbn [car RSc] in *. rewrite E2. cbn [bind]. rewrite PV. reflexivity.
Qed.

(** ** Sequences of requests *)
Definition depth (e : fx) (es : list fx) : nat := fold_right Nat.max (ht e) (map ht es).
Lemma depth_ge e es : (ht e <= depth e es)%nat /\ Forall (fun f => (ht f <= depth e es)%nat) es.
Proof.
  unfold depth. induction es as [|f es [A B]]; [split; [apply le_n|constructor]|]. cbn. split; [lia|]. constructor; [lia|]. eapply Forall_impl; [|exact B]. cbn. intros. lia.
Qed.
Lemma run_ok junk D s h0 p e es n : represents s h0 p e es -> (depth e es <= n)%nat ->
  forall cs h b cur, skel h0 h -> (forall x, cur = Some x -> warm h (visits e x ++ all_visits es x)) ->
  ordered cur cs -> Forall (fun c => regular D s e es (call_point c) /\ call_lams c (map snd (op_cons p))) cs -> sized_buffers (ndx s) (map snd (op_cons p)) b ->
  exists b' h', obj_run (K := RSc) junk n p h b cs = Ret (b', h') /\ pure_run (memoryless junk n h0 p) b cs = Ret b'.
Proof.
  intros (Ed & Ic & Rc & Sc & Rs) Hn. destruct (depth_ge e es) as [He Hes]. assert (He' : (ht e <= n)%nat) by lia.
  assert (Hes' : Forall (fun f => (ht f <= n)%nat) es) by (eapply Forall_impl; [|exact Hes]; cbn; intros; lia). clear He Hes.
  induction cs as [|c cs IH]; intros h b cur Sk Wm Od F Sb; [exists b, h; split; reflexivity|].
  apply Forall_cons_iff in F. destruct F as [[Rg Lm] F]. cbn [obj_run pure_run].
  assert (Rch : repr h (op_cost p) e) by (eapply repr_skel; eassumption).
  assert (Call0 : forall x v, sem e x = Ret [v] -> call (K := RSc) n h0 (op_cost p) x = Ret (v, after h0 (visits e x))).
  { intros x v Sv. destruct (proj2 (eval_sem e) n h0 (op_cost p) x [v] ltac:(lia) Ic Rc Sv) as (c1 & E & Ec). injection E as <-. exact Ec. }
  assert (Value : forall x, good D (Geo s) x e 1 -> exists v, sem e x = Ret [v]).
  { intros x G. destruct (good_facts _ _ _ _ _ G) as (_ & _ & v & Sv & Lv). destruct v as [|a [|? ?]]; try discriminate. exists a. exact Sv. }
  destruct c as [x|x|all x lams]; cbn [obj_step pure_step call_point call_lams ordered] in *; destruct Rg as (Ge & Gs & Cs & Px); destruct (Value x Ge) as (v & Sv).
  - destruct (proj2 (eval_sem e) n h (op_cost p) x [v] ltac:(lia) Ic Rch Sv) as (c1 & E & Ec). injection E as <-.
    destruct (eval_loop junk D s x n h0 (op_cons p) es Rs Gs Hes' (after h (visits e x))) as (w & Ew & Pw). { eapply sim_trans; [exact Sk|apply after_skel]. }
    destruct (IH (after (after h (visits e x)) (all_visits es x)) (mkBuffers (K := RSc) v w (bf_grad b) (bf_jac b) (bf_hess b) (bf_vhp b)) (Some x)) as (b' & h' & EO & EP); try assumption.
    { eapply sim_trans; [exact Sk|]. eapply sim_trans; apply after_skel. }
    { intros y Ey. injection Ey as <-. rewrite <- after_app. apply after_warm; [exact Cs|]. intros q u I. apply in_app_or in I. destruct I as [I|I]; [eapply visits_quad; eassumption|].
      apply in_flat_map in I. destruct I as (f & If & Iq). clear -Rs Sk If Iq. induction Rs as [|c f' cs es (A & _) R IH]; [contradiction|].
      destruct If as [->|If]; [|auto]. eapply visits_quad; [eapply repr_skel; eassumption|exact Iq]. }
    exists b', h'. unfold obj_evaluate, evaluate_problem, memoryless. cbn [p_cost p_cons]. split.
    + cbn [car RSc] in *. rewrite Ec. cbn [bind]. rewrite Ew. cbn [bind]. exact EO.
    + cbn [car RSc] in *. rewrite (Call0 x v Sv). cbn [got user bind]. rewrite Ed, Pw. cbn [bind fst snd]. unfold memoryless in EP. rewrite Ed in EP. exact EP.
  - destruct Od as [Ec Od]. specialize (Wm x Ec). destruct Sb as (S1 & S2 & S3 & S4 & S5). destruct (after_call h0 (op_cost p) e x Rc (consistent_fst _ _ Cs)) as [W0 R0].
    destruct (grad_det junk D s x n Px e Ge Ic He' h (op_cost p) (bf_grad b) (after h0 (visits e x)) (op_cost p) (repeat 0 (ndx s))) as (g & h1 & h2 & E1 & Sm & E2 & Lg);
      try assumption; [eapply warm_fst; exact Wm|apply repeat_length|].
    destruct (jac_loop junk D s x n h0 (op_cons p) es Px Rs Gs Hes' (consistent_snd _ _ Cs) h1 (bf_jac b)) as (J & h' & EJ & SJ & MJ & PJ); try assumption.
    { eapply sim_trans; [exact Sk|apply sim_skel; exact Sm]. } { eapply warm_sim; [exact Sm|eapply warm_snd; exact Wm]. }
    destruct (IH h' (mkBuffers (K := RSc) (bf_val b) (bf_con b) g J (bf_hess b) (bf_vhp b)) cur) as (b' & h'' & EO & EP); try assumption.
    { eapply sim_trans; [exact Sk|]. apply sim_skel. exact (sim_trans _ _ _ _ Sm SJ). }
    { intros y Ey. rewrite Ec in Ey. injection Ey as <-. exact (warm_sim _ _ _ (sim_trans _ _ _ _ Sm SJ) Wm). }
    { split; [exact Lg|]. split; [exact MJ|]. split; [exact S3|]. split; assumption. }
    exists b', h''. unfold obj_derivs, derivs_problem, memoryless. cbn [p_grad p_cons p_ndx]. split.
    + cbn [car RSc] in *. rewrite E1. cbn [bind]. rewrite EJ. cbn [bind]. exact EO.
    + cbn [car RSc] in *. rewrite (Call0 x v Sv). cbn [bind]. rewrite Ed, E2. cbn [got user bind]. unfold sized. cbn [car RSc] in *. rewrite Lg, Nat.eqb_refl. cbn [bind].
      rewrite PJ. cbn [bind fst snd]. unfold memoryless in EP. rewrite Ed in EP. exact EP.
  - destruct Od as [Ec Od]. specialize (Wm x Ec). destruct Sb as (S1 & S2 & S3 & S4 & S5). destruct (after_call h0 (op_cost p) e x Rc (consistent_fst _ _ Cs)) as [W0 R0].
    destruct (hess_det junk D s x Px e n Ic Ge ltac:(lia) h (op_cost p) (bf_hess b) (after h0 (visits e x)) (op_cost p) (repeat (repeat 0 (ndx s)) (ndx s))) as (H & h1 & h2 & E1 & Sm & E2 & MH);
      try assumption; [eapply steady_cost_skel; eassumption|eapply warm_fst; exact Wm|eapply steady_cost_skel; [apply after_skel|exact Sc]|apply zero_mat|].
    destruct (vhp_loop junk D s x n all h0 (op_cons p) es Px Rs Gs Hes' (consistent_snd _ _ Cs) h1 lams (bf_vhp b)) as (V & h' & EV & SV & LV & FV & PV); try assumption.
    { eapply sim_trans; [exact Sk|apply sim_skel; exact Sm]. } { eapply warm_sim; [exact Sm|eapply warm_snd; exact Wm]. } { exact (eq_trans S4 (map_length _ _)). }
    destruct (IH h' (mkBuffers (K := RSc) (bf_val b) (bf_con b) (bf_grad b) (bf_jac b) H V) cur) as (b' & h'' & EO & EP); try assumption.
    { eapply sim_trans; [exact Sk|]. apply sim_skel. exact (sim_trans _ _ _ _ Sm SV). }
    { intros y Ey. rewrite Ec in Ey. injection Ey as <-. exact (warm_sim _ _ _ (sim_trans _ _ _ _ Sm SV) Wm). }
    { split; [exact S1|]. split; [exact S2|]. split; [exact MH|]. split; [exact (eq_trans LV (eq_sym (map_length _ _)))|exact FV]. }
    exists b', h''. unfold obj_hessians, hessians_problem, memoryless. cbn [p_hess p_cons p_ndx]. split.
    + cbn [car RSc] in *. rewrite E1. cbn [bind]. rewrite EV. cbn [bind]. exact EO.
    + cbn [car RSc] in *. rewrite (Call0 x v Sv). cbn [bind]. rewrite Ed, E2. cbn [got user bind]. rewrite (sized2_mat _ _ _ MH). cbn [bind].
      rewrite PV. cbn [bind fst snd]. unfold memoryless in EP. rewrite Ed in EP. exact EP.
Qed.
Lemma objects_memoryless junk D s h p e es : represents s h p e es ->
  exists N, forall n, (N <= n)%nat -> forall cs b, ordered None cs ->
    Forall (fun c => regular D s e es (call_point c) /\ call_lams c (map snd (op_cons p))) cs -> sized_buffers (ndx s) (map snd (op_cons p)) b ->
    exists b' h', obj_run (K := RSc) junk n p h b cs = Ret (b', h') /\ pure_run (memoryless junk n h p) b cs = Ret b'.
Proof.
  intros Rp. exists (depth e es). intros n Hn cs b Od F Sb. apply (run_ok junk D s h p e es n Rp Hn cs h b None); try assumption; [apply sim_refl|discriminate].
Qed.

(** ** The order of the requests *)
Lemma ordered_prefix cs : forall cur k, ordered cur cs -> ordered cur (firstn k cs).
Proof.
  induction cs as [|c cs IH]; intros cur [|k] H; try exact I. destruct c; cbn [firstn ordered] in *; [apply IH; exact H|destruct H as [A B]; split; [exact A|apply IH; exact B]..].
Qed.
Lemma ordered_evals ts rest : (forall cur, ordered cur rest) -> forall cur, ordered cur (map PEval ts ++ rest).
Proof. intros H. induction ts as [|t ts IH]; intros cur; [apply H|]. cbn. apply IH. Qed.
Lemma passes_ordered ps : forall cur, ordered cur (flat_map (fun q => pass_calls (K := RSc) (fst (fst q)) (snd (fst q)) (snd q)) ps).
Proof.
  induction ps as [|[[x hs] ts] ps IH]; intros cur; [exact I|]. cbn [flat_map fst snd]. unfold pass_calls. cbn [app ordered]. split; [reflexivity|].
  destruct hs as [[all lams]|]; cbn [app ordered]; [split; [reflexivity|]|]; apply ordered_evals; exact IH.
Qed.
Lemma solver_order ps k : ordered None (firstn k (flat_map (fun q => pass_calls (K := RSc) (fst (fst q)) (snd (fst q)) (snd q)) ps)).
Proof. apply ordered_prefix, passes_ordered. Qed.

(** ** The answers are values and derivatives *)
Lemma memoryless_cost junk D s h p e es : represents s h p e es -> exists N, forall n x, (N <= n)%nat -> regular D s e es x ->
  let q := memoryless junk n h p in
    exists v g, sem e x = Ret [v] /\ p_cost q x = Some v /\ p_grad q x = Some g /\ length g = ndx s /\
      forall w c, length w = ndx s -> path (Geo s) x w c -> velocity (fun t => (do y <- c t; sem e y)%out) [inner g w].
Proof.
  intros (Ed & Ic & Rc & Sc & Rs). exists (depth e es). intros n x Hn (Ge & _ & Cs & _) q.
  assert (He : (ht e <= n)%nat) by (pose proof (proj1 (depth_ge e es)); lia).
  destruct (call_grad junk D s h (op_cost p) e x n (repeat 0 (ndx s)) He Ic Rc Ge (consistent_fst _ _ Cs) (repeat_length _ _)) as (v & h1 & g & h2 & Ev & Sv & Eg & Lg & V).
  exists v, g. unfold q, memoryless. cbn [p_cost p_grad]. cbn [car RSc] in *. rewrite Ev. cbn [bind got]. rewrite Ed, Eg. cbn [got]. auto.
Qed.
Lemma memoryless_cons junk D s h p e es : represents s h p e es -> exists N, forall n x, (N <= n)%nat -> regular D s e es x ->
  Forall2 (fun c f => f_nr c = xnr f /\ exists v J, sem f x = Ret v /\ length v = xnr f /\ f_val c x = Some v /\ f_jac c x = Some J /\ mat (xnr f) (ndx s) J /\
      forall w g, length w = ndx s -> path (Geo s) x w g -> velocity (fun t => (do y <- g t; sem f y)%out) (mat_vec J w)) (p_cons (memoryless junk n h p)) es.
Proof.
  intros (Ed & Ic & Rc & Sc & Rs). exists (depth e es). intros n x Hn (Ge & Gs & Cs & Px). unfold memoryless. cbn [p_cons]. rewrite Ed.
  assert (Hes : Forall (fun f => (ht f <= n)%nat) es) by (eapply Forall_impl; [|exact (proj2 (depth_ge e es))]; cbn; intros; lia).
  apply consistent_snd in Cs. change (consistent (all_visits es x)) in Cs. clear Ge Px Hn. revert Gs Cs Hes.
  induction Rs as [|[c nr] f cs fs (Rf & En & _) Rs IH]; intros Gs Cs Hes; [constructor|].
  apply Forall_cons_iff in Gs. apply Forall_cons_iff in Hes. destruct Gs as [Gf Gs]. destruct Hes as [Hf Hes]. cbn [map fst snd all_visits flat_map] in *. subst nr.
  constructor; [|apply IH; [exact Gs|eapply consistent_snd; exact Cs|exact Hes]]. split; [reflexivity|].
  destruct (good_facts _ _ _ _ _ Gf) as (_ & _ & v & Sv & Lv). destruct (after_call h c f x Rf (consistent_fst _ _ Cs)) as [Wm R'].
  assert (E0 : eval (K := RSc) n h c x = Ret (v, after h (visits f x))) by (apply (proj1 (eval_sem f)); assumption).
  destruct (proj1 (jac_grad_sem junk f) D (Geo s) x (xnr f) n _ c (repeat (repeat 0 (ndx s)) (xnr f)) Gf Hf R' Wm (zero_mat _ _)) as (J & h2 & EJ & _ & MJ & V).
  exists v, J. cbn [memoryless_fun f_val f_jac fst snd]. cbn [car RSc] in *. rewrite E0. cbn [bind got]. rewrite EJ. cbn [got]. auto 10.
Qed.
Lemma pick_r {A B} (P : A -> B -> Prop) l m b : Forall2 P l m -> In b m -> exists a, P a b.
Proof. induction 1 as [|? ? ? ? H _ IH]; intros I; [destruct I|]. destruct I as [<-|I]; [eauto|auto]. Qed.
(** Along a curve of the manifold the problem is as smooth as the theorems about the merit function ask. *)
Definition stack (es : list fx) (y : rvec) : rvec := flat_map (fun f => match sem f y with Ret v => v | _ => [] end) es.
Lemma memoryless_smooth junk D s h p e es : represents s h p e es -> exists N, forall n x dx curve, (N <= n)%nat -> length dx = ndx s -> curve 0 = x ->
  (forall a, integrate (K := RSc) s x (line dx a) = Ret (curve a)) -> (forall a, regular D s e es (curve a)) -> smooth_along (memoryless junk n h p) x dx curve.
Proof.
  intros Rp. destruct (memoryless_cost junk D s h p e es Rp) as (N1 & H1). destruct (memoryless_cons junk D s h p e es Rp) as (N2 & H2). exists (Nat.max N1 N2).
  intros n x dx curve Hn Ld C0 Ci Rg. split; [exact C0|].
  assert (P : path (Geo s) x dx (fun a => Ret (curve a))). { split; [rewrite C0; reflexivity|]. split; [intros a; symmetry; apply Ci|]. exists 1. split; [lra|eauto]. }
  pose proof (fun a => H1 n (curve a) ltac:(lia) (Rg a)) as Hc. pose proof (fun a => H2 n (curve a) ltac:(lia) (Rg a)) as Hs. clear H1 H2.
  exists (fun a => match sem e (curve a) with Ret [v] => v | _ => 0 end), (fun a => stack es (curve a)). split; [|split; [|split]].
  - intros a. destruct (Hc a) as (v & g & Sv & Ev & _). cbn [car RSc] in *. rewrite Sv. exact Ev.
  - intros a. specialize (Hs a). clear Hc Rg Rp. unfold stack. induction Hs as [|c f cs fs (En & v & J & Sv & Lv & Ev & _) _ IH]; [constructor|]. cbn [flat_map]. cbn [car RSc] in *. rewrite Sv. constructor; [exact Ev|exact (eq_trans Lv (eq_sym En))|exact IH].
  - intros g Eg. pose proof (Hc 0) as Hc0. rewrite C0 in Hc0. destruct Hc0 as (v & g' & _ & _ & Eg' & _ & V). rewrite Eg in Eg'. injection Eg' as <-.
    destruct (V dx _ Ld P) as (k & d & Hd & Hk & _ & Dk). specialize (Dk 0%nat ltac:(cbn; lia)). cbn [nth] in Dk. apply (lim_local _ (fun a => nth 0 (k a) 0)); [|exact Dk].
    exists d. split; [exact Hd|]. intros y Hy. rewrite Rminus_0_r in Hy. specialize (Hk y Hy). cbn [bind] in Hk. cbn [car RSc] in *. rewrite Hk. destruct (Hc y) as (v' & _ & Sv & _). rewrite Hk in Sv. injection Sv as ->. reflexivity.
  - destruct Rp as (Ed & _). change (p_ndx (memoryless junk n h p)) with (op_ndx p). rewrite Ed.
    assert (Hs0 := Hs 0). rewrite C0 in Hs0.
    assert (Hv : Forall (fun f => forall a, exists v, sem f (curve a) = Ret v /\ length v = xnr f) es).
    { apply Forall_forall. intros f Hf a. destruct (pick_r _ _ _ _ (Hs a) Hf) as (c & _ & v & J & Sv & Lv & _). eauto. }
    clear Hs Hc Rg. intros J SJ. revert es J Hs0 Hv SJ. generalize (p_cons (memoryless junk n h p)). intros cs. induction cs as [|c cs IH]; intros es J Hs0 Hv SJ k Hk; [cbn in Hk; lia|].
    inversion Hs0 as [|? f ? fs Hf Hfs]; subst. inversion SJ as [|? ? A J' EA LA _ SJ']; subst. apply Forall_cons_iff in Hv. destruct Hv as [Hvf Hvs].
    destruct Hf as (En & v & Jf & Sv & Lv & _ & EJ & MJ & V). rewrite EA in EJ. injection EJ as <-. cbn [rows_of] in Hk.
    assert (Ls : forall a, exists v, sem f (curve a) = Ret v /\ length v = xnr f /\ stack (f :: fs) (curve a) = v ++ stack fs (curve a)).
    { intros a. destruct (Hvf a) as (v' & Sv' & Lv'). exists v'. split; [exact Sv'|]. split; [exact Lv'|]. unfold stack. cbn [flat_map]. cbn [car RSc] in *. rewrite Sv'. reflexivity. }
    cbn [car RSc] in *. destruct (Nat.lt_ge_cases k (xnr f)) as [Hlt|Hge].
    + destruct (V dx _ Ld P) as (w & d & Hd & Hw & Lw & Dw). specialize (Dw k). unfold mat_vec in Dw. rewrite map_length in Dw.
      assert (LA' : length A = xnr f) by (exact (eq_trans LA En)). specialize (Dw ltac:(rewrite LA'; exact Hlt)). rewrite app_nth1 by (rewrite LA'; exact Hlt).
      rewrite (nth_indep _ 0 (inner [] dx)) in Dw by (rewrite map_length, LA'; exact Hlt). rewrite (map_nth (fun r => inner r dx)) in Dw.
      apply (lim_local _ (fun a => nth k (w a) 0)); [|exact Dw]. exists d. split; [exact Hd|]. intros y Hy. rewrite Rminus_0_r in Hy. specialize (Hw y Hy). cbn [bind] in Hw.
      destruct (Ls y) as (v' & Sv' & Lv' & ->). cbn [car RSc] in *. rewrite Sv' in Hw. injection Hw as ->. rewrite app_nth1 by (rewrite Lv'; exact Hlt). reflexivity.
    + assert (LA' : length A = xnr f) by (exact (eq_trans LA En)). rewrite app_nth2 by (rewrite LA'; exact Hge). rewrite LA'.
      apply (lim_local _ (fun a => nth (k - xnr f) (stack fs (curve a)) 0)); [|apply (IH fs J' Hfs Hvs SJ'); lia].
      exists 1. split; [lra|]. intros y _. destruct (Ls y) as (v' & _ & Lv' & ->). rewrite app_nth2 by (rewrite Lv'; exact Hge). rewrite Lv'. reflexivity.
Qed.

(** ** Construction *)
Lemma sizes_repr h : forall cs es, Forall2 (repr h) cs es -> cons_sizes (K := RSc) h cs = Ret (combine cs (map xnr es)).
Proof.
  induction 1 as [|c f cs es Hr _ IH]; [reflexivity|]. cbn [cons_sizes combine map]. rewrite (dims_repr h c f Hr). unfold xnr. destruct (xdim f) as [[nx nd] nr]. cbn [bind]. rewrite IH. reflexivity.
Qed.
Lemma problem_new h s cost cs e es : is_cost e -> repr h cost e -> steady_cost (ndx s) h e -> Forall2 (fun c f => repr h c f /\ steady_fun (ndx s) h f) cs es ->
  exists p, new_problem (K := RSc) h s cost cs = Ret p /\ represents s h p e es /\ map fst (op_cons p) = cs.
Proof.
  intros A B C F. unfold new_problem. rewrite (sizes_repr h cs es). 2:{ induction F as [|? ? ? ? [H _]]; constructor; assumption. }
  cbn [bind]. eexists. split; [reflexivity|]. split.
  - split; [reflexivity|]. split; [exact A|]. split; [exact B|]. split; [exact C|]. cbn [op_cons]. induction F as [|c f cs es [H1 H2] _ IH]; constructor; [split; [exact H1|]; split; [reflexivity|exact H2]|exact IH].
  - cbn [op_cons]. induction F as [|c f cs es _ _ IH]; [reflexivity|]. cbn. f_equal. exact IH.
Qed.
Lemma problem_add h s p e es c f : represents s h p e es -> repr h c f -> steady_fun (ndx s) h f ->
  exists p', add_object (K := RSc) h p c = Ret p' /\ represents s h p' e (es ++ [f]) /\ op_cons p' = op_cons p ++ [(c, xnr f)].
Proof.
  intros (A & B & C & D & F) Hr Hs. unfold add_object.
  assert (E : combine (map fst (op_cons p) ++ [c]) (map xnr (es ++ [f])) = op_cons p ++ [(c, xnr f)]).
  { clear - F. induction F as [|[i k] ? ? ? [_ [H _]] _ IH]; [reflexivity|]. cbn in *. rewrite H. f_equal. exact IH. }
  assert (G : cons_sizes (K := RSc) h (map fst (op_cons p) ++ [c]) = Ret (op_cons p ++ [(c, xnr f)])).
  { refine (eq_trans (sizes_repr h _ (es ++ [f]) _) (f_equal _ E)). apply Forall2_app; [|constructor; [exact Hr|constructor]]. clear - F. induction F as [|? ? ? ? [H _]]; constructor; assumption. }
  exists (mkOproblem (op_ndx p) (op_cost p) (op_cons p ++ [(c, xnr f)])). split; [exact (f_equal (fun m => bind m (fun l => Ret (mkOproblem (op_ndx p) (op_cost p) l))) G)|]. split; [|reflexivity]. split; [exact A|]. split; [exact B|]. split; [exact C|]. split; [exact D|].
  cbn [op_cons]. apply Forall2_app; [exact F|]. constructor; [|constructor]. split; [exact Hr|]. split; [reflexivity|exact Hs].
Qed.
