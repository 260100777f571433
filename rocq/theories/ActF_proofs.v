(** Quadratic problems with inequality constraints: the statements about the solver. *)
From Coq Require Import Reals List Bool Arith ZArith Lia Lra Psatz.
From Verif Require Import Scalar Cset_model Cset_spec Cset_proofs Armijo_model Problem_model Solver_model Solver_spec SolverR_proofs SolverS_proofs Merit_spec Merit_proofs
  Lin_spec Lin_proofs Ldlt_spec Ldlt_proofs Bk_spec Descent_spec Descent_proofs DescentX_proofs Refine_proofs Qp_spec Qp_proofs QpD_proofs QpT_proofs QpC_proofs QpF_proofs QpN_proofs Act_spec Act_proofs ActD_proofs ActT_proofs.
Import ListNotations.
Local Open Scope R_scope.

Lemma state_holda {O : oracles RSc} n ms p (s : solver_state O) : act_state n ms p s ->
  holda O n ms (sets s) s (mu s) (en (r_x (res s))) (en (r_lams (res s))) (en (w_lams_prev _ _ (wsp s))).
Proof. intros H. constructor; try apply H; try reflexivity; apply tab_self, H. Qed.
Lemma holda_state {O : oracles RSc} n ms p cs (s : solver_state O) mu0 x l le : sets_fit cs (p_cons p) -> holda O n ms cs s mu0 x l le -> act_state n ms p s /\ mu s = mu0 /\ sets s = cs.
Proof.
  intros F H. assert (E : mu s = mu0) by apply H. assert (E2 : sets s = cs) by apply H. split; [|split; assumption]. constructor; rewrite ?E, ?E2; try apply H; try exact F.
  - rewrite (a_x _ _ _ _ _ _ _ _ _ H). apply tab_length.
  - rewrite (a_l _ _ _ _ _ _ _ _ _ H). apply tab_length.
  - rewrite (a_le _ _ _ _ _ _ _ _ _ H). apply tab_length.
Qed.

(** Away from the limits of the set, nearby points lie in the same pieces. *)
Definition cclear (g : R) (k : coord) (a : R) : Prop :=
  match k with KEq => True | KNeg => g <= Rabs a | KBox lo up => g <= Rabs (a - lo) /\ g <= Rabs (a - up) | KL1 _ => False end.
Lemma clear_coords g c : forall n z, shape c n -> length z = n -> clear_of g c z -> forall k, (k < n)%nat -> cclear g (nth k (coords c n) KEq) (nth k z 0).
Proof.
  induction c as [m|m|m l u|m|m cs IH] using cset_ind'; intros n z Hs Hz H k Hk.
  - cbn [coords]. rewrite nth_repeat_lt by exact Hk. exact I.
  - cbn [coords]. rewrite nth_repeat_lt by exact Hk. cbn in *. apply (Forall_nth' _ z k 0 H). cbn [car RSc] in *. lia.
  - destruct Hs as (H1 & H2 & _). cbn [coords car RSc] in *. rewrite nth_map2_box by lia. destruct H as [G1 G2]. split.
    + apply (Forall2_nth _ _ _ k 0 0 G1). cbn [car RSc] in *. lia.
    + apply (Forall2_nth _ _ _ k 0 0 G2). cbn [car RSc] in *. lia.
  - destruct H.
  - rewrite shape_prod in Hs. cbn [coords]. revert n z Hs Hz H k Hk. induction cs as [|[c j] cs IHcs]; intros n z Hs Hz H k Hk.
    + cbn in Hs. lia.
    + cbn [shape_go] in Hs. destruct Hs as (H1 & H2 & H3). destruct H as [H4 H5]. inversion IH as [|? ? J1 J2]; subst. cbn [fst] in J1. cbn [flat_map fst snd].
      pose proof (coords_length c j H2) as Lc. destruct (Nat.lt_ge_cases k j) as [L|L].
      * rewrite app_nth1 by lia. specialize (J1 j (firstn j z) H2). rewrite firstn_length in J1. specialize (J1 ltac:(cbn [car RSc] in *; lia) H4 k L). rewrite !nth_firstn_lt in J1 by exact L. exact J1.
      * rewrite app_nth2 by lia. rewrite Lc. specialize (IHcs J2 (length z - j)%nat (skipn j z) H3 ltac:(rewrite skipn_length; reflexivity) H5 (k - j)%nat ltac:(cbn [car RSc] in *; lia)).
        rewrite !nth_skipn_add in IHcs. replace (j + (k - j))%nat with k in IHcs by lia. exact IHcs.
Qed.
Lemma clear_same g k a c : cok k -> cclear g k a -> Rabs (c - a) < g -> csame k c a.
Proof.
  intros Ho H Hc. destruct k as [| |lo up|mm]; cbn in *; [exact I| | |tauto].
  - abses; lra.
  - destruct H as [H1 H2]. abses; lra.
Qed.
Lemma clear_half g k z t : cok k -> cin k z -> (forall y, cin k y -> t * (y - z) <= 0) -> 0 < g -> cclear g k (z + t) -> cclear (g / 2) k (z + 1 / 2 * t).
Proof.
  intros Ho Hz Ht Hg H. destruct k as [| |lo up|mm]; cbn in *; [exact I| | |tauto].
  - specialize (Ht (z - 1) ltac:(lra)) as T1. pose proof (Ht 0 (Rle_refl 0)) as T2. assert (0 <= t) by lra. destruct (Req_dec z 0) as [->|Nz]; [abses; lra|]. assert (t = 0) by nra. subst t. abses; lra.
  - destruct H as [H1 H2]. pose proof (Ht lo ltac:(lra)) as T1. pose proof (Ht up ltac:(lra)) as T2.
    destruct (Req_dec t 0) as [->|Nt]; [split; abses; lra|]. destruct (Rlt_le_dec 0 t) as [Lt|Gt].
    + assert (z = up) by nra. subst z. split; abses; lra.
    + assert (z = lo) by nra. subst z. split; abses; lra.
Qed.

Section Final.
  Variables (O : oracles RSc) (P : @params RSc) (n : nat) (Q : nat -> nat -> R) (q : nat -> R) (ms : list nat) (A : nat -> nat -> R) (b : nat -> R).
  Let m := total ms.
  Variable p : @problem RSc.
  Hypothesis like : answers_like n p (qp n Q q ms A b).
  Variable cs : list rset.
  Hypothesis Fit : sets_fit cs (p_cons p).
  Let C := product_of cs ms.
  Lemma shC : shape C m. Proof. exact (shape_a n Q q ms A b p like cs Fit). Qed.
  Lemma rowsC k : nth k (coords C m) KEq = Kr p cs k. Proof. unfold Kr. f_equal. exact (coords_a n Q q ms A b p like cs). Qed.
  Lemma nol1 k x y : csame k x y -> cnol1 k. Proof. destruct k; cbn; tauto. Qed.
  Lemma pieces_near mu le x l xs ls : right_pieces n m A b C mu le x l xs ls -> near n ms A b p cs mu le x l xs ls.
  Proof.
    intros [H1 H2] k Hk. pose proof (same_piece_coords C m _ _ shC H1 k Hk) as S1. pose proof (same_piece_coords C m _ _ shC H2 k Hk) as S2.
    rewrite !tab_nth in S1, S2 by exact Hk. rewrite rowsC in S1, S2. split; assumption.
  Qed.
  Lemma sub_solution mu le x l xs ls : 0 < mu -> Forall (fun c => mu_of c = mu) cs -> subproblem n m Q q A b C mu le xs ls -> near n ms A b p cs mu le x l xs ls -> at_solution n Q q ms A b p cs mu le xs ls.
  Proof.
    intros Hp Mu S N. split; [apply S|]. intros k Hk. destruct (sub_rows n m Q q A b C mu le xs ls shC S k Hk) as [R1 R2]. rewrite rowsC in R1, R2.
    pose proof (nol1 _ _ _ (proj1 (N k Hk))) as Hn. pose proof (ok_a p cs Fit mu k Mu) as Ok.
    set (z := qp_con n A b xs k + mu * (le k - ls k)) in *.
    assert (G : forall t, 0 < t -> ccone (Kr p cs k) (z + t * mu * ls k) = t * mu * ls k).
    { intros t Ht. apply ccone_normal; try assumption. intros y Hy. specialize (R2 y Hy). assert (0 < t * mu) by nra.
      replace (t * mu * ls k * (y - z)) with (t * mu * (ls k * (y - z))) by ring. nra. }
    split.
    - rewrite <- (Rmult_1_l (mu * ls k)), <- Rmult_assoc, <- (G 1 Rlt_0_1). f_equal. unfold shift_at, z. ring.
    - rewrite <- (G (1 / 2)) by lra. f_equal. unfold shift_pd_at, shift_at, z. lra.
  Qed.
  (** The stopping test of the inner loop. *)
  Lemma row_projected mu v : Forall (fun c => mu_of c = mu) cs -> (forall k, (k < m)%nat -> cnol1 (Kr p cs k)) -> projected C m v (fun k => cproj (Kr p cs k) (v k)).
  Proof.
    intros Mu Nl. split.
    - rewrite (in_set_nth C m _ shC) by apply tab_length. intros k Hk. rewrite tab_nth by exact Hk. rewrite rowsC. apply cproj_cin, (ok_a p cs Fit mu), Mu.
    - intros w Lw Hw. rewrite (in_set_nth C m w shC Lw) in Hw. eapply Rle_trans; [apply (rsum_le m _ (fun _ => 0))|apply Req_le, rsum_zero; reflexivity]. intros k Hk. specialize (Hw k Hk). rewrite rowsC in Hw.
      assert (M0 : cmu 0 (Kr p cs k)) by (specialize (Nl k Hk); destruct (Kr p cs k); cbn in *; tauto).
      pose proof (cvar _ 0 (v k) _ (ok_a p cs Fit mu k Mu) M0 (Rle_refl 0) Hw) as V. pose proof (cone_sum (Kr p cs k) (v k)) as S.
      rewrite Rmult_0_l in V. replace (v k - cproj (Kr p cs k) (v k)) with (ccone (Kr p cs k) (v k)) by lra. exact V.
  Qed.
  Lemma cone_projected mu le x (l : nat -> R) c : Forall (fun c => mu_of c = mu) cs -> (forall k, (k < m)%nat -> cnol1 (Kr p cs k)) -> (forall k, (k < m)%nat -> Rabs (arp n A b p cs mu le x l k) <= c) ->
    exists z, projected C m (shift_at n A b mu le x) z /\ forall k, (k < m)%nat -> Rabs (shift_at n A b mu le x k - z k - mu * l k) <= c.
  Proof.
    intros Mu Nl H. exists (fun k => cproj (Kr p cs k) (shift_at n A b mu le x k)). split; [apply (row_projected mu _ Mu Nl)|].
    intros k Hk. specialize (H k Hk). unfold arp in H. pose proof (cone_sum (Kr p cs k) (shift_at n A b mu le x k)) as S. eapply Rle_trans; [apply Req_le|exact H]. f_equal. lra.
  Qed.

  Lemma local_near mu le x l xs ls g : 0 < mu -> 0 < g -> Forall (fun c => mu_of c = mu) cs -> subproblem n m Q q A b C mu le xs ls -> clear_of g C (tab m (shift_at n A b mu le xs)) ->
    (forall k, (k < m)%nat -> Rabs (rsum n (fun j => A k j * (x j - xs j))) < g /\ Rabs (rsum n (fun j => A k j * (x j - xs j)) - mu / 2 * (l k - ls k)) < g / 2) ->
    near n ms A b p cs mu le x l xs ls.
  Proof.
    intros Hp Hg Mu S Hc H k Hk. pose proof (clear_coords g C m _ shC (tab_length m _) Hc k Hk) as G. rewrite tab_nth in G by exact Hk. rewrite rowsC in G.
    destruct (sub_rows n m Q q A b C mu le xs ls shC S k Hk) as [R1 R2]. rewrite rowsC in R1, R2. pose proof (ok_a p cs Fit mu k Mu) as Ok. destruct (H k Hk) as [D1 D2].
    assert (E : qp_con n A b x k - qp_con n A b xs k = rsum n (fun j => A k j * (x j - xs j))).
    { unfold qp_con. assert (E : rsum n (fun j => A k j * (x j - xs j)) = rsum n (fun j => A k j * x j) - rsum n (fun j => A k j * xs j)) by (rewrite <- rsum_minus; apply rsum_ext; intros; ring). rewrite E. ring. }
    set (z := qp_con n A b xs k + mu * (le k - ls k)) in *.
    assert (G2 : cclear (g / 2) (Kr p cs k) (shift_pd_at n A b mu le xs ls k)).
    { replace (shift_pd_at n A b mu le xs ls k) with (z + 1 / 2 * (mu * ls k)) by (unfold shift_pd_at, shift_at, z; lra). apply clear_half; try assumption.
      - intros y Hy. specialize (R2 y Hy). replace (mu * ls k * (y - z)) with (mu * (ls k * (y - z))) by ring. nra.
      - replace (z + mu * ls k) with (shift_at n A b mu le xs k) by (unfold shift_at, z; ring). exact G. }
    split.
    - apply (clear_same g); try assumption. eapply Rle_lt_trans; [apply Req_le|exact D1]. f_equal. unfold shift_at. lra.
    - apply (clear_same (g / 2)); try assumption. eapply Rle_lt_trans; [apply Req_le|exact D2]. f_equal. unfold shift_pd_at, shift_at. lra.
  Qed.
  Lemma near_right mu le x l xs ls : Forall (fun c => mu_of c = mu) cs -> near n ms A b p cs mu le x l xs ls -> forall k, (k < m)%nat -> cnol1 (Kr p cs k).
  Proof. intros _ N k Hk. apply (nol1 _ _ _ (proj1 (N k Hk))). Qed.
End Final.

Lemma max_ext f g N v : (forall i, (i < N)%nat -> f i = g i) -> is_max_abs f N v -> is_max_abs g N v.
Proof.
  intros E [U V]. split; [intros i Hi; rewrite <- E by exact Hi; apply U, Hi|]. destruct V as [V|(i & Hi & V)]; [left; exact V|right; exists i; rewrite <- E by exact Hi; split; assumption].
Qed.
Lemma active_core (O : oracles RSc) (P : @params RSc) n Q q ms A b p fi fls fin (s : solver_state O) xs ls : let m := total ms in let C := product_of (sets s) ms in
  let x := en (r_x (res s)) in let l := en (r_lams (res s)) in let le := en (w_lams_prev _ _ (wsp s)) in
  answers_like n p (qp n Q q ms A b) -> plain O P n -> kkt_sys P = KKT_CLASSIC -> definite n Q -> handles_rows O n m Q A (mu s) -> act_state n ms p s -> 0 <= s_inner_tol _ _ s ->
  (S (r_num_iters (res s)) < max_iters P)%nat -> (1 < fi)%nat -> (0 < fls)%nat -> (0 < fin)%nat ->
  subproblem n m Q q A b C (mu s) le xs ls -> near n ms A b p (sets s) (mu s) le x l xs ls ->
  exists s' : solver_state O, inner_loop (o_integrate O) (o_px_val O) (o_px_grad O) (o_px_hess O) (o_fac O) (o_compute O) (o_signature O) (o_solve O) (o_bfgs O) (o_bfgs_update O) (o_qr O)
      fi fls fin P p s 0 = Ret s' /\
    act_state n ms p s' /\ mu s' = mu s /\ sets s' = sets s /\ w_lams_prev _ _ (wsp s') = w_lams_prev _ _ (wsp s) /\
    (let x' := en (r_x (res s')) in let l' := en (r_lams (res s')) in
     is_max_abs (qp_lag n m Q q A x' l') n (r_dual_infeas (res s')) /\
     exists z, projected C m (fun k => qp_con n A b x' k + mu s * l' k) z /\ is_max_abs (fun k => qp_con n A b x' k - z k) m (r_prim_infeas (res s'))) /\
    ((r_x (res s') = r_x (res s) /\ r_lams (res s') = r_lams (res s) /\ r_num_iters (res s') = r_num_iters (res s) /\
      ((r_prim_infeas (res s') <= target_tol P /\ r_dual_infeas (res s') <= target_tol P) \/
       (forall i, (i < n)%nat -> Rabs (qp_lag n m Q q A x l i) <= s_inner_tol _ _ s) /\
       exists z, projected C m (shift_at n A b (mu s) le x) z /\ forall k, (k < m)%nat -> Rabs (shift_at n A b (mu s) le x k - z k - mu s * l k) <= s_inner_tol _ _ s)) \/
     r_x (res s') = tab n xs /\ r_lams (res s') = tab m ls /\ r_num_iters (res s') = S (r_num_iters (res s))).
Proof.
  intros m C x l le like [Pb Ph [Pd1 Pd2] [Ps1 Ps2] Pf Pp] Kc Df Hh Hs Ht Hn Hfi Hfl Hfn Sub Nr. destruct fi as [|[|f]]; try lia.
  assert (Fit := as_fit _ _ _ _ Hs). assert (Mu := as_mu _ _ _ _ Hs). assert (Pos := as_pos _ _ _ _ Hs).
  assert (resid_final : forall (s' : solver_state O) mu0 x0 l0 le0, holda O n ms (sets s) s' mu0 x0 l0 le0 -> (forall k, (k < m)%nat -> cnol1 (Kr p (sets s) k)) -> Forall (fun c => mu_of c = mu0) (sets s) ->
    aresid O n Q q ms A b p (sets s) s' mu0 x0 l0 -> let x' := en (r_x (res s')) in let l' := en (r_lams (res s')) in
     is_max_abs (qp_lag n m Q q A x' l') n (r_dual_infeas (res s')) /\
     exists z, projected C m (fun k => qp_con n A b x' k + mu0 * l' k) z /\ is_max_abs (fun k => qp_con n A b x' k - z k) m (r_prim_infeas (res s'))).
  { intros s' mu0 x0 l0 le0 H' Nl Mu0 [R1 R2]. cbv zeta. rewrite (a_x _ _ _ _ _ _ _ _ _ H'), (a_l _ _ _ _ _ _ _ _ _ H').
    assert (Ex : forall i, (i < n)%nat -> x0 i = en (tab n x0) i) by (intros i Hi; symmetry; apply en_tab, Hi). assert (El : forall k, (k < m)%nat -> l0 k = en (tab m l0) k) by (intros k Hk; symmetry; apply en_tab, Hk).
    split; [apply (max_ext _ _ _ _ (fun i _ => lag_ext n Q q ms A x0 (en (tab n x0)) l0 (en (tab m l0)) i Ex El) R2)|].
    exists (fun k => cproj (Kr p (sets s) k) (qp_con n A b (en (tab n x0)) k + mu0 * en (tab m l0) k)). split; [exact (row_projected n Q q ms A b p like (sets s) Fit mu0 _ Mu0 Nl)|].
    refine (max_ext _ _ _ _ _ R1). intros k Hk. unfold aviol. rewrite (con_ext n A b x0 _ k Ex), (El k Hk). reflexivity. }
  pose proof (sub_solution n Q q ms A b p like (sets s) Fit (mu s) le x l xs ls Pos Mu Sub Nr) as Sol.
  destruct (ainner_p O P n Q q ms A b p like Pb Ph Kc Df Pf Pp Pd1 Pd2 Ps1 Ps2 (sets s) Fit f fls fin s (mu s) x l le xs ls Hfl Hfn (state_holda n ms p s Hs) Hh Ht Hn Sol Nr) as (s' & E & _ & _ & _ & _ & [(H' & R & N' & T)|(H' & R & N')]).
  - assert (Nl := near_right n ms A b p (sets s) _ _ _ _ _ _ Mu Nr). destruct (holda_state n ms p (sets s) s' _ _ _ _ Fit H') as (S' & M' & C'). exists s'. split; [exact E|]. split; [exact S'|]. split; [exact M'|]. split; [exact C'|].
    split; [rewrite (a_le _ _ _ _ _ _ _ _ _ H'); symmetry; apply tab_self, Hs|]. split; [exact (resid_final s' _ _ _ _ H' Nl Mu R)|]. left.
    split; [rewrite (a_x _ _ _ _ _ _ _ _ _ H'); symmetry; apply tab_self, Hs|]. split; [rewrite (a_l _ _ _ _ _ _ _ _ _ H'); symmetry; apply tab_self, Hs|]. split; [exact N'|].
    destruct T as [[T1 T2]|T]; [right|left; exact T]. split; [exact T1|].
    exact (cone_projected n Q q ms A b p like (sets s) Fit (mu s) le x l _ Mu Nl T2).
  - assert (Nl := near_right n ms A b p (sets s) _ _ _ _ _ _ Mu Nr). destruct (holda_state n ms p (sets s) s' _ _ _ _ Fit H') as (S' & M' & C'). exists s'. split; [exact E|]. split; [exact S'|]. split; [exact M'|]. split; [exact C'|].
    split; [rewrite (a_le _ _ _ _ _ _ _ _ _ H'); symmetry; apply tab_self, Hs|]. split; [exact (resid_final s' _ _ _ _ H' Nl Mu R)|]. right. split; [apply H'|]. split; [apply H'|exact N'].
Qed.

Lemma active_final (O : oracles RSc) (P : @params RSc) n Q q ms A b p fi fls fin (s : solver_state O) xs ls : let m := total ms in let C := product_of (sets s) ms in
  let x := en (r_x (res s)) in let l := en (r_lams (res s)) in let le := en (w_lams_prev _ _ (wsp s)) in
  answers_like n p (qp n Q q ms A b) -> plain O P n -> kkt_sys P = KKT_CLASSIC -> definite n Q -> handles_rows O n m Q A (mu s) -> act_state n ms p s -> 0 <= s_inner_tol _ _ s ->
  (S (r_num_iters (res s)) < max_iters P)%nat -> (1 < fi)%nat -> (0 < fls)%nat -> (0 < fin)%nat ->
  subproblem n m Q q A b C (mu s) le xs ls -> right_pieces n m A b C (mu s) le x l xs ls ->
  exists s' : solver_state O, inner_loop (o_integrate O) (o_px_val O) (o_px_grad O) (o_px_hess O) (o_fac O) (o_compute O) (o_signature O) (o_solve O) (o_bfgs O) (o_bfgs_update O) (o_qr O)
      fi fls fin P p s 0 = Ret s' /\
    act_state n ms p s' /\ mu s' = mu s /\ sets s' = sets s /\ w_lams_prev _ _ (wsp s') = w_lams_prev _ _ (wsp s) /\
    (let x' := en (r_x (res s')) in let l' := en (r_lams (res s')) in
     is_max_abs (qp_lag n m Q q A x' l') n (r_dual_infeas (res s')) /\
     exists z, projected C m (fun k => qp_con n A b x' k + mu s * l' k) z /\ is_max_abs (fun k => qp_con n A b x' k - z k) m (r_prim_infeas (res s'))) /\
    ((r_x (res s') = r_x (res s) /\ r_lams (res s') = r_lams (res s) /\ r_num_iters (res s') = r_num_iters (res s) /\
      ((r_prim_infeas (res s') <= target_tol P /\ r_dual_infeas (res s') <= target_tol P) \/
       (forall i, (i < n)%nat -> Rabs (qp_lag n m Q q A x l i) <= s_inner_tol _ _ s) /\
       exists z, projected C m (shift_at n A b (mu s) le x) z /\ forall k, (k < m)%nat -> Rabs (shift_at n A b (mu s) le x k - z k - mu s * l k) <= s_inner_tol _ _ s)) \/
     r_x (res s') = tab n xs /\ r_lams (res s') = tab m ls /\ r_num_iters (res s') = S (r_num_iters (res s))).
Proof.
  intros m C x l le like Pl Kc Df Hh Hs Ht Hn Hfi Hfl Hfn Sub Rp. apply active_core; try assumption. exact (pieces_near n Q q ms A b p like (sets s) (as_fit _ _ _ _ Hs) (mu s) le x l xs ls Rp).
Qed.
Lemma local_final (O : oracles RSc) (P : @params RSc) n Q q ms A b p fi fls fin (s : solver_state O) xs ls g i : let m := total ms in let C := product_of (sets s) ms in
  let x := en (r_x (res s)) in let l := en (r_lams (res s)) in let le := en (w_lams_prev _ _ (wsp s)) in
  answers_like n p (qp n Q q ms A b) -> plain O P n -> kkt_sys P = KKT_CLASSIC -> definite n Q -> handles_rows O n m Q A (mu s) -> act_state n ms p s -> 0 <= s_inner_tol _ _ s ->
  (S (r_num_iters (res s)) < max_iters P)%nat -> (1 < fi)%nat -> (0 < fls)%nat -> (0 < fin)%nat ->
  subproblem n m Q q A b C (mu s) le xs ls -> 0 < g -> clear_of g C (tab m (shift_at n A b (mu s) le xs)) ->
  (forall k, (k < m)%nat -> Rabs (rsum n (fun j => A k j * (x j - xs j))) < g /\ Rabs (rsum n (fun j => A k j * (x j - xs j)) - mu s / 2 * (l k - ls k)) < g / 2) ->
  (i < n)%nat -> s_inner_tol _ _ s < Rabs (qp_lag n m Q q A x l i) -> target_tol P < Rabs (qp_lag n m Q q A x l i) ->
  exists s' : solver_state O, inner_loop (o_integrate O) (o_px_val O) (o_px_grad O) (o_px_hess O) (o_fac O) (o_compute O) (o_signature O) (o_solve O) (o_bfgs O) (o_bfgs_update O) (o_qr O)
      fi fls fin P p s 0 = Ret s' /\ r_x (res s') = tab n xs /\ r_lams (res s') = tab m ls /\ r_num_iters (res s') = S (r_num_iters (res s)).
Proof.
  intros m C x l le like Pl Kc Df Hh Hs Ht Hn Hfi Hfl Hfn Sub Hg Hc Hd Nz T1 T2.
  destruct (active_core O P n Q q ms A b p fi fls fin s xs ls like Pl Kc Df Hh Hs Ht Hn Hfi Hfl Hfn Sub
    (local_near n Q q ms A b p like (sets s) (as_fit _ _ _ _ Hs) (mu s) le x l xs ls g (as_pos _ _ _ _ Hs) Hg (as_mu _ _ _ _ Hs) Sub Hc Hd)) as (s' & E & _ & _ & _ & _ & [Rd _] & [(X1 & X2 & _ & D)|X]).
  - exfalso. rewrite X1, X2 in Rd. pose proof (max_abs_ge _ _ _ i Rd Nz) as G. destruct D as [[_ D]|[D _]].
    + exact (Rlt_irrefl _ (Rlt_le_trans _ _ _ T2 (Rle_trans _ _ _ G D))).
    + exact (Rlt_irrefl _ (Rlt_le_trans _ _ _ T1 (D i Nz))).
  - exists s'. split; [exact E|exact X].
Qed.
