(** Lemmas on the history callback. *)
From Coq Require Import List Bool Arith Lia.
From Verif Require Import Scalar Problem_model Solver_model SolverX_proofs Hist_model.
Import ListNotations.

Section Proofs.
  Context {K : Sc}.
  Notation vec := (list (car K)).
  Lemma mapped_all strict (v : vec) n : n <= length v -> (strict = true -> v <> []) -> mapped strict v n = Ret (firstn n v).
  Proof.
    intros L S. unfold mapped. assert (E : strict && Nat.eqb (length v) 0 = false).
    { destruct strict; [|reflexivity]. cbn. destruct v; [exfalso; apply S; reflexivity|reflexivity]. }
    rewrite E. destruct (Nat.ltb_spec (length v) n); [lia|reflexivity].
  Qed.
  Lemma calls_ok strict o dims (l : list (@ls_data K * @results K)) : forall h, Forall (fun wr => length (ws_alphas (fst wr)) <= length (ws_values (fst wr)) /\ (strict = true -> ws_alphas (fst wr) <> [])) l ->
    exists h', hist_calls strict o dims h l = Ret h' /\
      h_xs h' = h_xs h ++ (if store_pd o then map (fun wr => r_x (snd wr)) l else []) /\
      h_lams h' = h_lams h ++ (if store_pd o then map (fun wr => r_lams (snd wr)) l else []) /\
      h_views h' = h_views h ++ (if store_pd o then map (fun _ => views 0 dims) l else []) /\
      h_values h' = h_values h ++ (if store_val o then map (fun wr => r_value (snd wr)) l else []) /\
      h_prim h' = h_prim h ++ (if store_resid o then map (fun wr => r_prim_infeas (snd wr)) l else []) /\
      h_dual h' = h_dual h ++ (if store_resid o then map (fun wr => r_dual_infeas (snd wr)) l else []) /\
      h_ls_alphas h' = h_ls_alphas h ++ map (fun wr => ws_alphas (fst wr)) l /\
      h_ls_values h' = h_ls_values h ++ map (fun wr => firstn (length (ws_alphas (fst wr))) (ws_values (fst wr))) l /\
      h_alphas h' = h_alphas h ++ map (fun wr => ws_alpha_opt (fst wr)) l /\
      h_dmerit h' = h_dmerit h ++ map (fun wr => ws_dmerit (fst wr)) l.
  Proof.
    induction l as [|[w r] l IH]; intros h F.
    - exists h. split; [reflexivity|]. cbn. destruct (store_pd o), (store_val o), (store_resid o); rewrite ?app_nil_r; repeat split.
    - inversion F as [|? ? [L S] F']; subst. cbn [fst] in L, S. cbn [hist_calls]. unfold hist_call.
      rewrite (mapped_all strict (ws_alphas w) _ (Nat.le_refl _) S). rewrite (mapped_all strict (ws_values w) _ L).
      2: { intros E X. apply (S E). rewrite X in L. destruct (ws_alphas w); [reflexivity|cbn in L; lia]. }
      cbn [bind]. rewrite firstn_all. match goal with |- context[hist_calls strict o dims ?h1 l] => destruct (IH h1 F') as (h' & E & H) end. exists h'. split; [exact E|]. cbn [map fst snd].
      destruct (store_pd o), (store_val o), (store_resid o); cbn [h_xs h_lams h_views h_values h_prim h_dual h_ls_alphas h_ls_values h_alphas h_dmerit] in H; rewrite <- ?app_assoc in H; exact H.
  Qed.
  Lemma strict_ub o dims (h : @hist K) al dm r : hist_call true o dims h (solver_ls al dm) r = UB.
  Proof. reflexivity. Qed.
  Lemma seen_by_app cb (a b : list (@event K)) : seen_by cb (a ++ b) = seen_by cb a ++ seen_by cb b.
  Proof. unfold seen_by. rewrite filter_app, map_app. reflexivity. Qed.
  Lemma seen_round cb cbs (r : @results K) : count_occ Nat.eq_dec cbs cb = 1 -> seen_by cb (map (fun c => mkEvent c r) cbs) = [r].
  Proof.
    unfold seen_by. assert (Z : forall l, count_occ Nat.eq_dec l cb = 0 -> filter (fun e => Nat.eqb (ev_cb e) cb) (map (fun c => mkEvent c r) l) = []).
    { induction l as [|c l IH]; [reflexivity|]. cbn. destruct (Nat.eq_dec c cb) as [->|N]; [discriminate|]. intros E. destruct (Nat.eqb_spec c cb); [contradiction|]. apply IH, E. }
    induction cbs as [|c l IH]; [discriminate|]. cbn. destruct (Nat.eq_dec c cb) as [->|N]; intros E.
    - rewrite Nat.eqb_refl. cbn. rewrite Z by (injection E; auto). reflexivity.
    - destruct (Nat.eqb_spec c cb); [contradiction|]. apply IH, E.
  Qed.
  Lemma seen_rounds cb cbs (l : list (@results K)) : count_occ Nat.eq_dec cbs cb = 1 -> seen_by cb (flat_map (fun r => map (fun c => mkEvent c r) cbs) l) = l.
  Proof. intros H. induction l as [|r l IH]; [reflexivity|]. cbn [flat_map]. rewrite seen_by_app, seen_round, IH by exact H. reflexivity. Qed.
  Lemma views_shift dims : forall s, views s dims = map (fun a => (s + fst a, snd a)) (views 0 dims).
  Proof.
    assert (G : forall s t, views (s + t) dims = map (fun a => (s + fst a, snd a)) (views t dims)); [|intros s; rewrite <- G, Nat.add_0_r; reflexivity].
    induction dims as [|d r IH]; intros s t; [reflexivity|]. cbn. f_equal. rewrite <- Nat.add_assoc. apply IH.
  Qed.
  Lemma seen_concat dims : forall buf : vec, length buf = list_sum dims -> concat (seen buf (views 0 dims)) = buf.
  Proof.
    induction dims as [|d r IH]; intros buf L; cbn [views seen map concat].
    - destruct buf; [reflexivity|discriminate L].
    - cbn [fst snd skipn]. rewrite Nat.add_0_l, views_shift. change (list_sum (d :: r)) with (d + list_sum r) in L. fold (seen buf (map (fun a => (d + fst a, snd a)) (views 0 r))).
      assert (E : seen buf (map (fun a => (d + fst a, snd a)) (views 0 r)) = seen (skipn d buf) (views 0 r)).
      { unfold seen. rewrite map_map. apply map_ext. intros [s n]. cbn. f_equal. clear. revert buf. induction d as [|d IHd]; intros buf; [reflexivity|]. destruct buf as [|b buf]; [destruct s; reflexivity|]. apply IHd. }
      rewrite E, IH; [apply firstn_skipn|]. rewrite skipn_length. lia.
  Qed.
End Proofs.
Lemma nth_error_last {A} (l : list A) x : nth_error (l ++ [x]) (length l) = Some x.
Proof. rewrite nth_error_app2, Nat.sub_diag by lia. reflexivity. Qed.
Lemma history_of_run : forall (K : Sc) (O : oracles K) fo fi fls fin P p (s : solver_state O) x0 lams0 s' f cb steps o dims,
  run_solve O fo fi fls fin P p (Some s) x0 lams0 = Ret (s', f) ->
  s_events _ _ s = [] -> count_occ Nat.eq_dec (callbacks P) cb = 1 ->
  length steps = S (r_num_iters (res s')) ->
  store_pd o = true -> store_val o = true -> store_resid o = true ->
  exists h rs,
    hist_calls false o dims hist_new (combine (map (fun a => solver_ls (fst a) (snd a)) steps) (seen_by cb (s_events _ _ s'))) = Ret h /\
    length rs = S (r_num_iters (res s')) /\
    (forall k r, k < r_num_iters (res s') -> nth_error rs k = Some r -> r_num_iters r = k) /\
    nth_error rs (r_num_iters (res s')) = Some (res s') /\
    h_xs h = map r_x rs /\ h_lams h = map r_lams rs /\ h_values h = map r_value rs /\
    h_prim h = map r_prim_infeas rs /\ h_dual h = map r_dual_infeas rs /\
    h_alphas h = map fst steps /\ h_dmerit h = map snd steps.
Proof.
  intros K O fo fi fls fin P p s x0 lams0 s' f cb steps o dims R E C L F1 F2 F3.
  destruct (callback_rounds _ _ _ _ _ _ _ _ _ _ _ _ _ R) as (l & Ev & Ln & N). rewrite E in Ev. cbn [app] in Ev.
  rewrite Ev, (seen_rounds cb (callbacks P) (l ++ [res s']) C).
  set (rs := l ++ [res s']). set (ws := map _ steps). assert (Lr : length rs = S (r_num_iters (res s'))) by (unfold rs; rewrite app_length; cbn; lia).
  destruct (calls_ok false o dims (combine ws rs) hist_new) as (h & Hc & H).
  { apply Forall_forall. intros [w r] I. apply in_combine_l in I. unfold ws in I. apply in_map_iff in I as (a & <- & _). cbn. split; [lia|discriminate]. }
  exists h, rs. split; [exact Hc|]. split; [exact Lr|]. split.
  { intros k r Hk Hr. unfold rs in Hr. rewrite nth_error_app1 in Hr by lia. apply N, Hr. }
  split; [unfold rs; rewrite <- Ln; apply nth_error_last|].
  rewrite F1, F2, F3 in H. cbn [hist_new h_xs h_lams h_views h_values h_prim h_dual h_ls_alphas h_ls_values h_alphas h_dmerit app] in H.
  destruct H as (H1 & H2 & _ & H4 & H5 & H6 & _ & _ & H9 & H10).
  assert (Lw : length ws = length rs) by (unfold ws; rewrite map_length; congruence).
  assert (G : forall A (g : @results K -> A) (a : list (@ls_data K)) (b : list (@results K)), length a = length b -> map (fun wr => g (snd wr)) (combine a b) = map g b).
  { intros A g. induction a as [|x a IH]; intros [|y b] e; try discriminate; [reflexivity|]. cbn in *. f_equal. apply IH. lia. }
  assert (G' : forall A (g : @ls_data K -> A) (a : list (@ls_data K)) (b : list (@results K)), length a = length b -> map (fun wr => g (fst wr)) (combine a b) = map g a).
  { intros A g. induction a as [|x a IH]; intros [|y b] e; try discriminate; [reflexivity|]. cbn in *. f_equal. apply IH. lia. }
  rewrite (G _ (@r_x K)), (G _ (@r_lams K)), (G _ (@r_value K)), (G _ (@r_prim_infeas K)), (G _ (@r_dual_infeas K)), (G' _ ws_alpha_opt), (G' _ ws_dmerit) in * by exact Lw.
  unfold ws in H9, H10. rewrite map_map in H9, H10. cbn in H9, H10. repeat split; assumption.
Qed.
Lemma views_alias : forall (K : Sc) strict o dims (l : list (@ls_data K * results)) h (buf : list (car K)),
  hist_calls strict o dims hist_new l = Ret h -> length buf = list_sum dims ->
  Forall (fun wr => length (ws_alphas (fst wr)) <= length (ws_values (fst wr)) /\ (strict = true -> ws_alphas (fst wr) <> [])) l ->
  Forall (fun v => concat (seen buf v) = buf) (h_views h).
Proof.
  intros K strict o dims l h buf Hc L F. destruct (calls_ok strict o dims l hist_new F) as (h' & E & _ & _ & V & _). rewrite Hc in E. injection E as <-. rewrite V. cbn [hist_new h_views app].
  destruct (store_pd o); [|constructor]. apply Forall_forall. intros v I. apply in_map_iff in I as (_ & <- & _). apply seen_concat, L.
Qed.
Lemma call_bounds {K : Sc} o dims (h : @hist K) w r : hist_call false o dims h w r = UB <-> length (ws_values w) < length (ws_alphas w).
Proof.
  unfold hist_call, mapped. cbn [andb]. destruct (Nat.ltb_spec (length (ws_alphas w)) (length (ws_alphas w))); [lia|]. cbn [bind].
  destruct (Nat.ltb_spec (length (ws_values w)) (length (ws_alphas w))); cbn [bind]; split; intros X; try lia; try reflexivity; discriminate X.
Qed.
