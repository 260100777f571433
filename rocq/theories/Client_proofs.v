(** The problems of Client_model answer like quadratic problems. *)
From Coq Require Import Reals List Bool Arith Lia Lra.
From Verif Require Import Scalar Cset_model Cset_spec Cset_proofs Armijo_model Problem_model Solver_model Solver_spec Lin_spec Lin_proofs Ldlt_spec Bk_spec Descent_spec Qp_spec Qp_proofs QpD_proofs
  Manifold_model Manifold_spec Manifold_proofs ManifoldR_proofs Function_model Function_spec Function_proofs FunctionE_proofs FunctionH_proofs FunctionQ_proofs Objects_model Objects_spec Objects_proofs FunctionX_proofs Client_model Client_spec.
Import ListNotations.
Local Open Scope R_scope.

Lemma tab_at {T} r (g : nat -> T) i d : (i < r)%nat -> nth i (tab r g) d = g i.
Proof.
  intros H. unfold tab. rewrite (nth_indep (map g (seq 0 r)) d (g 0%nat)) by (rewrite map_length, seq_length; exact H). rewrite map_nth, seq_nth by exact H. reflexivity.
Qed.
Lemma entries_rows r c M : mat r c M -> M = tab r (fun i => tab c (entries M i)).
Proof.
  intros [L F]. rewrite Forall_forall in F. apply (nth_ext M _ [] []); [rewrite tab_length; exact L|]. intros i Hi.
  rewrite tab_at by lia.
  assert (Lr : length (nth i M []) = c) by (apply F, nth_In; lia).
  exact (tab_self c (nth i M []) Lr).
Qed.
Lemma eye_mat n : mat n n (eye_scaled (K := RSc) 1 n).
Proof. destruct (eye_rows (K := RSc) 1 n) as [A B]. split; assumption. Qed.
Lemma eye_transp n : transp (K := RSc) n (eye_scaled (K := RSc) 1 n) = eye_scaled (K := RSc) 1 n.
Proof.
  destruct (eye_identity 1 n) as [_ E]. 
  rewrite (entries_rows n n _ (transp_mat n n _ (eye_mat n))), (entries_rows n n _ (eye_mat n)) at 1.
  unfold tab. apply map_ext_in. intros i Hi. apply in_seq in Hi. apply map_ext_in. intros j Hj. apply in_seq in Hj.
  unfold entries. rewrite nth_transp by lia.
  rewrite (nth_indep _ 0 ((fun row => nth i row 0) [])) by (rewrite map_length, (proj1 (eye_mat n)); lia). rewrite (map_nth (fun row => nth i row 0)).
  change (nth i (nth j (eye_scaled (K := RSc) 1 n) []) 0 = nth j (nth i (eye_scaled (K := RSc) 1 n) []) 0).
  rewrite !E by lia. rewrite Nat.eqb_sym. reflexivity.
Qed.
Lemma minus_zero (x : list R) n : length x = n -> map2 Rminus x (repeat 0 n) = x.
Proof. intros <-. induction x as [|a x IH]; cbn; [reflexivity|]. rewrite IH. f_equal. ring. Qed.
Lemma diff_zero n x : length x = n -> difference (K := RSc) (SVec n) (repeat 0 n) x = Ret x.
Proof. intros L. rewrite vec_diff by (rewrite ?repeat_length; auto). rewrite minus_zero by exact L. reflexivity. Qed.
Lemma plus_zero r c (Z W : list rvec) : mat r c Z -> mat r c W -> map2 (map2 Rplus) (map (map (fun _ => 0)) Z) W = W.
Proof.
  intros [LZ FZ] [LW FW]. revert r LZ W LW FW. induction Z as [|z Z IH]; intros r LZ [|w W] LW FW; cbn in *; try lia; [reflexivity|].
  inversion FZ as [|? ? Hz FZ']; subst. inversion FW as [|? ? Hw FW']; subst. f_equal; [|apply (IH FZ' (length Z)); auto; lia].
  clear - Hw. revert w Hw. induction z as [|a z IH]; intros [|b w] H; cbn in *; try lia; [reflexivity|]. rewrite IH by lia. f_equal. ring.
Qed.
Lemma mat_vec_tab r c B x : mat_vec (tab r (fun i => tab c (B i))) (tab c x) = tab r (fun i => rsum c (fun j => B i j * x j)).
Proof. unfold mat_vec, tab. rewrite map_map. apply map_ext. intros i. exact (inner_tab c (B i) x). Qed.
Lemma mat_vec_entries r c M x : mat r c M -> length x = c -> mat_vec M x = tab r (fun i => rsum c (fun j => entries M i j * nth j x 0)).
Proof. intros HM L. rewrite (entries_rows r c M HM) at 1. rewrite (tab_self c x L) at 1. apply mat_vec_tab. Qed.
Lemma mat_vec_len r c M x : mat r c M -> length (mat_vec M x) = r.
Proof. intros [L _]. unfold mat_vec. rewrite map_length. exact L. Qed.
Lemma mat_rows r c (M : list rvec) (x : rvec) : mat r c M -> length x = c -> Forall (fun row => length row = length x) M.
Proof. intros [_ F] ->. exact F. Qed.

Section Core.
  Variables (junk : nat -> nat -> R) (h : heap RSc) (n c f : nat) (W : list rvec) (s : rvec) (ca : @cache RSc).
  Hypothesis Hc : nth_error h c = Some (OQuad (K := RSc) n n f W s 0 true ca).
  Hypothesis Hf : nth_error h f = Some (ODiff (K := RSc) (SVec n) (repeat 0 n)).
  Hypothesis HW : mat n n W.
  Hypothesis Hs : length s = n.
  Hypothesis HJ : mat n n (c_J ca).

  Let hx (x : rvec) : heap RSc := update h c (set_err (K := RSc) x).
  Let E := eye_scaled (K := RSc) 1 n.
  Lemma cf : c <> f. Proof. intros ->. rewrite Hc in Hf. discriminate. Qed.
  Lemma core_call k x : length x = n -> call (K := RSc) (S (S k)) h c x = Ret (1 / 2 * inner x (mat_vec W x) + inner x s + 0, hx x).
  Proof.
    intros L. rewrite call_S, Hc. cbn [ub bind]. rewrite eval_S, Hf. cbn [ub bind]. rewrite diff_zero by exact L. cbn [bind].
    rewrite mv_ok by exact (mat_rows _ _ _ _ HW L). cbn [bind]. rewrite dot_ok by (rewrite (mat_vec_len n n W x HW); exact L). cbn [bind].
    rewrite dot_ok by exact (eq_trans L (eq_sym Hs)). cbn [bind]. reflexivity.
  Qed.
  Lemma hx_c x : nth_error (hx x) c = Some (OQuad (K := RSc) n n f W s 0 true (mkCache (K := RSc) x (c_J ca) (c_H ca))).
  Proof. unfold hx. rewrite nth_update, Nat.eqb_refl, Hc. reflexivity. Qed.
  Lemma hx_f x : nth_error (hx x) f = Some (ODiff (K := RSc) (SVec n) (repeat 0 n)).
  Proof. unfold hx. rewrite nth_update. destruct (Nat.eqb_spec f c) as [e|_]; [destruct (cf (eq_sym e))|exact Hf]. Qed.
  Lemma core_jac k x J : mat n n J -> jac (K := RSc) junk (S k) (hx x) f x J = Ret (E, hx x).
  Proof. intros MJ. rewrite jac_S, hx_f. cbn [ub bind Jdifference]. change (eye_scaled (K := RSc) (@s1 RSc) n) with E. rewrite (like_ok n n J E MJ (eye_mat n)). reflexivity. Qed.
  Lemma core_mm : mm (K := RSc) (length W) (transp (K := RSc) n E) W = Ret W.
  Proof.
    unfold E. rewrite eye_transp. destruct (mm_ok n n n _ _ (eye_mat n) HW) as (P & E1 & MP & A & _). destruct HW as [LW FW]. cbn [car RSc] in *. rewrite LW.
    refine (eq_trans E1 _). f_equal. apply (rows_eq n n); [exact MP|exact HW|]. intros w Lw. rewrite A by exact Lw. apply eye_id. apply (mat_vec_len n n). exact HW.
  Qed.
  Lemma core_grad k x g : length x = n -> length g = n -> exists h', grad (K := RSc) junk (S (S k)) (hx x) c x g = Ret (map2 Rplus (mat_vec W x) s, h').
  Proof.
    intros L Lg. eexists. rewrite grad_S, hx_c. cbn [ub bind c_J c_err]. rewrite core_jac by exact HJ. cbn [bind]. pose proof core_mm as EM; cbn [car RSc] in *; rewrite EM. cbn [bind].
    rewrite mv_ok by exact (mat_rows _ _ _ _ HW L). cbn [bind]. rewrite fixed_ok by (rewrite (mat_vec_len n n W x HW); exact (eq_sym Lg)). cbn [bind].
    unfold E. rewrite eye_transp. rewrite mv_ok by exact (mat_rows _ _ _ _ (eye_mat n) Hs). cbn [bind]. rewrite eye_id by exact Hs.
    rewrite vop_ok by (rewrite (mat_vec_len n n W x HW); exact (eq_sym Hs)). cbn [bind]. reflexivity.
  Qed.
  Lemma core_hess k x H : length x = n -> mat n n H -> exists h', hess (K := RSc) junk (S (S k)) (hx x) c x H = Ret (W, h').
  Proof.
    intros L MH. eexists. rewrite hess_S, hx_c. cbn [ub bind c_J c_err]. rewrite mv_ok by exact (mat_rows _ _ _ _ HW L). cbn [bind].
    rewrite vop_ok by (rewrite (mat_vec_len n n W x HW); exact (eq_sym Hs)). cbn [bind].
    rewrite core_jac by (apply FunctionH_proofs.zero_mat; exact HJ). cbn [bind]. pose proof core_mm as EM; cbn [car RSc] in *; rewrite EM. cbn [bind].
    destruct (mm_ok n n n _ _ HW (eye_mat n)) as (P & E1 & MP & A & _).
    assert (EP : P = W). { apply (rows_eq n n); [exact MP|exact HW|]. intros w Lw. rewrite A by exact Lw. rewrite eye_id by exact Lw. reflexivity. }
    subst P. fold E in E1. cbn [car RSc] in *. rewrite E1. cbn [bind]. rewrite (mop_ok _ n n _ _ (FunctionH_proofs.zero_mat n n H MH) HW). cbn [bind]. 
    change (map2 (map2 (@sadd RSc)) (map (map (fun _ => 0)) H) W) with (map2 (map2 Rplus) (map (map (fun _ => 0)) H) W). rewrite (plus_zero n n H W MH HW). reflexivity.
  Qed.
End Core.

(** Blocks of constraints. *)
Lemma map2_tab_plus m u v : map2 Rplus (tab m u) (tab m v) = tab m (fun i => u i + v i).
Proof. unfold tab. induction (seq 0 m) as [|a l IH]; cbn; [reflexivity|]. rewrite IH. reflexivity. Qed.
Lemma seq_tab {T} off m (g : nat -> T) : map g (seq off m) = tab m (fun i => g (off + i)%nat).
Proof. unfold tab. revert off g. induction m as [|m IH]; intros off g; cbn; [reflexivity|]. f_equal; [f_equal; lia|]. rewrite <- (seq_shift m 0), map_map, IH. unfold tab. apply map_ext. intros. f_equal. lia. Qed.
Lemma zeros_tab n : map (map (fun _ : R => 0)) (repeat (repeat 0 n) n) = tab n (fun _ => tab n (fun _ => 0)).
Proof.
  assert (H : forall T U (g : T -> U) a m, map g (repeat a m) = tab m (fun _ => g a)).
  { intros T U g a m. unfold tab. generalize 0%nat. induction m as [|m IH]; intros k; cbn; [reflexivity|]. f_equal. apply IH. }
  rewrite H. unfold tab at 1 2. apply map_ext. intros. apply H.
Qed.
Lemma tab_ext_T {T} n (f g : nat -> T) : (forall i, (i < n)%nat -> f i = g i) -> tab n f = tab n g.
Proof. intros H. unfold tab. apply map_ext_in. intros i Hi. apply in_seq in Hi. apply H. lia. Qed.
Lemma blocks_like junk h n k Af bf : forall bl cs off, Forall (block_ok n) bl ->
  Forall2 (fun c ab => nth_error h (fst c) = Some (OLinear (K := RSc) n (fst ab) (snd ab)) /\ snd c = length (fst ab)) cs bl ->
  (forall i j, (i < length (concat (map fst bl)))%nat -> (j < n)%nat -> Af (off + i)%nat j = entries (concat (map fst bl)) i j) ->
  (forall i, (i < length (concat (map fst bl)))%nat -> bf (off + i)%nat = - nth i (concat (map snd bl)) 0) ->
  Forall2 (fun f f' => f_nr f = f_nr f' /\ forall x, length x = n -> f_val f x = f_val f' x /\ f_jac f x = f_jac f' x /\ forall l, f_vhp f x l = f_vhp f' x l)
    (map (memoryless_fun junk (S k) n h) cs) (qp_cons n Af bf off (map (fun ab => length (fst ab)) bl)).
Proof.
  induction bl as [|[A b] bl IH]; intros cs off OK F HA Hb; inversion F as [|[c nr] ? cs' ? [Hc Hn] F']; subst; cbn [map qp_cons concat fst snd] in *; constructor.
  - inversion OK as [|? ? [MA Lb] OK']; subst. cbn [fst snd] in *. split; [reflexivity|]. cbn [memoryless_fun f_val f_jac f_vhp fst snd]. intros x L.
    assert (EA : forall i j, (i < length A)%nat -> (j < n)%nat -> Af (off + i)%nat j = entries A i j).
    { intros i j Hi Hj. rewrite HA by (rewrite ?app_length; lia). unfold entries. rewrite app_nth1 by exact Hi. reflexivity. }
    assert (Eb : forall i, (i < length A)%nat -> bf (off + i)%nat = - nth i b 0).
    { intros i Hi. rewrite Hb by (rewrite app_length; lia). rewrite app_nth1 by (cbn [car RSc] in *; lia). reflexivity. }
    assert (EV : eval (K := RSc) (S k) h c x = Ret (map2 Rplus (mat_vec A x) b, h)).
    { rewrite eval_S, Hc. cbn [ub bind]. rewrite mv_ok by exact (mat_rows _ _ _ _ MA L). cbn [bind]. rewrite vop_ok by (rewrite (mat_vec_len _ n A x MA); exact (eq_sym Lb)). reflexivity. }
    rewrite EV. cbn [bind got]. split; [|split].
    + f_equal. rewrite (mat_vec_entries _ n A x MA L). rewrite (tab_self (length A) b Lb) at 1. rewrite map2_tab_plus, seq_tab. apply tab_ext. intros i Hi. unfold qp_con.
      rewrite Eb by exact Hi. rewrite (rsum_ext n (fun j => Af (off + i)%nat j * nth j x 0) (fun j => entries A i j * nth j x 0)) by (intros j Hj; rewrite EA by assumption; reflexivity). cbn [car RSc] in *. lra.
    + rewrite jac_S, Hc. cbn [ub bind]. pose proof (like_ok (length A) n _ A (zero_mat _ _) MA) as EL. cbn [car RSc] in *. rewrite EL. cbn [bind got]. f_equal. rewrite seq_tab. rewrite (entries_rows _ n A MA) at 1.
      apply tab_ext_T. intros i Hi. apply tab_ext_T. intros j Hj. symmetry. apply EA; assumption.
    + intros l. rewrite vhp_S, Hc. cbn [ub bind got]. f_equal. apply zeros_tab.
  - inversion OK; subst. apply IH; [assumption|assumption| |].
    + intros i j Hi Hj. replace (off + length A + i)%nat with (off + (length A + i))%nat by lia. rewrite HA by (rewrite ?app_length; lia).
      unfold entries. rewrite app_nth2 by lia. f_equal. f_equal. lia.
    + intros i Hi. match goal with X : block_ok _ _ |- _ => destruct X as [_ Lb]; cbn [fst snd] in Lb end. replace (off + length A + i)%nat with (off + (length A + i))%nat by lia. rewrite Hb by (rewrite app_length; lia).
      rewrite app_nth2 by (cbn [car RSc] in *; lia). f_equal. f_equal. cbn [car RSc] in *. lia.
Qed.

Lemma quad_form n W x : mat n n W -> length x = n -> inner x (mat_vec W x) = rsum n (fun i => rsum n (fun j => nth i x 0 * entries W i j * nth j x 0)).
Proof.
  intros MW L. rewrite (mat_vec_entries n n W x MW L). rewrite (tab_self n x L) at 1. rewrite inner_tab. apply rsum_ext. intros i Hi. rewrite <- rsum_scale. apply rsum_ext. intros; ring.
Qed.
Lemma inner_sum n s x : length s = n -> length x = n -> inner s x = rsum n (fun i => nth i s 0 * nth i x 0).
Proof. intros Ls L. rewrite (tab_self n s Ls), (tab_self n x L) at 1. apply inner_tab. Qed.
Lemma objects_like junk h n k p bl W s f ca :
  op_ndx p = n -> nth_error h (op_cost p) = Some (OQuad (K := RSc) n n f W s 0 true ca) -> nth_error h f = Some (ODiff (K := RSc) (SVec n) (repeat 0 n)) ->
  mat n n W -> length s = n -> mat n n (c_J ca) -> Forall (block_ok n) bl ->
  Forall2 (fun c ab => nth_error h (fst c) = Some (OLinear (K := RSc) n (fst ab) (snd ab)) /\ snd c = length (fst ab)) (op_cons p) bl ->
  answers_like n (memoryless junk (S (S k)) h p)
    (qp n (entries W) (fun i => nth i s 0) (map (fun ab => length (fst ab)) bl) (entries (concat (map fst bl))) (fun i => - nth i (concat (map snd bl)) 0)).
Proof.
  intros Hn Hc Hf MW Ls MJ OK F. split; [exact Hn|]. split.
  - intros x L. cbn [memoryless qp p_cost p_grad p_hess]. rewrite Hn. rewrite (core_call h n (op_cost p) f W s ca Hc Hf MW Ls k x L). cbn [bind got]. split; [|split].
    + f_equal. unfold qp_obj. rewrite (quad_form n W x MW L). rewrite (inner_comm x s), (inner_sum n s x Ls L). cbn [car RSc] in *. lra.
    + destruct (core_grad junk h n (op_cost p) f W s ca Hc Hf MW Ls MJ k x (repeat 0 n) L (repeat_length _ _)) as (h' & E). rewrite E. cbn [got]. f_equal.
      rewrite (mat_vec_entries n n W x MW L). rewrite (tab_self n s Ls) at 1. apply map2_tab_plus.
    + destruct (core_hess junk h n (op_cost p) f W s ca Hc Hf MW Ls MJ k x (repeat (repeat 0 n) n) L (zero_mat _ _)) as (h' & E). rewrite E. cbn [got]. f_equal. apply entries_rows. exact MW.
  - cbn [memoryless qp p_cons]. rewrite Hn. apply blocks_like; auto.
Qed.
(** Construction *)
Definition made (h : heap RSc) (n : nat) (p : @oproblem) (Q : list rvec) (q : rvec) (bl : list (list rvec * rvec)) : Prop := exists f,
  op_ndx p = n /\ nth_error h (op_cost p) = Some (OQuad (K := RSc) n n f Q q 0 true (mkCache (K := RSc) (repeat 0 n) (zeros (K := RSc) n n) (zeros (K := RSc) n n))) /\
  nth_error h f = Some (ODiff (K := RSc) (SVec n) (repeat 0 n)) /\
  Forall2 (fun c ab => nth_error h (fst c) = Some (OLinear (K := RSc) n (fst ab) (snd ab)) /\ snd c = length (fst ab)) (op_cons p) bl.
Lemma zeros_mat r c : mat r c (zeros (K := RSc) r c).
Proof. exact (zero_mat r c). Qed.
Lemma made_like junk h n p Q q bl k : made h n p Q q bl -> mat n n Q -> length q = n -> Forall (block_ok n) bl -> (2 <= k)%nat ->
  answers_like n (memoryless junk k h p) (blocks_qp n Q q bl).
Proof.
  intros (f & En & Ec & Ef & F) MQ Lq OK Hk. destruct k as [|[|k]]; [lia|lia|]. exact (objects_like junk h n k p bl Q q f _ En Ec Ef MQ Lq (zeros_mat n n) OK F).
Qed.
Lemma made_represents h n p Q q bl : made h n p Q q bl -> exists e, represents (SVec n) h p e (map (fun ab => XBase (OLinear (K := RSc) n (fst ab) (snd ab))) bl) /\
  (mat n n Q -> length q = n -> symmetric Q -> Forall (block_ok n) bl -> forall D x, length x = n -> regular D (SVec n) e (map (fun ab => XBase (OLinear (K := RSc) n (fst ab) (snd ab))) bl) x).
Proof.
  intros (f & En & Ec & Ef & F). exists (XQuad (op_cost p) Q q 0 (XBase (ODiff (K := RSc) (SVec n) (repeat 0 n)))). split.
  - split; [exact En|]. split; [exact I|]. split; [|split].
    + split; [reflexivity|]. exists f, true. eexists. split; [exact Ec|]. split; [apply zeros_mat|]. split; [apply zeros_mat|]. split; [exact Ef|exact I].
    + left. left. unfold gn_flag. rewrite Ec. reflexivity.
    + clear - F. induction F as [|c ab cs bl [A B] F IH]; cbn [map]; constructor; [|exact IH]. split; [split; [exact A|exact I]|]. split; [exact B|left; exact I].
  - intros MQ Lq SQ OK D x Lx. split; [|split; [|split]].
    + split; [reflexivity|]. split; [exact MQ|]. split; [exact SQ|]. split; [exact Lq|]. split; [reflexivity|]. split; [reflexivity|]. split; [exact I|]. split; [exact I|]. split; [exact I|]. split; [apply repeat_length|exact Lx].
    + clear - OK Lx. induction OK as [|[A b] bl [MA Lb] OK IH]; cbn [map]; constructor; [|exact IH]. split; [reflexivity|]. split; [exact Lx|]. split; [exact MA|]. split; [exact Lb|exact I].
    + assert (Z : flat_map (fun f => visits f x) (map (fun ab => XBase (OLinear (K := RSc) n (fst ab) (snd ab))) bl) = []) by (clear; induction bl; auto). rewrite Z.
      rewrite app_nil_r. cbn [visits app]. intros a u v Hu Hv. destruct (sem _ x); [|contradiction..]. destruct Hu as [Hu|[]], Hv as [Hv|[]]. congruence.
    + apply flat_paths; [exact I|exact Lx].
Qed.
Lemma pure_alike n p p' cs : answers_like n p p' -> Forall (fun c => length (call_point c) = n) cs -> forall b, pure_run p b cs = pure_run p' b cs.
Proof.
  intros L. induction 1 as [|c cs Hc _ IH]; intros b; cbn [pure_run]; [reflexivity|].
  assert (E : pure_step p b c = pure_step p' b c).
  { destruct c; cbn [pure_step call_point] in *; [rewrite (alike_eval n p p' L) by exact Hc|rewrite (alike_derivs n p p' L) by exact Hc|rewrite (alike_hess n p p' L) by exact Hc]; reflexivity. }
  rewrite E. destruct (pure_step p' b c); cbn; auto.
Qed.
Lemma made_requests junk h n p Q q bl : made h n p Q q bl -> mat n n Q -> length q = n -> symmetric Q -> Forall (block_ok n) bl ->
  exists N, forall k, (N <= k)%nat -> forall cs b, ordered None cs -> Forall (fun c => length (call_point c) = n /\ call_lams c (map (fun ab => length (fst ab)) bl)) cs ->
    sized_buffers n (map (fun ab => length (fst ab)) bl) b -> exists b' h', obj_run (K := RSc) junk k p h b cs = Ret (b', h') /\ pure_run (blocks_qp n Q q bl) b cs = Ret b'.
Proof.
  intros M MQ Lq SQ OK. destruct (made_represents h n p Q q bl M) as (e & Rep & Reg).
  destruct (objects_memoryless junk {| d_pt := fun _ _ => True; d_tg := fun _ _ => True; d_near := fun _ _ _ => True |} _ _ _ _ _ Rep) as (N & H).
  exists (N + 2)%nat. intros k Hk cs b Ho Hc Hb.
  assert (Es : map snd (op_cons p) = map (fun ab => length (fst ab)) bl).
  { destruct M as (_ & _ & _ & _ & F). clear - F. induction F as [|c ab cs bl [_ E] F IH]; cbn [map]; [reflexivity|]. rewrite IH. f_equal. exact E. }
  rewrite <- Es in *. destruct (H k ltac:(lia) cs b Ho) as (b' & h' & E1 & E2).
  - eapply Forall_impl; [|exact Hc]. intros c [A B]. split; [apply Reg; auto|exact B].
  - exact Hb.
  - exists b', h'. split; [exact E1|]. rewrite <- E2. symmetry. apply (pure_alike n); [apply made_like; auto; lia|].
    eapply Forall_impl; [|exact Hc]. intros c [A _]. exact A.
Qed.

Lemma new_linears_eq n : forall bl (h : heap RSc), new_linears h n bl = (h ++ map (fun ab => OLinear (K := RSc) n (fst ab) (snd ab)) bl, seq (length h) (length bl)).
Proof.
  induction bl as [|[A b] bl IH]; intros h; cbn [new_linears]; [cbn; now rewrite app_nil_r|]. unfold new_linear, new. rewrite IH. rewrite app_length. cbn [length map seq fst snd].
  rewrite <- app_assoc, Nat.add_1_r. reflexivity.
Qed.
Lemma sizes_linears n h : forall cs bl, Forall2 (fun c ab => nth_error h c = Some (OLinear (K := RSc) n (fst ab) (snd ab))) cs bl ->
  exists l, cons_sizes (K := RSc) h cs = Ret l /\ Forall2 (fun c ab => nth_error h (fst c) = Some (OLinear (K := RSc) n (fst ab) (snd ab)) /\ snd c = length (fst ab)) l bl.
Proof.
  induction 1 as [|c ab cs bl Hc F (l & E & H)]; [exists []; split; [reflexivity|constructor]|]. exists ((c, length (fst ab)) :: l). split.
  - cbn [cons_sizes]. unfold dims_at. rewrite Hc. cbn [ub bind dims]. rewrite E. reflexivity.
  - constructor; [split; [exact Hc|reflexivity]|exact H].
Qed.
Lemma linears_at n : forall bl (g : heap RSc), Forall2 (fun c ab => nth_error (g ++ map (fun ab => OLinear (K := RSc) n (fst ab) (snd ab)) bl) c = Some (OLinear (K := RSc) n (fst ab) (snd ab))) (seq (length g) (length bl)) bl.
Proof.
  induction bl as [|ab bl IH]; intros g; cbn [length seq map]; constructor.
  - rewrite nth_error_app2, Nat.sub_diag by lia. reflexivity.
  - specialize (IH (g ++ [OLinear (K := RSc) n (fst ab) (snd ab)])). rewrite app_length, <- app_assoc, Nat.add_1_r in IH. exact IH.
Qed.
Lemma sloped_made h n Q q bl : exists h' p, sloped_qp (K := RSc) h n Q q bl = Ret (h', p) /\ made h' n p Q q bl.
Proof.
  unfold sloped_qp, new_diff. cbn [is_normalized bind new]. unfold new_quad, dims_at, new. cbn [neutral].
  rewrite nth_error_app2, Nat.sub_diag by lia. cbn [nth_error ub bind dims nx ndx]. rewrite new_linears_eq.
  set (hh := (_ ++ _) ++ map _ bl).
  assert (E0 : nth_error hh (length h) = Some (ODiff (K := RSc) (SVec n) (repeat 0 n))).
  { unfold hh. rewrite <- !app_assoc. rewrite nth_error_app2, Nat.sub_diag by lia. reflexivity. }
  assert (E1 : exists ca, nth_error hh (length (h ++ [ODiff (K := RSc) (SVec n) (repeat 0 n)])) = Some (OQuad (K := RSc) n n (length h) Q q 0 true ca) /\ ca = mkCache (K := RSc) (repeat 0 n) (zeros (K := RSc) n n) (zeros (K := RSc) n n)).
  { eexists. split; [|reflexivity]. unfold hh. rewrite <- app_assoc. rewrite nth_error_app2, Nat.sub_diag by apply Nat.le_refl. reflexivity. }
  destruct E1 as (ca & E1 & Eca). subst ca.
  edestruct (sizes_linears n hh) as (l & El & F); [|unfold new_problem; rewrite El; cbn [bind]; do 2 eexists; split; [reflexivity|]; exists (length h); repeat split; cbn [op_ndx op_cost op_cons ndx]; [exact E1|exact E0|exact F]].
  unfold hh. apply linears_at.
Qed.
Lemma equality_made h n (has : bool) Q A b : exists h' p, equality_qp (K := RSc) h n has Q A b = Ret (h', p) /\ made h' n p Q (repeat 0 n) (if has then [(A, b)] else []).
Proof.
  unfold equality_qp, new_linear, new, new_distance, new_diff. cbn [is_normalized bind new]. unfold new_quad, dims_at, new. cbn [neutral].
  rewrite nth_error_app2, Nat.sub_diag by lia. cbn [nth_error ub bind dims nx ndx].
  set (hh := (_ ++ _) ++ _).
  assert (E0 : nth_error hh (length h) = Some (OLinear (K := RSc) n A b)).
  { unfold hh. rewrite <- !app_assoc. rewrite nth_error_app2, Nat.sub_diag by lia. reflexivity. }
  assert (E1 : nth_error hh (length (h ++ [OLinear (K := RSc) n A b])) = Some (ODiff (K := RSc) (SVec n) (repeat 0 n))).
  { unfold hh. rewrite <- app_assoc. rewrite nth_error_app2, Nat.sub_diag by apply Nat.le_refl. reflexivity. }
  assert (E2 : nth_error hh (length ((h ++ [OLinear (K := RSc) n A b]) ++ [ODiff (K := RSc) (SVec n) (repeat 0 n)])) =
               Some (OQuad (K := RSc) n n (length (h ++ [OLinear (K := RSc) n A b])) Q (repeat 0 n) 0 true (mkCache (K := RSc) (repeat 0 n) (zeros (K := RSc) n n) (zeros (K := RSc) n n)))).
  { unfold hh. rewrite nth_error_app2, Nat.sub_diag by apply Nat.le_refl. reflexivity. }
  unfold ref in *. edestruct (sizes_linears n hh (if has then [length h] else []) (if has then [(A, b)] else [])) as (l & El & F); [|unfold new_problem; rewrite El; cbn [bind]; do 2 eexists; split; [reflexivity|]; eexists; repeat split; cbn [op_ndx op_cost op_cons ndx]; [exact E2|exact E1|exact F]].
  destruct has; [|constructor]. constructor; [exact E0|constructor].
Qed.
