(** The objects built by examples/circle.cpp pose the problem of projecting a point on a disk. *)
From Coq Require Import Reals List Bool Arith Lia Lra.
From Verif Require Import Scalar Cset_model Cset_spec Cset_proofs Armijo_model Problem_model Solver_model Solver_spec Lin_spec Lin_proofs Ldlt_spec Bk_spec Descent_spec Qp_spec Qp_proofs QpD_proofs
  Manifold_model Manifold_spec Manifold_proofs ManifoldR_proofs Function_model Function_spec Function_proofs FunctionE_proofs FunctionH_proofs FunctionQ_proofs Objects_model Objects_spec Objects_proofs FunctionX_proofs Client_model Client_spec Client_proofs Disk_spec.
Import ListNotations.
Local Open Scope R_scope.

Section Core.
  Variables (junk : nat -> nat -> R) (h : heap RSc) (n c f : nat) (W : list rvec) (s t : rvec) (c0 : R) (ca : @cache RSc).
  Hypothesis Hc : nth_error h c = Some (OQuad (K := RSc) n n f W s c0 true ca).
  Hypothesis Hf : nth_error h f = Some (ODiff (K := RSc) (SVec n) t).
  Hypothesis HW : mat n n W.
  Hypothesis Hs : length s = n.
  Hypothesis Ht : length t = n.
  Hypothesis HJ : mat n n (c_J ca).

  Let hx (e : rvec) : heap RSc := update h c (set_err (K := RSc) e).
  Let E := eye_scaled (K := RSc) 1 n.
  Lemma dcf : c <> f. Proof. intros ->. rewrite Hc in Hf. discriminate. Qed.
  Lemma err_len x : length x = n -> length (map2 Rminus x t) = n.
  Proof. intros L. rewrite map2_length. cbn [car RSc] in *. lia. Qed.
  Lemma disk_call k x : length x = n -> let e := map2 Rminus x t in
    call (K := RSc) (S (S k)) h c x = Ret (1 / 2 * inner e (mat_vec W e) + inner e s + c0, hx e).
  Proof.
    intros L e. pose proof (err_len x L) as Le. fold e in Le.
    rewrite call_S, Hc. cbn [ub bind]. rewrite eval_S, Hf. cbn [ub bind]. rewrite vec_diff by assumption. cbn [bind]. fold e.
    rewrite mv_ok by exact (mat_rows _ _ _ _ HW Le). cbn [bind]. rewrite dot_ok by (rewrite (mat_vec_len n n W e HW); exact Le). cbn [bind].
    rewrite dot_ok by exact (eq_trans Le (eq_sym Hs)). cbn [bind]. reflexivity.
  Qed.
  Lemma dhx_c x : nth_error (hx x) c = Some (OQuad (K := RSc) n n f W s c0 true (mkCache (K := RSc) x (c_J ca) (c_H ca))).
  Proof. unfold hx. rewrite nth_update, Nat.eqb_refl, Hc. reflexivity. Qed.
  Lemma dhx_f x : nth_error (hx x) f = Some (ODiff (K := RSc) (SVec n) t).
  Proof. unfold hx. rewrite nth_update. destruct (Nat.eqb_spec f c) as [e|_]; [destruct (dcf (eq_sym e))|exact Hf]. Qed.
  Lemma disk_jac k e x J : mat n n J -> jac (K := RSc) junk (S k) (hx e) f x J = Ret (E, hx e).
  Proof. intros MJ. rewrite jac_S, dhx_f. cbn [ub bind Jdifference]. change (eye_scaled (K := RSc) (@s1 RSc) n) with E. rewrite (like_ok n n J E MJ (eye_mat n)). reflexivity. Qed.
  Lemma disk_grad k e x g : length e = n -> length g = n -> exists h', grad (K := RSc) junk (S (S k)) (hx e) c x g = Ret (map2 Rplus (mat_vec W e) s, h').
  Proof.
    intros L Lg. eexists. rewrite grad_S, dhx_c. cbn [ub bind c_J c_err]. rewrite disk_jac by exact HJ. cbn [bind]. pose proof (core_mm n W HW) as EM; cbn [car RSc] in *; fold E in EM; rewrite EM. cbn [bind].
    rewrite mv_ok by exact (mat_rows _ _ _ _ HW L). cbn [bind]. rewrite fixed_ok by (rewrite (mat_vec_len n n W e HW); exact (eq_sym Lg)). cbn [bind].
    unfold E. rewrite eye_transp. rewrite mv_ok by exact (mat_rows _ _ _ _ (eye_mat n) Hs). cbn [bind]. rewrite eye_id by exact Hs.
    rewrite vop_ok by (rewrite (mat_vec_len n n W e HW); exact (eq_sym Hs)). cbn [bind]. reflexivity.
  Qed.
  Lemma disk_hess k e x H : length e = n -> mat n n H -> exists h', hess (K := RSc) junk (S (S k)) (hx e) c x H = Ret (W, h').
  Proof.
    intros L MH. eexists. rewrite hess_S, dhx_c. cbn [ub bind c_J c_err]. rewrite mv_ok by exact (mat_rows _ _ _ _ HW L). cbn [bind].
    rewrite vop_ok by (rewrite (mat_vec_len n n W e HW); exact (eq_sym Hs)). cbn [bind].
    rewrite disk_jac by (apply FunctionH_proofs.zero_mat; exact HJ). cbn [bind]. pose proof (core_mm n W HW) as EM; cbn [car RSc] in *; fold E in EM; rewrite EM. cbn [bind].
    destruct (mm_ok n n n _ _ HW (eye_mat n)) as (P & E1 & MP & A & _).
    assert (EP : P = W). { apply (rows_eq n n); [exact MP|exact HW|]. intros w Lw. rewrite A by exact Lw. rewrite eye_id by exact Lw. reflexivity. }
    subst P. fold E in E1. cbn [car RSc] in *. rewrite E1. cbn [bind]. rewrite (mop_ok _ n n _ _ (FunctionH_proofs.zero_mat n n H MH) HW). cbn [bind].
    change (map2 (map2 (@sadd RSc)) (map (map (fun _ => 0)) H) W) with (map2 (map2 Rplus) (map (map (fun _ => 0)) H) W). rewrite (plus_zero n n H W MH HW). reflexivity.
  Qed.
End Core.

(** Diagonal matrices *)
Lemma nth_rep (a : R) k m : nth k (repeat a m) a = a.
Proof. revert k. induction m as [|m IH]; intros [|k]; cbn; auto. Qed.
Lemma eye_diag a n : eye_scaled (K := RSc) a n = diag n a.
Proof.
  unfold eye_scaled, diag, tab at 1. apply map_ext_in. intros i Hi. apply in_seq in Hi. cbn [car RSc] in *.
  apply (nth_ext _ _ 0 0); [rewrite tab_length, app_length; cbn [length]; rewrite !repeat_length; lia|].
  intros j Hj. rewrite app_length in Hj. cbn [length] in Hj. rewrite !repeat_length in Hj. rewrite tab_at by lia.
  change (@s0 RSc) with 0. destruct (Nat.eqb_spec i j) as [<-|N].
  - rewrite app_nth2; rewrite repeat_length; [|lia]. rewrite Nat.sub_diag. reflexivity.
  - destruct (Nat.lt_ge_cases j i) as [Lt|Ge].
    + rewrite app_nth1 by (rewrite repeat_length; lia). apply nth_rep.
    + rewrite app_nth2; rewrite repeat_length; [|lia]. destruct (j - i)%nat as [|m] eqn:Em; [lia|]. cbn [nth]. apply nth_rep.
Qed.
Lemma diag_scale b a n : map (map (fun v => b * v)) (diag n a) = diag n (b * a).
Proof. unfold diag, tab. rewrite map_map. apply map_ext. intros i. rewrite map_map. apply map_ext. intros j. destruct (Nat.eqb i j); ring. Qed.
Lemma diag_scale_r b a n : map (map (fun v => v * b)) (diag n a) = diag n (a * b).
Proof. unfold diag, tab. rewrite map_map. apply map_ext. intros i. rewrite map_map. apply map_ext. intros j. destruct (Nat.eqb i j); ring. Qed.
Lemma diag_mat n a : mat n n (diag n a).
Proof.
  split; [apply tab_length|]. apply Forall_forall. intros r Hr. unfold diag, tab in Hr. apply in_map_iff in Hr. destruct Hr as (i & <- & _).
  rewrite map_length, seq_length. reflexivity.
Qed.
Lemma rsum_pick n i (g : nat -> R) : (i < n)%nat -> rsum n (fun j => if Nat.eqb i j then g j else 0) = g i.
Proof.
  induction n as [|n IH]; intros Hi; [lia|]. cbn [rsum]. destruct (Nat.eqb_spec i n) as [->|N].
  - rewrite (rsum_zero n). { lra. } intros j Hj. destruct (Nat.eqb_spec n j); [lia|reflexivity].
  - rewrite IH by lia. lra.
Qed.
Lemma diag_vec n a x : length x = n -> mat_vec (diag n a) x = tab n (fun i => a * nth i x 0).
Proof.
  intros L. rewrite (mat_vec_entries n n _ x (diag_mat n a) L). apply tab_ext_T. intros i Hi.
  rewrite <- (rsum_pick n i (fun j => a * nth j x 0) Hi). apply rsum_ext. intros j Hj. unfold entries, diag.
  rewrite tab_at by exact Hi. rewrite tab_at by exact Hj. destruct (Nat.eqb i j); ring.
Qed.
Lemma diag_form n a x : length x = n -> inner x (mat_vec (diag n a) x) = a * rsum n (fun i => nth i x 0 ^ 2).
Proof.
  intros L. rewrite diag_vec by exact L. rewrite (tab_self n x L) at 1. rewrite inner_tab. rewrite <- rsum_scale. apply rsum_ext. intros; ring.
Qed.
Lemma inner_zeros x n : length x = n -> inner x (repeat 0 n) = 0.
Proof. intros L. rewrite inner_comm, (inner_sum n) by (rewrite ?repeat_length; auto). apply rsum_zero. intros i _. rewrite nth_rep. ring. Qed.
Lemma plus_zeros (v : rvec) n : length v = n -> map2 Rplus v (repeat 0 n) = v.
Proof. intros <-. induction v as [|a v IH]; cbn; [reflexivity|]. rewrite IH. f_equal. ring. Qed.
Lemma minus_tab (x t : rvec) n : length x = n -> length t = n -> map2 Rminus x t = tab n (fun i => nth i x 0 - nth i t 0).
Proof.
  intros Lx Lt. apply (nth_ext _ _ 0 0); [rewrite map2_length, tab_length; cbn [car RSc] in *; lia|]. intros i Hi. rewrite map2_length in Hi. cbn [car RSc] in *.
  rewrite tab_at by lia. clear - Lx Lt Hi. revert t i n Lx Lt Hi. induction x as [|a x IH]; intros [|b t] [|i] n Lx Lt Hi; cbn in *; try lia; try reflexivity.
  destruct n as [|n]; [lia|]. apply (IH t i n); lia.
Qed.

(** Construction *)
Definition disk_made (h : heap RSc) (n : nat) (p : @oproblem) (p0 : rvec) (r : R) : Prop := exists f g fg,
  let ca := mkCache (K := RSc) (repeat 0 n) (zeros (K := RSc) n n) (zeros (K := RSc) n n) in
  op_ndx p = n /\ nth_error h (op_cost p) = Some (OQuad (K := RSc) n n f (diag n 1) (repeat 0 n) 0 true ca) /\
  nth_error h f = Some (ODiff (K := RSc) (SVec n) p0) /\ op_cons p = [(g, 1%nat)] /\
  nth_error h g = Some (OQuad (K := RSc) n n fg (diag n 2) (repeat 0 n) (- (r * r)) true ca) /\
  nth_error h fg = Some (ODiff (K := RSc) (SVec n) (repeat 0 n)) /\ op_cost p <> g.
Lemma two_eye n : mscale (K := RSc) (sofZ (s := RSc) 2) (eye_scaled (K := RSc) (@s1 RSc) n) = diag n 2.
Proof.
  change (@s1 RSc) with 1. rewrite eye_diag. change (mscale (K := RSc) (sofZ (s := RSc) 2) (diag n 1)) with (map (map (fun v => 2 * v)) (diag n 1)).
  rewrite diag_scale. f_equal. ring.
Qed.
Lemma at_end {T} (a : list T) b r : nth_error (a ++ b :: r) (length a) = Some b.
Proof. rewrite nth_error_app2, Nat.sub_diag by lia. reflexivity. Qed.
Lemma disk_built h n p0 r : length p0 = n -> exists h' p, disk_program (K := RSc) h n p0 r = Ret (h', p) /\ disk_made h' n p p0 r.
Proof.
  intros L. unfold disk_program. rewrite two_eye. change (eye_scaled (K := RSc) (@s1 RSc) n) with (eye_scaled (K := RSc) 1 n). rewrite eye_diag.
  unfold new_distance, new_diff. cbn [is_normalized bind new neutral]. unfold new_quad, dims_at, new.
  rewrite !at_end. cbn [ub bind dims nx ndx]. rewrite !at_end. cbn [ub bind dims nx ndx]. unfold new_problem. cbn [cons_sizes]. unfold dims_at. rewrite !at_end.
  cbn [ub bind dims nx ndx cons_sizes]. do 2 eexists. split; [reflexivity|]. unfold disk_made. do 3 eexists. cbn [op_ndx op_cost op_cons]. 
  set (d1 := ODiff (K := RSc) (SVec n) p0). set (d2 := ODiff (K := RSc) (SVec n) (repeat _ n)).
  set (q1 := OQuad (K := RSc) n n _ (diag n 1) _ _ _ _). set (q2 := OQuad (K := RSc) n n _ (diag n 2) _ _ _ _).
  split; [reflexivity|]. split; [|split; [|split; [reflexivity|split; [|split]]]].
  - rewrite <- !app_assoc. rewrite app_assoc. cbn [app]. rewrite at_end. reflexivity.
  - rewrite <- !app_assoc. cbn [app]. rewrite at_end. reflexivity.
  - rewrite at_end. reflexivity.
  - rewrite <- (app_assoc _ [d2] [q2]). cbn [app]. rewrite at_end. reflexivity.
  - rewrite !app_length. cbn [length]. lia.
Qed.
Lemma sq_tab n (x : nat -> R) : rsum n (fun i => nth i (tab n x) 0 ^ 2) = rsum n (fun i => x i ^ 2).
Proof. apply rsum_ext. intros i Hi. rewrite tab_at by exact Hi. reflexivity. Qed.
Lemma made_disk junk h n p p0 r k : disk_made h n p p0 r -> length p0 = n -> (3 <= k)%nat -> answers_like n (memoryless junk k h p) (disk_problem n p0 r).
Proof.
  intros (f & g & fg & En & Ec & Ef & Ep & Eg & Efg & _) L0 Hk. destruct k as [|[|[|k]]]; try lia. clear Hk.
  assert (L1 : length (repeat 0 n) = n) by apply repeat_length. assert (LZ : mat n n (zeros (K := RSc) n n)) by apply zeros_mat.
  split; [exact En|]. split.
  - intros x L. pose proof (err_len n (repeat 0 n) p0 L1 L0 x L) as Le. cbn [memoryless disk_problem p_cost p_grad p_hess]. rewrite En.
    pose proof (disk_call h n (op_cost p) f (diag n 1) (repeat 0 n) p0 0 _ Ec Ef (diag_mat n 1) L1 L0 (S k) x L) as C. cbn zeta in C. cbn [car RSc] in *. rewrite C. cbn [bind got]. split; [|split].
    + f_equal. rewrite diag_form, inner_zeros by exact Le. rewrite (minus_tab x p0 n L L0), sq_tab. lra.
    + destruct (disk_grad junk h n (op_cost p) f (diag n 1) (repeat 0 n) p0 0 _ Ec Ef (diag_mat n 1) L1 LZ (S k) _ x (repeat 0 n) Le L1) as (h' & E). cbn [car RSc] in *. rewrite E. cbn [got]. f_equal.
      rewrite diag_vec by exact Le. rewrite plus_zeros by apply tab_length. rewrite (minus_tab x p0 n L L0). apply tab_ext_T. intros i Hi. rewrite tab_at by exact Hi. ring.
    + destruct (disk_hess junk h n (op_cost p) f (diag n 1) (repeat 0 n) p0 0 _ Ec Ef (diag_mat n 1) L1 LZ (S k) _ x (repeat (repeat 0 n) n) Le (zero_mat _ _)) as (h' & E). cbn [car RSc] in *. rewrite E. reflexivity.
  - cbn [memoryless disk_problem p_cons]. rewrite En, Ep. cbn [map]. constructor; [|constructor]. split; [reflexivity|].
    intros x L. cbn [memoryless_fun f_val f_jac f_vhp fst snd].
    pose proof (disk_call h n g fg (diag n 2) (repeat 0 n) (repeat 0 n) (- (r * r)) _ Eg Efg (diag_mat n 2) L1 L1 k x L) as C. cbn zeta in C. rewrite minus_zero in C by exact L.
    assert (EV : eval (K := RSc) (S (S (S k))) h g x = Ret ([1 / 2 * inner x (mat_vec (diag n 2) x) + inner x (repeat 0 n) + - (r * r)], update h g (set_err (K := RSc) x))).
    { rewrite eval_S, Eg. cbn [ub bind]. cbn [car RSc] in *. rewrite C. reflexivity. }
    cbn [car RSc] in *. rewrite EV. cbn [bind got]. split; [|split].
    + f_equal. f_equal. rewrite diag_form, inner_zeros by exact L. lra.
    + rewrite jac_S. rewrite (dhx_c h n g fg (diag n 2) (repeat 0 n) (- (r * r)) _ Eg x). cbn [ub bind repeat].
      destruct (disk_grad junk h n g fg (diag n 2) (repeat 0 n) (repeat 0 n) (- (r * r)) _ Eg Efg (diag_mat n 2) L1 LZ k x x (repeat 0 n) L L1) as (h' & E). cbn [car RSc] in *. rewrite E. cbn [bind got]. f_equal. f_equal.
      rewrite diag_vec by exact L. apply plus_zeros. apply tab_length.
    + intros l. rewrite vhp_S. rewrite (dhx_c h n g fg (diag n 2) (repeat 0 n) (- (r * r)) _ Eg x). cbn [ub bind].
      destruct (disk_hess junk h n g fg (diag n 2) (repeat 0 n) (repeat 0 n) (- (r * r)) _ Eg Efg (diag_mat n 2) L1 LZ k x x (repeat (repeat 0 n) n) L (zero_mat _ _)) as (h' & E). cbn [car RSc] in *. rewrite E. cbn [bind].
      destruct l as [|v l]; cbn [nth_error ub bind got]; [reflexivity|]. f_equal. exact (diag_scale_r v 2 n).
Qed.
Lemma disk_like junk h n p0 r : length p0 = n ->
  exists h' p, disk_program (K := RSc) h n p0 r = Ret (h', p) /\ forall k, (3 <= k)%nat -> answers_like n (memoryless junk k h' p) (disk_problem n p0 r).
Proof.
  intros L. destruct (disk_built h n p0 r L) as (h' & p & E & M). exists h', p. split; [exact E|]. intros k Hk. exact (made_disk junk h' n p p0 r k M L Hk).
Qed.
Lemma diag_out n a i : (n <= i)%nat -> nth i (diag n a) [] = [].
Proof. intros H. apply nth_overflow. unfold diag. rewrite tab_length. exact H. Qed.
Lemma diag_row n a i j : (n <= j)%nat -> nth j (nth i (diag n a) []) 0 = 0.
Proof.
  intros H. destruct (Nat.lt_ge_cases i n) as [Hi|Hi]; [|rewrite diag_out by exact Hi; destruct j; reflexivity].
  unfold diag. rewrite (tab_at n (fun i => tab n _)) by exact Hi. apply nth_overflow. rewrite tab_length. exact H.
Qed.
Lemma diag_sym n a : symmetric (diag n a).
Proof.
  intros i j. destruct (Nat.lt_ge_cases i n) as [Hi|Hi]; [|rewrite (diag_row n a j i Hi), diag_out by exact Hi; destruct j; reflexivity].
  destruct (Nat.lt_ge_cases j n) as [Hj|Hj]; [|rewrite (diag_row n a i j Hj), diag_out by exact Hj; destruct i; reflexivity].
  unfold diag. rewrite !(tab_at n (fun i => tab n _)) by assumption. rewrite !tab_at by assumption. rewrite (Nat.eqb_sym j i). reflexivity.
Qed.
Lemma disk_represents h n p p0 r : disk_made h n p p0 r -> length p0 = n -> exists e e1, represents (SVec n) h p e [e1] /\ forall D x, length x = n -> regular D (SVec n) e [e1] x.
Proof.
  intros (f & g & fg & En & Ec & Ef & Ep & Eg & Efg & Ng) L0.
  exists (XQuad (op_cost p) (diag n 1) (repeat 0 n) 0 (XBase (ODiff (K := RSc) (SVec n) p0))), (XQuad g (diag n 2) (repeat 0 n) (- (r * r)) (XBase (ODiff (K := RSc) (SVec n) (repeat 0 n)))). split.
  - split; [exact En|]. split; [exact I|]. split; [|split].
    + split; [reflexivity|]. exists f, true. eexists. split; [exact Ec|]. split; [apply zeros_mat|]. split; [apply zeros_mat|]. split; [exact Ef|exact I].
    + left. left. unfold gn_flag. rewrite Ec. reflexivity.
    + rewrite Ep. constructor; [|constructor]. cbn [fst snd]. split; [|split; [reflexivity|]].
      * split; [reflexivity|]. exists fg, true. eexists. split; [exact Eg|]. split; [apply zeros_mat|]. split; [apply zeros_mat|]. split; [exact Efg|exact I].
      * right. right. split; [exact I|]. left. left. unfold gn_flag. rewrite Eg. reflexivity.
  - intros D x Lx. split; [|split; [|split]].
    + split; [reflexivity|]. split; [exact (diag_mat n 1)|]. split; [apply diag_sym|]. split; [apply repeat_length|]. split; [reflexivity|]. split; [reflexivity|]. split; [exact I|]. split; [exact I|]. split; [exact I|]. split; [exact L0|exact Lx].
    + constructor; [|constructor]. split; [reflexivity|]. split; [exact (diag_mat n 2)|]. split; [apply diag_sym|]. split; [apply repeat_length|]. split; [reflexivity|]. split; [reflexivity|]. split; [exact I|]. split; [exact I|]. split; [exact I|]. split; [apply repeat_length|exact Lx].
    + cbn [visits flat_map app]. intros a u v. destruct (sem (XBase (ODiff (K := RSc) (SVec n) p0)) x), (sem (XBase (ODiff (K := RSc) (SVec n) (repeat 0 n))) x); cbn [app In]; intros Hu Hv; intuition congruence.
    + apply flat_paths; [exact I|exact Lx].
Qed.
Lemma disk_requests junk h n p0 r h' p : disk_program (K := RSc) h n p0 r = Ret (h', p) -> length p0 = n ->
  exists N, forall k, (N <= k)%nat -> forall cs b, ordered None cs -> Forall (fun c => length (call_point c) = n /\ call_lams c [1%nat]) cs -> sized_buffers n [1%nat] b ->
    exists b' h'', obj_run (K := RSc) junk k p h' b cs = Ret (b', h'') /\ pure_run (disk_problem n p0 r) b cs = Ret b'.
Proof.
  intros E L. destruct (disk_built h n p0 r L) as (h1 & p1 & E1 & M). rewrite E in E1. injection E1 as <- <-.
  destruct (disk_represents h' n p p0 r M L) as (e & e1 & Rep & Reg).
  destruct (objects_memoryless junk {| d_pt := fun _ _ => True; d_tg := fun _ _ => True; d_near := fun _ _ _ => True |} _ _ _ _ _ Rep) as (N & H).
  exists (N + 3)%nat. intros k Hk cs b Ho Hc Hb.
  assert (Es : map snd (op_cons p) = [1%nat]) by (destruct M as (f & g & fg & _ & _ & _ & Ep & _); rewrite Ep; reflexivity).
  rewrite <- Es in *. destruct (H k ltac:(lia) cs b Ho) as (b' & h'' & E2 & E3).
  - eapply Forall_impl; [|exact Hc]. intros c [A B]. split; [apply Reg; auto|exact B].
  - exact Hb.
  - exists b', h''. split; [exact E2|]. rewrite <- E3. symmetry. apply (pure_alike n); [apply made_disk; auto; lia|].
    eapply Forall_impl; [|exact Hc]. intros c [A _]. exact A.
Qed.

(** The solution *)
Lemma disk_solution n p r x l : 0 < r -> disk_kkt n p r x l ->
  let q := rsum n (fun i => p i ^ 2) in
  (q <= r ^ 2 -> l = 0 /\ forall i, (i < n)%nat -> x i = p i) /\
  (r ^ 2 < q -> l = (sqrt q / r - 1) / 2 /\ forall i, (i < n)%nat -> x i = r / sqrt q * p i).
Proof.
  intros Hr (Hs & Hf & Hl & Hz) q. set (w := rsum n (fun i => x i ^ 2)) in *.
  assert (Ep : forall i, (i < n)%nat -> p i = (1 + 2 * l) * x i) by (intros i Hi; specialize (Hs i Hi); lra).
  assert (Eq : q = (1 + 2 * l) ^ 2 * w).
  { unfold q, w. rewrite <- rsum_scale. apply rsum_ext. intros i Hi. rewrite (Ep i Hi). ring. }
  assert (Hr2 : 0 < r ^ 2) by (apply pow_lt; exact Hr). split; intros Hq.
  - assert (l = 0) as ->.
    { destruct (Rle_lt_or_eq_dec 0 l Hl) as [P|P]; [exfalso|lra]. assert (w = r ^ 2) by (apply Rmult_integral in Hz; lra). rewrite H in Eq.
      assert (1 < (1 + 2 * l) ^ 2) by nra. nra. }
    split; [reflexivity|]. intros i Hi. rewrite (Ep i Hi). ring.
  - assert (Hl0 : 0 < l). { destruct (Rle_lt_or_eq_dec 0 l Hl) as [P|<-]; [exact P|exfalso]. rewrite Eq in Hq. lra. }
    assert (Ew : w = r ^ 2) by (apply Rmult_integral in Hz; lra). rewrite Ew in Eq.
    assert (Er : sqrt q = (1 + 2 * l) * r). { rewrite Eq. replace ((1 + 2 * l) ^ 2 * r ^ 2) with (((1 + 2 * l) * r) * ((1 + 2 * l) * r)) by ring. apply sqrt_square. nra. }
    rewrite Er. split; [field; lra|]. intros i Hi. rewrite (Ep i Hi). field. split; lra.
Qed.
Lemma disk_projection n p r x l : disk_kkt n p r x l -> forall y, rsum n (fun i => y i ^ 2) <= r ^ 2 ->
  rsum n (fun i => (x i - p i) ^ 2) + rsum n (fun i => (y i - x i) ^ 2) <= rsum n (fun i => (y i - p i) ^ 2).
Proof.
  intros (Hs & Hf & Hl & Hz) y Hy.
  assert (E : rsum n (fun i => (y i - p i) ^ 2) = rsum n (fun i => (x i - p i) ^ 2) + rsum n (fun i => (y i - x i) ^ 2) + 2 * l * (rsum n (fun i => x i ^ 2) - rsum n (fun i => y i ^ 2) + rsum n (fun i => (y i - x i) ^ 2))).
  { replace (rsum n (fun i => x i ^ 2) - rsum n (fun i => y i ^ 2)) with (rsum n (fun i => x i ^ 2) + -1 * rsum n (fun i => y i ^ 2)) by ring.
    rewrite <- rsum_scale, <- !rsum_plus, <- rsum_scale, <- !rsum_plus. apply rsum_ext. intros i Hi. specialize (Hs i Hi). replace (p i) with ((1 + 2 * l) * x i) by lra. ring. }
  assert (P : 0 <= rsum n (fun i => (y i - x i) ^ 2)).
  { clear. induction n as [|n IH]; cbn [rsum]; [lra|]. pose proof (pow2_ge_0 (y n - x n)). lra. }
  assert (0 <= l * (r ^ 2 - rsum n (fun i => y i ^ 2))) by (apply Rmult_le_pos; lra).
  assert (0 <= l * rsum n (fun i => (y i - x i) ^ 2)) by (apply Rmult_le_pos; lra).
  rewrite E. nra.
Qed.
Lemma disk_example : exists h' p, disk_program (K := RSc) [OLinear (K := RSc) 1 [[7]] [7]] 2 [-2 / 5; 7 / 10] (3 / 5) = Ret (h', p) /\
  exists b h'', obj_run (K := RSc) (fun _ _ => 5) 3 p h' (mkBuffers (K := RSc) 0 [0] [0; 0] [[0; 0]] [[0; 0]; [0; 0]] [[[9; 9]; [9; 9]]]) [PEval [1; 1 / 2]; PDerivs [1; 1 / 2]; PHess true [1; 1 / 2] [[3]]] = Ret (b, h'') /\
    bf_val b = 1 /\ bf_con b = [89 / 100] /\ bf_grad b = [7 / 5; -1 / 5] /\ bf_jac b = [[2; 1]] /\ bf_hess b = [[1; 0]; [0; 1]] /\ bf_vhp b = [[[6; 0]; [0; 6]]].
Proof.
  do 2 eexists. split; [reflexivity|]. do 2 eexists. split; [cbn; reflexivity|]. cbn.
  repeat split; repeat (apply (f_equal2 cons)); try reflexivity; try lra.
Qed.
Lemma disk_kkt_example : disk_kkt 2 (fun i => nth i [3; 4] 0) 1 (fun i => nth i [3 / 5; 4 / 5] 0) 2.
Proof. unfold disk_kkt. cbn. split; [intros [|[|i]] Hi; cbn; try lia; lra|]. repeat split; lra. Qed.
