(** Calculus and matrix lemmas, then the correctness of values and derivatives of function objects. *)
From Coq Require Import Reals List Arith Bool Lia Lra.
From Verif Require Import Scalar Cset_spec Cset_proofs Problem_model Merit_proofs Manifold_model Manifold_spec Manifold_proofs ManifoldR_proofs
  Function_model Function_spec.
Import ListNotations.
Local Open Scope R_scope.

(** * Curves *)
(** A curve with explicit components. *)
Definition flows (g : R -> rvec) (w : rvec) : Prop :=
  (forall t, length (g t) = length w) /\ (forall i, (i < length w)%nat -> derivable_pt_lim (fun t => nth i (g t) 0) 0 (nth i w 0)).
Lemma velocity_flows f w : velocity f w <-> exists g eps, 0 < eps /\ (forall t, Rabs t < eps -> f t = Ret (g t)) /\ flows g w.
Proof. unfold velocity, flows. split; intros (g & e & A & B & C & D); exists g, e; tauto. Qed.
Lemma velocity_bind f g F w u : velocity f w ->
  (forall h, flows h w -> f 0 = Ret (h 0) -> exists k, (forall t, F (h t) = Ret (k t)) /\ flows k u) ->
  (forall t, g t = bind (f t) F) -> velocity g u.
Proof.
  rewrite velocity_flows. intros (h & e & He & Hf & Hh) HF Hg.
  destruct (HF h Hh) as (k & Hk & Fk). { apply Hf. rewrite Rabs_R0. exact He. }
  apply velocity_flows. exists k, e. split; [exact He|]. split; [|exact Fk].
  intros t Ht. rewrite Hg, Hf by exact Ht. cbn. apply Hk.
Qed.
Lemma flows_tail a b g : flows g (a :: b) -> flows (fun t => tl (g t)) b.
Proof.
  intros [L D]. split.
  - intros t. specialize (L t). destruct (g t); cbn in *; lia.
  - intros i Hi. eapply derivable_pt_lim_ext; [|apply (D (S i)); cbn; lia].
    intros t. specialize (L t). cbv beta. destruct (g t); cbn in *; [discriminate|reflexivity].
Qed.
Lemma flows_head a b g : flows g (a :: b) -> derivable_pt_lim (fun t => nth 0 (g t) 0) 0 a.
Proof. intros [_ D]. apply (D 0%nat). cbn. lia. Qed.
Lemma inner_cons_tl (u v : rvec) : u <> [] -> v <> [] -> inner u v = nth 0 u 0 * nth 0 v 0 + inner (tl u) (tl v).
Proof. destruct u, v; try congruence. reflexivity. Qed.
Lemma der_inner u' : forall v' f g, length u' = length v' -> flows f u' -> flows g v' ->
  derivable_pt_lim (fun t => inner (f t) (g t)) 0 (inner u' (g 0) + inner (f 0) v').
Proof.
  induction u' as [|a u IH]; intros [|b v] f g L Hf Hg; cbn in L; try discriminate.
  - destruct Hf as [Lf _]. apply (derivable_pt_lim_ext (fun _ => 0)).
    + intros t. specialize (Lf t). destruct (f t); cbn in *; [reflexivity|discriminate].
    + replace (inner [] (g 0) + inner (f 0) []) with 0; [apply derivable_pt_lim_const|].
      destruct (f 0); cbn; lra.
  - assert (Nf : forall t, f t <> []) by (intros t E; destruct Hf as [Lf _]; specialize (Lf t); rewrite E in Lf; discriminate).
    assert (Ng : forall t, g t <> []) by (intros t E; destruct Hg as [Lf _]; specialize (Lf t); rewrite E in Lf; discriminate).
    apply (derivable_pt_lim_ext (fun t => nth 0 (f t) 0 * nth 0 (g t) 0 + inner (tl (f t)) (tl (g t)))).
    { intros t. symmetry. apply inner_cons_tl; auto. }
    assert (E1 : inner (a :: u) (g 0) = a * nth 0 (g 0) 0 + inner u (tl (g 0))) by (apply (inner_cons_tl (a :: u)); [discriminate|auto]).
    assert (E2 : inner (f 0) (b :: v) = nth 0 (f 0) 0 * b + inner (tl (f 0)) v) by (apply (inner_cons_tl (f 0) (b :: v)); [auto|discriminate]).
    rewrite E1, E2.
    replace (a * nth 0 (g 0) 0 + inner u (tl (g 0)) + (nth 0 (f 0) 0 * b + inner (tl (f 0)) v))
      with ((a * nth 0 (g 0) 0 + nth 0 (f 0) 0 * b) + (inner u (tl (g 0)) + inner (tl (f 0)) v)) by ring.
    apply (derivable_pt_lim_plus (fun t => nth 0 (f t) 0 * nth 0 (g t) 0) (fun t => inner (tl (f t)) (tl (g t)))).
    + apply (derivable_pt_lim_mult (fun t => nth 0 (f t) 0) (fun t => nth 0 (g t) 0)); eapply flows_head; eassumption.
    + refine (IH v (fun t => tl (f t)) (fun t => tl (g t)) _ _ _); [lia|eapply flows_tail; eassumption|eapply flows_tail; eassumption].
Qed.
Lemma flows_const c : flows (fun _ => c) (map (fun _ => 0) c).
Proof.
  split; [intros; now rewrite map_length|]. intros i Hi. rewrite map_length in Hi.
  replace (nth i (map (fun _ : R => 0) c) 0) with 0; [apply derivable_pt_lim_const|].
  symmetry. exact (map_nth (fun _ : R => 0) c 0 i).
Qed.
Lemma inner_comm a b : inner a b = inner b a.
Proof. revert b. induction a as [|x a IH]; intros [|y b]; cbn; try reflexivity. rewrite IH. ring. Qed.
Lemma inner_zero_r (c w : rvec) : inner (map (fun _ => 0) c) w = 0.
Proof. revert w. induction c as [|x c IH]; intros [|y w]; cbn; try reflexivity. rewrite IH. ring. Qed.
Lemma der_inner_l c g w : length c = length w -> flows g w -> derivable_pt_lim (fun t => inner c (g t)) 0 (inner c w).
Proof.
  intros L F. replace (inner c w) with (inner (map (fun _ => 0) c) (g 0) + inner c w) by (rewrite inner_zero_r; ring).
  apply (der_inner _ _ (fun _ => c) g); [now rewrite map_length|apply flows_const|exact F].
Qed.
Lemma flows_nth g w (F : forall i, (i < length w)%nat -> derivable_pt_lim (fun t => nth i (g t) 0) 0 (nth i w 0))
  (L : forall t, length (g t) = length w) : flows g w.
Proof. split; assumption. Qed.
Lemma nth_mat_vec M v i : nth i (mat_vec M v) 0 = inner (nth i M []) v.
Proof. unfold mat_vec. change 0 with (inner [] v) at 1. apply (map_nth (fun row => inner row v)). Qed.
Lemma mat_vec_len M v : length (mat_vec M v) = length M.
Proof. apply map_length. Qed.
Lemma flows_mat_vec M g w n : Forall (fun row => length row = n) M -> length w = n -> flows g w ->
  flows (fun t => mat_vec M (g t)) (mat_vec M w).
Proof.
  intros FM L F. split; [intros; now rewrite !mat_vec_len|]. intros i Hi. rewrite mat_vec_len in Hi. rewrite nth_mat_vec.
  eapply derivable_pt_lim_ext with (f := fun t => inner (nth i M []) (g t)); [intros; now rewrite nth_mat_vec|].
  apply der_inner_l; [|exact F]. rewrite Forall_forall in FM. rewrite FM by now apply nth_In. symmetry. exact L.
Qed.
Lemma nth_map2_gen {A B C} (f : A -> B -> C) (u : list A) (v : list B) i a b c : length u = length v -> (i < length u)%nat ->
  nth i (map2 f u v) c = f (nth i u a) (nth i v b).
Proof. revert v i. induction u as [|x u IH]; intros [|y v] [|i] L H; cbn in *; try lia; [reflexivity|]. apply IH; lia. Qed.
Lemma flows_shift (sg : R -> R -> R) g w b : (forall f c x l, derivable_pt_lim f x l -> derivable_pt_lim (fun t => sg (f t) c) x l) ->
  length b = length w -> flows g w -> flows (fun t => map2 sg (g t) b) w.
Proof.
  intros S L [Lg D]. split.
  - intros t. rewrite map2_length, Lg. lia.
  - intros i Hi. eapply derivable_pt_lim_ext with (f := fun t => sg (nth i (g t) 0) (nth i b 0)).
    + intros t. symmetry. apply nth_map2_gen; rewrite Lg; lia.
    + apply S. apply D. exact Hi.
Qed.
Lemma shift_plus f c x l : derivable_pt_lim f x l -> derivable_pt_lim (fun t => f t + c) x l.
Proof. intros H. replace l with (l + 0) by ring. apply (derivable_pt_lim_plus f (fun _ => c)); [exact H|apply derivable_pt_lim_const]. Qed.
Lemma shift_minus f c x l : derivable_pt_lim f x l -> derivable_pt_lim (fun t => f t - c) x l.
Proof. intros H. replace l with (l - 0) by ring. apply (derivable_pt_lim_minus f (fun _ => c)); [exact H|apply derivable_pt_lim_const]. Qed.
Lemma flows_1 f l : derivable_pt_lim f 0 l -> flows (fun t => [f t]) [l].
Proof. intros H. split; [reflexivity|]. intros [|i] Hi; cbn in *; [exact H|lia]. Qed.

(** * Matrices *)
Lemma sumn_swap n m (F : nat -> nat -> R) : sumn n (fun i => sumn m (fun j => F i j)) = sumn m (fun j => sumn n (fun i => F i j)).
Proof.
  induction n as [|n IH]; cbn.
  - symmetry. apply sumn_zero. reflexivity.
  - rewrite IH, <- sumn_plus. reflexivity.
Qed.
Lemma sym_inner W n : mat n n W -> symmetric W -> forall u v, length u = n -> length v = n ->
  inner u (mat_vec W v) = inner v (mat_vec W u).
Proof.
  intros [LW FW] S u v Hu Hv. rewrite Forall_forall in FW.
  rewrite (inner_sumn u (mat_vec W v) n) by (rewrite ?mat_vec_len; assumption).
  rewrite (inner_sumn v (mat_vec W u) n) by (rewrite ?mat_vec_len; assumption).
  transitivity (sumn n (fun i => sumn n (fun j => nth i u 0 * (nth j (nth i W []) 0 * nth j v 0)))).
  { apply sumn_ext. intros i Hi. rewrite nth_mat_vec, (inner_sumn _ v n) by (try apply FW, nth_In; lia).
    symmetry. apply sumn_scale. }
  rewrite sumn_swap. apply sumn_ext. intros j Hj. rewrite nth_mat_vec, (inner_sumn _ u n) by (try apply FW, nth_In; lia).
  rewrite <- sumn_scale. apply sumn_ext. intros i Hi. rewrite S. ring.
Qed.

(** Model operations over the reals. *)
Lemma forallb_len n (A : list rvec) : forallb (fun row => Nat.eqb (length row) n) A = true <-> Forall (fun row => length row = n) A.
Proof. rewrite forallb_forall, Forall_forall. split; intros H x Hx; apply Nat.eqb_eq || apply Nat.eqb_eq; auto. Qed.
Lemma mv_ok (A : list rvec) (x : rvec) : Forall (fun row => length row = length x) A -> mv (K := RSc) A x = Ret (mat_vec A x).
Proof.
  intros F. unfold mv, chk. pose proof (proj2 (forallb_len (length x) A) F) as E. cbn [car RSc] in *. rewrite E. cbn.
  f_equal. unfold mat_vec. apply map_ext_in. intros row Hr. rewrite Forall_forall in F. apply vdot_inner. auto.
Qed.
Lemma dot_ok (a b : rvec) : length a = length b -> dot (K := RSc) a b = Ret (inner a b).
Proof. intros L. unfold dot, chk. cbn [car RSc] in *. rewrite L, Nat.eqb_refl. cbn. f_equal. now apply vdot_inner. Qed.
Lemma vop_ok (f : R -> R -> R) (a b : rvec) : length a = length b -> vop (K := RSc) f a b = Ret (map2 f a b).
Proof. intros L. unfold vop. cbn [car RSc] in *. now rewrite L, Nat.eqb_refl. Qed.
Lemma map_len_mat r c M : mat r c M -> map (@length R) M = repeat c r.
Proof.
  intros [L F]. subst r. induction F as [|row M H F IH]; [reflexivity|]. cbn. now rewrite H, IH.
Qed.
Lemma mat_of_len r c (M : list rvec) : map (@length R) M = repeat c r -> mat r c M.
Proof.
  revert M. induction r as [|r IH]; intros [|row M] H; cbn in H; try discriminate; [split; [reflexivity|constructor]|].
  injection H as H1 H2. destruct (IH M H2) as [L F]. split; [cbn; lia|constructor; assumption].
Qed.
Lemma like_ok r c old M : mat r c old -> mat r c M -> like (K := RSc) old M = Ret M.
Proof.
  intros A B. unfold like. destruct (list_eq_dec _ _ _) as [E|E]; [reflexivity|]. exfalso. apply E.
  exact (eq_trans (map_len_mat r c old A) (eq_sym (map_len_mat r c M B))).
Qed.
Lemma transp_mat r c A : mat r c A -> mat c r (transp (K := RSc) c A).
Proof.
  intros [L F]. unfold transp. split; [now rewrite map_length, seq_length|].
  apply Forall_forall. intros row Hr. apply in_map_iff in Hr. destruct Hr as (j & <- & _). now rewrite map_length.
Qed.
Lemma nth_transp c (A : list rvec) i : (i < c)%nat -> nth i (transp (K := RSc) c A) [] = map (fun row => nth i row 0) A.
Proof.
  intros H. change (transp (K := RSc) c A) with (map (fun j => map (fun row => nth j row 0) A) (seq 0 c)). rewrite (nth_indep _ [] (map (fun row => nth c row 0) A)) by (rewrite map_length, seq_length; exact H).
  rewrite (map_nth (fun j => map (fun row => nth j row 0) A) (seq 0 c) c i), seq_nth by exact H. reflexivity.
Qed.
Lemma nth_map_nth (A : list rvec) i k : nth k (map (fun row => nth i row 0) A) 0 = nth i (nth k A []) 0.
Proof.
  replace 0 with ((fun row : rvec => nth i row 0) []) at 1 by (destruct i; reflexivity).
  exact (map_nth (fun row : rvec => nth i row 0) A [] k).
Qed.
Lemma transp_adjoint r c A u w : mat r c A -> length u = r -> length w = c ->
  inner (mat_vec (transp (K := RSc) c A) u) w = inner u (mat_vec A w).
Proof.
  intros M Hu Hw. destruct (transp_mat r c A M) as [LT FT]. destruct M as [L F]. rewrite Forall_forall in F, FT. cbn [car RSc] in *.
  rewrite (inner_sumn _ w c) by (rewrite ?mat_vec_len; assumption).
  rewrite (inner_sumn u _ r) by (rewrite ?mat_vec_len; assumption).
  transitivity (sumn c (fun i => sumn r (fun k => nth k u 0 * (nth i (nth k A []) 0 * nth i w 0)))).
  - apply sumn_ext. intros i Hi. rewrite nth_mat_vec, nth_transp by exact Hi.
    rewrite (inner_sumn _ u r) by (rewrite ?map_length; assumption).
    rewrite Rmult_comm, <- sumn_scale. apply sumn_ext. intros k Hk. rewrite nth_map_nth. ring.
  - rewrite sumn_swap. apply sumn_ext. intros k Hk. rewrite nth_mat_vec, (inner_sumn _ w c) by (try apply F, nth_In; lia).
    rewrite <- sumn_scale. apply sumn_ext. intros i Hi. ring.
Qed.
Lemma mm_ok r k c A B : mat r k A -> mat k c B -> exists P, mm (K := RSc) c A B = Ret P /\ mat r c P /\
  (forall w, length w = c -> mat_vec P w = mat_vec A (mat_vec B w)) /\
  (forall i j, (i < r)%nat -> (j < c)%nat -> nth j (nth i P []) 0 = inner (nth i A []) (map (fun row => nth j row 0) B)).
Proof.
  intros [LA FA] MB. pose proof MB as [LB FB]. destruct (transp_mat k c B MB) as [LT FT]. cbn [car RSc] in *.
  unfold mm, chk. pose proof (proj2 (forallb_len (length B) A)) as E1. pose proof (proj2 (forallb_len c B) FB) as E2. cbn [car RSc] in *.
  rewrite E1 by (rewrite LB; exact FA). rewrite E2. cbn. eexists. split; [reflexivity|].
  assert (EV : forall row, length row = k -> map (fun col => vdot (K := RSc) row col) (transp (K := RSc) c B) = mat_vec (transp (K := RSc) c B) row).
  { intros row Hr. unfold mat_vec. apply map_ext_in. intros col Hc. rewrite Forall_forall in FT. cbn [car RSc] in *.
    rewrite vdot_inner; [apply inner_comm|]. rewrite Hr. symmetry. auto. }
  rewrite Forall_forall in FA. split; [|split].
  - split; [now rewrite map_length|]. apply Forall_forall. intros row Hr. apply in_map_iff in Hr. destruct Hr as (a & <- & Ha).
    rewrite map_length. exact LT.
  - intros w Hw. unfold mat_vec at 1 2. rewrite map_map. apply map_ext_in. intros row Hr. specialize (EV row (FA row Hr)).
    cbn [car RSc] in *. rewrite EV. apply (transp_adjoint k c); auto.
  - intros i j Hi Hj. set (fr := fun row : rvec => map (fun col => vdot (K := RSc) row col) (transp (K := RSc) c B)).
    transitivity (nth j (fr (nth i A [])) 0).
    { apply (f_equal (fun l : rvec => nth j l 0)). rewrite (nth_indep _ [] (fr [])) by (rewrite map_length; lia). exact (map_nth fr A [] i). }
    unfold fr.
    assert (Hi' : (i < length A)%nat) by (rewrite LA; exact Hi). specialize (EV (nth i A []) (FA _ (nth_In A [] Hi'))). cbn [car RSc] in *. rewrite EV, nth_mat_vec, inner_comm, nth_transp by exact Hj. reflexivity.
Qed.
Lemma mat_vec_add u v A n : mat (length A) n A -> length u = n -> length v = n ->
  mat_vec A (map2 Rplus u v) = map2 Rplus (mat_vec A u) (mat_vec A v).
Proof.
  intros [_ F] Hu Hv. unfold mat_vec. induction A as [|row A IH]; [reflexivity|]. inversion F as [|? ? F1 F2]; subst. cbn. f_equal; [|apply IH; assumption].
  clear - F1 Hv. revert row v F1 Hv. induction u as [|a u IH]; intros [|b row] [|c v] F1 Hv; cbn in *; try discriminate; try lra.
  rewrite IH by lia. ring.
Qed.
Lemma inner_add_l u v w : length u = length w -> length v = length w -> inner (map2 Rplus u v) w = inner u w + inner v w.
Proof. revert v w. induction u as [|a u IH]; intros [|b v] [|c w] A B; cbn in *; try discriminate; [lra|]. rewrite IH by lia. ring. Qed.
Lemma inner_scale_l a u w : inner (map (fun q => a * q) u) w = a * inner u w.
Proof. revert w. induction u as [|b u IH]; intros [|c w]; cbn; try ring. rewrite IH. ring. Qed.

(** * One step of the virtual calls *)
Section Unfold.
  Context {K : Sc}.
  Variable junk : nat -> nat -> car K.
  Local Open Scope sc_scope.
  Local Notation alloc := (alloc junk).
  Local Notation jac := (jac junk).
  Local Notation grad := (grad junk).
  Local Notation vhp := (vhp junk).
  Local Notation hess := (hess junk).
  Lemma eval_S (n : nat) (h : heap K) (r : ref) (x : list (car K)) : eval (S n) h r x =

        (do o <- ub (nth_error h r);
         match o with
         | OExt u => do v <- user (e_eval u x); Ret (v, h)
         | OLinear _ A b => do v <- mv A x; do v <- vop sadd v b; Ret (v, h)
         | ODiff s t => do v <- difference s t x; Ret (v, h)
         | ORigid p => do v <- rigid_eval p x; Ret (v, h)
         | OCompose _ _ _ l g => do (y, h1) <- eval n h g x; eval n h1 l y
         | OFd1 _ _ f _ | OFd2 _ _ f _ => eval n h f x
         | OCost _ _ _ | OSum _ _ _ _ | OQuad _ _ _ _ _ _ _ _ => do (c, h1) <- call n h r x; Ret ([c], h1)
         end)%out.
  Proof. reflexivity. Qed.
  Lemma call_S (n : nat) (h : heap K) (r : ref) (x : list (car K)) : call (S n) h r x =

        (do o <- ub (nth_error h r);
         match o with
         | OCost _ _ f => do (y, h1) <- eval n h f x; do c <- ub (nth_error y 0); Ret (c, h1)
         | OSum _ _ cs ws => sum_call (call n) x cs ws 0 h
         | OQuad _ _ f W s c _ _ =>
             do (e, h1) <- eval n h f x;
             do w <- mv W e; do d <- dot e w; do l <- dot e s;
             Ret (shalf * d + l + c, update h1 r (set_err e))
         | _ => UB
         end)%out.
  Proof. reflexivity. Qed.
  Lemma jac_S (n : nat) (h : heap K) (r : ref) (x : list (car K)) (old : list (list (car K))) : jac (S n) h r x old =

        (do o <- ub (nth_error h r);
         match o with
         | OExt u => do J <- user (e_jac u x old); do J <- like old J; Ret (J, h)
         | OLinear _ A _ => do J <- like old A; Ret (J, h)
         | ODiff s t => do J <- Jdifference s t x 1 old; do J <- like old J; Ret (J, h)
         | ORigid p => do J <- rigid_jac p x old; Ret (J, h)
         | OCompose _ _ _ l g =>
             do (y, h1) <- eval n h g x;
             do (_, dvl, drl) <- dims_at h l; do (_, dvg, drg) <- dims_at h g;
             do (Jl, h2) <- jac n h1 l y (alloc drl dvl);
             do (Jg, h3) <- jac n h2 g x (alloc drg dvg);
             do J <- mm dvg Jl Jg; do J <- like old J; Ret (J, h3)
         | OFd1 s _ f eps =>
             do (_, dv, _) <- dims_at h f;
             fd_jac_loop (fun h y => eval n h f y) s dv eps x dv 0 old h
         | OFd2 _ _ f _ => jac n h f x old
         | OCost _ _ _ | OSum _ _ _ _ | OQuad _ _ _ _ _ _ _ _ =>
             do (g0, rest) <- ub (match old with a :: b => Some (a, b) | [] => None end);
             do (g, h1) <- grad n h r x g0; Ret (g :: rest, h1)
         end)%out.
  Proof. reflexivity. Qed.
  Lemma grad_S (n : nat) (h : heap K) (r : ref) (x : list (car K)) (old : list (car K)) : grad (S n) h r x old =

        (do o <- ub (nth_error h r);
         match o with
         | OCost _ _ f => do (J, h1) <- jac n h f x [old]; do g <- ub (nth_error J 0); Ret (g, h1)
         | OSum _ _ cs ws =>
             sum_grad (fun h c x => do (_, dv, _) <- dims_at h c; grad n h c x (nth 0 (alloc 1 dv) []))
                      x cs ws (map (fun _ => 0) old) h
         | OQuad _ dv f W s _ _ ca =>
             do (J, h1) <- jac n h f x (c_J ca);
             do JtW <- mm (length W) (transp dv J) W;
             do a <- mv JtW (c_err ca); do a <- fixed (length old) a;
             do b <- mv (transp dv J) s; do g <- vop sadd a b;
             Ret (g, update h1 r (set_J J))
         | _ => UB
         end)%out.
  Proof. reflexivity. Qed.
  Lemma vhp_S (n : nat) (h : heap K) (r : ref) (x v : list (car K)) (old : list (list (car K))) : vhp (S n) h r x v old =

        (do o <- ub (nth_error h r);
         match o with
         | OExt u => do H <- user (e_vhp u x v old); do H <- like old H; Ret (H, h)
         | OLinear _ _ _ | ODiff _ _ | ORigid _ | OCompose _ _ _ _ _ => Ret (map (map (fun _ => 0)) old, h)
         | OFd1 _ _ _ _ => UB
         | OFd2 s _ f eps =>
             do (_, dv, dr) <- dims_at h f;
             fd_vhp_loop (fun h y J => jac n h f y J) s dv eps x v dv 0 (zeros dr dv) (zeros dr dv) old h
         | OCost _ _ _ | OSum _ _ _ _ | OQuad _ _ _ _ _ _ _ _ =>
             do (H, h1) <- hess n h r x old;
             do v0 <- ub (nth_error v 0);
             Ret (map (map (fun a => a * v0)) H, h1)
         end)%out.
  Proof. reflexivity. Qed.
  Lemma hess_S (n : nat) (h : heap K) (r : ref) (x : list (car K)) (old : list (list (car K))) : hess (S n) h r x old =

        (do o <- ub (nth_error h r);
         match o with
         | OCost _ _ f => vhp n h f x [1] old
         | OSum _ _ cs ws =>
             sum_hess (fun h c x => do (_, dv, _) <- dims_at h c; hess n h c x (alloc dv dv))
                      x cs ws (map (map (fun _ => 0)) old) h
         | OQuad _ dv f W s _ gn ca =>
             do w <- mv W (c_err ca); do w <- vop sadd w s;
             do (out, h1) <- (if gn then Ret (map (map (fun _ => 0)) old, h)
                              else do (H, h1) <- vhp n h f x w (c_H ca);
                                   do out <- like old H; Ret (out, update h1 r (set_H H)));
             do (J, h2) <- jac n h1 f x (map (map (fun _ => 0)) (c_J ca));
             do JtW <- mm (length W) (transp dv J) W;
             do P <- mm dv JtW J; do out <- mop sadd out P;
             Ret (out, update h2 r (set_J J))
         | _ => UB
         end)%out.
  Proof. reflexivity. Qed.
End Unfold.
