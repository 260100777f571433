(** The proximal penalty of the solver on a vector space is the one of the convergence theorems with a proximal term. *)
From Coq Require Import Reals List Arith Bool Lia Lra.
From Verif Require Import Scalar Cset_spec Cset_proofs Cset_model Armijo_model Problem_model Solver_model Manifold_model Manifold_spec Function_model Function_spec FunctionH_proofs Objects_model Objects_spec Objects_proofs Prox_proofs
  Lin_spec Lin_proofs Qp_spec Qp_proofs QpD_proofs QpR_spec.
Import ListNotations.
Local Open Scope R_scope.

Notation en v := (fun i => nth i v 0).
Definition unit_of (n i : nat) : rvec := tab n (fun j => if (j =? i)%nat then 1 else 0).
Lemma dif_vec n (t x : nat -> R) : difference (K := RSc) (SVec n) (tab n t) (tab n x) = Ret (tab n (fun i => x i - t i)).
Proof. cbn [difference]. unfold vop, fixed. rewrite !tab_length, Nat.eqb_refl. cbn [bind]. rewrite map2_tab, tab_length, Nat.eqb_refl. reflexivity. Qed.
Lemma int_vec n (x v : nat -> R) : integrate (K := RSc) (SVec n) (tab n x) (tab n v) = Ret (tab n (fun i => x i + v i)).
Proof. cbn [integrate]. unfold vop, fixed. rewrite !tab_length, Nat.eqb_refl. cbn [bind]. rewrite map2_tab, tab_length, Nat.eqb_refl. reflexivity. Qed.
Lemma pen_vec n rho t x : penalty (SVec n) rho (tab n t) (tab n x) = Ret [rho / 2 * dist2 n x t].
Proof. unfold penalty. cbn [car RSc] in *. rewrite dif_vec. cbn [bind]. rewrite inner_tab. reflexivity. Qed.
(** A line. *)
Definition go (n : nat) (x w : nat -> R) (a : R) : outcome rvec := Ret (tab n (fun i => x i + a * w i)).
Lemma go_path n x w : path (Geo (SVec n)) (tab n x) (tab n w) (go n x w).
Proof.
  split; [unfold go; f_equal; apply tab_ext; intros; ring|]. split.
  - intros a. unfold line, go. rewrite map_tab. cbn [car RSc] in *. rewrite int_vec. reflexivity.
  - exists 1. split; [lra|]. intros a _. eexists. reflexivity.
Qed.
Lemma lin_lim u v w a : derivable_pt_lim (fun s => u + s * v + s * s * w) a (v + 2 * a * w).
Proof.
  intros e He. assert (Hd : 0 < e / (1 + Rabs w)) by (apply Rdiv_lt_0_compat; [exact He|pose proof (Rabs_pos w); lra]). exists (mkposreal _ Hd). intros h Hh Hl. cbn in Hl.
  replace ((u + (a + h) * v + (a + h) * (a + h) * w - (u + a * v + a * a * w)) / h - (v + 2 * a * w)) with (h * w) by (field; exact Hh).
  rewrite Rabs_mult. pose proof (Rabs_pos w). pose proof (Rabs_pos h). apply Rle_lt_trans with (Rabs h * (1 + Rabs w)); [nra|].
  apply Rmult_lt_reg_r with (/ (1 + Rabs w)); [apply Rinv_0_lt_compat; lra|]. rewrite Rmult_assoc, Rinv_r by lra. rewrite Rmult_1_r. exact Hl.
Qed.
Lemma lin_lim0 u v w : derivable_pt_lim (fun s => u + s * v + s * s * w) 0 v.
Proof. pose proof (lin_lim u v w 0) as H. replace (v + 2 * 0 * w) with v in H by ring. exact H. Qed.
Lemma lim_ext f g a l : (forall s, f s = g s) -> derivable_pt_lim f a l -> derivable_pt_lim g a l.
Proof. intros H D e He. destruct (D e He) as (d & G). exists d. intros h Hh Hl. rewrite <- !H. apply G; assumption. Qed.
Lemma pen_velocity n rho t x w : velocity (fun a => (do y <- go n x w a; penalty (SVec n) rho (tab n t) y)%out) [rsum n (fun i => rho * (x i - t i) * w i)].
Proof.
  exists (fun a => [rho / 2 * dist2 n (fun i => x i + a * w i) t]), 1. split; [lra|]. split; [intros a _; unfold go; cbn [bind]; apply pen_vec|]. split; [reflexivity|].
  intros i Hi. assert (i = 0)%nat as -> by (cbn in Hi; lia). cbn [nth].
  apply lim_ext with (fun s => rho / 2 * dist2 n x t + s * rsum n (fun i => rho * (x i - t i) * w i) + s * s * (rho / 2 * rsum n (fun i => w i * w i))).
  - intros s. unfold dist2. rewrite <- !rsum_scale, <- !rsum_plus. apply rsum_ext. intros k _. field.
  - apply lin_lim0.
Qed.
Lemma dif_velocity n t x w : velocity (fun a => (do y <- go n x w a; difference (K := RSc) (SVec n) (tab n t) y)%out) (tab n w).
Proof.
  exists (fun a => tab n (fun i => x i + a * w i - t i)), 1. split; [lra|]. split; [intros a _; unfold go; cbn [bind car RSc] in *; exact (dif_vec n t _)|]. split; [intros; rewrite !tab_length; reflexivity|].
  intros i Hi. rewrite tab_length in Hi. rewrite tab_nth by exact Hi. apply lim_ext with (fun s => (x i - t i) + s * w i + s * s * 0); [intros s; rewrite tab_nth by exact Hi; ring|].
  apply lin_lim0.
Qed.
Lemma unit_sum n i f : (i < n)%nat -> rsum n (fun j => f j * (if (j =? i)%nat then 1 else 0)) = f i.
Proof.
  intros Hi. rewrite (rsum_one n _ i Hi); [rewrite Nat.eqb_refl; ring|]. intros j _ H. apply Nat.eqb_neq in H. rewrite H. ring.
Qed.
Lemma object_penalty junk N n h0 rho0 h r pw ig fac comp sg sv bf bu qr : new_prox (K := RSc) h0 (SVec n) rho0 = Ret (h, r) -> (4 <= N)%nat ->
  prox_penalty (mkOracles (K := RSc) pw ig (object_val junk N h r) (object_grad junk N n h r) (object_hess junk N n h r) fac comp sg sv bf bu qr) n.
Proof.
  intros En Hn rho t x Hr Lt Lx. cbn [o_px_val o_px_grad o_px_hess].
  set (D := {| d_pt := fun _ _ => True; d_tg := fun _ _ => True; d_near := fun _ _ _ => True |} : domain).
  destruct (ex_intro (fun t0 => t = tab n t0) _ (tab_self n t Lt)) as (t0 & ->). destruct (ex_intro (fun x0 => x = tab n x0) _ (tab_self n x Lx)) as (x0 & ->).
  pose proof (prox_val junk D (SVec n) h0 rho0 h r rho _ _ I I I eq_refl En (conj Lt Lx) N Hn) as V. rewrite pen_vec in V. injection V as V.
  split. { etransitivity; [symmetry; exact V|]. f_equal. unfold dist2. apply rsum_ext. intros i Hi. cbn [car RSc] in *. rewrite !tab_nth by exact Hi. reflexivity. }
  destruct (prox_constructed h0 (SVec n) rho0 eq_refl) as (h' & r' & En' & Iv & _). rewrite En in En'. injection En' as <- <-.
  destruct (prox_sequence junk D (SVec n) I I I [XRho (K := RSc) rho; XTarget (K := RSc) (tab n t0); XPass (K := RSc) (tab n x0) (repeat 0 n) (repeat (repeat 0 n) n)] h r rho0 _ N Hn Iv) as (l & h'' & El & An).
  { split; [split; assumption|]. split; [apply repeat_length|]. split; [apply zero_mat|exact I]. }
  unfold object_grad, object_hess. cbn [car RSc] in *. rewrite El. destruct l as [|[v g H|v] l]; try contradiction. destruct An as (_ & Lg & MH & Vg & VH & An). destruct l as [|? ?]; [|contradiction].
  cbn [ndx] in Lg, MH. split.
  - apply list_tab; [exact Lg|]. intros i Hi.
    specialize (Vg (unit_of n i) (go n x0 (fun j => if (j =? i)%nat then 1 else 0)) (tab_length _ _) (go_path _ _ _)).
    pose proof (velocity_unique _ _ _ Vg (pen_velocity n rho t0 x0 (fun j => if (j =? i)%nat then 1 else 0))) as G. injection G as G.
    rewrite (tab_self n g Lg) in G at 1. unfold unit_of in G. rewrite inner_tab in G. rewrite (unit_sum n i _ Hi) in G. rewrite (unit_sum n i (fun i => rho * (x0 i - t0 i)) Hi) in G. rewrite !tab_nth by exact Hi. exact G.
  - destruct MH as [L F]. rewrite Forall_forall in F. apply (mat_entries n n); [split; [exact L|apply Forall_forall; exact F]| |].
    + split; [apply tab_length|]. apply Forall_forall. intros row Ir. apply in_map_iff in Ir. destruct Ir as (i & <- & _). apply tab_length.
    + intros i j Hi Hj. rewrite (tab_nth n _ [] i Hi), (tab_nth n _ 0 j Hj).
      pose proof (VH (unit_of n i) (unit_of n j) (go n x0 (fun k => if (k =? i)%nat then 1 else 0)) (go n x0 (fun k => if (k =? j)%nat then 1 else 0)) (unit_of n i) (unit_of n j) (tab_length _ _) (tab_length _ _)
        (go_path _ _ _) (go_path _ _ _) (dif_velocity _ _ _ _) (dif_velocity _ _ _ _)) as VH'. clear VH.
      assert (Ri : length (nth i H []) = n) by (apply F, nth_In; eapply Nat.lt_le_trans; [eassumption|apply Nat.eq_le_incl; symmetry; exact L]).
      assert (EH : mat_vec H (unit_of n j) = tab n (fun i => nth j (nth i H []) 0)).
      { apply list_tab; [unfold mat_vec; rewrite map_length; exact L|]. intros k Hk. unfold mat_vec. rewrite (nth_indep _ 0 (Cset_spec.inner [] (unit_of n j))) by (rewrite map_length; eapply Nat.lt_le_trans; [eassumption|apply Nat.eq_le_incl; symmetry; exact L]).
        rewrite (map_nth (fun row => Cset_spec.inner row (unit_of n j))). assert (Rk : length (nth k H []) = n) by (apply F, nth_In; eapply Nat.lt_le_trans; [eassumption|apply Nat.eq_le_incl; symmetry; exact L]). etransitivity; [exact (f_equal (fun v => Cset_spec.inner v (unit_of n j)) (tab_self n _ Rk))|]. cbv beta. unfold unit_of. rewrite inner_tab. exact (unit_sum n j (en (nth k H [])) Hj). }
      rewrite EH in VH'. unfold unit_of in VH'. rewrite !inner_tab in VH'.
      rewrite (rsum_ext n _ (fun k => nth j (nth k H []) 0 * (if (k =? i)%nat then 1 else 0))) in VH' by (intros; ring). rewrite (unit_sum n i (fun k => nth j (nth k H []) 0) Hi) in VH'.
      rewrite (unit_sum n j (fun k => if (k =? i)%nat then 1 else 0) Hj) in VH'. etransitivity; [exact VH'|]. rewrite Nat.eqb_sym. destruct (i =? j)%nat; ring.
Qed.
