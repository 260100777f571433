(** Proofs about math.hpp (C103). *)
From Coq Require Import Reals List Bool ZArith Lia Lra Psatz.
From Verif Require Import Scalar Solver_model Solver_spec SolverR_proofs Math_model Math_spec.
Import ListNotations.
Local Open Scope R_scope.

Lemma smax_Rmax a b : smax (K := RSc) a b = Rmax a b.
Proof. unfold smax. cbn [sltb RSc]. unfold Rltb, Rmax. destruct (Rlt_dec a b), (Rle_dec a b); lra. Qed.
Lemma norm_largest (v : list R) : largest_abs v (inf_norm (K := RSc) v). Proof. exact (inf_norm_maxl v). Qed.
Lemma fold_norm (z : list (list R)) : forall m, 0 <= m -> let r := fold_left (fun out zi => smax (K := RSc) out (inf_norm (K := RSc) zi)) z m in
  m <= r /\ (forall v, In v z -> inf_norm (K := RSc) v <= r) /\ (r = m \/ exists v, In v z /\ inf_norm (K := RSc) v = r).
Proof.
  induction z as [|v z IH]; intros m Hm; cbn [fold_left]; [cbn; repeat split; [lra|tauto|left; reflexivity]|].
  rewrite smax_Rmax. pose proof (Rmax_l m (inf_norm (K := RSc) v)) as L. pose proof (Rmax_r m (inf_norm (K := RSc) v)) as R'.
  destruct (IH (Rmax m (inf_norm (K := RSc) v)) ltac:(cbn [car RSc] in *; lra)) as (I1 & I2 & I3). cbv zeta in *. split; [cbn [car RSc] in *; lra|]. split.
  - intros w [<-|Hw]; [exact (Rle_trans _ _ _ R' I1)|apply I2, Hw].
  - destruct I3 as [I3|(w & Hw & I3)]; [|right; exists w; split; [right; exact Hw|exact I3]]. unfold Rmax in I3 at 2. destruct (Rle_dec _ _); [right; exists v; split; [left; reflexivity|symmetry; exact I3]|left; exact I3].
Qed.
Lemma list_largest (z : list (list R)) : largest_abs (concat z) (norm_of_list (K := RSc) z).
Proof.
  destruct (fold_norm z 0 (Rle_refl 0)) as (I1 & I2 & I3). change (fold_left (fun out zi => smax (K := RSc) out (inf_norm (K := RSc) zi)) z 0) with (norm_of_list (K := RSc) z) in *. set (r := norm_of_list (K := RSc) z) in *.
  assert (B : forall a, In a (concat z) -> Rabs a <= r). { intros a Ha. apply in_concat in Ha as (v & Hv & Ha). exact (Rle_trans _ _ _ (proj1 (norm_largest v) a Ha) (I2 v Hv)). }
  split; [exact B|]. destruct (concat z) as [|a c] eqn:Ec.
  - left. split; [reflexivity|]. destruct I3 as [I3|(v & Hv & I3)]; [exact I3|]. destruct (proj2 (norm_largest v)) as [[_ E]|(a & Ha & _)]; [exact (eq_trans (eq_sym I3) E)|]. exfalso. assert (X : In a (concat z)) by (apply in_concat; exists v; split; assumption). rewrite Ec in X. destruct X.
  - right. destruct I3 as [I3|(v & Hv & I3)].
    + exists a. split; [left; reflexivity|]. pose proof (B a (or_introl eq_refl)). pose proof (Rabs_pos a). cbn [car RSc] in *. lra.
    + destruct (proj2 (norm_largest v)) as [[_ E]|(d & Hd & E)].
      * exists a. split; [left; reflexivity|]. pose proof (B a (or_introl eq_refl)). pose proof (Rabs_pos a). cbn [car RSc] in *. lra.
      * exists d. split; [|exact (eq_trans E I3)]. rewrite <- Ec. apply in_concat. exists v. split; assumption.
Qed.
Lemma largest_unique v m m' : largest_abs v m -> largest_abs v m' -> m = m'.
Proof.
  intros [U [[-> ->]|(a & Ha & <-)]] [U' [[E ->]|(b & Hb & <-)]]; try reflexivity.
  - destruct Hb.
  - subst v. destruct Ha.
  - apply Rle_antisym; [apply U', Ha|apply U, Hb].
Qed.
Lemma largest_pos v m : largest_abs v m -> 0 <= m.
Proof. intros [_ [[_ ->]|(a & _ & <-)]]; [lra|apply Rabs_pos]. Qed.
Lemma largest_zero v m : largest_abs v m -> (m = 0 <-> Forall (fun a => a = 0) v).
Proof.
  intros H. split.
  - intros ->. apply Forall_forall. intros a Ha. destruct H as [U _]. specialize (U a Ha). pose proof (Rabs_pos a). destruct (Req_dec a 0) as [E|E]; [exact E|]. apply Rabs_no_R0 in E. lra.
  - intros F. rewrite Forall_forall in F. destruct H as [_ [[_ ->]|(a & Ha & <-)]]; [reflexivity|]. rewrite (F a Ha). apply Rabs_R0.
Qed.
Lemma norm_triangle (u v : list R) : length u = length v -> inf_norm (K := RSc) (vadd (K := RSc) u v) <= inf_norm (K := RSc) u + inf_norm (K := RSc) v.
Proof.
  intros L. pose proof (largest_pos _ _ (norm_largest u)) as P1. pose proof (largest_pos _ _ (norm_largest v)) as P2. pose proof (norm_largest (vadd (K := RSc) u v)) as [_ [[_ E]|(x & Hx & E)]].
  - cbn [car RSc] in *. lra.
  - apply (In_nth _ _ 0) in Hx. destruct Hx as (i & Hi & Ex). rewrite vadd_length in Hi by exact L. rewrite vadd_nth in Ex by exact L. rewrite <- E, <- Ex.
    eapply Rle_trans; [apply Rabs_triang|]. apply Rplus_le_compat; [apply (proj1 (norm_largest u)), nth_In, Hi|apply (proj1 (norm_largest v)), nth_In; rewrite <- L; exact Hi].
Qed.
Lemma norm_scale a (v : list R) : inf_norm (K := RSc) (vscale (K := RSc) a v) = Rabs a * inf_norm (K := RSc) v.
Proof.
  apply (largest_unique (vscale (K := RSc) a v)); [apply norm_largest|]. destruct (norm_largest v) as [U E]. split.
  - intros x Hx. unfold vscale in Hx. apply in_map_iff in Hx as (y & <- & Hy). change (a * y)%S with (a * y). rewrite Rabs_mult. apply Rmult_le_compat_l; [apply Rabs_pos|apply U, Hy].
  - destruct E as [[-> E]|(x & Hx & E)]; [left; split; [reflexivity|rewrite E; apply Rmult_0_r]|]. right. exists (a * x). split; [apply (in_map (fun y => a * y)), Hx|]. rewrite Rabs_mult, E. reflexivity.
Qed.

(** NaN. *)
Lemma smax_nan (a b : xr) : snan (s := XSc) a = false -> snan (s := XSc) (smax (K := XSc) a b) = false.
Proof. unfold smax. destruct a as [|[]|], b as [|[]|]; cbn; try discriminate; try reflexivity. destruct (Rltb _ _); reflexivity. Qed.
Lemma norm_never_nan (z : list (list xr)) : snan (s := XSc) (norm_of_list (K := XSc) z) = false.
Proof. unfold norm_of_list. assert (H : forall m, snan (s := XSc) m = false -> snan (s := XSc) (fold_left (fun out zi => smax (K := XSc) out (inf_norm (K := XSc) zi)) z m) = false). { induction z as [|v z IH]; intros m Hm; [exact Hm|]. apply IH, smax_nan, Hm. } apply H. reflexivity. Qed.
Lemma nan_hidden : exists z : list (list xr), In XNaN (concat z) /\ norm_of_list (K := XSc) z = XFin 1.
Proof. exists [[XFin 1]; [XNaN]]. split; [cbn; tauto|]. unfold norm_of_list, smax. cbn. unfold Rltb. rewrite Rabs_R1. destruct (Rlt_dec 0 1); [reflexivity|lra]. Qed.

(** check_scalar. *)
Lemma check_means (a : xr) : (check_scalar (K := XSc) a = true <-> a = XNaN \/ exists s, a = XInf s) /\ check_scalar (K := XSc) a = bad_scalar (K := XSc) a.
Proof. destruct a; cbn; split; try reflexivity; split; intros H; try discriminate; try (left; reflexivity); try (right; eexists; reflexivity); try reflexivity; destruct H as [H|[? H]]; discriminate H. Qed.

(** scalar_close. *)
Lemma close_iff a b e : scalar_close (K := RSc) a b e = true <-> Rabs (a - b) < e * (1 + Rmax (Rabs a) (Rabs b)).
Proof. unfold scalar_close. rewrite smax_Rmax. cbn. unfold Rltb. destruct (Rlt_dec _ _); split; intros; try assumption; try reflexivity; try discriminate; contradiction. Qed.
Lemma close_sym a b e : scalar_close (K := RSc) a b e = scalar_close (K := RSc) b a e.
Proof. unfold scalar_close. rewrite !smax_Rmax. cbn. rewrite Rabs_minus_sym, Rmax_comm. reflexivity. Qed.
Lemma close_facts a b e : 0 < e ->
  (close_abs e a b \/ close_rel e a b -> scalar_close (K := RSc) a b e = true) /\
  (scalar_close (K := RSc) a b e = true -> close_abs (2 * e) a b \/ close_rel (2 * e) a b) /\
  scalar_close (K := RSc) a a e = true.
Proof.
  intros He. pose proof (Rmax_l (Rabs a) (Rabs b)). pose proof (Rabs_pos a). set (M := Rmax (Rabs a) (Rabs b)) in *. unfold close_abs, close_rel. fold M. rewrite !close_iff. fold M. split; [|split].
  - intros [X|X]; nra.
  - intros X. destruct (Rle_dec M 1); [left; nra|right; nra].
  - rewrite Rmax_left by lra. unfold Rminus. rewrite Rplus_opp_r, Rabs_R0. nra.
Qed.
Lemma close_never a b e : e <= 0 -> scalar_close (K := RSc) a b e = false.
Proof. intros He. destruct (scalar_close (K := RSc) a b e) eqn:E; [|reflexivity]. apply close_iff in E. pose proof (Rabs_pos (a - b)). pose proof (Rmax_l (Rabs a) (Rabs b)). pose proof (Rabs_pos a). set (M := Rmax _ _) in *. nra. Qed.
Lemma close_inf (s : bool) (e : xr) : scalar_close (K := XSc) (XInf s) (XInf s) e = false.
Proof. unfold scalar_close. destruct s; reflexivity. Qed.
Lemma close_not_trans : exists a b c e, 0 < e /\ scalar_close (K := RSc) a b e = true /\ scalar_close (K := RSc) b c e = true /\ scalar_close (K := RSc) a c e = false.
Proof.
  exists 0, (1 / 10), (21 / 100), (1 / 10). split; [lra|]. assert (A : Rmax (Rabs 0) (Rabs (1 / 10)) = 1 / 10) by (rewrite Rabs_R0, (Rabs_pos_eq (1/10)) by lra; apply Rmax_right; lra).
  assert (B : Rmax (Rabs (1 / 10)) (Rabs (21 / 100)) = 21 / 100) by (rewrite !Rabs_pos_eq by lra; apply Rmax_right; lra). assert (C : Rmax (Rabs 0) (Rabs (21 / 100)) = 21 / 100) by (rewrite Rabs_R0, (Rabs_pos_eq (21/100)) by lra; apply Rmax_right; lra).
  rewrite !close_iff, A, B. split; [unfold Rabs; destruct (Rcase_abs _); lra|]. split; [unfold Rabs; destruct (Rcase_abs _); lra|].
  destruct (scalar_close (K := RSc) 0 (21 / 100) (1 / 10)) eqn:E; [|reflexivity]. apply close_iff in E. rewrite C in E. unfold Rabs in E. destruct (Rcase_abs _) in E; lra.
Qed.
(** sign. *)
Lemma sign_means x : ssign (K := RSc) x = 1 /\ 0 < x \/ ssign (K := RSc) x = 0 /\ x = 0 \/ ssign (K := RSc) x = -1 /\ x < 0.
Proof. unfold ssign. cbn. unfold Rltb. destruct (Rlt_dec 0 x), (Rlt_dec x 0); cbn; lra. Qed.
Lemma sign_nan : ssign (K := XSc) XNaN = XFin 0. Proof. reflexivity. Qed.
