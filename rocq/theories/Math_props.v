(** Theorems about the utilities of math.hpp (C103). *)
From Coq Require Import Reals List Bool ZArith Lra.
From Verif Require Import Scalar Solver_model Math_model Math_spec Math_proofs.
Import ListNotations.
Local Open Scope R_scope.

(** C103. infty_norm is the largest absolute value, of a vector and of all entries of a list of vectors, and is a norm. *)
Theorem C103_norm : (forall v : list R, largest_abs v (inf_norm (K := RSc) v)) /\ (forall z : list (list R), largest_abs (concat z) (norm_of_list (K := RSc) z)) /\
  (forall v m, largest_abs v m -> 0 <= m /\ (m = 0 <-> Forall (fun a => a = 0) v)) /\
  (forall u v : list R, length u = length v -> inf_norm (K := RSc) (vadd (K := RSc) u v) <= inf_norm (K := RSc) u + inf_norm (K := RSc) v) /\
  (forall a (v : list R), inf_norm (K := RSc) (vscale (K := RSc) a v) = Rabs a * inf_norm (K := RSc) v).
Proof. exact (conj norm_largest (conj list_largest (conj (fun v m H => conj (largest_pos v m H) (largest_zero v m H)) (conj norm_triangle norm_scale)))). Qed.
Print Assumptions C103_norm.
(** The norm of a list of vectors is never NaN, whatever the entries (std::max keeps its first argument when the second is NaN) ... *)
Theorem C103_never_nan : forall z : list (list xr), snan (s := XSc) (norm_of_list (K := XSc) z) = false.
Proof. exact norm_never_nan. Qed.
Print Assumptions C103_never_nan.
(** ... so that it hides a NaN. *)
Theorem C103_nan_refuted : exists z : list (list xr), In XNaN (concat z) /\ norm_of_list (K := XSc) z = XFin 1.
Proof. exact nan_hidden. Qed.
Print Assumptions C103_nan_refuted.
(** check_scalar is true exactly for NaN and the infinities, the contrary of its comment, and agrees with check_value. *)
Theorem C103_check_scalar : forall a : xr, (check_scalar (K := XSc) a = true <-> a = XNaN \/ exists s, a = XInf s) /\ check_scalar (K := XSc) a = bad_scalar (K := XSc) a.
Proof. exact check_means. Qed.
Print Assumptions C103_check_scalar.
(** scalar_close with a positive precision: implied by closeness within the absolute or the relative error e, implies one of them within 2 e, reflexive and symmetric;
    it is never true for other precisions. *)
Theorem C103_close : forall a b e : R,
  (0 < e -> (close_abs e a b \/ close_rel e a b -> scalar_close (K := RSc) a b e = true) /\
            (scalar_close (K := RSc) a b e = true -> close_abs (2 * e) a b \/ close_rel (2 * e) a b) /\ scalar_close (K := RSc) a a e = true) /\
  (e <= 0 -> scalar_close (K := RSc) a b e = false) /\ scalar_close (K := RSc) a b e = scalar_close (K := RSc) b a e.
Proof. exact (fun a b e => conj (close_facts a b e) (conj (close_never a b e) (close_sym a b e))). Qed.
Print Assumptions C103_close.
(** It is not transitive, and not reflexive at the infinities. *)
Theorem C103_close_transitive_refuted : exists a b c e, 0 < e /\ scalar_close (K := RSc) a b e = true /\ scalar_close (K := RSc) b c e = true /\ scalar_close (K := RSc) a c e = false.
Proof. exact close_not_trans. Qed.
Print Assumptions C103_close_transitive_refuted.
Theorem C103_close_inf_refuted : exists a : xr, forall e, scalar_close (K := XSc) a a e = false.
Proof. exact (ex_intro _ (XInf false) (close_inf false)). Qed.
Print Assumptions C103_close_inf_refuted.
(** sign. *)
Theorem C103_sign : (forall x : R, ssign (K := RSc) x = 1 /\ 0 < x \/ ssign (K := RSc) x = 0 /\ x = 0 \/ ssign (K := RSc) x = -1 /\ x < 0) /\ ssign (K := XSc) XNaN = XFin 0.
Proof. exact (conj sign_means sign_nan). Qed.
Print Assumptions C103_sign.

Example C103_example : largest_abs [2; -3; 1] 3 /\ close_rel (1 / 100) 1000 1001 /\ ~ close_abs (1 / 100) 1000 1001 /\ scalar_close (K := RSc) 1000 1001 (1 / 100) = true.
Proof.
  assert (R1 : close_rel (1 / 100) 1000 1001). { unfold close_rel. rewrite !(Rabs_pos_eq 1000), !(Rabs_pos_eq 1001), Rmax_right by lra. unfold Rabs. destruct Rcase_abs; lra. }
  split; [|split; [exact R1|split]].
  - split; [|right; exists (-3); split; [cbn; tauto|unfold Rabs; destruct Rcase_abs; lra]]. intros a [<-|[<-|[<-|[]]]]; unfold Rabs; destruct Rcase_abs; lra.
  - unfold close_abs, Rabs. destruct Rcase_abs; lra.
  - apply C103_close; [lra|right; exact R1].
Qed.
