(** Properties C43 and C70: quasi-Newton updates. *)
From Coq Require Import Reals List Arith Lia Lra.
From Verif Require Import Scalar Cset_spec Cset_proofs Problem_model Manifold_model Manifold_spec Function_model Function_spec Function_proofs Bfgs_model Bfgs_spec Bfgs_proofs.
Import ListNotations.
Local Open Scope R_scope.

(** C43. One update of an initialised strategy: with s = x - x_prev and y = g - g_prev, the matrix is
    changed by the rank-two formula if s'y > 0 and kept otherwise; the point is remembered either way. *)
Theorem C43_formula : forall inv b x g H n, b_init b = true -> length x = n -> length g = n -> length (b_x b) = n -> length (b_g b) = n -> mat n n H ->
  let s := minus x (b_x b) in let y := minus g (b_g b) in
  exists b' H', bfgs_update (K := RSc) inv b x g H = Ret (b', H') /\ b_init b' = true /\ b_valid b' = b_valid b /\ b_x b' = x /\ b_g b' = g /\ mat n n H' /\
    (0 < inner s y -> b_psd b' = true /\ forall u, length u = n -> mat_vec H' u = if inv then rank_two H s y u else rank_two H y s u) /\
    (inner s y <= 0 -> b_psd b' = false /\ H' = H).
Proof. exact update_step. Qed.
Print Assumptions C43_formula.
(** The first call stores the point; the second one, if s'y > 0, gives a symmetric positive definite
    matrix with the secant equation H s = y (Hessian) or H y = s (inverse Hessian). *)
Theorem C43_secant : forall inv n x0 g0 x g H, length x0 = n -> length g0 = n -> length x = n -> length g = n -> spd n H ->
  0 < inner (minus x x0) (minus g g0) ->
  exists b1 b2 H', bfgs_update (K := RSc) inv (bfgs_new (K := RSc) n) x0 g0 H = Ret (b1, H) /\ bfgs_update (K := RSc) inv b1 x g H = Ret (b2, H') /\ spd n H' /\
    (if inv then mat_vec H' (minus g g0) = minus x x0 else mat_vec H' (minus x x0) = minus g g0).
Proof. exact after_two. Qed.
Print Assumptions C43_secant.
(** Whatever the points and gradients, all updates of a run succeed and the matrix stays symmetric
    positive definite; the solver starts from the identity (prox-solver.hpp:157). *)
Theorem C43_stays_positive_definite : forall inv n l, Forall (fun p => length (fst p) = n /\ length (snd p) = n) l ->
  exists b H, updates inv (bfgs_new (K := RSc) n) (eye_scaled (K := RSc) 1 n) l b H /\ spd n H.
Proof.
  intros inv n l F. apply (all_updates inv n l F); [|apply eye_spd]. split; [reflexivity|]. intros E. discriminate.
Qed.
Print Assumptions C43_stays_positive_definite.
(** A strategy that was not given its size (approximation chosen after setup) throws. *)
Theorem C43_invalid_throws : forall inv x g H, bfgs_update (K := RSc) inv (bfgs_default (K := RSc)) x g H = Throw ErrBfgs.
Proof. reflexivity. Qed.
Print Assumptions C43_invalid_throws.
Example C43_example : exists b1 b2 H', bfgs_update (K := RSc) false (bfgs_new (K := RSc) 2) [0; 0] [1; 1] (eye_scaled (K := RSc) 1 2) = Ret (b1, eye_scaled (K := RSc) 1 2) /\
  bfgs_update (K := RSc) false b1 [1; 2] [4; 3] (eye_scaled (K := RSc) 1 2) = Ret (b2, H') /\ spd 2 H' /\ mat_vec H' [1 - 0; 2 - 0] = [4 - 1; 3 - 1].
Proof. apply (C43_secant false 2 [0; 0] [1; 1] [1; 2] [4; 3]); try reflexivity; [apply eye_spd|cbn; lra]. Qed.
(** A run with a skipped update (third call, s'y < 0). *)
Example C43_run_example : exists b H, updates false (bfgs_new (K := RSc) 1) (eye_scaled (K := RSc) 1 1) [([0], [1]); ([1], [3]); ([2], [0]); ([1], [-1])] b H /\ spd 1 H.
Proof. apply C43_stays_positive_definite. repeat constructor. Qed.

(** C70. The two formulas are inverse to the ones in the literature: if N is the inverse of the matrix,
    the updated matrix is the inverse of N - N p p'N / p'Np + q q'/s'y, with (p, q) = (s, y) for the
    inverse Hessian (so this N is the BFGS matrix) and (y, s) for the Hessian (DFP). *)
Theorem C70_inverse_formula : forall (inv : bool) b x g H N n, b_init b = true -> length x = n -> length g = n -> length (b_x b) = n -> length (b_g b) = n ->
  mat n n H -> mat n n N -> (forall w, length w = n -> mat_vec H (mat_vec N w) = w) ->
  let s := minus x (b_x b) in let y := minus g (b_g b) in
  let p := if inv then s else y in let q := if inv then y else s in
  0 < inner s y -> inner p (mat_vec N p) <> 0 ->
  exists b' H', bfgs_update (K := RSc) inv b x g H = Ret (b', H') /\ forall u, length u = n -> mat_vec H' (inverse_two N p q u) = u.
Proof.
  intros inv b x g H N n Hi Lx Lg L1 L2 MH MN Inv s y p q P Hn.
  destruct (update_step inv b x g H n Hi Lx Lg L1 L2 MH) as (b' & H' & E & _ & _ & _ & _ & _ & Hp & _). fold s in Hp. fold y in Hp. exists b', H'. split; [exact E|]. intros u Lu.
  destruct (Hp P) as [_ HH].
  assert (Ls : length s = n) by (unfold s, minus; rewrite map2_length; cbn [car RSc] in *; lia).
  assert (Ly : length y = n) by (unfold y, minus; rewrite map2_length; cbn [car RSc] in *; lia).
  assert (Lp : length p = n) by (unfold p; destruct inv; assumption). assert (Lq : length q = n) by (unfold q; destruct inv; assumption).
  assert (LN : forall w, length (mat_vec N w) = n) by (intros w; rewrite mat_vec_len; exact (proj1 MN)).
  rewrite HH by (unfold inverse_two; rewrite !less_len; rewrite ?less_len; rewrite ?LN; auto).
  assert (G : rank_two H p q (inverse_two N p q u) = u).
  { apply (rank_two_inverse n); try assumption. unfold p, q. destruct inv; [lra|]. rewrite inner_comm. lra. }
  unfold p, q in *. destruct inv; exact G.
Qed.
Print Assumptions C70_inverse_formula.
Example C70_example : exists b' H', bfgs_update (K := RSc) true (mkBfgs (K := RSc) true true true [0; 0] [1; 1]) [1; 2] [4; 3] [[1; 0]; [0; 1 / 2]] = Ret (b', H') /\
  forall u, length u = 2%nat -> mat_vec H' (inverse_two [[1; 0]; [0; 2]] [1 - 0; 2 - 0] [4 - 1; 3 - 1] u) = u.
Proof.
  apply (C70_inverse_formula true (mkBfgs (K := RSc) true true true [0; 0] [1; 1]) [1; 2] [4; 3] [[1; 0]; [0; 1 / 2]] [[1; 0]; [0; 2]] 2); try reflexivity; try (split; repeat constructor; fail).
  - intros [|a [|c [|? ?]]] L; try discriminate. cbn. f_equal; [lra|f_equal; lra].
  - cbn. lra.
  - cbn. lra.
Qed.
