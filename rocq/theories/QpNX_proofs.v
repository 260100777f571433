(** The example of C95. *)
From Coq Require Import Reals List Bool Arith ZArith Lia Lra.
From Verif Require Import Scalar Cset_model Problem_model Armijo_model Solver_model Solver_spec Ldlt_model Ldlt_proofs Lin_spec Ldlt_spec Bk_spec Descent_spec Qp_spec QpF_proofs QpX_proofs Fac_model Fac_spec FacX_proofs QpN_proofs.
Import ListNotations.
Local Open Scope R_scope.
Lemma ex95 : let P := default_params (K := RSc) in let O := dense_oracles 3 in let p := qp 2 ex_q (fun _ => 0) [1%nat] (fun _ _ => 1) (fun _ => 2) in
  let s := setup (K := RSc) (dldlt RSc) unit P p [CEq (1 / 100)] [0; 0] (dldlt_new (K := RSc) 3) tt : solver_state O in
  exists (s' : solver_state O) f, run_solve O 1001 2 1 1 P p (Some s) [5; -7] [10] = Ret (s', f) /\
    (nth 0 (r_x (res s')) 0 - 1) * (nth 0 (r_x (res s')) 0 - 1) + (nth 1 (r_x (res s')) 0 - 1) * (nth 1 (r_x (res s')) 0 - 1) <= 41 / 1000000.
Proof.
  intros P O p s. pose proof tiny_default as TD. pose proof tiny_pos as TP. assert (T1 : tiny (K := RSc) < 1) by (cbn [car RSc] in *; lra).
  assert (Oo : outer_params O P 20 4 4) by (apply default_outer; [reflexivity|lra]). assert (B : buffers_fit p s) by (repeat split).
  assert (Hh : forall mu, mu_lower P <= mu <= mu_init P -> handles O 2 1 ex_q (fun _ _ => 1) mu).
  { intros mu [Hm _]. apply (dense_handles _ _ _ _ _ _ _ _ 2 1 ex_q (fun _ _ => 1) mu 1 ex_strong T1). cbn [P default_params mu_lower] in Hm. unfold slit in Hm. cbn [sdiv sofZ RSc] in Hm. cbn [car RSc] in *. lra. }
  assert (Al : answers_like 2 p (qp 2 ex_q (fun _ => 0) [1%nat] (fun _ _ => 1) (fun _ => 2))) by apply like_refl.
  destruct (solve_final O P 2 ex_q (fun _ => 0) [1%nat] (fun _ _ => 1) (fun _ => 2) p (fun _ => 1) (fun _ => -3) 20 4 4 1001 2 1 1 s [1 / 100] [5; -7] [10]) as (s' & f & E & _); try solve [reflexivity|assumption|apply dense_plain|exact ex_best|cbn; lra|cbn; lia].
  { apply (strong_convex 2 _ ex_q _ 1); [lra|exact ex_strong]. }
  exists s', f. split; [exact E|].
  destruct (solve_near O P 2 ex_q (fun _ => 0) [1%nat] (fun _ _ => 1) (fun _ => 2) p 1 (fun _ => 1) (fun _ => -3) 20 4 4 1001 2 1 1 s [1 / 100] [5; -7] [10] s' f) as (_ & H & _); try solve [reflexivity|assumption|apply dense_plain|exact ex_best|exact ex_strong|cbn; lra|cbn; lia].
  cbv zeta in H. cbn [rsum total] in H. cbn [P default_params target_tol] in H. unfold slit in H. cbn [sdiv sofZ RSc] in H.
  change (INR 2) with (1 + 1) in H. change (INR (1 + 0)) with 1 in H. rewrite sqrt_1 in H.
  match type of H with 0 + ?u + ?v <= _ => apply (Rle_trans _ (0 + u + v)); [right; change (u + v = 0 + u + v); ring|refine (Rle_trans _ _ _ H _)] end. cbn [car RSc]. lra.
Qed.
