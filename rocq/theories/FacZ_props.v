(** Theorems about the inertia test with the DENSE factorisation, for matrices that need not have an LDL' factorisation (C96). *)
From Coq Require Import Reals List Bool Arith ZArith Lia Lra.
From Verif Require Import Scalar Cset_model Cset_spec Armijo_model Problem_model Solver_model Solver_spec Merit_spec Lin_spec Ldlt_spec Bk_model Bk_spec Solver_examples Descent_spec Descent_proofs Refine_proofs DescentX_proofs Symb_model Armijo_spec Ldlt_model Fac_model Fac_spec FacZ_proofs.
Import ListNotations.
Local Open Scope R_scope.

(** C96. With the DENSE factorisation the inertia test is sound for every matrix of the regularised form, whatever the factorisation object held before: an accepted
    matrix is convex in the sense of C77, none of its pivots is zero, and systems with it are solved exactly if no pivot is below 2^-1022 in absolute value. *)
Theorem C96_dense_sound : forall F ndx nd M, let N := (ndx + nd)%nat in let F' := dense_fac (K := RSc) N F M in regularised ndx N (entries M) ->
  check_inertia ndx nd (dense_sig (K := RSc) F') = Some INERTIA_OK ->
  al_convex ndx N (entries M) /\ dl_n F' = N /\ (forall i, (i < N)%nat -> dl_mat F' i i <> 0) /\
  ((forall i, (i < N)%nat -> tiny (K := RSc) < Rabs (dl_mat F' i i)) -> exact_solver N (entries M) (dense_solve_list (K := RSc) F')).
Proof. exact dense_sound. Qed.
Print Assumptions C96_dense_sound.
Theorem C96_dense_faithful : forall pw ig pv pg ph bf bu qr ndx nd,
  faithful_on (mkOracles (K := RSc) pw ig pv pg ph (dldlt RSc) (dense_fac (K := RSc) (ndx + nd)) (dense_sig (K := RSc)) (dense_solve_list (K := RSc)) bf bu qr)
    (fun F => forall i, (i < ndx + nd)%nat -> tiny (K := RSc) < Rabs (dl_mat F i i)) ndx nd.
Proof. exact dense_faithful. Qed.
Print Assumptions C96_dense_faithful.
(** C83 for factorisations that are faithful only where [good] holds, as the dense one. *)
Theorem C96_merit_decrease : forall (O : oracles RSc) (good : o_fac O -> Prop) fls fin (P : @params RSc) (p : @problem RSc) (s : solver_state O) d dl r,
  let ndx := p_ndx p in let nd := rows_of (p_cons p) in let N := (ndx + nd)%nat in let s0 := d_state _ _ d in let M := step_matrix (o_fac O) (o_bfgs O) P p d in
  consistent p s -> pdal_beta P = 1 / 2 -> (0 < fls)%nat ->
  0 <= delta_init P -> 0 < delta_nz_init P -> 0 < delta_min P -> 0 <= del_inc_k P -> 0 <= del_inc_big P ->
  faithful_on O good ndx nd -> run_diagnose O P p s = Ret d -> agrees P p s (d_m _ _ d) ->
  (forall dd, kkt_dual_diag P p (mu s) (sets s) (m_shift_pd (d_m _ _ d)) = Ret dd -> sym N (M dd) /\
     forall M' F delta dl', run_inertia O fin P ndx nd (M dd) (w_fac _ _ (wsp s0)) (delta_init P) dl = Ret (M', F, delta, dl') -> delta <= delta_max P /\ good F) ->
  (forall dx dl a, length dx = ndx -> length dl = nd -> exists v m, run_phi O P p s0 dx dl a = Ret (v, m)) ->
  run_step O fls fin P p d dl = Ret r ->
  exists pd lr, let dx := firstn ndx pd in let dlam := skipn ndx pd in let sl := slope p d (fun i => nth i pd 0) in
    let alpha := w_alpha _ _ (wsp (state_of r)) in
    length pd = N /\
    (sl < 0 \/ ((forall i, (i < ndx)%nat -> nth i (d_mg _ _ d) 0 = 0) /\ (forall k, (k < nd)%nat -> nth k (d_md _ _ d) 0 = 0) /\ forall i, (i < N)%nat -> nth i pd 0 = 0)) /\
    r_x (res (state_of r)) = o_integrate O (r_x (res s0)) (scaled alpha dx) /\
    r_lams (res (state_of r)) = vadd (K := RSc) (r_lams (res s0)) (scaled alpha dlam) /\
    run (o_qr O) (fun _ a => phi_opt (o_integrate O) (o_px_val O) (o_fac O) (o_bfgs O) P p s0 dx dlam a) fls (lsopt P) (r_merit (res s0)) sl = Some lr /\
    r_merit (res (state_of r)) = r_phi lr /\ alpha = r_alpha lr /\
    (enough (armijo_c1 (lsopt P)) sl (r_merit (res s0)) alpha (r_merit (res (state_of r))) \/
     alpha = alpha_min (lsopt P) \/ Rabs sl < dphi_thresh (lsopt P) \/ length (r_trace lr) = S (max_num_steps (lsopt P))).
Proof. exact pass_decrease_on. Qed.
Print Assumptions C96_merit_decrease.
(** The converse fails: the matrix [0 1; 1 -1] of a problem with zero Hessian is convex in that sense and is rejected, because its first pivot is zero. *)
Theorem C96_complete_refuted : let M := [[0; 1]; [1; -1]] in regularised 1 2 (entries M) /\ al_convex 1 2 (entries M) /\
  forall F, check_inertia 1 1 (dense_sig (K := RSc) (dense_fac (K := RSc) 2 F M)) = Some INERTIA_HAS_ZEROS.
Proof. exact dense_rejects. Qed.
Print Assumptions C96_complete_refuted.

(** The Hessian -1 with the constraint gradient 2 and mu = 1 is accepted, since -1 + 4 > 0; the Hessian -5 is rejected. *)
Example C96_example : forall F, let M := [[-1; 2]; [2; -1]] in let M' := [[-5; 2]; [2; -1]] in regularised 1 2 (entries M) /\ regularised 1 2 (entries M') /\
  check_inertia 1 1 (dense_sig (K := RSc) (dense_fac (K := RSc) 2 F M)) = Some INERTIA_OK /\ (forall i, (i < 2)%nat -> dl_mat (dense_fac (K := RSc) 2 F M) i i <> 0) /\
  check_inertia 1 1 (dense_sig (K := RSc) (dense_fac (K := RSc) 2 F M')) = Some INERTIA_BAD.
Proof.
  intros F M M'.
  assert (R : forall h, regularised 1 2 (entries [[h; 2]; [2; -1]])). { intros h. split; [intros i H1 H2; replace i with 1%nat by lia; cbn; lra|intros; lia]. }
  assert (OK : check_inertia 1 1 (dense_sig (K := RSc) (dense_fac (K := RSc) 2 F M)) = Some INERTIA_OK).
  { unfold M. rewrite dense_two by lra. cbn [map]. rewrite (proj2 (Rltb_false 0 (-1))), (proj2 (Rltb_true (-1) 0)), (proj2 (Rltb_true 0 _)) by lra. reflexivity. }
  split; [apply R|]. split; [apply R|]. split; [exact OK|]. split; [exact (proj1 (proj2 (proj2 (C96_dense_sound F 1 1 M (R (-1)) OK))))|].
  unfold M'. rewrite dense_two by lra. cbn [map]. rewrite (proj2 (Rltb_false 0 (-5))), (proj2 (Rltb_true (-5) 0)), (proj2 (Rltb_false 0 _)), (proj2 (Rltb_true _ 0)) by lra. reflexivity.
Qed.
