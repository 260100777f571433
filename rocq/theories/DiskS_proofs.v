(** What SUCCESS says about the problem of examples/circle.cpp. *)
From Coq Require Import Reals List Bool Arith Lia Lra.
From Verif Require Import Scalar Cset_model Cset_spec Armijo_model Problem_model Solver_model Solver_spec Solver_props Lin_spec Lin_proofs Qp_spec Ldlt_model Fac_model FacX_proofs Client_proofs Disk_spec Disk_proofs.
Import ListNotations.
Local Open Scope R_scope.

Lemma tilt n (d u : nat -> R) t : (forall i, (i < n)%nat -> Rabs (d i) <= t) -> - rsum n (fun i => d i * u i) <= t * rsum n (fun i => Rabs (u i)).
Proof.
  induction n as [|n IH]; intros H; cbn [rsum]; [lra|]. specialize (IH (fun i Hi => H i (Nat.lt_lt_succ_r _ _ Hi))). specialize (H n (Nat.lt_succ_diag_r n)).
  assert (- (d n * u n) <= t * Rabs (u n)).
  { apply Rle_trans with (Rabs (d n * u n)); [rewrite <- Rabs_Ropp; apply Rle_abs|]. rewrite Rabs_mult. apply Rmult_le_compat_r; [apply Rabs_pos|exact H]. }
  lra.
Qed.
Lemma disk_identity n (p x y : nat -> R) l r :
  1 / 2 * rsum n (fun i => (x i - p i) ^ 2) + (1 / 2 + l) * rsum n (fun i => (y i - x i) ^ 2) =
  1 / 2 * rsum n (fun i => (y i - p i) ^ 2) + l * ((rsum n (fun i => y i ^ 2) - r ^ 2) - (rsum n (fun i => x i ^ 2) - r ^ 2)) - rsum n (fun i => (x i - p i + l * (2 * x i)) * (y i - x i)).
Proof. induction n as [|n IH]; cbn [rsum]; [ring|]. nra. Qed.
Lemma cost_weight l v gy t mu : 0 < mu -> 0 < t -> gy <= 0 -> - (t / mu) < l -> (Rabs l < t / mu \/ Rabs v < t) -> l * (gy - v) <= t * Rmax l 0 + t / mu * Rabs (gy - v).
Proof.
  intros Hmu Ht Hg Hl C. assert (0 < t / mu) by (apply Rdiv_lt_0_compat; assumption). pose proof (Rabs_pos (gy - v)) as P.
  assert (T : 0 <= t * Rmax l 0) by (apply Rmult_le_pos; [lra|apply Rmax_r]).
  assert (S : Rabs l < t / mu -> l * (gy - v) <= t * Rmax l 0 + t / mu * Rabs (gy - v)).
  { intros A. apply Rle_trans with (Rabs (l * (gy - v))); [apply Rle_abs|]. rewrite Rabs_mult. pose proof (Rmult_le_compat_r _ _ _ P (Rlt_le _ _ A)). lra. }
  destruct C as [A|A]; [exact (S A)|]. destruct (Rlt_le_dec l 0) as [N|N]; [apply S; rewrite Rabs_left by exact N; lra|].
  rewrite Rmax_left by exact N. apply Rabs_def2 in A. assert (0 <= t / mu * Rabs (gy - v)) by (apply Rmult_le_pos; lra). nra.
Qed.
Lemma disk_success (O : oracles RSc) fo fi fls fin P q (s : solver_state O) x0 l0 s' n p0 r m0 :
  answers_like n q (disk_problem n p0 r) -> sets s = [CNeg (K := RSc) m0] -> mul_update P = MM_NEWTON -> 0 < mu_init P -> 0 < mu_lower P ->
  run_solve O fo fi fls fin P q (Some s) x0 l0 = Ret (s', SUCCESS) -> length (r_x (res s')) = n -> length (r_lams (res s')) = 1%nat ->
  let t := target_tol P in let mu := r_mu (res s') in let l := nth 0 (r_lams (res s')) 0 in let x := fun i => nth i (r_x (res s')) 0 in let p := fun i => nth i p0 0 in
  let v := rsum n (fun i => x i ^ 2) - r ^ 2 in
  v < t /\ - (t / mu) < l /\ (Rabs l < t / mu \/ Rabs v < t) /\ (forall i, (i < n)%nat -> Rabs (x i - p i + l * (2 * x i)) <= t) /\
  forall y, let gy := rsum n (fun i => y i ^ 2) - r ^ 2 in gy <= 0 ->
    1 / 2 * rsum n (fun i => (x i - p i) ^ 2) + (1 / 2 + l) * rsum n (fun i => (y i - x i) ^ 2) <=
    1 / 2 * rsum n (fun i => (y i - p i) ^ 2) + t * rsum n (fun i => Rabs (y i - x i)) + t * Rmax l 0 + t / mu * Rabs (gy - v).
Proof.
  intros (En & HC & HF) Es H1 H2 H3 E Lx Ll t mu l x p v.
  cbn [disk_problem p_cons p_ndx] in *.
  assert (F : exists f, p_cons q = [f] /\ f_nr f = 1%nat /\ (forall w, length w = n -> f_val f w = Some [rsum n (fun i => nth i w 0 ^ 2) - r ^ 2] /\ f_jac f w = Some [tab n (fun i => 2 * nth i w 0)])).
  { destruct (p_cons q) as [|f [|f2 fs]]; [inversion HF| |inversion HF as [|? ? ? ? ? H]; inversion H]. exists f. inversion HF as [|? ? ? ? [Nr Hf] _]. split; [reflexivity|]. split; [exact Nr|]. intros w Lw. destruct (Hf w Lw) as (A & B & _). exact (conj A B). }
  clear HF. destruct F as (f & Ef & Nr & Hf). destruct (Hf _ Lx) as [Hv HJ]. destruct (HC _ Lx) as (_ & Hg & _). cbn [disk_problem p_grad] in Hg.
  destruct (C18_success_is_kkt O fo fi fls fin P q s x0 l0 s' H1 H2 H3) as (Mu & K & Tp & Td); [|exact E|].
  { rewrite Es, Ef. split; [constructor; [|constructor]; rewrite Nr; exact I|repeat constructor]. }
  fold mu in Mu, K. fold t in Tp, Td. destruct K as (g & J & c & sl & Kg & Lg & SJ & SV & MD & Lsl & Isl & MP & VI).
  rewrite Hg in Kg. injection Kg as <-. rewrite En in *. rewrite Ef in SJ, SV. rewrite Es, Ef in Isl, VI. rewrite Ef in Lsl, MP. cbn [rows_of map] in *. rewrite Nr in *. rewrite Nat.add_0_r in *.
  inversion SV as [|? ? w c' Ew Lw SV' E1 E2]. subst. rewrite Hv in Ew. injection Ew as <-. inversion SV'. subst. clear SV SV'.
  inversion SJ as [|? ? A J' EA LA FA SJ' E1 E2]. subst. rewrite HJ in EA. injection EA as <-. inversion SJ'. subst. clear SJ SJ'.
  destruct sl as [|z [|? ?]]; try discriminate Lsl. unfold l in *. destruct (r_lams (res s')) as [|l1 [|? ?]] eqn:El; try discriminate Ll. cbn [nth] in *. clear l.
  destruct MD as [MD _]. destruct MP as [MP _]. specialize (MP 0%nat Nat.lt_0_1). cbn [nth app] in MP.
  cbn [app] in VI. change (rsum (p_ndx q) (fun i => nth i (r_x (res s')) 0 * (nth i (r_x (res s')) 0 * 1)) - r * (r * 1)) with v in MP, VI.
  assert (Hz : z <= 0) by (destruct Isl as [Fz _]; inversion Fz; assumption).
  assert (V : forall w, w <= 0 -> (v + mu * l1 - z) * (w - z) <= 0).
  { intros w Hw. specialize (VI [w] eq_refl). cbn in VI. assert (G : Forall (fun x : R => x <= 0) [w] /\ @nil R = []) by (split; [constructor; [exact Hw|constructor]|reflexivity]). specialize (VI G). lra. }
  assert (V1 : 0 <= v + mu * l1 - z) by (specialize (V (z - 1) ltac:(lra)); lra).
  assert (V0 : (v + mu * l1 - z) * z = 0).
  { specialize (V 0 ltac:(lra)). assert (0 <= (v + mu * l1 - z) * - z) by (apply Rmult_le_pos; lra). lra. }
  assert (D : Rabs (v - z) < t) by (eapply Rle_lt_trans; [exact MP|exact Tp]). pose proof (Rabs_def2 _ _ D) as [D1 D2].
  assert (Ht : 0 < t) by (pose proof (Rabs_pos (v - z)); lra).
  assert (Tm : t / mu * mu = t) by (field; lra).
  assert (B1 : v < t) by lra.
  assert (B2 : - (t / mu) < l1).
  { apply (Rmult_lt_reg_r mu); [exact Mu|]. lra. }
  assert (B3 : Rabs l1 < t / mu \/ Rabs v < t).
  { apply Rmult_integral in V0. destruct V0 as [V0|V0]; [left|right; rewrite V0, Rminus_0_r in D; exact D].
    apply Rabs_def1; [|lra]. apply (Rmult_lt_reg_r mu); [exact Mu|]. lra. }
  assert (B4 : forall i, (i < p_ndx q)%nat -> Rabs (x i - p i + l1 * (2 * x i)) <= t).
  { intros i Hi. specialize (MD i Hi). unfold lagrangian_grad in MD. cbn [jt_lam app] in MD. rewrite !tab_at in MD by exact Hi. rewrite Rplus_0_r in MD. eapply Rle_trans; [exact MD|lra]. }
  split; [exact B1|]. split; [exact B2|]. split; [exact B3|]. split; [exact B4|].
  intros y Hy. rewrite (disk_identity (p_ndx q) p x y l1 r). fold v.
  pose proof (cost_weight l1 v _ t mu Mu Ht Hy B2 B3). pose proof (tilt (p_ndx q) _ (fun i => y i - x i) t B4). cbn beta in *. lra.
Qed.

(** The disk of radius 1 and the point (3, 4), from the solution. *)
Definition disk_start : solver_state (dense_oracles 3) := setup (K := RSc) (dldlt RSc) unit (default_params (K := RSc)) (disk_problem 2 [3; 4] 1) [CNeg (K := RSc) 1] [0; 0] (dldlt_new (K := RSc) 3) tt.
Lemma like_refl n p : answers_like n p p.
Proof. split; [reflexivity|]. split; [auto|]. induction (p_cons p); constructor; auto. Qed.
Lemma disk_run : exists s', run_solve (dense_oracles 3) 1001 101 1 1 (default_params (K := RSc)) (disk_problem 2 [3; 4] 1) (Some disk_start) [3 / 5; 4 / 5] [2] = Ret (s', SUCCESS) /\
  r_x (res s') = [3 / 5; 4 / 5] /\ r_lams (res s') = [2].
Proof.
  destruct (C20_start_accepted (dense_oracles 3) 1001 101 1 1 (default_params (K := RSc)) (disk_problem 2 [3; 4] 1) disk_start [3 / 5; 4 / 5] [2] 0 0) as (s' & E & X & N & L); cycle 13.
  { exists s'. split; [exact E|]. split; [exact X|]. apply L. reflexivity. }
  - reflexivity.
  - cbn. unfold slit. cbn. lra.
  - cbn. lia.
  - cbn. lia.
  - lia.
  - lia.
  - split; repeat constructor.
  - repeat split.
  - split; [eexists; reflexivity|]. eexists. split; [reflexivity|]. split; [reflexivity|repeat constructor].
  - reflexivity.
  - exists (tab 2 (fun i => nth i [3 / 5; 4 / 5] 0 - nth i [3; 4] 0)), [tab 2 (fun i => 2 * nth i [3 / 5; 4 / 5] 0)], [rsum 2 (fun i => nth i [3 / 5; 4 / 5] 0 ^ 2) - 1 ^ 2], [0].
    split; [reflexivity|]. split; [reflexivity|].
    split. { match goal with |- stacked_jacobian _ _ _ ?v => change v with (v ++ [] : list (list R)) end. constructor; [reflexivity|reflexivity|repeat constructor|constructor]. }
    split. { match goal with |- stacked_values _ _ ?v => change v with (v ++ [] : list R) end. constructor; [reflexivity|reflexivity|constructor]. }
    split. { split; [|right; exists 0%nat; split; [cbn; lia|]]. { intros [|[|i]] Hi; cbn in Hi; [| |lia]; unfold lagrangian_grad; cbn; match goal with |- Rabs ?t <= 0 => replace t with 0 by lra end; rewrite Rabs_R0; lra. }
             unfold lagrangian_grad; cbn; match goal with |- Rabs ?t = 0 => replace t with 0 by lra end; apply Rabs_R0. }
    split; [reflexivity|]. split; [cbn; split; [constructor; [lra|constructor]|reflexivity]|].
    split. { split; [|right; exists 0%nat; split; [cbn; lia|]]; [intros [|i] Hi; cbn in Hi; [|lia]|]; cbn; match goal with |- context [Rabs ?t] => replace t with 0 by lra end; rewrite Rabs_R0; lra. }
    intros w Lw Hw. destruct w as [|a [|? ?]]; try discriminate. cbn in Hw. destruct Hw as [Hw _]. inversion Hw. subst. cbn. unfold slit. cbn. nra.
  - cbn. unfold slit. cbn. lra.
  - cbn. unfold slit. cbn. lra.
Qed.
