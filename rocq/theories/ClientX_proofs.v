(** Consequences and examples for C93. *)
From Coq Require Import Reals List Bool Arith Lia Lra.
From Verif Require Import Scalar Cset_model Armijo_model Problem_model Solver_model Solver_spec Lin_spec Lin_proofs Bk_spec Descent_spec Qp_spec Qp_proofs QpD_proofs QpF_proofs QpX_proofs Manifold_model Manifold_spec Function_model Function_spec
  Objects_model Objects_spec Client_model Client_spec Client_proofs.
Import ListNotations.
Local Open Scope R_scope.

Lemma equality_like junk h n (has : bool) Q A b : mat n n Q -> mat (length A) n A -> length b = length A ->
  exists h' p, equality_qp (K := RSc) h n has Q A b = Ret (h', p) /\
    forall k, (2 <= k)%nat -> answers_like n (memoryless junk k h' p) (blocks_qp n Q (repeat 0 n) (if has then [(A, b)] else [])).
Proof.
  intros MQ MA Lb. destruct (equality_made h n has Q A b) as (h' & p & E & M). exists h', p. split; [exact E|]. intros k Hk.
  apply made_like; auto; [apply repeat_length|]. destruct has; [|constructor]. constructor; [split; assumption|constructor].
Qed.
Lemma sloped_like junk h n Q q bl : mat n n Q -> length q = n -> Forall (block_ok n) bl ->
  exists h' p, sloped_qp (K := RSc) h n Q q bl = Ret (h', p) /\ forall k, (2 <= k)%nat -> answers_like n (memoryless junk k h' p) (blocks_qp n Q q bl).
Proof. intros MQ Lq OK. destruct (sloped_made h n Q q bl) as (h' & p & E & M). exists h', p. split; [exact E|]. intros k Hk. apply made_like; auto. Qed.
Lemma sloped_requests junk h n Q q bl h' p : sloped_qp (K := RSc) h n Q q bl = Ret (h', p) -> mat n n Q -> length q = n -> symmetric Q -> Forall (block_ok n) bl ->
  exists N, forall k, (N <= k)%nat -> forall cs b, ordered None cs -> Forall (fun c => length (call_point c) = n /\ call_lams c (map (fun ab => length (fst ab)) bl)) cs ->
    sized_buffers n (map (fun ab => length (fst ab)) bl) b ->
    exists b' h'', obj_run (K := RSc) junk k p h' b cs = Ret (b', h'') /\ pure_run (blocks_qp n Q q bl) b cs = Ret b'.
Proof. intros E MQ Lq SQ OK. destruct (sloped_made h n Q q bl) as (h1 & p1 & E1 & M). rewrite E1 in E. injection E as <- <-. apply made_requests; auto. Qed.

Lemma equality_converges (O : oracles RSc) (P : @params RSc) junk h n Q A b h' p k xs ls D Rn T fo fi fls fin (s : solver_state O) mu0 x0 l0 : let m := length A in let K := (Rn * S T + T)%nat in
  equality_qp (K := RSc) h n true Q A b = Ret (h', p) -> (2 <= k)%nat -> mat n n Q -> mat m n A -> length b = m ->
  plain O P n -> outer_params O P D Rn T -> qp_convex n m (entries Q) (entries A) -> (forall mu, mu_lower P <= mu <= mu_init P -> handles O n m (entries Q) (entries A) mu) ->
  qp_optimal n m (entries Q) (fun _ => 0) (entries A) (fun i => - nth i b 0) xs ls -> rsum m (fun k => (nth k l0 0 - ls k) * (nth k l0 0 - ls k)) <= D * D -> length x0 = n -> length l0 = m ->
  sets s = [CEq mu0] -> buffers_fit (memoryless junk k h' p) s ->
  (K < max_al_iters P)%nat -> (S K < max_iters P)%nat -> (max_al_iters P < fo)%nat -> (1 < fi)%nat -> (0 < fls)%nat -> (0 < fin)%nat ->
  exists (s' : solver_state O) f, run_solve O fo fi fls fin P (memoryless junk k h' p) (Some s) x0 l0 = Ret (s', f) /\ length (r_x (res s')) = n /\ length (r_lams (res s')) = m /\
    let x := fun i => nth i (r_x (res s')) 0 in let l := fun k => nth k (r_lams (res s')) 0 in
    (forall k, (k < m)%nat -> Rabs (rsum n (fun j => entries A k j * x j) + nth k b 0) <= target_tol P) /\
    (forall i, (i < n)%nat -> Rabs (rsum n (fun j => entries Q i j * x j) + rsum m (fun k => l k * entries A k i)) <= target_tol P) /\
    ((f = SUCCESS /\ (r_al_iters (res s') <= K)%nat /\ (r_num_iters (res s') <= S K)%nat) \/
     (exists k, (k < m)%nat /\ Rabs (rsum n (fun j => entries A k j * x j) + nth k b 0) = target_tol P) \/
     (exists i, (i < n)%nat /\ Rabs (rsum n (fun j => entries Q i j * x j) + rsum m (fun k => l k * entries A k i)) = target_tol P)).
Proof.
  intros m K E Hk MQ MA Lb Hp Ho Hc Hh Hs HD Lx Ll Es Hf I1 I2 I3 I4 I5 I6.
  destruct (equality_like junk h n true Q A b MQ MA Lb) as (h1 & p1 & E1 & L). rewrite E1 in E. injection E as -> ->. specialize (L k Hk).
  unfold blocks_qp in L. cbn [map fst snd concat] in L. rewrite !app_nil_r in L. fold m in L.
  assert (Z : forall i, nth i (repeat 0 n) 0 = 0) by (intros i; destruct (Nat.lt_ge_cases i n); [apply nth_repeat|apply nth_overflow; rewrite repeat_length; assumption]).
  assert (Em : total [m] = m) by (cbn; lia).
  assert (Hs' : qp_optimal n m (entries Q) (fun i => nth i (repeat 0 n) 0) (entries A) (fun i => - nth i b 0) xs ls).
  { destruct Hs as [H1 H2]. split; [|exact H2]. intros i Hi. refine (eq_trans _ (H1 i Hi)). unfold qp_lag, qp_grad. rewrite Z. reflexivity. }
  pose proof (solve_final O P n (entries Q) (fun i => nth i (repeat 0 n) 0) [m] (entries A) (fun i => - nth i b 0) (memoryless junk k h' p) xs ls D Rn T fo fi fls fin s [mu0] x0 l0) as F.
  cbv zeta in F. rewrite Em in F. specialize (F L Hp Ho Hc Hh Hs' HD Lx Ll Es eq_refl Hf I1 I2 I3 I4 I5 I6).
  destruct F as (s' & f & R & L1 & L2 & F1 & F2 & F3). exists s', f. split; [exact R|]. split; [exact L1|]. split; [exact L2|]. cbv zeta.
  assert (EC : forall k, qp_con n (entries A) (fun i => - nth i b 0) (fun i => nth i (r_x (res s')) 0) k = rsum n (fun j => entries A k j * nth j (r_x (res s')) 0) + nth k b 0) by (intros; unfold qp_con; cbn [car RSc] in *; lra).
  assert (EL : forall i, qp_lag n m (entries Q) (fun i => nth i (repeat 0 n) 0) (entries A) (fun i => nth i (r_x (res s')) 0) (fun k => nth k (r_lams (res s')) 0) i =
     rsum n (fun j => entries Q i j * nth j (r_x (res s')) 0) + rsum m (fun k => nth k (r_lams (res s')) 0 * entries A k i)) by (intros; unfold qp_lag, qp_grad; rewrite Z; cbn [car RSc] in *; lra).
  split; [intros j Hj; rewrite <- EC; auto|]. split; [intros i Hi; rewrite <- EL; auto|].
  destruct F3 as [F3|[(j & Hj & F3)|(i & Hi & F3)]]; [left; exact F3|right; left|right; right].
  - exists j. split; [exact Hj|]. rewrite <- EC. exact F3.
  - exists i. split; [exact Hi|]. rewrite <- EL. exact F3.
Qed.

Lemma ex93 : exists h' p, sloped_qp (K := RSc) [OLinear (K := RSc) 1 [[7]] [7]] 2 [[2; 1]; [1; 2]] [1; 0] [([[1; 1]], [-1]); ([[1; -1]], [-3])] = Ret (h', p) /\
  Forall (block_ok 2) [([[1; 1]], [-1]); ([[1; -1]], [-3])] /\
  exists b h'', obj_run (K := RSc) (fun _ _ => 5) 3 p h' (mkBuffers (K := RSc) 0 [0; 0] [0; 0] [[0; 0]; [0; 0]] [[0; 0]; [0; 0]] [[[9; 9]; [9; 9]]; [[9; 9]; [9; 9]]]) [PEval [1; 2]; PDerivs [1; 2]; PHess true [1; 2] [[1]; [1]]] = Ret (b, h'') /\
    bf_val b = 8 /\ bf_con b = [2; -4] /\ bf_grad b = [5; 5] /\ bf_jac b = [[1; 1]; [1; -1]] /\ bf_hess b = [[2; 1]; [1; 2]] /\ bf_vhp b = [[[0; 0]; [0; 0]]; [[0; 0]; [0; 0]]].
Proof.
  do 2 eexists. split; [reflexivity|]. split; [repeat constructor|]. do 2 eexists. split; [cbn; reflexivity|]. cbn.
  repeat split; repeat (apply (f_equal2 cons)); try reflexivity; lra.
Qed.
Lemma ex93_converges : exists h' p, equality_qp (K := RSc) [] 1 true [[1]] [[1]] [-1] = Ret (h', p) /\
  plain small_oracles (default_params (K := RSc)) 1 /\ outer_params small_oracles (default_params (K := RSc)) 2 4 4 /\ qp_convex 1 1 (entries [[1]]) (entries [[1]]) /\
  (forall mu, mu_lower (default_params (K := RSc)) <= mu <= mu_init (default_params (K := RSc)) -> handles small_oracles 1 1 (entries [[1]]) (entries [[1]]) mu) /\
  qp_optimal 1 1 (entries [[1]]) (fun _ => 0) (entries [[1]]) (fun i => - nth i [-1] 0) (fun _ => 1) (fun _ => -1) /\
  sets small_state = [CEq (1 / 100)] /\ buffers_fit (memoryless (fun _ _ => 5) 2 h' p) small_state.
Proof.
  do 2 eexists. split; [reflexivity|]. split; [exact small_plain|]. split; [apply default_outer; [reflexivity|lra]|]. split; [|split; [|split; [|split; [reflexivity|]]]].
  - destruct small_convex as (S1 & S2 & S3). split; [|split].
    + intros [|i] [|j] Hi Hj; try lia. reflexivity.
    + exact S2.
    + intros x H1 H2. apply (S3 x H1). intros [|k] Hk; [|lia]. exact (H2 0%nat Hk).
  - intros mu [H _]. exact (small_handles mu ltac:(cbn in H; lra)).
  - split; intros [|i] Hi; try lia; unfold qp_lag, qp_grad, qp_con, entries; cbn; lra.
  - repeat split.
Qed.
