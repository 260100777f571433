(** Properties C09-C14: constraint sets.  Specification in [Cset_spec]. *)
From Coq Require Import Reals List Bool Arith Lia Lra.
From Verif Require Import Scalar Cset_model Cset_spec Cset_proofs.
Import ListNotations.
Local Open Scope R_scope.

(** A set used in the examples: box x (negative orthant x l1 penalty) x equality. *)
Definition ex_set : rset :=
  CProd (K := RSc) 1 [(CBox (K := RSc) 1 [-1; 0] [1; 2], 2%nat);
           (CProd (K := RSc) 1 [(CNeg (K := RSc) 1, 1%nat); (CL1 (K := RSc) 1, 1%nat)], 2%nat);
           (CEq (K := RSc) 1, 1%nat)].
(** The same without the l1 block. *)
Definition ex_hard : rset :=
  CProd (K := RSc) 1 [(CBox (K := RSc) 1 [-1; 0] [1; 2], 2%nat);
           (CProd (K := RSc) 1 [(CNeg (K := RSc) 1, 1%nat)], 1%nat);
           (CEq (K := RSc) 1, 1%nat)].
Example ex_set_shape : shape ex_set 5 /\ l1_mu 1 ex_set.
Proof. cbn. repeat split; repeat constructor; lra. Qed.
Example ex_hard_shape : shape ex_hard 4 /\ no_l1 ex_hard.
Proof. cbn. repeat split; repeat constructor; lra. Qed.

Ltac rsolve := cbn; repeat (rcasei; try (exfalso; lra); cbn); cbn; repeat (try lra; f_equal).

(** C09. The projection is in the set; no point of the set is closer; it is the only such point. *)
Theorem C09_projection_nearest : forall c n z o,
  shape c n -> no_l1 c -> length z = n -> length o = n ->
  exists p, projection c z o = Some p /\ length p = n /\ in_set c p /\
    (forall w, length w = n -> in_set c w -> dist2 z p <= dist2 z w) /\
    (forall w, length w = n -> in_set c w -> dist2 z w <= dist2 z p -> w = p).
Proof. exact lem_nearest. Qed.
Print Assumptions C09_projection_nearest.

Theorem C09_projection_in_set : forall c n z o,
  shape c n -> length z = n -> length o = n ->
  exists p, projection c z o = Some p /\ length p = n /\ in_set c p.
Proof. exact lem_in_set. Qed.
Print Assumptions C09_projection_in_set.

Example C09_example : projection ex_hard [5; 1; 3; 4] [0; 0; 0; 0] = Some [1; 1; 0; 0].
Proof. unfold ex_hard, projection, prod_loop, segment, write_segment, box1, neg1, smin, smax. rsolve. Qed.

(** The box constructor does not check lower <= upper; then the result is not in the set. *)
Theorem C09_unordered_box_refuted :
  exists lo up z p, length lo = 1%nat /\ length up = 1%nat /\
    projection (CBox (K := RSc) 1 lo up) z z = Some p /\ ~ in_set (CBox (K := RSc) 1 lo up) p.
Proof.
  exists [1], [0], [5], [1]. repeat split.
  - cbn. unfold box1, smin, smax. rsolve.
  - cbn. intros [_ H]. inversion H; subst. lra.
Qed.
Print Assumptions C09_unordered_box_refuted.

(** C10. *)
Theorem C10_projection_idempotent : forall c n z o o' p,
  shape c n -> no_l1 c -> length z = n -> length o = n -> length o' = n ->
  projection c z o = Some p -> projection c p o' = Some p.
Proof. exact lem_idem. Qed.
Print Assumptions C10_projection_idempotent.

Theorem C10_projection_fixes_set : forall c n w o,
  shape c n -> no_l1 c -> length w = n -> length o = n ->
  in_set c w -> projection c w o = Some w.
Proof. exact lem_fix. Qed.
Print Assumptions C10_projection_fixes_set.

Theorem C10_projection_nonexpansive : forall c n mu z w o o' p q,
  shape c n -> l1_mu mu c -> 0 <= mu ->
  length z = n -> length w = n -> length o = n -> length o' = n ->
  projection c z o = Some p -> projection c w o' = Some q -> dist2 p q <= dist2 z w.
Proof. exact lem_nonexp. Qed.
Print Assumptions C10_projection_nonexpansive.

(** The solver calls [projection(v, v)]; same result as with separate vectors. *)
Theorem C10_projection_inplace : forall c n z o,
  shape c n -> length z = n -> length o = n ->
  projection_inplace c z = projection c z o.
Proof. exact lem_inplace. Qed.
Print Assumptions C10_projection_inplace.

Example C10_example : projection ex_set [5; 1; -3; 3; 4] [0; 0; 0; 0; 0] = Some [1; 1; -3; 2; 0]
  /\ projection_inplace ex_set [5; 1; -3; 3; 4] = Some [1; 1; -3; 2; 0].
Proof.
  split; [|rewrite (C10_projection_inplace ex_set 5 [5; 1; -3; 3; 4] [0; 0; 0; 0; 0] (proj1 ex_set_shape) eq_refl eq_refl)].
  all: unfold ex_set, projection, prod_loop, segment, write_segment, box1, neg1, l11, ssign, smin, smax; cbn;
    rewrite (Rabs_pos_eq 3) by lra; rsolve.
Qed.

(** C11. Decomposition z = p + q with q normal: (q . (w - p)) <= mu (pen w - pen p) on the set.
    For sets without l1 blocks both penalties are 0 and this is the normal cone; for l1 blocks it
    says that q/mu is a subgradient of the penalty at p. *)
Theorem C11_moreau_decomposition : forall c n mu z o o',
  shape c n -> l1_mu mu c -> 0 <= mu ->
  length z = n -> length o = n -> length o' = n ->
  exists p q, projection c z o = Some p /\ normal_cone c z o' = Some q /\
    length p = n /\ length q = n /\ plus p q = z /\ in_set c p /\
    (forall w, length w = n -> in_set c w ->
       inner q (minus w p) <= mu * (penalty c w - penalty c p)).
Proof. exact lem_moreau. Qed.
Print Assumptions C11_moreau_decomposition.

Example C11_example : normal_cone ex_set [5; 1; -3; 3; 4] [0; 0; 0; 0; 0] = Some [4; 0; 0; 1; 4].
Proof.
  unfold ex_set, normal_cone, prod_loop, segment, write_segment, box1, neg1_cone, l11, ssign, smin, smax; cbn;
    rewrite (Rabs_pos_eq 3) by lra; rsolve.
Qed.

(** C12. The "projection" is the proximal operator of the penalty with parameter mu: the objective
    grows by at least |w - p|^2 / (2 mu) away from p, hence p is the unique minimiser. *)
Theorem C12_prox_minimiser : forall c n mu z o p,
  shape c n -> l1_mu mu c -> 0 < mu ->
  length z = n -> length o = n -> projection c z o = Some p ->
  length p = n /\ in_set c p /\
  (forall w, length w = n -> in_set c w ->
     penalty c p + dist2 p z / (2 * mu) + dist2 w p / (2 * mu) <= penalty c w + dist2 w z / (2 * mu)).
Proof. exact lem_prox. Qed.
Print Assumptions C12_prox_minimiser.

(** [computeMoreauEnvelope] returns the minimum value, and the normal cone part as vector. *)
Theorem C12_envelope_value : forall c n z o,
  shape c n -> l1_mu (mu_of c) c -> 0 < mu_of c ->
  length z = n -> length o = n ->
  exists p q e, projection c z o = Some p /\ moreau_env c z o = Some (e, q) /\
     e = penalty c p + dist2 p z / (2 * mu_of c) /\ normal_cone c z o = Some q.
Proof. exact lem_env. Qed.
Print Assumptions C12_envelope_value.

Example C12_example : moreau_env (CL1 (K := RSc) 2) [5; 1] [0; 0] = Some (4 + 1 / 4, [2; 1]).
Proof.
  unfold moreau_env, moreau_env_at, normal_cone, evaluate, same_len, vsub, vsqnorm, vdot, vsum, shalf, slit, l11, ssign, smax; cbn.
  rewrite (Rabs_pos_eq 5), (Rabs_pos_eq 1) by lra. cbn.
  repeat (rcase; try (exfalso; lra)). cbn.
  replace (5 - 1 * (5 - 2)) with 2 by lra. replace (1 - 1 * 0) with 1 by lra.
  replace (5 - 2) with 3 by lra. replace (1 - 1) with 0 by lra.
  rewrite Rabs_R0, (Rabs_pos_eq 3) by lra.
  apply (f_equal Some). apply (f_equal2 pair); [lra|reflexivity].
Qed.

(** C13. Away from the kinks both Jacobian products multiply every column of J by the derivative of
    the projection (resp. of the normal cone projection). *)
Theorem C13_projection_jacobian : forall c n mu z J,
  shape c n -> l1_mu mu c -> 0 <= mu ->
  length z = n -> length J = n -> off_kinks c z ->
  exists PJ CJ, proj_jac c z J = Some PJ /\ cone_jac c z J = Some CJ /\
    length PJ = n /\ length CJ = n /\
    forall j i, (i < n)%nat ->
      derivable_pt_lim (fun t => nth i (match projection c (along z (map (fun row => nth j row 0) J) t) z
                                        with Some p => p | None => [] end) 0) 0 (nth j (nth i PJ []) 0) /\
      derivable_pt_lim (fun t => nth i (match normal_cone c (along z (map (fun row => nth j row 0) J) t) z
                                        with Some p => p | None => [] end) 0) 0 (nth j (nth i CJ []) 0).
Proof. exact lem_jac. Qed.
Print Assumptions C13_projection_jacobian.

Example C13_example : off_kinks ex_set [5; 1; -3; 3; 4] /\
  proj_jac ex_set [5; 1; -3; 3; 4] [[1; 2]; [3; 4]; [5; 6]; [7; 8]; [9; 10]]
  = Some [[0; 0]; [3; 4]; [5; 6]; [7; 8]; [0; 0]].
Proof.
  split.
  - cbn. repeat split; repeat constructor; rewrite ?(Rabs_pos_eq 3) by lra; lra.
  - unfold ex_set, proj_jac, active_set, mask_rows, prod_loop, segment, write_segment; cbn.
    rewrite (Rabs_pos_eq 3) by lra. rsolve.
Qed.

(** C14. [setProxParameter] on a product does not reach the components. *)
Theorem C14_product_penalty_refuted :
  exists c mu z p q, 0 < mu /\ shape c 1 /\ length z = 1%nat /\
    projection (set_prox (K := RSc) mu c) z z = Some p /\ projection (forward mu c) z z = Some q /\ p <> q.
Proof.
  exists (CProd (K := RSc) 0 [(CL1 (K := RSc) 0, 1%nat)]), 1, [1/2], [1/2], [0].
  assert (H : Rabs (1 / 2) = 1 / 2) by (apply Rabs_pos_eq; lra).
  split; [lra|]. split; [cbn; repeat split; auto with arith|]. split; [reflexivity|]. split; [|split].
  - unfold set_prox, projection, prod_loop, segment, write_segment, l11, ssign, smax; cbn. rewrite H. rsolve.
  - unfold forward, projection, prod_loop, segment, write_segment, l11, ssign, smax; cbn. rewrite H. rsolve.
  - intros E. injection E. lra.
Qed.
Print Assumptions C14_product_penalty_refuted.

(** It holds for components that ignore mu (everything except the l1 penalty). *)
Theorem C14_product_penalty_hard_sets : forall (mu : R) c, no_l1 c ->
  (forall z o, projection (set_prox (K := RSc) mu c) z o = projection (forward mu c) z o) /\
  (forall z o, normal_cone (set_prox (K := RSc) mu c) z o = normal_cone (forward mu c) z o) /\
  (forall z o, active_set (set_prox (K := RSc) mu c) z o = active_set (forward mu c) z o) /\
  (forall z J, proj_jac (set_prox (K := RSc) mu c) z J = proj_jac (forward mu c) z J) /\
  (forall z J, cone_jac (set_prox (K := RSc) mu c) z J = cone_jac (forward mu c) z J).
Proof. exact lem_forward. Qed.
Print Assumptions C14_product_penalty_hard_sets.

(** The product acts block by block. *)
Theorem C14_product_blocks : forall m c1 k1 c2 k2 z1 z2 o1 o2 p1 p2,
  length z1 = k1 -> length z2 = k2 -> length o1 = k1 -> length o2 = k2 ->
  shape c1 k1 -> shape c2 k2 ->
  projection c1 z1 o1 = Some p1 -> projection c2 z2 o2 = Some p2 ->
  projection (CProd m [(c1, k1); (c2, k2)]) (z1 ++ z2) (o1 ++ o2) = Some (p1 ++ p2).
Proof. exact lem_prod_blocks. Qed.
Print Assumptions C14_product_blocks.

Example C14_example : projection (set_prox (K := RSc) 3 ex_hard) [5; 1; 3; 4] [0; 0; 0; 0]
  = projection (forward 3 ex_hard) [5; 1; 3; 4] [0; 0; 0; 0].
Proof. apply (C14_product_penalty_hard_sets 3 ex_hard (proj2 ex_hard_shape)). Qed.
