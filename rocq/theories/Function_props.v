(** Properties C32-C36 and C66-C69: functions and costs. *)
From Coq Require Import Reals List Arith Lia Lra.
From Verif Require Import Scalar Cset_spec Problem_model Manifold_model Manifold_spec ManifoldR_proofs Function_model Function_spec
  Function_proofs FunctionE_proofs FunctionB_proofs FunctionD_proofs FunctionX_proofs.
Import ListNotations.
Local Open Scope R_scope.

(** The costs used in the examples, on R^2.  Object 1: 1/2 r'Wr + slope'r + 3 with r = A x + b (object 0);
    object 3: half the squared distance to (1, 1) (residual: object 2). *)
Definition ex_lin : obj RSc := OLinear (K := RSc) 2 [[1; 2]; [0; 1]] [1; 0].
Definition ex_W : list rvec := [[2; 1]; [1; 2]].
Definition ex_z2 : list rvec := [[0; 0]; [0; 0]].
Definition ex_cache : cache RSc := mkCache (K := RSc) [0; 0] ex_z2 ex_z2.
Definition ex_heap : heap RSc :=
  [ex_lin; OQuad (K := RSc) 2 2 0%nat ex_W [1; 0] 3 true ex_cache;
   ODiff (SVec 2) [1; 1]; OQuad (K := RSc) 2 2 2%nat [[1; 0]; [0; 1]] [0; 0] 0 true ex_cache].
Definition ex_q : fx := XQuad 1%nat ex_W [1; 0] 3 (XBase ex_lin).
Definition ex_d : fx := XQuad 3%nat [[1; 0]; [0; 1]] [0; 0] 0 (XBase (ODiff (SVec 2) [1; 1])).
Example ex_constructed : exists h1, new_quad (K := RSc) [ex_lin] 0%nat ex_W [1; 0] 3 = Ret (h1, 1%nat) /\
  new_distance_id (K := RSc) h1 (SVec 2) [1; 1] = Ret (ex_heap, 3%nat).
Proof. eexists. split; reflexivity. Qed.
Lemma ex_mat2 a b c d : mat 2 2 [[a; b]; [c; d]].
Proof. split; repeat constructor. Qed.
Lemma ex_repr h : (forall i o, nth_error ex_heap i = Some o -> nth_error h i = Some o) -> repr h 1 ex_q /\ repr h 3 ex_d.
Proof.
  intros X. split; (split; [reflexivity|]); do 3 eexists; (split; [apply X; reflexivity|]); (split; [apply ex_mat2|]); (split; [apply ex_mat2|]); (split; [apply X; reflexivity|exact I]).
Qed.
Lemma ex_good D x : length x = 2%nat -> good D (Geo (SVec 2)) x ex_q 1 /\ good D (Geo (SVec 2)) x ex_d 1.
Proof.
  intros L. split.
  - cbn. split; [reflexivity|]. split; [apply ex_mat2|]. split; [intros [|[|[|i]]] [|[|[|j]]]; reflexivity|]. split; [reflexivity|].
    split; [reflexivity|]. split; [exact L|]. split; [apply ex_mat2|]. split; [reflexivity|exact I].
  - cbn. split; [reflexivity|]. split; [apply ex_mat2|]. split; [intros [|[|[|i]]] [|[|[|j]]]; reflexivity|]. split; [reflexivity|].
    split; [reflexivity|]. split; [reflexivity|]. repeat split. exact L.
Qed.
Definition ex_dom : domain := {| d_pt := fun _ _ => True; d_tg := fun _ _ => True; d_near := fun _ _ _ => True |}.
Definition ex_env (r : nat) : option fx := match r with 1%nat => Some ex_q | 3%nat => Some ex_d | _ => None end.
Lemma ex_env_repr r f : ex_env r = Some f -> repr ex_heap r f.
Proof. destruct (ex_repr ex_heap (fun _ _ H => H)). destruct r as [|[|[|[|r]]]]; cbn; intros E; try discriminate; injection E as <-; assumption. Qed.
(** 2 q - (d + q), written -(-(2 q)) + -1 * (d + q). *)
Definition ex_expr : cexp := EAddTmp (ENeg (ENeg (EMul 2 (EVar 1)))) (EScale (-1) (EAdd (EVar 3) (EVar 1))).
(** The sum 2 q + d as an object. *)
Definition ex_sum_heap : heap RSc := ex_heap ++ [OSum (K := RSc) 2 2 [1%nat; 3%nat] [2; 1]].
Definition ex_sum : fx := XSum 2 2 [(2, ex_q); (1, ex_d)].
Lemma ex_sum_repr : repr ex_sum_heap 4 ex_sum.
Proof.
  destruct (ex_repr ex_sum_heap) as [Q1 Q2]. { intros i o H. unfold ex_sum_heap. rewrite nth_error_app1; [exact H|]. apply nth_error_Some. congruence. }
  exists [1%nat; 3%nat], [2; 1]. split; [reflexivity|]. split; [reflexivity|]. split; [exact I|]. split; [exact Q1|]. split; [reflexivity|]. split; [exact I|]. split; [exact Q2|exact I].
Qed.
Lemma ex_sum_good D x : length x = 2%nat -> good D (Geo (SVec 2)) x ex_sum 1.
Proof. intros L. destruct (ex_good D x L). split; [reflexivity|]. split; [reflexivity|]. split; [exact I|]. split; [assumption|]. split; [exact I|]. split; [assumption|exact I]. Qed.
Lemma ex_sum_consistent x : consistent (visits ex_sum x).
Proof.
  change (visits ex_sum x) with (match sem (XBase ex_lin) x with Ret y => [(1%nat, y)] | _ => [] end ++
    match sem (XBase (ODiff (SVec 2) [1; 1])) x with Ret y => [(3%nat, y)] | _ => [] end ++ []).
  intros q a b. destruct (sem (XBase ex_lin) x); destruct (sem (XBase (ODiff (SVec 2) [1; 1])) x); cbn [In app]; intuition congruence.
Qed.
Lemma ex_gn : gauss_newton ex_sum_heap ex_sum.
Proof. cbn. split; [left; reflexivity|]. split; [left; reflexivity|exact I]. Qed.

(** * C32: sums *)
(** The value of a sum is the weighted sum of the values of the components. *)
Theorem C32_sum_value : forall h r dx dv cs x vs, repr h r (XSum dx dv cs) ->
  Forall2 (fun p v => sem (snd p) x = Ret [v]) cs vs ->
  exists N, forall n, (N <= n)%nat -> exists h', call (K := RSc) n h r x = Ret (inner (map fst cs) vs, h').
Proof. exact sum_value. Qed.
Print Assumptions C32_sum_value.
Example C32_sum_value_example : exists N, forall n, (N <= n)%nat -> exists h',
  call (K := RSc) n ex_sum_heap 4%nat [1; 1] = Ret (2 * 28 + (1 * 0 + 0), h').
Proof.
  apply (C32_sum_value ex_sum_heap 4 2 2 [(2, ex_q); (1, ex_d)] [1; 1] [28; 0]); [exact ex_sum_repr|].
  constructor; [|constructor; [|constructor]]; cbn; f_equal; f_equal; lra.
Qed.

(** Any expression of costs built with the operators is an object whose value is the meaning of the
    expression, and building it changes no existing object. *)
Theorem C32_expressions : forall (env : nat -> option fx) h0 a b e,
  (forall r f, env r = Some f -> repr h0 r f) -> typed env a b e ->
  exists h r, build h0 e = Ret (h, r) /\ (forall i o, nth_error h0 i = Some o -> nth_error h i = Some o) /\
    exists t, repr h r t /\ is_cost t /\ xdim t = (a, b, 1%nat) /\
    forall x v, (forall r f, env r = Some f -> sem f x = Ret [v r]) -> sem t x = Ret [meaning v e] /\
      exists N, forall n, (N <= n)%nat -> exists h', call (K := RSc) n h r x = Ret (meaning v e, h').
Proof. exact expression. Qed.
Print Assumptions C32_expressions.
Example C32_expressions_example : exists h r, build ex_heap ex_expr = Ret (h, r) /\
  exists N, forall n, (N <= n)%nat -> exists h', call (K := RSc) n h r [1; 1] = Ret (28, h').
Proof.
  destruct (C32_expressions ex_env ex_heap 2 2 ex_expr ex_env_repr) as (h & r & B & _ & t & _ & _ & _ & V).
  - cbn. repeat split; try exact I; eexists; repeat split.
  - exists h, r. split; [exact B|]. destruct (V [1; 1] (fun r => match r with 1%nat => 28 | _ => 0 end)) as (_ & N & HN).
    + intros [|[|[|[|q]]]] f E; cbn in E; try discriminate; injection E as <-; cbn; f_equal; f_equal; lra.
    + exists N. intros n Hn. destruct (HN n Hn) as (h' & E). exists h'. rewrite E. f_equal. f_equal. cbn. ring.
Qed.

(** addComponent and += on a sum s, for a cost c that does not contain s. *)
Theorem C32_add_component : forall h s c w dx dv cs f, repr h s (XSum dx dv cs) -> repr (removed h s) c f -> is_cost f ->
  exists h', add_comp (K := RSc) h s c w = Ret h' /\ repr h' s (XSum dx dv (cs ++ [(w, f)])) /\
    (forall i, i <> s -> nth_error h' i = nth_error h i) /\ length h' = length h.
Proof. exact add_comp_repr. Qed.
Print Assumptions C32_add_component.
Theorem C32_scale_in_place : forall h s a dx dv cs, repr h s (XSum dx dv cs) ->
  exists h', scale_sum (K := RSc) h s a = Ret h' /\ repr h' s (XSum dx dv (map (fun p => (a * fst p, snd p)) cs)) /\
    (forall i, i <> s -> nth_error h' i = nth_error h i) /\ length h' = length h.
Proof. exact scale_sum_repr. Qed.
Print Assumptions C32_scale_in_place.
Example C32_in_place_example : exists h1 h2, add_comp (K := RSc) ex_sum_heap 4%nat 3%nat 5 = Ret h1 /\ scale_sum (K := RSc) h1 4%nat 3 = Ret h2 /\
  repr h2 4 (XSum 2 2 [(3 * 2, ex_q); (3 * 1, ex_d); (3 * 5, ex_d)]).
Proof.
  destruct (C32_add_component ex_sum_heap 4 3 5 2 2 [(2, ex_q); (1, ex_d)] ex_d ex_sum_repr) as (h1 & E1 & R1 & _); [|exact I|].
  - split; [reflexivity|]. do 3 eexists. split; [reflexivity|]. split; [apply ex_mat2|]. split; [apply ex_mat2|]. split; [reflexivity|exact I].
  - destruct (C32_scale_in_place h1 4 3 _ _ _ R1) as (h2 & E2 & R2 & _). exists h1, h2. auto.
Qed.

(** The gradient of a sum, applied to a direction, is the weighted sum of the derivatives of the
    components, and the Hessian in Gauss-Newton mode is the weighted sum of their forms. *)
Theorem C32_sum_gradient : forall junk D s h r dx dv cs x, repr h r (XSum dx dv cs) -> good D (Geo s) x (XSum dx dv cs) 1 ->
  consistent (visits (XSum dx dv cs) x) ->
  exists N, forall n, (N <= n)%nat -> exists c h1, call (K := RSc) n h r x = Ret (c, h1) /\
    forall old, length old = ndx s -> exists G h2, grad (K := RSc) junk n h1 r x old = Ret (G, h2) /\
      forall w g ds, length w = ndx s -> path (Geo s) x w g ->
        Forall2 (fun p d => velocity (fun t => (do y <- g t; sem (snd p) y)%out) [d]) cs ds -> inner G w = inner (map fst cs) ds.
Proof. exact sum_gradient. Qed.
Print Assumptions C32_sum_gradient.
Example C32_sum_gradient_example : forall junk, exists N, forall n, (N <= n)%nat -> exists c h1, call (K := RSc) n ex_sum_heap 4%nat [1; 1] = Ret (c, h1) /\
  exists G h2, grad (K := RSc) junk n h1 4%nat [1; 1] [0; 0] = Ret (G, h2) /\
    forall w g ds, length w = 2%nat -> path (Geo (SVec 2)) [1; 1] w g ->
      Forall2 (fun p d => velocity (fun t => (do y <- g t; sem (snd p) y)%out) [d]) [(2, ex_q); (1, ex_d)] ds -> inner G w = inner [2; 1] ds.
Proof.
  intros junk. pose (D := ex_dom). destruct (C32_sum_gradient junk D (SVec 2) ex_sum_heap 4%nat 2%nat 2%nat [(2, ex_q); (1, ex_d)] [1; 1] ex_sum_repr (ex_sum_good D [1; 1] eq_refl) (ex_sum_consistent _)) as (N & H).
  exists N. intros n Hn. destruct (H n Hn) as (c & h1 & E & Q). exists c, h1. split; [exact E|]. exact (Q [0; 0] eq_refl).
Qed.

(** * C33: adding a sum to itself *)
(** For every non-empty sum, c += c is undefined behaviour. *)
Theorem C33_self_addition_undefined : forall h s dx dv cs ws, nth_error h s = Some (OSum (K := RSc) dx dv cs ws) -> cs <> [] ->
  add_sum (K := RSc) h s s = UB.
Proof. exact add_self. Qed.
Print Assumptions C33_self_addition_undefined.
(** The claim "c += c doubles the cost" fails for a valid sum of two costs. *)
Theorem C33_doubling_refuted : exists h s dx dv cs, repr h s (XSum dx dv cs) /\ cs <> [] /\ add_sum (K := RSc) h s s = UB.
Proof. exists ex_sum_heap, 4%nat, 2%nat, 2%nat, [(2, ex_q); (1, ex_d)]. split; [exact ex_sum_repr|]. split; [discriminate|reflexivity]. Qed.
Print Assumptions C33_doubling_refuted.
(** Adding the pointer to itself succeeds, but then the cost can no longer be evaluated: whatever the
    depth allowed, the call does not return a value. *)
Theorem C33_pointer_to_itself : forall h s dx dv cs ws, nth_error h s = Some (OSum (K := RSc) dx dv cs ws) -> length ws = length cs ->
  exists h', add_comp (K := RSc) h s s 1 = Ret h' /\ forall n x c h'', call (K := RSc) n h' s x <> Ret (c, h'').
Proof. exact add_pointer. Qed.
Print Assumptions C33_pointer_to_itself.
(** Adding another sum, which does not contain this one, appends its components. *)
Theorem C33_add_other_sum : forall h s t dx dv cs dx' dv' cs', s <> t -> repr h s (XSum dx dv cs) -> repr (removed h s) t (XSum dx' dv' cs') ->
  exists h', add_sum (K := RSc) h s t = Ret h' /\ repr h' s (XSum dx dv (cs ++ cs')) /\ forall i, i <> s -> nth_error h' i = nth_error h i.
Proof. exact add_sum_repr. Qed.
Print Assumptions C33_add_other_sum.
(** In particular a copy of the sum doubles it. *)
Example C33_add_copy : exists h', add_sum (K := RSc) (ex_sum_heap ++ [OSum (K := RSc) 2 2 [1%nat; 3%nat] [2; 1]]) 4%nat 5%nat = Ret h' /\
  repr h' 4 (XSum 2 2 [(2, ex_q); (1, ex_d); (2, ex_q); (1, ex_d)]).
Proof.
  assert (Q : forall h r, (forall i, (i < 4)%nat -> nth_error h i = nth_error ex_heap i) -> nth_error h r = Some (OSum (K := RSc) 2 2 [1%nat; 3%nat] [2; 1]) -> repr h r ex_sum).
  { intros h r X E. destruct (ex_repr h) as [Q1 Q2]. { intros i o H. rewrite X; [exact H|]. apply (proj1 (nth_error_Some ex_heap i)). congruence. }
    exists [1%nat; 3%nat], [2; 1]. split; [exact E|]. split; [reflexivity|]. split; [exact I|]. split; [exact Q1|]. split; [reflexivity|]. split; [exact I|]. split; [exact Q2|exact I]. }
  destruct (C33_add_other_sum (ex_sum_heap ++ [OSum (K := RSc) 2 2 [1%nat; 3%nat] [2; 1]]) 4 5 2 2 [(2, ex_q); (1, ex_d)] 2 2 [(2, ex_q); (1, ex_d)]) as (h' & E & Rr & _).
  - discriminate.
  - apply Q; [|reflexivity]. intros [|[|[|[|i]]]] Hi; try reflexivity; lia.
  - apply Q; [|reflexivity]. intros [|[|[|[|i]]]] Hi; try reflexivity; lia.
  - exists h'. auto.
Qed.
Example C33_pointer_example : exists h', add_comp (K := RSc) ex_sum_heap 4%nat 4%nat 1 = Ret h' /\ forall n x c h'', call (K := RSc) n h' 4%nat x <> Ret (c, h'').
Proof. exact (C33_pointer_to_itself ex_sum_heap 4 2 2 [1%nat; 3%nat] [2; 1] eq_refl eq_refl). Qed.

(** * C34: derivatives belong to the point of the last evaluation *)
(** After a call at x, and any further gradient requests (and Hessian requests, in Gauss-Newton mode)
    at x, the gradient returned is the derivative of the cost at x, and the Hessian is the Gauss-Newton
    form at x.  [good] asks for symmetric weights; [consistent] asks that no quadratic cost object is
    reached with two different residuals. *)
Theorem C34_derivatives_after_call : forall junk D s h r e x both, (both = true -> gauss_newton h e) -> is_cost e -> repr h r e ->
  good D (Geo s) x e 1 -> consistent (visits e x) ->
  exists N, forall n, (N <= n)%nat -> exists c h1, call (K := RSc) n h r x = Ret (c, h1) /\ sem e x = Ret [c] /\
    forall h2, requests junk n (ndx s) both r x h1 h2 ->
      (forall old, length old = ndx s -> exists G h3, grad (K := RSc) junk n h2 r x old = Ret (G, h3) /\ length G = ndx s /\
         forall w g, length w = ndx s -> path (Geo s) x w g -> velocity (fun t => (do y <- g t; sem e y)%out) [inner G w]) /\
      (both = true -> forall old, mat (ndx s) (ndx s) old -> exists H h3, hess (K := RSc) junk n h2 r x old = Ret (H, h3) /\ mat (ndx s) (ndx s) H /\
         forall u w, length u = ndx s -> length w = ndx s -> gn_form (Geo s) x e u w (inner u (mat_vec H w))).
Proof. exact derivatives. Qed.
Print Assumptions C34_derivatives_after_call.
(** The constructor gives an object that represents 1/2 r'Wr + slope'r + c in Gauss-Newton mode. *)
Theorem C34_constructed : forall h f e W sl c, repr h f e ->
  exists h' r, new_quad (K := RSc) h f W sl c = Ret (h', r) /\ repr h' r (XQuad r W sl c e) /\ (length h <= r)%nat /\ gn_flag h' r = Some true /\
  forall i o, nth_error h i = Some o -> nth_error h' i = Some o.
Proof. exact quad_new. Qed.
Print Assumptions C34_constructed.
Example C34_example : forall junk, exists N, forall n, (N <= n)%nat -> exists c h1, call (K := RSc) n ex_sum_heap 4%nat [1; 1] = Ret (c, h1) /\
  exists G1 h2, grad (K := RSc) junk n h1 4%nat [1; 1] [7; 7] = Ret (G1, h2) /\ exists H h3, hess (K := RSc) junk n h2 4%nat [1; 1] ex_z2 = Ret (H, h3) /\
  exists G2 h4, grad (K := RSc) junk n h3 4%nat [1; 1] [0; 0] = Ret (G2, h4) /\
    forall w g, length w = 2%nat -> path (Geo (SVec 2)) [1; 1] w g -> velocity (fun t => (do y <- g t; sem ex_sum y)%out) [inner G2 w].
Proof.
  intros junk. pose (D := ex_dom). destruct (C34_derivatives_after_call junk D (SVec 2) ex_sum_heap 4%nat ex_sum [1; 1] true (fun _ => ex_gn) I ex_sum_repr (ex_sum_good D [1; 1] eq_refl) (ex_sum_consistent _)) as (N & H0).
  exists N. intros n Hn. destruct (H0 n Hn) as (c & h1 & E & _ & Q). exists c, h1. split; [exact E|].
  destruct (proj1 (Q h1 (rq_none _ _ _ _ _ _ _)) [7; 7] eq_refl) as (G1 & h2 & E1 & _). exists G1, h2. split; [exact E1|].
  assert (Q2 : requests junk n 2 true 4 [1; 1] h1 h2) by (eapply rq_grad; [|exact E1|apply rq_none]; reflexivity).
  destruct (proj2 (Q h2 Q2) eq_refl ex_z2 (ex_mat2 _ _ _ _)) as (H & h3 & E2 & _). exists H, h3. split; [exact E2|].
  assert (Q3 : requests junk n 2 true 4 [1; 1] h1 h3) by (eapply rq_grad; [|exact E1|eapply rq_hess; [reflexivity| |exact E2|apply rq_none]]; [reflexivity|apply ex_mat2]).
  destruct (proj1 (Q h3 Q3) [0; 0] eq_refl) as (G2 & h4 & E3 & _ & V). exists G2, h4. split; [exact E3|exact V].
Qed.
(** "Regardless of earlier calls" fails: 1/2 x^2 evaluated at 3 and differentiated at 1 returns 3;
    the derivative is 1. *)
Theorem C34_any_history_refuted : exists h r e x y G, repr h r e /\ (forall D, good D (Geo (SVec 1)) x e 1) /\
  (forall junk, exists c h1 h2, call (K := RSc) 5 h r y = Ret (c, h1) /\ grad (K := RSc) junk 5 h1 r x [0] = Ret (G, h2)) /\
  exists d, velocity (fun t => (do z <- integrate (K := RSc) (SVec 1) x (line [1] t); sem e z)%out) [d] /\ inner G [1] <> d.
Proof.
  exists half_square, 1%nat, half_square_x, [1], [3], [3]. split; [exact half_square_repr|]. split; [intros D; exact (half_square_good D 1)|]. split.
  - intros junk. destruct (stale_gradient junk) as (h1 & h2 & E1 & E2). eauto.
  - exists (1 * 1). split; [exact (half_square_vel 1 1)|]. cbn. lra.
Qed.
Print Assumptions C34_any_history_refuted.
(** Weights that are not symmetric: call and gradient at the same point (1, 1), gradient (1, 0); the
    derivative of 1/2 x1 x2 along the second axis is 1/2. *)
Theorem C34_any_weights_refuted : exists h r e x G, repr h r e /\
  (forall junk, exists c h1 h2, call (K := RSc) 5 h r x = Ret (c, h1) /\ grad (K := RSc) junk 5 h1 r x [0; 0] = Ret (G, h2)) /\
  exists d, velocity (fun t => (do z <- integrate (K := RSc) (SVec 2) x (line [0; 1] t); sem e z)%out) [d] /\ inner G [0; 1] <> d.
Proof.
  exists skew_heap, 1%nat, skew_x, [1; 1], [1; 0]. destruct (skew_gradient (fun _ _ => 0)) as (Rp & _ & V). split; [exact Rp|]. split.
  - intros junk. destruct (skew_gradient junk) as (_ & (h1 & h2 & E1 & E2) & _). eauto.
  - exists (1 / 2). split; [exact V|]. cbn. lra.
Qed.
Print Assumptions C34_any_weights_refuted.
(** A quadratic cost object used at two points of one sum: q(x) + q(x + 1), gradient 2 at 0; the
    derivative is 1.  So the condition [consistent] cannot be dropped. *)
Theorem C34_sharing_refuted : exists h r e x G, repr h r e /\
  (forall junk, exists c h1 h2, call (K := RSc) 9 h r x = Ret (c, h1) /\ grad (K := RSc) junk 9 h1 r x [0] = Ret (G, h2)) /\
  exists d, velocity (fun t => (do z <- integrate (K := RSc) (SVec 1) x (line [1] t); sem e z)%out) [d] /\ inner G [1] <> d.
Proof.
  exists shared_heap, 5%nat, shared_x, [0], [2]. destruct (shared_gradient (fun _ _ => 0)) as (Rp & _ & V). split; [exact Rp|]. split.
  - intros junk. destruct (shared_gradient junk) as (_ & (h1 & h2 & E1 & E2) & _). eauto.
  - exists 1. split; [exact V|]. cbn. lra.
Qed.
Print Assumptions C34_sharing_refuted.

(** * C35: composition *)
(** The constructor accepts exactly the pairs with nx f = nr g. *)
Theorem C35_construction : forall h l g f e, repr h l f -> repr h g e ->
  match new_compose (K := RSc) h l g with
  | Ret (h', r) => fst (fst (xdim f)) = xnr e /\ repr h' r (XComp f e)
  | Throw k => k = ErrDim /\ fst (fst (xdim f)) <> xnr e
  | _ => False
  end.
Proof. exact compose_new. Qed.
Print Assumptions C35_construction.
(** The value is f(g(x)). *)
Theorem C35_value : forall h r f g x y z, repr h r (XComp f g) -> sem g x = Ret y -> sem f y = Ret z ->
  exists N, forall n, (N <= n)%nat -> exists h', eval (K := RSc) n h r x = Ret (z, h').
Proof. intros h r f g x y z Rr E1 E2. apply (value_eval (XComp f g)); [exact Rr|]. cbn. rewrite E1. exact E2. Qed.
Print Assumptions C35_value.
(** Chain rule: after an evaluation, the Jacobian of every function expression, in particular of a
    composition, is its derivative. *)
Theorem C35_chain_rule : forall junk D s h r e x dr, repr h r e -> good D (Geo s) x e dr -> consistent (visits e x) ->
  exists N, forall n, (N <= n)%nat -> exists v h1, eval (K := RSc) n h r x = Ret (v, h1) /\ sem e x = Ret v /\
    forall old, mat dr (ndx s) old -> exists J h2, jac (K := RSc) junk n h1 r x old = Ret (J, h2) /\ mat dr (ndx s) J /\
      forall w g, length w = ndx s -> path (Geo s) x w g -> velocity (fun t => (do y <- g t; sem e y)%out) (mat_vec J w).
Proof. exact jacobian. Qed.
Print Assumptions C35_chain_rule.
(** A x + b after the difference to (1, 1). *)
Example C35_example : exists h r, new_compose (K := RSc) [ex_lin; ODiff (SVec 2) [1; 1]] 0%nat 1%nat = Ret (h, r) /\
  forall junk, exists N, forall n, (N <= n)%nat -> exists v h1, eval (K := RSc) n h r [3; 4] = Ret (v, h1) /\ v = [9; 3] /\
    exists J h2, jac (K := RSc) junk n h1 r [3; 4] ex_z2 = Ret (J, h2) /\
      forall w g, length w = 2%nat -> path (Geo (SVec 2)) [3; 4] w g ->
        velocity (fun t => (do y <- g t; sem (XComp (XBase ex_lin) (XBase (ODiff (SVec 2) [1; 1]))) y)%out) (mat_vec J w).
Proof.
  pose proof (C35_construction [ex_lin; ODiff (SVec 2) [1; 1]] 0 1 (XBase ex_lin) (XBase (ODiff (SVec 2) [1; 1])) (conj eq_refl I) (conj eq_refl I)) as Q.
  destruct (new_compose (K := RSc) [ex_lin; ODiff (SVec 2) [1; 1]] 0%nat 1%nat) as [[h r]|k| |] eqn:E; [|destruct Q as [_ Q]; contradiction Q; reflexivity|contradiction|contradiction].
  exists h, r. split; [reflexivity|]. intros junk. pose (D := ex_dom).
  destruct (C35_chain_rule junk D (SVec 2) h r _ [3; 4] 2 (proj2 Q)) as (N & H0).
  - split; [repeat split; reflexivity|]. eexists. split; [reflexivity|]. repeat split; repeat constructor.
  - intros q a b [].
  - exists N. intros n Hn. destruct (H0 n Hn) as (v & h1 & E1 & E2 & Q1). exists v, h1. split; [exact E1|]. split.
    + cbn in E2. injection E2 as <-. f_equal; [lra|f_equal; lra].
    + destruct (Q1 ex_z2 (ex_mat2 _ _ _ _)) as (J & h2 & EJ & _ & V). exists J, h2. split; [exact EJ|exact V].
Qed.
(** The check compares nr(g) with nx(f), but the Jacobian of f has ndx(f) columns: a composition on
    SE(3) that was accepted evaluates, and its Jacobian is undefined. *)
Theorem C35_dimension_check_refuted : exists h0 l g h r e x v, new_compose (K := RSc) h0 l g = Ret (h, r) /\ repr h r e /\ sem e x = Ret v /\
  forall junk, jac (K := RSc) junk 5 h r x [[0]; [0]; [0]] = UB.
Proof.
  destruct (seven_compose (fun _ _ => 0)) as (h & r & E & Rr & S0 & _). exists [ORigid (K := RSc) [1; 0; 0]; to_seven], 0%nat, 1%nat, h, r, seven_x, [0], [1; 0; 0].
  split; [exact E|]. split; [exact Rr|]. split; [exact S0|]. intros junk. destruct (seven_compose junk) as (h' & r' & E' & _ & _ & J). rewrite E in E'. injection E' as <- <-. exact J.
Qed.
Print Assumptions C35_dimension_check_refuted.
(** Second derivatives do not follow: the composition of x^2 with the identity has value x^2 and
    Jacobian 2x, but its vector-Hessian product is 0. *)
Theorem C35_hessian_refuted : forall junk, exists h r e, new_compose (K := RSc) [OExt square_fun; id1] 0%nat 1%nat = Ret (h, r) /\ repr h r e /\
  (forall x, sem e [x] = Ret [x * x]) /\
  (forall x, exists h1 h2, jac (K := RSc) junk 5 h r [x] [[0]] = Ret ([[2 * x]], h1) /\ vhp (K := RSc) junk 5 h r [x] [1] [[0]] = Ret ([[0]], h2)).
Proof. intros junk. destruct (square_compose junk) as (h & r & H). exists h, r, square_x. exact H. Qed.
Print Assumptions C35_hessian_refuted.

(** * C36: finite differences *)
(** If along the axes the third derivatives are bounded by M on [-eps, eps], every column of the
    finite-difference Jacobian is the derivative along its axis up to M eps^2 / 6. *)
Theorem C36_jacobian_error : forall junk (s : rspace) e p r x dr d M eps h old, 0 < eps -> nth_error h r = Some (OFd1 s d p eps) -> repr h p e ->
  xdim e = (nx s, ndx s, dr) ->
  (forall i, (i < ndx s)%nat -> smooth_curve dr M eps (fun t => (do z <- integrate s x (line (axis (ndx s) i) t); sem e z)%out)) ->
  mat dr (ndx s) old ->
  exists N, forall n, (N <= n)%nat -> exists J h', jac (K := RSc) junk n h r x old = Ret (J, h') /\ mat dr (ndx s) J /\
    forall j, (j < ndx s)%nat -> close_velocity M eps (fun t => (do z <- integrate s x (line (axis (ndx s) j) t); sem e z)%out) (column j J).
Proof. exact finite_jac. Qed.
Print Assumptions C36_jacobian_error.
(** With M = 0 (quadratic along the axes) the columns are exact. *)
Theorem C36_exact_on_quadratics : forall junk (s : rspace) e p r x dr d eps h old, 0 < eps -> nth_error h r = Some (OFd1 s d p eps) -> repr h p e ->
  xdim e = (nx s, ndx s, dr) ->
  (forall i, (i < ndx s)%nat -> smooth_curve dr 0 eps (fun t => (do z <- integrate s x (line (axis (ndx s) i) t); sem e z)%out)) ->
  mat dr (ndx s) old ->
  exists N, forall n, (N <= n)%nat -> exists J h', jac (K := RSc) junk n h r x old = Ret (J, h') /\ mat dr (ndx s) J /\
    forall j, (j < ndx s)%nat -> velocity (fun t => (do z <- integrate s x (line (axis (ndx s) j) t); sem e z)%out) (column j J).
Proof.
  intros junk s e p r x dr d eps h old He Hr Rp Dm Sm Mo. destruct (finite_jac junk s e p r x dr d 0 eps h old He Hr Rp Dm Sm Mo) as (N & HN).
  exists N. intros n Hn. destruct (HN n Hn) as (J & h' & E & MJ & V). exists J, h'. split; [exact E|]. split; [exact MJ|]. intros j Hj. exact (close_exact _ _ _ (V j Hj)).
Qed.
Print Assumptions C36_exact_on_quadratics.
(** The same for the finite-difference Hessian of a user function, from its Jacobian. *)
Theorem C36_hessian_error : forall junk (s : rspace) u p r x v d M eps h old, 0 < eps -> nth_error h r = Some (OFd2 s d p eps) ->
  nth_error h p = Some (OExt u) -> length v = e_nr u ->
  (forall y old, mat (e_nr u) (e_ndx u) old -> exists J, e_jac u y old = Some J /\
     e_jac u y (repeat (repeat 0 (e_ndx u)) (e_nr u)) = Some J /\ mat (e_nr u) (e_ndx u) J) ->
  (forall i, (i < e_ndx u)%nat -> smooth_curve (e_ndx u) M eps (vec_jac u s x v (axis (e_ndx u) i))) -> mat (e_ndx u) (e_ndx u) old ->
  exists N, forall n, (N <= n)%nat -> exists H h', vhp (K := RSc) junk n h r x v old = Ret (H, h') /\ mat (e_ndx u) (e_ndx u) H /\
    forall j, (j < e_ndx u)%nat -> close_velocity M eps (vec_jac u s x v (axis (e_ndx u) j)) (column j H).
Proof. exact finite_vhp. Qed.
Print Assumptions C36_hessian_error.
(** The quadratic cost of object 1, differentiated by central differences at (1, 1) with any step: the
    columns are its derivatives. *)
Example C36_example : forall junk eps, 0 < eps -> exists N, forall n, (N <= n)%nat -> exists J h',
  jac (K := RSc) junk n (ex_heap ++ [OFd1 (SVec 2) 1 1%nat eps]) 4%nat [1; 1] [[0; 0]] = Ret (J, h') /\
  forall j, (j < 2)%nat -> velocity (fun t => (do z <- integrate (SVec 2) [1; 1] (line (axis 2 j) t); sem ex_q z)%out) (column j J).
Proof.
  intros junk eps He. destruct (C36_exact_on_quadratics junk (SVec 2) ex_q 1%nat 4%nat [1; 1] 1 1 eps (ex_heap ++ [OFd1 (SVec 2) 1 1%nat eps]) [[0; 0]]) as (N & H); try assumption; try reflexivity.
  - apply ex_repr. intros i o E. rewrite nth_error_app1; [exact E|]. apply nth_error_Some. congruence.
  - cbn [ndx]. intros [|[|i]] Hi; [| |lia].
    + apply (quadratic_smooth _ 28 10 1). intros t. cbn. f_equal. f_equal. field.
    + apply (quadratic_smooth _ 28 26 7). intros t. cbn. f_equal. f_equal. field.
  - split; repeat constructor.
  - exists N. intros n Hn. destruct (H n Hn) as (J & h' & E & _ & V). exists J, h'. auto.
Qed.
(** x^3 at 1: the error bound is not zero. *)
Definition cube_fun : ext RSc := mkExt (K := RSc) 1 1 1 (fun x => match x with [a] => Some [a * a * a] | _ => None end) (fun _ _ => None) (fun _ _ _ => None).
Example C36_cube_example : forall junk eps, 0 < eps -> exists N, forall n, (N <= n)%nat -> exists J h',
  jac (K := RSc) junk n [OExt cube_fun; OFd1 (SVec 1) 1 0%nat eps] 1%nat [1] [[0]] = Ret (J, h') /\
  close_velocity (6 * Rabs 1) eps (fun t => (do z <- integrate (SVec 1) [1] (line (axis 1 0) t); sem (XBase (OExt cube_fun)) z)%out) (column 0 J).
Proof.
  intros junk eps He. destruct (C36_jacobian_error junk (SVec 1) (XBase (OExt cube_fun)) 0%nat 1%nat [1] 1 1 (6 * Rabs 1) eps [OExt cube_fun; OFd1 (SVec 1) 1 0%nat eps] [[0]]) as (N & H); try assumption; try reflexivity.
  - split; [reflexivity|exact I].
  - cbn [ndx]. intros [|i] Hi; [|lia]. apply (cubic_smooth _ 1 3 3 1). intros t. cbn. f_equal. f_equal. ring.
  - split; repeat constructor.
  - exists N. intros n Hn. destruct (H n Hn) as (J & h' & E & _ & V). exists J, h'. split; [exact E|]. apply V. cbn. lia.
Qed.
(** The Hessian 2 v of x^2 from the Jacobian 2 x. *)
Definition square_total : ext RSc := mkExt (K := RSc) 1 1 1 (fun x => Some [nth 0 x 0 * nth 0 x 0]) (fun x _ => Some [[2 * nth 0 x 0]]) (fun _ _ _ => None).
Example C36_hessian_example : forall junk eps, 0 < eps -> exists N, forall n, (N <= n)%nat -> exists H h',
  vhp (K := RSc) junk n [OExt square_total; OFd2 (SVec 1) 1 0%nat eps] 1%nat [1] [5] [[0]] = Ret (H, h') /\
  velocity (vec_jac square_total (SVec 1) [1] [5] (axis 1 0)) (column 0 H).
Proof.
  intros junk eps He. destruct (C36_hessian_error junk (SVec 1) square_total 0%nat 1%nat [1] [5] 1 0 eps [OExt square_total; OFd2 (SVec 1) 1 0%nat eps] [[0]]) as (N & H); try assumption; try reflexivity.
  - intros y old _. eexists. split; [reflexivity|]. split; [reflexivity|]. split; repeat constructor.
  - intros [|i] Hi; [|cbn in Hi; lia]. apply (quadratic_smooth _ 10 10 0). intros t. cbn. f_equal. f_equal. ring.
  - split; repeat constructor.
  - exists N. intros n Hn. destruct (H n Hn) as (K & h' & E & _ & V). exists K, h'. split; [exact E|]. apply (close_exact eps). apply V. cbn. lia.
Qed.
(** For a quadratic residual cost, differentiating the gradient fails: the gradients at x + eps and
    x - eps use the residual of the last evaluation.  For 1/2 x^2, never evaluated, the result is 0 for
    every step; the second derivative is 1. *)
Theorem C36_quadratic_cost_refuted : exists h0 e x, repr h0 1 e /\ (forall y, sem e [y] = Ret [y * y / 2]) /\
  forall junk eps, exists h r, new (K := RSc) h0 (OFd2 (K := RSc) (SVec 1) 1 1%nat eps) = (h, r) /\
  exists h', vhp (K := RSc) junk 5 h r x [1] [[0]] = Ret ([[0]], h').
Proof.
  exists half_square, half_square_x, [0]. split; [exact half_square_repr|]. split; [exact half_square_val|]. intros junk eps. exact (stale_fd junk eps).
Qed.
Print Assumptions C36_quadratic_cost_refuted.

(** * C66: the Gauss-Newton Hessian *)
(** It is symmetric, and positive semidefinite when the weight matrices are and the factors are not
    negative. *)
Theorem C66_symmetric_semidefinite : forall junk D s h r e x, gauss_newton h e -> is_cost e -> repr h r e -> good D (Geo s) x e 1 ->
  consistent (visits e x) -> (forall w, length w = ndx s -> exists g, path (Geo s) x w g) ->
  exists N, forall n, (N <= n)%nat -> exists c h1, call (K := RSc) n h r x = Ret (c, h1) /\
    forall old, mat (ndx s) (ndx s) old -> exists H h2, hess (K := RSc) junk n h1 r x old = Ret (H, h2) /\ mat (ndx s) (ndx s) H /\
      (forall u w, length u = ndx s -> length w = ndx s -> inner u (mat_vec H w) = inner w (mat_vec H u)) /\
      (weights_nonneg e -> forall u, length u = ndx s -> 0 <= inner u (mat_vec H u)).
Proof. exact gn_hessian. Qed.
Print Assumptions C66_symmetric_semidefinite.
Lemma ex_nonneg : weights_nonneg ex_sum.
Proof.
  cbn. split; [lra|]. split; [|split; [lra|split; [|exact I]]]; intros [|a [|b [|? ?]]] L; try discriminate; cbn.
  - replace (a * (2 * a + (1 * b + 0)) + (b * (1 * a + (2 * b + 0)) + 0)) with (a * a + b * b + (a + b) * (a + b)) by ring.
    pose proof (Rle_0_sqr a). pose proof (Rle_0_sqr b). pose proof (Rle_0_sqr (a + b)). unfold Rsqr in *. lra.
  - replace (a * (1 * a + (0 * b + 0)) + (b * (0 * a + (1 * b + 0)) + 0)) with (a * a + b * b) by ring.
    pose proof (Rle_0_sqr a). pose proof (Rle_0_sqr b). unfold Rsqr in *. lra.
Qed.
Example C66_example : forall junk, exists N, forall n, (N <= n)%nat -> exists c h1, call (K := RSc) n ex_sum_heap 4%nat [1; 1] = Ret (c, h1) /\
  exists H h2, hess (K := RSc) junk n h1 4%nat [1; 1] ex_z2 = Ret (H, h2) /\ forall u, length u = 2%nat -> 0 <= inner u (mat_vec H u).
Proof.
  intros junk. destruct (C66_symmetric_semidefinite junk ex_dom (SVec 2) ex_sum_heap 4%nat ex_sum [1; 1] ex_gn I ex_sum_repr (ex_sum_good ex_dom [1; 1] eq_refl) (ex_sum_consistent _)) as (N & H0).
  - apply flat_paths; [exact I|reflexivity].
  - exists N. intros n Hn. destruct (H0 n Hn) as (c & h1 & E & Q). exists c, h1. split; [exact E|]. destruct (Q ex_z2 (ex_mat2 _ _ _ _)) as (H & h2 & EH & _ & _ & P).
    exists H, h2. split; [exact EH|]. exact (P ex_nonneg).
Qed.

(** * C67: least squares *)
(** For weighted sums of quadratic costs with affine residuals on flat spaces, the quadratic model
    built from the returned value, gradient and Hessian is the cost itself, everywhere. *)
Theorem C67_quadratic_model_exact : forall junk D s h r e x, flat s -> length x = ndx s -> least_squares e -> gauss_newton h e -> is_cost e ->
  repr h r e -> good D (Geo s) x e 1 -> consistent (visits e x) ->
  exists N, forall n, (N <= n)%nat -> exists c h1, call (K := RSc) n h r x = Ret (c, h1) /\
    forall old old', length old = ndx s -> mat (ndx s) (ndx s) old' ->
    exists G h2 H h3, grad (K := RSc) junk n h1 r x old = Ret (G, h2) /\ hess (K := RSc) junk n h2 r x old' = Ret (H, h3) /\
      length G = ndx s /\ mat (ndx s) (ndx s) H /\
      forall w, length w = ndx s -> sem e (map2 Rplus x w) = Ret [c + inner G w + inner w (mat_vec H w) / 2].
Proof. exact quadratic_model. Qed.
Print Assumptions C67_quadratic_model_exact.
Example C67_example : forall junk, exists N, forall n, (N <= n)%nat -> exists c h1, call (K := RSc) n ex_sum_heap 4%nat [1; 1] = Ret (c, h1) /\
  exists G h2 H h3, grad (K := RSc) junk n h1 4%nat [1; 1] [0; 0] = Ret (G, h2) /\ hess (K := RSc) junk n h2 4%nat [1; 1] ex_z2 = Ret (H, h3) /\
    forall w, length w = 2%nat -> sem ex_sum (map2 Rplus [1; 1] w) = Ret [c + inner G w + inner w (mat_vec H w) / 2].
Proof.
  intros junk. destruct (C67_quadratic_model_exact junk ex_dom (SVec 2) ex_sum_heap 4%nat ex_sum [1; 1]) as (N & H0); try exact I; try reflexivity.
  - cbn. repeat split.
  - exact ex_gn.
  - exact ex_sum_repr.
  - apply ex_sum_good. reflexivity.
  - apply ex_sum_consistent.
  - exists N. intros n Hn. destruct (H0 n Hn) as (c & h1 & E & Q). exists c, h1. split; [exact E|]. destruct (Q [0; 0] ex_z2 eq_refl (ex_mat2 _ _ _ _)) as (G & h2 & H & h3 & A & B & _ & _ & C).
    exists G, h2, H, h3. auto.
Qed.

(** * C68: rigid transformation of a point *)
(** The value at the pose (t, q) is t plus p rotated by q. *)
Theorem C68_value : forall p t q : rvec, length p = 3%nat -> length t = 3%nat -> length q = 4%nat ->
  rigid_eval (K := RSc) p (t ++ q) = Ret (map2 Rplus t (rotate q p)).
Proof. exact rigid_value. Qed.
Print Assumptions C68_value.
(** The Jacobian is the derivative along every curve of poses with body velocity (v, o). *)
Theorem C68_jacobian : forall p t q v o (g : R -> outcome rvec) old, length p = 3%nat -> length t = 3%nat -> length q = 4%nat -> length v = 3%nat ->
  length o = 3%nat -> inner q q = 1 -> g 0 = Ret (t ++ q) -> velocity g (rotate q v ++ quat_rate q o) -> mat 3 6 old ->
  exists J, rigid_jac (K := RSc) p (t ++ q) old = Ret J /\ mat 3 6 J /\
    velocity (fun s => (do y <- g s; rigid_eval (K := RSc) p y)%out) (mat_vec J (v ++ o)).
Proof. exact rigid_derivative. Qed.
Print Assumptions C68_jacobian.
(** Hence the function meets the conditions of C34 and C35 on every space whose paths have that
    velocity. *)
Theorem C68_usable : forall D (s : rspace) p t q, length p = 3%nat -> length t = 3%nat -> length q = 4%nat -> inner q q = 1 -> ndx s = 6%nat ->
  (forall v o g, length v = 3%nat -> length o = 3%nat -> path (Geo s) (t ++ q) (v ++ o) g -> velocity g (rotate q v ++ quat_rate q o)) ->
  good D (Geo s) (t ++ q) (XBase (ORigid p)) 3.
Proof. exact rigid_good. Qed.
Print Assumptions C68_usable.
(** Half a turn about the third axis, moving along a line: the value of (1, 2, 3). *)
Example C68_value_example : rigid_eval (K := RSc) [1; 2; 3] ([10; 20; 30] ++ [0; 0; 1; 0]) = Ret [9; 18; 33].
Proof. rewrite C68_value by reflexivity. cbn. f_equal. f_equal; [lra|f_equal; [lra|f_equal; lra]]. Qed.
(** From the identity, screw motion along and about the third axis. *)
Example C68_jacobian_example : exists J, rigid_jac (K := RSc) [1; 2; 3] ([0; 0; 0] ++ [0; 0; 0; 1]) [[0; 0; 0; 0; 0; 0]; [0; 0; 0; 0; 0; 0]; [0; 0; 0; 0; 0; 0]] = Ret J /\
  velocity (fun s => (do y <- Ret ([0; 0; s] ++ [0; 0; sin (s / 2); cos (s / 2)]); rigid_eval (K := RSc) [1; 2; 3] y)%out) (mat_vec J ([0; 0; 1] ++ [0; 0; 1])).
Proof.
  destruct (C68_jacobian [1; 2; 3] [0; 0; 0] [0; 0; 0; 1] [0; 0; 1] [0; 0; 1] (fun s => Ret ([0; 0; s] ++ [0; 0; sin (s / 2); cos (s / 2)]))
    [[0; 0; 0; 0; 0; 0]; [0; 0; 0; 0; 0; 0]; [0; 0; 0; 0; 0; 0]]) as (J & E & _ & V); try reflexivity.
  - cbn. lra.
  - cbn. replace (0 / 2) with 0 by field. rewrite sin_0, cos_0. reflexivity.
  - exists (fun s => [0; 0; s; 0; 0; sin (s / 2); cos (s / 2)]), 1. split; [lra|]. split; [reflexivity|]. split; [reflexivity|].
    assert (Hh : derivable_pt_lim (fun t => t / 2) 0 (1 / 2)).
    { unfold Rdiv. eapply der_eq; [apply (derivable_pt_lim_mult id (fun _ => / 2)); [apply derivable_pt_lim_id|apply derivable_pt_lim_const]|]. unfold id. lra. }
    intros [|[|[|[|[|[|[|i]]]]]]] Hi; cbn [nth length] in *; try lia; try (eapply der_eq; [apply derivable_pt_lim_const|cbn; lra]).
    + eapply der_eq; [apply derivable_pt_lim_id|cbn; lra].
    + eapply der_eq; [apply (derivable_pt_lim_comp (fun t => t / 2) sin); [exact Hh|apply derivable_pt_lim_sin]|]. replace (0 / 2) with 0 by field. rewrite cos_0. cbn. lra.
    + eapply der_eq; [apply (derivable_pt_lim_comp (fun t => t / 2) cos); [exact Hh|apply derivable_pt_lim_cos]|]. replace (0 / 2) with 0 by field. rewrite sin_0. cbn. lra.
    + cbn in Hi. lia.
  - split; repeat constructor.
  - exists J. split; [exact E|exact V].
Qed.

(** * C69: distance costs *)
(** A distance cost is built when the target is accepted as a point, and its value is half the
    weighted square of the difference between the target and the argument. *)
Theorem C69_constructed : forall h s t W, is_normalized (K := RSc) s t = Ret true ->
  exists h' r, new_distance (K := RSc) h s t W = Ret (h', r) /\ repr h' r (XQuad r W (repeat 0 (ndx s)) 0 (XBase (ODiff s t))) /\
    forall i o, nth_error h i = Some o -> nth_error h' i = Some o.
Proof. exact distance_new. Qed.
Print Assumptions C69_constructed.
Theorem C69_value : forall h r s t W sl c x v, repr h r (XQuad r W sl c (XBase (ODiff s t))) -> difference (K := RSc) s t x = Ret v ->
  mat (length v) (length v) W -> length sl = length v ->
  exists N, forall n, (N <= n)%nat -> exists h', call (K := RSc) n h r x = Ret (1 / 2 * inner v (mat_vec W v) + inner sl v + c, h').
Proof. exact distance_value. Qed.
Print Assumptions C69_value.
(** updateTarget moves the target of the cost. *)
Theorem C69_update_target : forall h r W sl c s t y, repr h r (XQuad r W sl c (XBase (ODiff s t))) ->
  exists h', update_target (K := RSc) h r y = Ret h' /\ repr h' r (XQuad r W sl c (XBase (ODiff s y))).
Proof. exact distance_target. Qed.
Print Assumptions C69_update_target.
Example C69_example : exists h', update_target (K := RSc) ex_heap 3%nat [3; 1] = Ret h' /\
  exists N, forall n, (N <= n)%nat -> exists h'', call (K := RSc) n h' 3%nat [1; 1] = Ret (2, h'').
Proof.
  destruct (C69_update_target ex_heap 3 [[1; 0]; [0; 1]] [0; 0] 0 (SVec 2) [1; 1] [3; 1] (proj2 (ex_repr ex_heap (fun _ _ H => H)))) as (h' & E & Rr).
  exists h'. split; [exact E|]. destruct (C69_value h' 3 (SVec 2) [3; 1] _ _ _ [1; 1] [1 - 3; 1 - 1] Rr eq_refl (ex_mat2 _ _ _ _) eq_refl) as (N & H).
  exists N. intros n Hn. destruct (H n Hn) as (h'' & Q). exists h''. rewrite Q. f_equal. f_equal. cbn. field.
Qed.
(** But the copy constructor shares the residual: changing the target of a copy changes the value of
    the original. *)
Theorem C69_copy_is_independent_refuted : exists h r o h2 r2 h3 x y c c', nth_error h r = Some o /\ new (K := RSc) h o = (h2, r2) /\ r2 <> r /\
  (exists h', call (K := RSc) 5 h2 r x = Ret (c, h')) /\ update_target (K := RSc) h2 r2 y = Ret h3 /\
  (exists h', call (K := RSc) 5 h3 r x = Ret (c', h')) /\ c <> c'.
Proof.
  destruct copy_target as (o & h2 & h3 & h4 & E1 & E2 & E3 & E4 & E5). exists dist_heap, 1%nat, o, h2, 2%nat, h3, [0], [1], 0, (1 / 2).
  repeat (split; [first [assumption|discriminate|eauto]|]). lra.
Qed.
Print Assumptions C69_copy_is_independent_refuted.
