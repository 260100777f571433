(** Properties C88-C90: neutral elements, constructors of functions and costs, exact Hessians. *)
From Coq Require Import Reals List Arith Lia Lra.
From Verif Require Import Scalar Cset_spec Problem_model Manifold_model Manifold_spec Manifold_proofs ManifoldR_proofs ManifoldX_proofs Manifold_props
  Function_model Function_spec Function_proofs FunctionD_proofs FunctionX_proofs Function_props Ctor_spec NeutralX_proofs CtorH_proofs.
Import ListNotations.
Local Open Scope R_scope.

(** * C88: the neutral element *)
(** It is a point of the right size; moving by the zero vector stays there, and the difference to itself is zero. *)
Theorem C88_neutral : forall D s, leaves (leaf_sized D) s -> leaves (leaf_inverse D) s -> leaves (leaf_ends D) s -> leaves (neutral_ok D) s ->
  point D s (neutral s) /\ length (neutral s) = nx s /\ integrate s (neutral s) (repeat 0 (ndx s)) = Ret (neutral s) /\
  difference s (neutral s) (neutral s) = Ret (repeat 0 (ndx s)).
Proof. exact neutral_moves. Qed.
Print Assumptions C88_neutral.
(** On flat spaces it is the origin: integrate and difference from it are the identity. *)
Theorem C88_flat : forall s, flat s -> neutral s = repeat 0 (nx s) /\
  forall v, length v = ndx s -> integrate s (neutral s) v = Ret v /\ difference s (neutral s) v = Ret v.
Proof. intros s F. split; [exact (neutral_flat s F)|exact (neutral_flat_moves s F)]. Qed.
Print Assumptions C88_flat.
(** The parts of the neutral element of a product are the neutral elements of the components, in every arithmetic. *)
Theorem C88_product : forall (K : Sc) (cs : list (space K)), sized_neutral (SProd cs) ->
  split cs (neutral (SProd cs)) = Ret (map neutral cs) /\ merge cs (map neutral cs) = Ret (neutral (SProd cs)).
Proof. exact @neutral_parts. Qed.
Print Assumptions C88_product.
(** In a tangent bundle: the neutral element of the base, at rest. *)
Theorem C88_bundle : forall (K : Sc) (b : space K), sized_neutral b ->
  seg 0 (nx b) (neutral (SBundle b)) = Ret (neutral b) /\ tail_seg (ndx b) (neutral (SBundle b)) = Ret (repeat s0 (ndx b)).
Proof. exact @neutral_bundle. Qed.
Print Assumptions C88_bundle.
(** Adding a product to itself grows the vector over which the loop iterates. *)
Theorem C88_add_self_refuted : (exists cs : list rspace, Manifold_model.add_self cs <> Ret (add_product cs cs)) /\
  forall cs : list rspace, cs <> [] -> Manifold_model.add_self cs = UB.
Proof. split; [exists [SVec 1]; discriminate|]. intros [|c cs] H; [congruence|reflexivity]. Qed.
Print Assumptions C88_add_self_refuted.
Lemma ex_neutral : leaves (neutral_ok so2_dom) ex_space.
Proof.
  assert (N : neutral_ok so2_dom so2).
  { split; [exists 1, 0; split; [reflexivity|lra]|]. pose proof PI_RGT_0. exists 0. split; [reflexivity|lra]. }
  cbn. repeat split; apply N.
Qed.
Example C88_example : neutral ex_space = [1; 0; 0; 0; 0; 1; 0] /\ point so2_dom ex_space (neutral ex_space) /\
  integrate ex_space (neutral ex_space) [0; 0; 0; 0; 0] = Ret (neutral ex_space) /\
  split [SBundle (SLeaf so2); SProd [SVec 2; SLeaf so2]] (neutral ex_space) = Ret [[1; 0; 0]; [0; 0; 1; 0]].
Proof.
  split; [reflexivity|]. destruct (C88_neutral _ _ ex_sized ex_inverse ex_ends ex_neutral) as (P & _ & I & _).
  split; [exact P|]. split; [exact I|]. apply (C88_product RSc). cbn. repeat split.
Qed.
Example C88_flat_example : integrate (K := RSc) (SBundle (SVec 2)) (neutral (SBundle (SVec 2))) [1; 2; 3; 4] = Ret [1; 2; 3; 4].
Proof. apply (proj2 (C88_flat (SBundle (SVec 2)) I) [1; 2; 3; 4] eq_refl). Qed.

(** * C89: constructors *)
(** The distance to the neutral element, with identity weights: half the squared length of the difference, zero at
    the neutral element. *)
Theorem C89_distance_neutral : forall D h s, leaves (leaf_sized D) s -> leaves (leaf_inverse D) s -> leaves (leaf_ends D) s -> leaves (neutral_ok D) s ->
  is_normalized s (neutral s) = Ret true ->
  exists h' r, new_distance_neutral (K := RSc) h s = Ret (h', r) /\
    (forall x v, difference s (neutral s) x = Ret v -> exists N, forall n, (N <= n)%nat -> exists h'', call (K := RSc) n h' r x = Ret (1 / 2 * inner v v, h'')) /\
    exists N, forall n, (N <= n)%nat -> exists h'', call (K := RSc) n h' r (neutral s) = Ret (0, h'').
Proof. exact distance_neutral. Qed.
Print Assumptions C89_distance_neutral.
(** The distance to a target with identity weights. *)
Theorem C89_distance : forall h s t, is_normalized (K := RSc) s t = Ret true ->
  exists h' r, new_distance_id (K := RSc) h s t = Ret (h', r) /\ (forall i o, nth_error h i = Some o -> nth_error h' i = Some o) /\
    forall x v, difference s t x = Ret v -> exists N, forall n, (N <= n)%nat -> exists h'', call (K := RSc) n h' r x = Ret (1 / 2 * inner v v, h'').
Proof. exact distance_id. Qed.
Print Assumptions C89_distance.
(** A function becomes a cost exactly if it has one output. *)
Theorem C89_downcast : forall h f e, repr h f e ->
  (xnr e = 1%nat -> exists h' r, downcast (K := RSc) h f = Ret (h', r) /\ repr h' r (XCost e) /\ forall i o, nth_error h i = Some o -> nth_error h' i = Some o) /\
  (xnr e <> 1%nat -> downcast (K := RSc) h f = Throw ErrCast).
Proof. exact cost_new. Qed.
Print Assumptions C89_downcast.
(** A difference to a target of the right size is built exactly if the target is accepted as a point. *)
Theorem C89_difference : forall h s t, length t = nx s ->
  (is_normalized (K := RSc) s t = Ret true -> exists h' r, new_diff (K := RSc) h s t = Ret (h', r) /\ repr h' r (XBase (ODiff s t)) /\
     forall i o, nth_error h i = Some o -> nth_error h' i = Some o) /\
  (is_normalized (K := RSc) s t <> Ret true -> new_diff (K := RSc) h s t = Throw ErrPoint).
Proof. exact diff_new. Qed.
Print Assumptions C89_difference.
(** A linear function of the difference. *)
Theorem C89_linear_difference : forall h s t A b, is_normalized (K := RSc) s t = Ret true -> length t = nx s -> mat (length b) (ndx s) A ->
  exists h' r, new_linear_diff (K := RSc) h s t (ndx s) A b = Ret (h', r) /\
    repr h' r (XComp (XBase (OLinear (K := RSc) (ndx s) A b)) (XBase (ODiff s t))) /\
    forall x v, difference s t x = Ret v ->
      exists N, forall n, (N <= n)%nat -> exists h'', eval (K := RSc) n h' r x = Ret (map2 Rplus (mat_vec A v) b, h'').
Proof. exact linear_diff_new. Qed.
Print Assumptions C89_linear_difference.
Theorem C89_linear_difference_size : forall h s t n A b, length t <> nx s -> forall o, new_linear_diff (K := RSc) h s t n A b <> Ret o.
Proof. exact linear_diff_wrong. Qed.
Print Assumptions C89_linear_difference_size.
(** The difference alone does not check the size of the target: on a vector space any target is accepted and the
    evaluation is undefined. *)
Theorem C89_target_size_refuted : exists s (t : rvec) h' r, length t <> nx s /\ new_diff (K := RSc) [] s t = Ret (h', r) /\
  forall n x, length x = nx s -> eval (K := RSc) (S n) h' r x = UB.
Proof.
  exists (SVec 2), [1], [ODiff (SVec 2) [1]], 0%nat. split; [discriminate|]. split; [reflexivity|].
  intros n [|a [|b [|c x]]] L; try discriminate. reflexivity.
Qed.
Print Assumptions C89_target_size_refuted.
Example C89_example : exists h' r, new_distance_neutral (K := RSc) [] ex_space = Ret (h', r) /\
  exists N, forall n, (N <= n)%nat -> exists h'', call (K := RSc) n h' r (neutral ex_space) = Ret (0, h'').
Proof.
  destruct (C89_distance_neutral so2_dom [] _ ex_sized ex_inverse ex_ends ex_neutral eq_refl) as (h' & r & E & _ & Z).
  exists h', r. split; [exact E|exact Z].
Qed.
Example C89_downcast_example : exists h r, downcast (K := RSc) [OExt square_fun] 0%nat = Ret (h, r) /\ repr h r (XCost (XBase (OExt square_fun))) /\
  downcast (K := RSc) [OLinear (K := RSc) 1 [[1]; [2]] [0; 0]] 0%nat = Throw ErrCast.
Proof.
  destruct (C89_downcast [OExt square_fun] 0 (XBase (OExt square_fun)) (conj eq_refl I)) as [A _]. destruct (A eq_refl) as (h & r & E & R & _).
  exists h, r. split; [exact E|]. split; [exact R|].
  apply (proj2 (C89_downcast [OLinear (K := RSc) 1 [[1]; [2]] [0; 0]] 0 (XBase (OLinear (K := RSc) 1 [[1]; [2]] [0; 0])) (conj eq_refl I))). discriminate.
Qed.
Example C89_difference_example : new_diff (K := RSc) [] (SLeaf so2) [2; 0] = Throw ErrPoint.
Proof. apply (proj2 (C89_difference [] (SLeaf so2) [2; 0] eq_refl)). cbn. intros H. injection H as H. apply Reqb_true in H. lra. Qed.
Example C89_linear_example : exists h' r, new_linear_diff (K := RSc) [] (SVec 2) [1; 1] 2 [[1; 2]] [5] = Ret (h', r) /\
  exists N, forall n, (N <= n)%nat -> exists h'', eval (K := RSc) n h' r [2; 3] = Ret ([1 * (2 - 1) + (2 * (3 - 1) + 0) + 5], h'').
Proof.
  destruct (C89_linear_difference [] (SVec 2) [1; 1] [[1; 2]] [5] eq_refl eq_refl) as (h' & r & E & _ & V); [split; repeat constructor|].
  exists h', r. split; [exact E|]. destruct (V [2; 3] [2 - 1; 3 - 1] eq_refl) as (N & H). exists N. intros n Hn. destruct (H n Hn) as (h'' & Q). exists h''. exact Q.
Qed.

(** * C90: exact Hessians *)
(** Without the Gauss-Newton approximation, the Hessian of a quadratic cost of a user function with exact derivatives,
    requested after a call at the same point, is the second derivative of the cost along every line; the
    vectorHessianProduct of the cost with a multiplier a is a times it. *)
Theorem C90_exact_hessian : forall junk u n m x J H W b c h p r dx ca k old,
  nth_error h p = Some (OExt u) -> nth_error h r = Some (OQuad (K := RSc) dx n p W b c false ca) ->
  mat m n (c_J ca) -> mat n n (c_H ca) -> mat m m W -> symmetric W -> length b = m -> length x = n ->
  (forall o, mat m n o -> e_jac u x o = Some J) -> mat m n J ->
  (forall v o, length v = m -> mat n n o -> e_vhp u x v o = Some (H v)) -> (forall v, length v = m -> mat n n (H v)) ->
  exact_second u n m x J H -> mat n n old ->
  exists val h1, call (K := RSc) (S (S k)) h r x = Ret (val, h1) /\ exists Hc h2, hess (K := RSc) junk (S (S k)) h1 r x old = Ret (Hc, h2) /\ mat n n Hc /\
    forall a, exists Ha h3, vhp (K := RSc) junk (S (S (S k))) h1 r x [a] old = Ret (Ha, h3) /\ mat n n Ha /\
    forall w, length w = n -> exists f, f 0 = val /\
      (forall t, sem (XQuad r W b c (XBase (OExt u))) (along x w t) = Ret [f t]) /\
      second f (inner w (mat_vec Hc w)) /\ second (fun t => a * f t) (inner w (mat_vec Ha w)).
Proof. exact exact_hessian. Qed.
Print Assumptions C90_exact_hessian.
(** The residual x^2 with slope 3: 1/2 x^4 + 3 x^2, second derivative 6 x^2 + 6. *)
Definition ex_fourth (gn : bool) : heap RSc :=
  [OExt square_fun; OQuad (K := RSc) 1 1 0%nat [[1]] [3] 0 gn (mkCache (K := RSc) [0] [[0]] [[0]])].
Example C90_example : forall junk x, exists val h1 Hc h2, call (K := RSc) 2 (ex_fourth false) 1%nat [x] = Ret (val, h1) /\
  hess (K := RSc) junk 2 h1 1%nat [x] [[0]] = Ret (Hc, h2) /\
  exists f, (forall t, sem (XQuad 1%nat [[1]] [3] 0 (XBase (OExt square_fun))) (along [x] [1] t) = Ret [f t]) /\ second f (inner [1] (mat_vec Hc [1])).
Proof.
  intros junk x.
  destruct (C90_exact_hessian junk square_fun 1 1 [x] [[2 * x]] (fun v => [[2 * nth 0 v 0]]) [[1]] [3] 0 (ex_fourth false) 0 1 1
    (mkCache (K := RSc) [0] [[0]] [[0]]) 0 [[0]]) as (val & h1 & E1 & Hc & h2 & E2 & _ & V); try reflexivity; try (split; repeat constructor).
  - intros [|[|i]] [|[|j]]; reflexivity.
  - intros [|a [|b v]] o L M; try discriminate. reflexivity.
  - intros [|a [|b w]] L; try discriminate.
    exists (fun t => [(x + t * a) * (x + t * a)]), (fun t => [2 * (x + t * a) * a]), [2 * a * a], 1. split; [lra|]. split; [reflexivity|].
    split; [intros; split; reflexivity|]. split; [reflexivity|].
    assert (DL : forall t, derivable_pt_lim (fun t => x + t * a) t a).
    { intros t. pose proof (derivable_pt_lim_id t) as I. unfold id in I. eapply der_eq; [der_auto|ring]. }
    split; [|split; [|split]].
    + intros [|i] t Hi _; [|lia]. cbn. replace (2 * (x + t * a) * a) with (a * (x + t * a) + (x + t * a) * a) by ring.
      apply (derivable_pt_lim_mult (fun t => x + t * a) (fun t => x + t * a)); apply DL.
    + intros [|i] Hi; [|lia]. cbn. apply (derivable_pt_lim_ext (fun t => (2 * a) * (x + t * a))); [intros; ring|].
      apply (derivable_pt_lim_scal (fun t => x + t * a) (2 * a)), DL.
    + cbn. f_equal. ring.
    + intros [|v0 [|v1 v]] Lv; try discriminate. cbn. ring.
  - exists val, h1, Hc, h2. split; [exact E1|]. split; [exact E2|]. destruct (V 1) as (Ha & h3 & _ & _ & S).
    destruct (S [1] eq_refl) as (f & _ & F1 & F2 & _). exists f. split; [exact F1|exact F2].
Qed.
(** With the default of the constructor (Gauss-Newton) the Hessian is not the second derivative of the cost. *)
Theorem C90_default_refuted : forall junk, exists h r h1 h2 f, new_quad (K := RSc) [OExt square_fun] 0%nat [[1]] [3] 0 = Ret (h, r) /\
  call (K := RSc) 2 h r [1] = Ret (f 0, h1) /\ hess (K := RSc) junk 2 h1 r [1] [[0]] = Ret ([[4]], h2) /\
  (forall t, sem (XQuad r [[1]] [3] 0 (XBase (OExt square_fun))) (along [1] [1] t) = Ret [f t]) /\ second f 12.
Proof.
  intros junk. exists (ex_fourth true), 1%nat. eexists. eexists. exists (fun t => 1 / 2 * ((1 + t) * (1 + t) * (1 + t) * (1 + t)) + 3 * ((1 + t) * (1 + t))).
  split; [reflexivity|]. split; [cbn; f_equal; f_equal; field|]. split; [cbn; f_equal; f_equal; f_equal; f_equal; ring|].
  split; [intros t; cbn; f_equal; f_equal; field|].
  exists (fun t => 2 * ((1 + t) * (1 + t) * (1 + t)) + 6 * (1 + t)), 1. split; [lra|]. split.
  - intros t _. pose proof (derivable_pt_lim_id t) as I. unfold id in I. eapply der_eq; [der_auto|]. field.
  - pose proof (derivable_pt_lim_id 0) as I. unfold id in I. eapply der_eq; [der_auto|]. ring.
Qed.
Print Assumptions C90_default_refuted.
