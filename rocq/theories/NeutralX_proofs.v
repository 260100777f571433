(** Proofs for C88 and C89: the neutral element; constructors of functions and costs. *)
From Coq Require Import Reals List Arith Lia Lra.
From Verif Require Import Scalar Cset_spec Problem_model Manifold_model Manifold_spec Manifold_proofs ManifoldR_proofs
  Function_model Function_spec Function_proofs FunctionE_proofs FunctionJ_proofs FunctionH_proofs FunctionQ_proofs FunctionB_proofs FunctionD_proofs FunctionX_proofs Ctor_spec.
Import ListNotations.
Local Open Scope R_scope.

Section Any.
  Context {K : Sc}.
  Notation sp := (space K).
  Lemma neutral_len (s : sp) : sized_neutral s -> length (neutral s) = nx s.
  Proof.
    induction s as [n|l| |c r IHc IHr|b IH] using space_ind2; cbn [sized_neutral]; intros H.
    - apply repeat_length.
    - exact H.
    - reflexivity.
    - destruct H as [H1 H2]. change (neutral (SProd (c :: r))) with (neutral c ++ neutral (SProd r)).
      rewrite app_length, nx_cons, IHc, IHr; auto.
    - cbn [neutral nx]. now rewrite app_length, repeat_length, IH.
  Qed.
  Lemma sized_each (cs : list sp) : sized_neutral (SProd cs) -> Forall2 (fun s p => length p = nx s) cs (map neutral cs).
  Proof.
    induction cs as [|c r IH]; cbn; intros H; [constructor|]. destruct H as [H1 H2]. constructor; [now apply neutral_len|now apply IH].
  Qed.
  Lemma neutral_parts (cs : list sp) : sized_neutral (SProd cs) -> split cs (neutral (SProd cs)) = Ret (map neutral cs) /\
    merge cs (map neutral cs) = Ret (neutral (SProd cs)).
  Proof.
    intros H. destruct (lem_split_merge cs) as (_ & M & _). destruct (M _ (sized_each cs H)) as (x & E1 & _ & E2).
    assert (X : x = neutral (SProd cs)).
    { unfold merge in E1. rewrite (merge_loop_concat nx cs _ (sized_each cs H)) in E1. injection E1 as <-. reflexivity. }
    subst x. auto.
  Qed.
  Lemma neutral_bundle (b : sp) : sized_neutral b -> seg 0 (nx b) (neutral (SBundle b)) = Ret (neutral b) /\
    tail_seg (ndx b) (neutral (SBundle b)) = Ret (repeat s0 (ndx b)).
  Proof.
    intros H. cbn [neutral]. split; [apply seg_app_l, neutral_len, H|]. apply tail_app, repeat_length.
  Qed.
End Any.

Lemma neutral_point D s : leaves (neutral_ok D) s -> point D s (neutral s).
Proof.
  induction s as [n|l| |c r IHc IHr|b IH] using space_ind2; intros H.
  - apply repeat_length.
  - exact (proj1 H).
  - reflexivity.
  - destruct H as [H1 H2]. exists (neutral c), (neutral (SProd r)). split; [reflexivity|]. split; [apply IHc, H1|apply IHr, H2].
  - exists (neutral b), (repeat 0 (ndx b)). split; [reflexivity|]. split; [apply IH, H|apply repeat_length].
Qed.
Lemma neutral_flat s : flat s -> neutral s = repeat 0 (nx s).
Proof.
  induction s as [n|l| |c r IHc IHr|b IH] using space_ind2; intros H; [reflexivity|destruct H|reflexivity| |].
  - destruct H as [H1 H2]. rewrite nx_cons, repeat_app, <- (IHc H1), <- (IHr H2). reflexivity.
  - cbn [neutral nx]. now rewrite repeat_app, <- (IH H).
Qed.
Lemma neutral_flat_moves s : flat s -> forall v, length v = ndx s -> integrate s (neutral s) v = Ret v /\ difference s (neutral s) v = Ret v.
Proof.
  intros F v L. pose proof (flat_dim s F) as E. rewrite (neutral_flat s F).
  rewrite flat_int, flat_diff by (auto using repeat_length || (rewrite ?repeat_length; lia) || lia).
  rewrite E, <- L. clear. split; apply f_equal; induction v as [|a v IH]; cbn; try reflexivity; cbn in IH; rewrite IH; f_equal; ring.
Qed.

(** Functions and costs. *)
Lemma sized_leaves D s : leaves (leaf_sized D) s -> leaves (neutral_ok D) s -> sized_neutral s.
Proof.
  induction s as [n|l| |c r IHc IHr|b IH] using space_ind2; intros H G; try exact I.
  - apply (lz_pt _ _ H), (proj1 G).
  - destruct H, G. split; [apply IHc; assumption|apply IHr; assumption].
  - apply IH; assumption.
Qed.
Lemma diff_self D s x : leaves (leaf_sized D) s -> leaves (leaf_inverse D) s -> leaves (leaf_ends D) s ->
  point D s x -> tangent D s (repeat 0 (ndx s)) -> difference s x x = Ret (repeat 0 (ndx s)).
Proof.
  intros HZ HI HE P T. destruct (proj1 (lem_inverse D s HZ HI) x (repeat 0 (ndx s)) P T) as (y & E1 & _ & E2).
  rewrite (int_zero D s HZ HE x P) in E1. injection E1 as <-. apply E2.
Qed.
Lemma zero_tangent D s : leaves (neutral_ok D) s -> tangent D s (repeat 0 (ndx s)).
Proof.
  induction s as [n|l| |c r IHc IHr|b IH] using space_ind2; intros H.
  - apply repeat_length.
  - exact (proj2 H).
  - reflexivity.
  - destruct H as [H1 H2]. exists (repeat 0 (ndx c)), (repeat 0 (ndx (SProd r))). split; [|split; [apply IHc, H1|apply IHr, H2]].
    rewrite ndx_cons. apply repeat_app.
  - exists (repeat 0 (ndx b)), (repeat 0 (ndx b)). split; [|split; [apply IH, H|apply repeat_length]].
    cbn [ndx]. rewrite <- repeat_app. f_equal. lia.
Qed.
Lemma neutral_moves D s : leaves (leaf_sized D) s -> leaves (leaf_inverse D) s -> leaves (leaf_ends D) s -> leaves (neutral_ok D) s ->
  point D s (neutral s) /\ length (neutral s) = nx s /\ integrate s (neutral s) (repeat 0 (ndx s)) = Ret (neutral s) /\
  difference s (neutral s) (neutral s) = Ret (repeat 0 (ndx s)).
Proof.
  intros HZ HI HE HN. pose proof (neutral_point D s HN) as P. split; [exact P|]. split; [apply neutral_len, (sized_leaves D); assumption|].
  split; [apply (int_zero D); assumption|]. apply (diff_self D); auto. apply zero_tangent, HN.
Qed.
Lemma eye_quad (v : rvec) : inner v (mat_vec (eye_scaled (K := RSc) 1 (length v)) v) = inner v v.
Proof.
  rewrite mat_vec_eye. f_equal. clear. induction v as [|a v IH]; cbn; [reflexivity|]. rewrite IH. f_equal. ring.
Qed.
Lemma distance_id h s t : is_normalized (K := RSc) s t = Ret true ->
  exists h' r, new_distance_id (K := RSc) h s t = Ret (h', r) /\ (forall i o, nth_error h i = Some o -> nth_error h' i = Some o) /\
    forall x v, difference s t x = Ret v -> exists N, forall n, (N <= n)%nat -> exists h'', call (K := RSc) n h' r x = Ret (1 / 2 * inner v v, h'').
Proof.
  intros E. destruct (distance_new h s t (eye_scaled (K := RSc) 1 (ndx s)) E) as (h' & r & E1 & R & X). exists h', r. split; [exact E1|]. split; [exact X|].
  intros x v Ev. pose proof (difference_len s _ _ _ Ev) as L. cbn [car RSc] in L.
  destruct (distance_value h' r s t _ _ _ x v R Ev) as (N & HN).
  - destruct (eye_rows (K := RSc) 1 (ndx s)) as [A B]. cbn [car RSc] in *. rewrite L. split; assumption.
  - cbn [car RSc] in *. rewrite L. apply repeat_length.
  - exists N. intros n Hn. destruct (HN n Hn) as (h'' & Q). exists h''. rewrite Q. f_equal. f_equal.
    rewrite <- L, eye_quad. rewrite inner_zeros. ring.
Qed.
Lemma distance_neutral D h s : leaves (leaf_sized D) s -> leaves (leaf_inverse D) s -> leaves (leaf_ends D) s -> leaves (neutral_ok D) s ->
  is_normalized s (neutral s) = Ret true ->
  exists h' r, new_distance_neutral (K := RSc) h s = Ret (h', r) /\
    (forall x v, difference s (neutral s) x = Ret v -> exists N, forall n, (N <= n)%nat -> exists h'', call (K := RSc) n h' r x = Ret (1 / 2 * inner v v, h'')) /\
    exists N, forall n, (N <= n)%nat -> exists h'', call (K := RSc) n h' r (neutral s) = Ret (0, h'').
Proof.
  intros HZ HI HE HN E. destruct (distance_id h s _ E) as (h' & r & E1 & _ & V). exists h', r. split; [exact E1|]. split; [exact V|].
  destruct (neutral_moves D s HZ HI HE HN) as (_ & _ & _ & Z). destruct (V _ _ Z) as (N & HV). exists N. intros n Hn.
  destruct (HV n Hn) as (h'' & Q). exists h''. rewrite Q. rewrite inner_zeros. f_equal. f_equal. ring.
Qed.
Lemma cost_new h f e : repr h f e ->
  (xnr e = 1%nat -> exists h' r, downcast (K := RSc) h f = Ret (h', r) /\ repr h' r (XCost e) /\ forall i o, nth_error h i = Some o -> nth_error h' i = Some o) /\
  (xnr e <> 1%nat -> downcast (K := RSc) h f = Throw ErrCast).
Proof.
  intros R. unfold downcast, new_cost. rewrite (dims_repr _ _ _ R), xdim_eta. cbn [bind]. unfold xnr. split; intros E.
  - rewrite E. cbn [Nat.eqb new]. eexists _, _. split; [reflexivity|].
    assert (X : ext_heap h (h ++ [OCost (K := RSc) (fst (fst (xdim e))) (xndx e) f])) by apply ext_app.
    split; [|exact X]. exists f. split; [|exact (repr_ext _ _ _ X _ R)].
    rewrite nth_error_app2, Nat.sub_diag by lia. reflexivity.
  - apply Nat.eqb_neq in E. rewrite E. reflexivity.
Qed.
Lemma diff_new h s t : length t = nx s ->
  (is_normalized (K := RSc) s t = Ret true -> exists h' r, new_diff (K := RSc) h s t = Ret (h', r) /\ repr h' r (XBase (ODiff s t)) /\
     forall i o, nth_error h i = Some o -> nth_error h' i = Some o) /\
  (is_normalized (K := RSc) s t <> Ret true -> new_diff (K := RSc) h s t = Throw ErrPoint).
Proof.
  intros L. destruct (norm_total s t L) as (b & E). unfold new_diff. rewrite E. cbn [bind]. split; intros H.
  - injection H as ->. cbn [new]. eexists _, _. split; [reflexivity|]. split; [|apply ext_app]. split; [|exact I].
    rewrite nth_error_app2, Nat.sub_diag by lia. reflexivity.
  - destruct b; [congruence|reflexivity].
Qed.
Lemma linear_diff_new h s t A b : is_normalized (K := RSc) s t = Ret true -> length t = nx s -> mat (length b) (ndx s) A ->
  exists h' r, new_linear_diff (K := RSc) h s t (ndx s) A b = Ret (h', r) /\
    repr h' r (XComp (XBase (OLinear (K := RSc) (ndx s) A b)) (XBase (ODiff s t))) /\
    forall x v, difference s t x = Ret v ->
      exists N, forall n, (N <= n)%nat -> exists h'', eval (K := RSc) n h' r x = Ret (map2 Rplus (mat_vec A v) b, h'').
Proof.
  intros E L [MA1 MA2]. unfold new_linear_diff, new_linear, new. 
  destruct (diff_new (h ++ [OLinear (K := RSc) (ndx s) A b]) s t L) as [D _]. destruct (D E) as (h2 & g & E2 & R2 & X2).
  cbn [new] in *. rewrite E2. cbn [bind].
  assert (R1 : repr h2 (length h) (XBase (OLinear (K := RSc) (ndx s) A b))).
  { split; [|exact I]. apply X2. rewrite nth_error_app2, Nat.sub_diag by lia. reflexivity. }
  pose proof (compose_new h2 (length h) g _ _ R1 R2) as C. destruct (new_compose h2 (length h) g) as [[h3 r]|k| |]; try contradiction; try (exfalso; apply (proj2 C); reflexivity).
  destruct C as [_ R3]. cbn [bind]. rewrite L, Nat.eqb_refl. exists h3, r. split; [reflexivity|]. split; [exact R3|].
  intros x v Ev. pose proof (difference_len s _ _ _ Ev) as Lv. cbn [car RSc] in Lv. apply (value_eval _ _ _ _ _ R3).
  cbn [sem base_val]. rewrite Ev. cbn [bind].
  assert (F : forallb (fun row => Nat.eqb (length row) (length v)) A = true) by (apply forallb_len; cbn [car RSc] in *; rewrite Lv; exact MA2).
  match goal with |- context [forallb ?f A] => replace (forallb f A) with true by (symmetry; exact F) end.
  cbn [andb car RSc] in *. rewrite MA1, Nat.eqb_refl. reflexivity.
Qed.
Lemma linear_diff_wrong h s t n A b : length t <> nx s -> forall o, new_linear_diff (K := RSc) h s t n A b <> Ret o.
Proof.
  intros L o H. unfold new_linear_diff in H. destruct (new_linear h n A b) as [h1 l]. apply bind_inv in H as ([h2 g] & _ & H).
  apply bind_inv in H as ([h3 r] & _ & H). apply Nat.eqb_neq in L. cbn [car RSc] in *. rewrite L in H. discriminate.
Qed.
