(** Properties C37-C42, C63, C64: manifolds. *)
From Coq Require Import Reals List Arith Lia Lra.
From Verif Require Import Scalar Cset_spec Problem_model Manifold_model Manifold_spec Manifold_proofs ManifoldR_proofs ManifoldX_proofs.
Import ListNotations.
Local Open Scope R_scope.

(** The space used in the examples: TangentBundle(SO(2)) x R^2, nested in a product with SO(2). *)
Definition ex_space : rspace := SProd [SBundle (SLeaf so2); SProd [SVec 2; SLeaf so2]].
Definition ex_point : rvec := [1; 0; 5] ++ [2; 3] ++ [0; 1].
Lemma ex_sized : leaves (leaf_sized so2_dom) ex_space.
Proof. cbn. repeat split; apply so2_sized. Qed.
Lemma ex_inverse : leaves (leaf_inverse so2_dom) ex_space.
Proof. cbn. repeat split; apply so2_inverse. Qed.
Lemma ex_ends : leaves (leaf_ends so2_dom) ex_space.
Proof. cbn. repeat split; apply so2_ends. Qed.
Lemma ex_jacobians : leaves (leaf_jacobians so2_dom) ex_space.
Proof. cbn. repeat split; apply so2_jacobians. Qed.
Lemma ex_is_point : point so2_dom ex_space ex_point.
Proof.
  exists [1; 0; 5], ([2; 3] ++ [0; 1]). split; [reflexivity|]. split.
  - exists [1; 0], [5]. split; [reflexivity|]. split; [|reflexivity]. exists 1, 0. split; [reflexivity|lra].
  - exists ([2; 3] ++ [0; 1]), []. split; [reflexivity|]. split; [|reflexivity].
    exists [2; 3], [0; 1]. split; [reflexivity|]. split; [reflexivity|]. exists [0; 1], []. split; [reflexivity|]. split; [|reflexivity].
    exists 0, 1. split; [reflexivity|lra].
Qed.
Definition ex_tangent : rvec := [1; 7] ++ [3; 4] ++ [-1].
Lemma ex_is_tangent : tangent so2_dom ex_space ex_tangent.
Proof.
  pose proof PI2_1. unfold PI2 in *.
  exists [1; 7], ([3; 4] ++ [-1]). split; [reflexivity|]. split.
  - exists [1], [7]. split; [reflexivity|]. split; [|reflexivity]. exists 1. split; [reflexivity|lra].
  - exists ([3; 4] ++ [-1]), []. split; [reflexivity|]. split; [|reflexivity].
    exists [3; 4], [-1]. split; [reflexivity|]. split; [reflexivity|]. exists [-1], []. split; [reflexivity|]. split; [|reflexivity].
    exists (-1). split; [reflexivity|lra].
Qed.

(** C37. difference undoes integrate, on every nesting of vector spaces, products and bundles over
    leaves that satisfy the law. *)
Theorem C37_difference_of_integrate : forall D s, leaves (leaf_sized D) s -> leaves (leaf_inverse D) s ->
  forall x v, point D s x -> tangent D s v ->
  exists y, integrate s x v = Ret y /\ point D s y /\ near D s x y /\ difference s x y = Ret v.
Proof. intros D s H1 H2. exact (proj1 (lem_inverse D s H1 H2)). Qed.
Print Assumptions C37_difference_of_integrate.

Theorem C37_integrate_of_difference : forall D s, leaves (leaf_sized D) s -> leaves (leaf_inverse D) s ->
  forall x0 x1, near D s x0 x1 ->
  exists v, difference s x0 x1 = Ret v /\ tangent D s v /\ integrate s x0 v = Ret x1.
Proof. intros D s H1 H2. exact (proj2 (lem_inverse D s H1 H2)). Qed.
Print Assumptions C37_integrate_of_difference.

(** Without leaves there is no condition but the sizes. *)
Theorem C37_flat : forall s, flat s -> forall x y v,
  length x = nx s -> length y = nx s -> length v = ndx s ->
  (exists d, difference s x y = Ret d /\ length d = ndx s /\ integrate s x d = Ret y) /\
  (exists z, integrate s x v = Ret z /\ length z = nx s /\ difference s x z = Ret v).
Proof. exact lem_flat_inverse. Qed.
Print Assumptions C37_flat.

Example C37_example : exists y, integrate ex_space ex_point ex_tangent = Ret y /\ point so2_dom ex_space y /\
  near so2_dom ex_space ex_point y /\ difference ex_space ex_point y = Ret ex_tangent.
Proof. exact (C37_difference_of_integrate _ _ ex_sized ex_inverse _ _ ex_is_point ex_is_tangent). Qed.
Example C37_flat_example : flat (SProd [SVec 1; SBundle (SProd [SVec 1; SVec 2])]) /\
  integrate (K:=RSc) (SProd [SVec 1; SBundle (SProd [SVec 1; SVec 2])]) [1;2;3;4;5;6;7] [10;20;30;40;50;60;70] =
  Ret [1+10; 2+20; 3+30; 4+40; 5+50; 6+60; 7+70].
Proof. split; [cbn; tauto|reflexivity]. Qed.

(** C38. The Jacobians returned are the derivatives, in each argument and each direction w. *)
Theorem C38_Jintegrate : forall D s, leaves (leaf_sized D) s -> leaves (leaf_jacobians D) s ->
  forall x v arg old, point D s x -> tangent D s v -> (arg < 2)%nat -> square_rows (ndx s) old ->
  exists J y, Jintegrate s x v arg old = Ret J /\ square_rows (ndx s) J /\ integrate s x v = Ret y /\
    forall w, length w = ndx s -> velocity (curve_int (integrate s) (difference s) arg x v y w) (mat_vec J w).
Proof. exact lem_Jint. Qed.
Print Assumptions C38_Jintegrate.

Theorem C38_Jdifference : forall D s, leaves (leaf_sized D) s -> leaves (leaf_jacobians D) s ->
  forall x0 x1 arg old, near D s x0 x1 -> (arg < 2)%nat -> square_rows (ndx s) old ->
  exists J, Jdifference s x0 x1 arg old = Ret J /\ square_rows (ndx s) J /\
    forall w, length w = ndx s -> velocity (curve_diff (integrate s) (difference s) arg x0 x1 w) (mat_vec J w).
Proof. exact lem_Jdiff. Qed.
Print Assumptions C38_Jdifference.

(** On flat spaces they are plus or minus the identity, whatever the output held before. *)
Theorem C38_flat : forall s, flat s -> forall x y v old, length x = nx s -> length y = nx s -> length v = ndx s ->
  (forall arg, exists J, Jintegrate s x v arg old = Ret J /\ scaled_identity 1 (ndx s) J) /\
  (exists J, Jdifference s x y 0 old = Ret J /\ scaled_identity (-1) (ndx s) J) /\
  (exists J, Jdifference s x y 1 old = Ret J /\ scaled_identity 1 (ndx s) J).
Proof. exact lem_flat_jac. Qed.
Print Assumptions C38_flat.

Example C38_example : exists J y, Jintegrate ex_space ex_point ex_tangent 0 (zeros (K:=RSc) 5 5) = Ret J /\
  square_rows 5 J /\ integrate ex_space ex_point ex_tangent = Ret y /\
  forall w, length w = 5%nat -> velocity (curve_int (integrate ex_space) (difference ex_space) 0 ex_point ex_tangent y w) (mat_vec J w).
Proof.
  apply (C38_Jintegrate _ _ ex_sized ex_jacobians _ _ 0 _ ex_is_point ex_is_tangent); [lia|].
  split; [reflexivity|]. repeat constructor.
Qed.
Example C38_flat_example :
  Jdifference (K:=RSc) (SBundle (SVec 1)) [1; 2] [3; 4] 0 [] = Ret [[-1; 0]; [0; -1]].
Proof. reflexivity. Qed.

(** C39. In every arithmetic. *)
Theorem C39_split_merge : forall (K : Sc) (cs : list (space K)),
  (forall x, length x = nx (SProd cs) -> exists xs, split cs x = Ret xs /\ x = concat xs /\
     Forall2 (fun s p => length p = nx s) cs xs /\ merge cs xs = Ret x) /\
  (forall xs, Forall2 (fun s p => length p = nx s) cs xs ->
     exists x, merge cs xs = Ret x /\ length x = nx (SProd cs) /\ split cs x = Ret xs) /\
  (forall x, length x <> nx (SProd cs) -> split cs x = Throw ErrDim).
Proof. exact @lem_split_merge. Qed.
Print Assumptions C39_split_merge.

Theorem C39_split_merge_vector : forall (K : Sc) (cs : list (space K)),
  (forall v, length v = ndx (SProd cs) -> exists vs, split_vector cs v = Ret vs /\ v = concat vs /\
     Forall2 (fun s p => length p = ndx s) cs vs /\ merge_vector cs vs = Ret v) /\
  (forall vs, Forall2 (fun s p => length p = ndx s) cs vs ->
     exists v, merge_vector cs vs = Ret v /\ length v = ndx (SProd cs) /\ split_vector cs v = Ret vs) /\
  (forall v, length v <> ndx (SProd cs) -> split_vector cs v = Throw ErrDim).
Proof. exact @lem_split_merge_v. Qed.
Print Assumptions C39_split_merge_vector.

Example C39_example :
  split [SBundle (SLeaf so2); SVec 2] [1; 0; 5; 2; 3] = Ret [[1; 0; 5]; [2; 3]] /\
  merge [SBundle (SLeaf so2); SVec 2] [[1; 0; 5]; [2; 3]] = Ret [1; 0; 5; 2; 3] /\
  split_vector [SBundle (SLeaf so2); SVec 2] [7; 8; 9; 10] = Ret [[7; 8]; [9; 10]] /\
  split_vector [SBundle (SLeaf so2); SVec 2] [7; 8; 9; 10; 11] = Throw ErrDim.
Proof. repeat split. Qed.

(** C40. End points, for every space that is not itself a tangent bundle. *)
Theorem C40_end_points : forall D s, leaves (leaf_sized D) s -> leaves (leaf_inverse D) s -> leaves (leaf_ends D) s ->
  (forall b, s <> SBundle b) ->
  forall x y, near D s x y -> interpolate s x y 0 = Ret x /\ interpolate s x y 1 = Ret y.
Proof. exact lem_interp_ends. Qed.
Print Assumptions C40_end_points.

(** On flat spaces that are not bundles, the affine combination. *)
Theorem C40_affine : forall s, flat s -> (forall b, s <> SBundle b) ->
  forall x y u, length x = nx s -> length y = nx s ->
  exists z, interpolate s x y u = Ret z /\ length z = nx s /\
    forall i, (i < nx s)%nat -> nth i z 0 = (1 - u) * nth i x 0 + u * nth i y 0.
Proof. exact lem_interp_flat. Qed.
Print Assumptions C40_affine.

(** The claim fails on a tangent bundle: neither end point is reached. *)
Theorem C40_bundle_refuted : exists x y : rvec,
  length x = nx (K:=RSc) (SBundle (SVec 1)) /\ length y = nx (K:=RSc) (SBundle (SVec 1)) /\
  interpolate (K:=RSc) (SBundle (SVec 1)) x y 0 <> Ret x /\ interpolate (K:=RSc) (SBundle (SVec 1)) x y 1 <> Ret y.
Proof.
  exists [0; 1], [2; 3]. split; [reflexivity|]. split; [reflexivity|].
  split; cbn; intros [= E]; revert E; unfold vscale; cbn; lra.
Qed.
Print Assumptions C40_bundle_refuted.

(** What happens there: the velocity part of the result is a copy of the position part. *)
Theorem C40_bundle_velocity_lost : forall n (p0 v0 p1 v1 : rvec) u,
  length p0 = n -> length v0 = n -> length p1 = n -> length v1 = n ->
  exists q, interpolate (K:=RSc) (SBundle (SVec n)) (p0 ++ v0) (p1 ++ v1) u = Ret (q ++ q) /\
    length q = n /\ forall i, (i < n)%nat -> nth i q 0 = (1 - u) * nth i p0 0 + u * nth i p1 0.
Proof. exact lem_interp_bundle. Qed.
Print Assumptions C40_bundle_velocity_lost.

Example C40_example : interpolate ex_space ex_point ex_point 0 = Ret ex_point /\ (forall b, ex_space <> SBundle b).
Proof.
  assert (N : near so2_dom ex_space ex_point ex_point).
  { exists [1; 0; 5], ([2; 3] ++ [0; 1]), [1; 0; 5], ([2; 3] ++ [0; 1]). split; [reflexivity|]. split; [reflexivity|]. split.
    - exists [1; 0], [5], [1; 0], [5]. split; [reflexivity|]. split; [reflexivity|]. split; [|split; reflexivity].
      split; [exists 1, 0; split; [reflexivity|lra]|]. split; [exists 1, 0; split; [reflexivity|lra]|].
      exists 1, 0, 1, 0. split; [reflexivity|]. split; [reflexivity|lra].
    - exists ([2; 3] ++ [0; 1]), [], ([2; 3] ++ [0; 1]), []. split; [reflexivity|]. split; [reflexivity|]. split; [|split; reflexivity].
      exists [2; 3], [0; 1], [2; 3], [0; 1]. split; [reflexivity|]. split; [reflexivity|]. split; [split; reflexivity|].
      exists [0; 1], [], [0; 1], []. split; [reflexivity|]. split; [reflexivity|]. split; [|split; reflexivity].
      split; [exists 0, 1; split; [reflexivity|lra]|]. split; [exists 0, 1; split; [reflexivity|lra]|].
      exists 0, 1, 0, 1. split; [reflexivity|]. split; [reflexivity|lra]. }
  split; [|discriminate]. apply (C40_end_points _ _ ex_sized ex_inverse ex_ends (fun b => ltac:(discriminate)) _ _ N).
Qed.

(** C41. A product accepts every vector of the right size, so the check never detects anything. *)
Theorem C41_accepts_everything : forall (K : Sc) (cs : list (space K)) x,
  length x = nx (SProd cs) -> is_normalized (SProd cs) x = Ret true.
Proof. exact @lem_norm_product. Qed.
Print Assumptions C41_accepts_everything.

Theorem C41_detects_bad_component_refuted : exists (cs : list rspace) (x : rvec) xs,
  split cs x = Ret xs /\ Exists (fun cp => is_normalized (fst cp) (snd cp) = Ret false) (combine cs xs) /\
  is_normalized (SProd cs) x = Ret true.
Proof.
  exists [SVec 1; SLeaf so2], [5; 2; 0], [[5]; [2; 0]]. split; [reflexivity|]. split; [|reflexivity].
  cbn. apply Exists_cons_tl, Exists_cons_hd. cbn. f_equal. apply Reqb_false. lra.
Qed.
Print Assumptions C41_detects_bad_component_refuted.

(** A tangent bundle asks its base, so a bundle over a leaf does detect bad points. *)
Theorem C41_bundle : forall (K : Sc) (s : space K) p v, length p = nx s ->
  is_normalized (SBundle s) (p ++ v) = is_normalized s p.
Proof. exact @lem_norm_bundle. Qed.
Print Assumptions C41_bundle.
Example C41_bundle_example : is_normalized (SBundle (SLeaf so2)) ([2; 0] ++ [1]) = Ret false.
Proof. cbn. f_equal. apply Reqb_false. lra. Qed.

(** C42. [M * P] for two spaces, [P * M] for a product on the left, [P * Q] for two products: the
    coordinates come in the written order.  In every arithmetic. *)
Theorem C42_written_order : forall (K : Sc) (l r : space K) (ls rs : list (space K)),
  (neutral (SProd (mul_pp l r)) = neutral l ++ neutral r /\
   forall a b va vb, length a = nx l -> length va = ndx l -> length b = nx r -> length vb = ndx r ->
   integrate (SProd (mul_pp l r)) (a ++ b) (va ++ vb) = (do o <- integrate l a va; do q <- integrate r b vb; Ret (o ++ q))%out) /\
  (neutral (SProd (mul_cp ls r)) = neutral (SProd ls) ++ neutral r /\
   forall a b va vb, length a = nx (SProd ls) -> length va = ndx (SProd ls) -> length b = nx r -> length vb = ndx r ->
   integrate (SProd (mul_cp ls r)) (a ++ b) (va ++ vb) = (do o <- integrate (SProd ls) a va; do q <- integrate r b vb; Ret (o ++ q))%out) /\
  (neutral (SProd (mul_cc ls rs)) = neutral (SProd ls) ++ neutral (SProd rs) /\
   forall a b va vb, length a = nx (SProd ls) -> length va = ndx (SProd ls) -> length b = nx (SProd rs) -> length vb = ndx (SProd rs) ->
   integrate (SProd (mul_cc ls rs)) (a ++ b) (va ++ vb) =
   (do o <- integrate (SProd ls) a va; do q <- integrate (SProd rs) b vb; Ret (o ++ q))%out).
Proof.
  intros K l r ls rs. unfold mul_pp, mul_cp, mul_cc, add_component. rewrite add_product_app. change (([] ++ [l]) ++ [r]) with ([l] ++ [r]).
  split; [|split].
  - split; [rewrite (neutral_app [l] [r]), !neutral_one; reflexivity|]. intros a b va vb Ha Hva Hb Hvb.
    rewrite (prod_app_int [l] [r]) by (rewrite ?nx_one, ?ndx_one; assumption). now rewrite !prod_one_int.
  - split; [rewrite neutral_app, neutral_one; reflexivity|]. intros a b va vb Ha Hva Hb Hvb.
    rewrite prod_app_int by assumption. now rewrite prod_one_int.
  - split; [rewrite neutral_app, neutral_one; reflexivity|]. intros a b va vb Ha Hva Hb Hvb.
    rewrite prod_app_int by (rewrite ?nx_one, ?ndx_one; assumption). now rewrite prod_one_int.
Qed.
Print Assumptions C42_written_order.

(** With a product on the right the factors are swapped. *)
Theorem C42_swapped_refuted : exists (M : rspace) (P : list rspace),
  neutral (SProd (mul_pc M P)) <> neutral M ++ neutral (SProd P) /\
  neutral (SProd (mul_pc M P)) = neutral (SProd P) ++ neutral M /\
  (exists xs, split (mul_pc M P) [1; 2; 3] = Ret xs /\ hd [] xs = [1; 2] /\ nx M = 1%nat).
Proof.
  exists (SVec 1), [SLeaf so2]. split; [|split].
  - cbn. intros [= E _]. lra.
  - reflexivity.
  - exists [[1; 2]; [3]]. repeat split.
Qed.
Print Assumptions C42_swapped_refuted.

Theorem C42_swapped : forall (K : Sc) (M : space K) (P : list (space K)),
  neutral (SProd (mul_pc M P)) = neutral (SProd P) ++ neutral M /\
  forall a b va vb, length a = nx (SProd P) -> length va = ndx (SProd P) -> length b = nx M -> length vb = ndx M ->
  integrate (SProd (mul_pc M P)) (a ++ b) (va ++ vb) = (do o <- integrate (SProd P) a va; do q <- integrate M b vb; Ret (o ++ q))%out.
Proof. intros K M P. exact (proj1 (proj2 (C42_written_order K M M P P))). Qed.
Print Assumptions C42_swapped.
Example C42_example : mul_cp (K:=RSc) [SVec 1; SLeaf so2] (SVec 3) = [SVec 1; SLeaf so2; SVec 3] /\
  integrate (SProd (mul_cp (K:=RSc) [SVec 1] (SVec 1))) ([1] ++ [2]) ([3] ++ [4]) = Ret [1 + 3; 2 + 4].
Proof. split; reflexivity. Qed.

(** C63. JintegrateTransport works on row blocks: component by component in a product, on the upper
    half only in a tangent bundle, and it does nothing on flat spaces. *)
Theorem C63_transport_product : forall (K : Sc) (c : space K) r a b va vb arg J1 J2 K1 K2,
  length a = nx c -> length va = ndx c -> length J1 = ndx c -> length K1 = ndx c ->
  transport c a va arg J1 = Ret K1 -> transport (SProd r) b vb arg J2 = Ret K2 ->
  transport (SProd (c :: r)) (a ++ b) (va ++ vb) arg (J1 ++ J2) = Ret (K1 ++ K2).
Proof. exact @lem_transport_cons. Qed.
Print Assumptions C63_transport_product.

Theorem C63_transport_bundle : forall (K : Sc) (s : space K) a b va vb arg J1 J2 K1,
  length a = nx s -> length va = ndx s -> length J1 = ndx s -> length K1 = ndx s ->
  transport s a va arg J1 = Ret K1 ->
  transport (SBundle s) (a ++ b) (va ++ vb) arg (J1 ++ J2) = Ret (K1 ++ J2).
Proof. exact @lem_transport_bundle. Qed.
Print Assumptions C63_transport_bundle.

Theorem C63_transport_flat : forall s, flat s -> forall x v arg J,
  length x = nx s -> length v = ndx s -> length J = ndx s -> transport s x v arg J = Ret J.
Proof. exact lem_transport_flat. Qed.
Print Assumptions C63_transport_flat.
Definition ex_doubling : leaf RSc := {|
  l_nx := 2; l_ndx := 1; l_neutral := [1; 0]; l_normalized := fun _ => true;
  l_integrate := so2_int; l_difference := so2_diff;
  l_Jintegrate := fun _ _ _ old => Ret old; l_Jdifference := fun _ _ _ old => Ret old;
  l_transport := fun _ _ _ J => Ret (map (map (fun q => 2 * q)) J);
  l_interpolate := fun x _ _ => Ret x |}.
Example C63_example :
  transport (K:=RSc) (SProd [SVec 1; SBundle (SLeaf ex_doubling)]) [9; 1; 0; 5] [1; 2; 3] 0 [[1; 2]; [3; 4]; [5; 6]]
  = Ret [[1; 2]; [2 * 3; 2 * 4]; [5; 6]].
Proof. reflexivity. Qed.

(** C64. numComponents() of a product of two products is the sum: false, the left product becomes a
    single component. *)
Theorem C64_component_count_refuted : exists P Q : list rspace,
  length (mul_cc P Q) <> (length P + length Q)%nat.
Proof. exists [SVec 1; SVec 2], [SVec 3]. cbn. discriminate. Qed.
Print Assumptions C64_component_count_refuted.
Theorem C64_component_count : forall (K : Sc) (P Q : list (space K)),
  length (mul_cc P Q) = S (length Q) /\ nth_error (mul_cc P Q) 0 = Some (SProd P) /\
  (forall i, nth_error (mul_cc P Q) (S i) = nth_error Q i) /\
  nx (SProd (mul_cc P Q)) = (nx (SProd P) + nx (SProd Q))%nat /\
  ndx (SProd (mul_cc P Q)) = (ndx (SProd P) + ndx (SProd Q))%nat.
Proof.
  intros K P Q. unfold mul_cc. rewrite add_product_app. cbn [app]. repeat split; reflexivity.
Qed.
Print Assumptions C64_component_count.
