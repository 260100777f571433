(** A curved leaf for the examples: the circle SO(2), points (cos, sin), tangents one angle. *)
From Coq Require Import Reals List Bool Arith Lia Lra.
From Verif Require Import Scalar Cset_spec Problem_model Manifold_model Manifold_spec Manifold_proofs ManifoldR_proofs.
Import ListNotations.
Local Open Scope R_scope.

Definition rot (x : rvec) (v : R) : rvec :=
  match x with [a; b] => [a * cos v - b * sin v; a * sin v + b * cos v] | _ => x end.
Definition so2_int (x v : rvec) : outcome rvec :=
  match x, v with [_; _], [w] => Ret (rot x w) | _, _ => UB end.
Definition so2_diff (x y : rvec) : outcome rvec :=
  match x, y with [a; b], [c; d] => Ret [atan ((a * d - b * c) / (a * c + b * d))] | _, _ => UB end.
Definition so2 : rleaf := {|
  l_nx := 2; l_ndx := 1; l_neutral := [1; 0];
  l_normalized := fun x => match x with [a; b] => Reqb (a * a + b * b) 1 | _ => false end;
  l_integrate := so2_int; l_difference := so2_diff;
  l_Jintegrate := fun _ _ arg old => Ret (match arg with 0%nat | 1%nat => [[1]] | _ => old end);
  l_Jdifference := fun _ _ arg old => Ret (match arg with 0%nat => [[-1]] | 1%nat => [[1]] | _ => old end);
  l_transport := fun _ _ _ J => Ret J;
  l_interpolate := fun x y u => (do d <- so2_diff x y; so2_int x (map (fun q => u * q) d))%out |}.
Definition so2_dom : domain := {|
  d_pt := fun _ x => exists a b, x = [a; b] /\ a * a + b * b = 1;
  d_tg := fun _ v => exists w, v = [w] /\ - (PI / 2) < w < PI / 2;
  d_near := fun _ x y => exists a b c d, x = [a; b] /\ y = [c; d] /\ 0 < a * c + b * d |}.

Lemma rot_rot a b v w : rot (rot [a; b] v) w = rot [a; b] (v + w).
Proof. cbn. rewrite cos_plus, sin_plus. f_equal; [ring|f_equal; ring]. Qed.
Lemma rot_unit a b v : a * a + b * b = 1 ->
  (a * cos v - b * sin v) * (a * cos v - b * sin v) + (a * sin v + b * cos v) * (a * sin v + b * cos v) = 1.
Proof.
  intros H. pose proof (sin2_cos2 v) as T. unfold Rsqr in T.
  transitivity ((a * a + b * b) * (sin v * sin v + cos v * cos v)); [ring|]. rewrite H, T. ring.
Qed.
Lemma rot_dot a b v : a * a + b * b = 1 -> a * (a * cos v - b * sin v) + b * (a * sin v + b * cos v) = cos v.
Proof. intros H. transitivity ((a * a + b * b) * cos v); [ring|]. rewrite H. ring. Qed.
Lemma rot_cross a b v : a * a + b * b = 1 -> a * (a * sin v + b * cos v) - b * (a * cos v - b * sin v) = sin v.
Proof. intros H. transitivity ((a * a + b * b) * sin v); [ring|]. rewrite H. ring. Qed.
Lemma diff_rot a b v : a * a + b * b = 1 -> - (PI / 2) < v < PI / 2 -> so2_diff [a; b] (rot [a; b] v) = Ret [v].
Proof.
  intros H Hv. cbn. rewrite rot_dot, rot_cross by assumption. do 2 f_equal. apply atan_tan. exact Hv.
Qed.
Lemma diff_rot2 a b u v : a * a + b * b = 1 -> - (PI / 2) < v < PI / 2 -> so2_diff (rot [a; b] u) (rot (rot [a; b] u) v) = Ret [v].
Proof. intros H Hv. apply (diff_rot (a * cos u - b * sin u) (a * sin u + b * cos u)); [now apply rot_unit|exact Hv]. Qed.
Lemma rot_diff a b c d : a * a + b * b = 1 -> c * c + d * d = 1 -> 0 < a * c + b * d ->
  rot [a; b] (atan ((a * d - b * c) / (a * c + b * d))) = [c; d].
Proof.
  intros H1 H2 Hp. set (p := a * c + b * d) in *. set (q := a * d - b * c).
  assert (E : p * p + q * q = 1).
  { unfold p, q. transitivity ((a * a + b * b) * (c * c + d * d)); [ring|]. rewrite H1, H2. ring. }
  assert (S : sqrt (1 + (q / p)²) = / p).
  { replace (1 + (q / p)²) with ((/ p)²).
    - apply sqrt_Rsqr. left. now apply Rinv_0_lt_compat.
    - unfold Rsqr. apply Rmult_eq_reg_r with (p * p); [|nra]. field_simplify; [|lra|lra]. nra. }
  assert (C : cos (atan (q / p)) = p).
  { rewrite cos_atan, S. field. lra. }
  assert (Sn : sin (atan (q / p)) = q).
  { rewrite sin_atan, S. field. lra. }
  cbn. rewrite C, Sn. unfold p, q. f_equal; [|f_equal].
  - transitivity (c * (a * a + b * b)); [ring|]. rewrite H1. ring.
  - transitivity (d * (a * a + b * b)); [ring|]. rewrite H1. ring.
Qed.

Lemma so2_sized : leaf_sized so2_dom so2.
Proof.
  constructor.
  - intros x (a & b & -> & _). reflexivity.
  - intros v (w & -> & _). reflexivity.
  - intros [|a [|b [|? ?]]] [|w [|? ?]] y H; try discriminate. cbn in H. injection H as <-. reflexivity.
  - intros [|a [|b [|? ?]]] [|c1 [|d1 [|? ?]]] v H; try discriminate. cbn in H. injection H as <-. reflexivity.
  - intros [|a [|b [|? ?]]] [|c1 [|d1 [|? ?]]] u z H; try discriminate. cbn in H. injection H as <-. reflexivity.
Qed.
Lemma so2_inverse : leaf_inverse so2_dom so2.
Proof.
  constructor.
  - intros x v (a & b & -> & H) (w & -> & Hw). exists (rot [a; b] w). split; [reflexivity|]. split; [|split].
    + do 2 eexists. split; [reflexivity|]. now apply rot_unit.
    + do 4 eexists. split; [reflexivity|]. split; [reflexivity|]. rewrite rot_dot by assumption. now apply cos_gt_0.
    + apply diff_rot; assumption.
  - intros x y (a & b & -> & H) (c & d & -> & H') (a' & b' & c' & d' & [= <- <-] & [= <- <-] & Hp).
    eexists. split; [reflexivity|]. split.
    + eexists. split; [reflexivity|]. pose proof (atan_bound ((a * d - b * c) / (a * c + b * d))). lra.
    + cbn -[rot]. f_equal. now apply rot_diff.
Qed.
Lemma so2_ends : leaf_ends so2_dom so2.
Proof.
  constructor.
  - intros x (a & b & -> & H). cbn. rewrite cos_0, sin_0. do 3 f_equal; [ring|f_equal; ring].
  - intros x y (a & b & -> & H) (c & d & -> & H') (a' & b' & c' & d' & [= <- <-] & [= <- <-] & Hp).
    cbn. rewrite Rmult_0_l, cos_0, sin_0. do 3 f_equal; [ring|f_equal; ring].
  - intros x y (a & b & -> & H) (c & d & -> & H') (a' & b' & c' & d' & [= <- <-] & [= <- <-] & Hp).
    cbn -[rot]. rewrite Rmult_1_l. f_equal. now apply rot_diff.
Qed.

Lemma velocity_1 (f : R -> outcome rvec) p c w eps : 0 < eps ->
  (forall t, Rabs t < eps -> f t = Ret [p + t * (c * w)]) -> velocity f [c * w].
Proof.
  intros He H. exists (fun t => [p + t * (c * w)]), eps. split; [exact He|]. split; [exact H|]. split; [reflexivity|].
  intros [|i] Hi; [|cbn in Hi; lia]. cbn. intros e Hep. exists (mkposreal 1 Rlt_0_1). intros h Hh _.
  replace ((p + (0 + h) * (c * w) - (p + 0 * (c * w))) / h - c * w) with 0 by (field; assumption). now rewrite Rabs_R0.
Qed.
Lemma small_ok d w t : - (PI / 2) < d < PI / 2 -> Rabs t < (PI / 2 - Rabs d) / (1 + Rabs w) -> - (PI / 2) < d + t * w < PI / 2.
Proof.
  intros Hd Ht. pose proof (Rabs_pos w) as W.
  assert (A : Rabs (t * w) < PI / 2 - Rabs d).
  { rewrite Rabs_mult. apply Rle_lt_trans with (Rabs t * (1 + Rabs w)).
    - apply Rmult_le_compat_l; [apply Rabs_pos|lra].
    - apply Rmult_lt_reg_r with (/ (1 + Rabs w)); [apply Rinv_0_lt_compat; lra|].
      rewrite Rmult_assoc, Rinv_r, Rmult_1_r by lra. exact Ht. }
  revert A. unfold Rabs. destruct (Rcase_abs (t * w)), (Rcase_abs d); lra.
Qed.
Lemma eps_pos d w : - (PI / 2) < d < PI / 2 -> 0 < (PI / 2 - Rabs d) / (1 + Rabs w).
Proof.
  intros H. apply Rdiv_lt_0_compat.
  - unfold Rabs. destruct (Rcase_abs d); lra.
  - pose proof (Rabs_pos w). lra.
Qed.
Lemma zero_ok : - (PI / 2) < 0 < PI / 2.
Proof. pose proof PI_RGT_0. lra. Qed.

Lemma so2_jacobians : leaf_jacobians so2_dom so2.
Proof.
  constructor.
  - intros x v arg old (a & b & -> & H) (v0 & -> & Hv) Harg _. exists [[1]], (rot [a; b] v0).
    split; [destruct arg as [|[|]]; [| |lia]; reflexivity|]. split; [split; [reflexivity|repeat constructor]|]. split; [reflexivity|].
    intros [|w [|? ?]] Hw; try discriminate. cbn [mat_vec map inner]. replace (1 * w + 0) with (1 * w) by ring.
    apply (velocity_1 _ 0 1 w ((PI / 2 - Rabs 0) / (1 + Rabs (1 * w)))); [apply eps_pos, zero_ok|]. intros t Ht.
    apply small_ok in Ht; [|apply zero_ok].
    assert (E : curve_int (l_integrate so2) (l_difference so2) arg [a; b] [v0] (rot [a; b] v0) [w] t =
                so2_diff (rot [a; b] v0) (rot (rot [a; b] v0) (0 + t * (1 * w)))).
    { rewrite rot_rot. destruct arg as [|[|]]; [| |lia].
      - transitivity (so2_diff (rot [a; b] v0) (rot (rot [a; b] (t * w)) v0)); [reflexivity|]. rewrite rot_rot. do 2 f_equal. ring.
      - transitivity (so2_diff (rot [a; b] v0) (rot [a; b] (v0 + t * w))); [reflexivity|]. do 2 f_equal. ring. }
    rewrite E. now rewrite diff_rot2.
  - intros x y arg old (a & b & -> & H) (c & d & -> & H') (a' & b' & c' & d' & [= <- <-] & [= <- <-] & Hp) Harg _.
    exists (match arg with O => [[-1]] | _ => [[1]] end).
    split; [destruct arg as [|[|]]; [| |lia]; reflexivity|]. split; [destruct arg; split; try reflexivity; repeat constructor|].
    intros [|w [|? ?]] Hw; try discriminate.
    set (dd := atan ((a * d - b * c) / (a * c + b * d))).
    assert (Hd : - (PI / 2) < dd < PI / 2) by (pose proof (atan_bound ((a * d - b * c) / (a * c + b * d))); unfold dd; lra).
    assert (Ey : [c; d] = rot [a; b] dd) by (symmetry; now apply rot_diff).
    destruct arg as [|[|]]; [| |lia]; cbn [mat_vec map inner].
    + replace (-1 * w + 0) with (-1 * w) by ring.
      apply (velocity_1 _ dd (-1) w ((PI / 2 - Rabs dd) / (1 + Rabs (-1 * w)))); [now apply eps_pos|]. intros t Ht.
      apply small_ok in Ht; [|exact Hd]. rewrite Ey.
      transitivity (so2_diff (rot [a; b] (t * w)) (rot (rot [a; b] (t * w)) (dd + t * (-1 * w)))).
      { rewrite rot_rot. unfold curve_diff. cbn [line map]. cbn [l_integrate l_difference so2 so2_int bind]. do 2 f_equal. ring. }
      now rewrite diff_rot2.
    + replace (1 * w + 0) with (1 * w) by ring.
      apply (velocity_1 _ dd 1 w ((PI / 2 - Rabs dd) / (1 + Rabs (1 * w)))); [now apply eps_pos|]. intros t Ht.
      apply small_ok in Ht; [|exact Hd].
      transitivity (so2_diff [a; b] (rot [a; b] (dd + t * (1 * w)))).
      { rewrite <- rot_rot, <- Ey. unfold curve_diff. cbn [line map]. cbn [l_integrate l_difference so2 so2_int bind].
        do 2 f_equal. ring. }
      rewrite diff_rot; [reflexivity|exact H|exact Ht].
Qed.
