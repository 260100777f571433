(** Specification for C88-C90: sizes of neutral elements, second derivatives along lines. *)
From Coq Require Import Reals List Arith.
From Verif Require Import Scalar Cset_spec Problem_model Manifold_model Manifold_spec Function_model Function_spec.
Import ListNotations.
Local Open Scope R_scope.

(** The neutral elements of the leaves have the size of a point. *)
Fixpoint sized_neutral {K : Sc} (s : space K) : Prop :=
  match s with
  | SVec _ => True
  | SLeaf l => length (l_neutral l) = l_nx l
  | SProd cs => (fix go cs := match cs with [] => True | c :: r => sized_neutral c /\ go r end) cs
  | SBundle b => sized_neutral b
  end.
(** The neutral element of a leaf is a point, and zero is a tangent vector. *)
Definition neutral_ok (D : domain) (l : rleaf) : Prop := d_pt D l (l_neutral l) /\ d_tg D l (repeat 0 (l_ndx l)).

(** f is differentiable around 0 and f''(0) = d. *)
Definition second (f : R -> R) (d : R) : Prop :=
  exists f1 eps, 0 < eps /\ (forall t, Rabs t < eps -> derivable_pt_lim f t (f1 t)) /\ derivable_pt_lim f1 0 d.
(** The user function u of n variables, with m values, is twice differentiable along the lines through x; J is its derivative and
    w' (H v) w its second derivative in the direction w, weighted by v. *)
Definition exact_second (u : ext RSc) (n m : nat) (x : rvec) (J : list rvec) (H : rvec -> list rvec) : Prop :=
  forall w, length w = n -> exists p p1 p2, exists eps, 0 < eps /\
    (forall t, e_eval u (along x w t) = Some (p t)) /\
    (forall t, length (p t) = m /\ length (p1 t) = m) /\ length p2 = m /\
    (forall i t, (i < m)%nat -> Rabs t < eps -> derivable_pt_lim (fun t => nth i (p t) 0) t (nth i (p1 t) 0)) /\
    (forall i, (i < m)%nat -> derivable_pt_lim (fun t => nth i (p1 t) 0) 0 (nth i p2 0)) /\
    p1 0 = mat_vec J w /\ forall v, length v = m -> inner v p2 = inner w (mat_vec (H v) w).
