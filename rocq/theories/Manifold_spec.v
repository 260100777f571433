(** Specification for the manifolds: what the external leaf spaces are assumed to satisfy, the points
    and tangent vectors of a nested space, derivatives along curves.  Nothing here uses the offsets
    of the model: points of a product are concatenations. *)
From Coq Require Import Reals List Arith.
From Verif Require Import Scalar Cset_spec Problem_model Manifold_model.
Import ListNotations.
Local Open Scope R_scope.

Notation rspace := (space RSc).
Notation rleaf := (leaf RSc).
Notation rvec := (list R).

(** Domains of the leaves: points, tangent vectors for which integrate can be undone, pairs of points
    whose difference can be undone. *)
Record domain := {
  d_pt : rleaf -> rvec -> Prop;
  d_tg : rleaf -> rvec -> Prop;
  d_near : rleaf -> rvec -> rvec -> Prop }.

(** Lift of a domain to a nested space.  Vector spaces have no restriction but the size. *)
Fixpoint point (D : domain) (s : rspace) (x : rvec) : Prop :=
  match s with
  | SVec n => length x = n
  | SLeaf l => d_pt D l x
  | SProd cs => (fix go cs x := match cs with
                 | [] => x = []
                 | c :: r => exists a b, x = a ++ b /\ point D c a /\ go r b end) cs x
  | SBundle b => exists p v, x = p ++ v /\ point D b p /\ length v = ndx b
  end.
Fixpoint tangent (D : domain) (s : rspace) (v : rvec) : Prop :=
  match s with
  | SVec n => length v = n
  | SLeaf l => d_tg D l v
  | SProd cs => (fix go cs x := match cs with
                 | [] => x = []
                 | c :: r => exists a b, x = a ++ b /\ tangent D c a /\ go r b end) cs v
  | SBundle b => exists p w, v = p ++ w /\ tangent D b p /\ length w = ndx b
  end.
Fixpoint near (D : domain) (s : rspace) (x y : rvec) : Prop :=
  match s with
  | SVec n => length x = n /\ length y = n
  | SLeaf l => d_pt D l x /\ d_pt D l y /\ d_near D l x y
  | SProd cs => (fix go cs x y := match cs with
                 | [] => x = [] /\ y = []
                 | c :: r => exists a b a' b', x = a ++ b /\ y = a' ++ b' /\ near D c a a' /\ go r b b' end) cs x y
  | SBundle b => exists p v p' v', x = p ++ v /\ y = p' ++ v' /\ near D b p p' /\ length v = ndx b /\ length v' = ndx b
  end.

(** A property of all leaves of a nested space. *)
Fixpoint leaves (P : rleaf -> Prop) (s : rspace) : Prop :=
  match s with
  | SVec _ => True
  | SLeaf l => P l
  | SProd cs => (fix go cs := match cs with [] => True | c :: r => leaves P c /\ go r end) cs
  | SBundle b => leaves P b
  end.
(** Built from vector spaces only. *)
Definition flat : rspace -> Prop := leaves (fun _ => False).
(** No tangent bundle inside. *)
Fixpoint bundle_free (s : rspace) : Prop :=
  match s with
  | SProd cs => (fix go cs := match cs with [] => True | c :: r => bundle_free c /\ go r end) cs
  | SBundle _ => False
  | _ => True
  end.

(** Assumptions on a leaf. *)
Record leaf_sized (D : domain) (l : rleaf) : Prop := {
  lz_pt : forall x, d_pt D l x -> length x = l_nx l;
  lz_tg : forall v, d_tg D l v -> length v = l_ndx l;
  lz_int : forall x v y, l_integrate l x v = Ret y -> length y = l_nx l;
  lz_diff : forall x y v, l_difference l x y = Ret v -> length v = l_ndx l;
  lz_interp : forall x y u z, l_interpolate l x y u = Ret z -> length z = l_nx l }.
(** integrate and difference undo each other. *)
Record leaf_inverse (D : domain) (l : rleaf) : Prop := {
  li_int : forall x v, d_pt D l x -> d_tg D l v ->
    exists y, l_integrate l x v = Ret y /\ d_pt D l y /\ d_near D l x y /\ l_difference l x y = Ret v;
  li_diff : forall x y, d_pt D l x -> d_pt D l y -> d_near D l x y ->
    exists v, l_difference l x y = Ret v /\ d_tg D l v /\ l_integrate l x v = Ret y }.
(** Interpolation at the end points, and moving along the zero vector. *)
Record leaf_ends (D : domain) (l : rleaf) : Prop := {
  le_zero : forall x, d_pt D l x -> l_integrate l x (repeat 0 (l_ndx l)) = Ret x;
  le_0 : forall x y, d_pt D l x -> d_pt D l y -> d_near D l x y -> l_interpolate l x y 0 = Ret x;
  le_1 : forall x y, d_pt D l x -> d_pt D l y -> d_near D l x y -> l_interpolate l x y 1 = Ret y }.

(** The (possibly failing) curve f is defined around 0 and its velocity at 0 is w. *)
Definition velocity (f : R -> outcome rvec) (w : rvec) : Prop :=
  exists g eps, 0 < eps /\
    (forall t, Rabs t < eps -> f t = Ret (g t)) /\ (forall t, length (g t) = length w) /\
    (forall i, (i < length w)%nat -> derivable_pt_lim (fun t => nth i (g t) 0) 0 (nth i w 0)).
(** Matrix times vector. *)
Definition mat_vec (J : list rvec) (w : rvec) : rvec := map (fun row => inner row w) J.
(** J is an n x n matrix. *)
Definition square_rows (n : nat) (J : list rvec) : Prop := length J = n /\ Forall (fun row => length row = n) J.
(** The line a + t w. *)
Definition along (a w : rvec) (t : R) : rvec := map2 (fun p q => p + t * q) a w.
Definition line (w : rvec) (t : R) : rvec := map (fun q => t * q) w.

(** Curves whose velocities define the four Jacobians. *)
Definition curve_int (int dif : rvec -> rvec -> outcome rvec) (arg : nat) (x v y w : rvec) (t : R) : outcome rvec :=
  match arg with
  | O => (do x' <- int x (line w t); do z <- int x' v; dif y z)%out
  | _ => (do z <- int x (along v w t); dif y z)%out
  end.
Definition curve_diff (int dif : rvec -> rvec -> outcome rvec) (arg : nat) (x0 x1 w : rvec) (t : R) : outcome rvec :=
  match arg with
  | O => (do z <- int x0 (line w t); dif z x1)%out
  | _ => (do z <- int x1 (line w t); dif x0 z)%out
  end.
(** The Jacobians returned are the derivatives, whatever the output held before. *)
Record leaf_jacobians (D : domain) (l : rleaf) : Prop := {
  lj_int : forall x v arg old, d_pt D l x -> d_tg D l v -> (arg < 2)%nat -> square_rows (l_ndx l) old ->
    exists J y, l_Jintegrate l x v arg old = Ret J /\ square_rows (l_ndx l) J /\ l_integrate l x v = Ret y /\
      forall w, length w = l_ndx l ->
        velocity (curve_int (l_integrate l) (l_difference l) arg x v y w) (mat_vec J w);
  lj_diff : forall x0 x1 arg old, d_pt D l x0 -> d_pt D l x1 -> d_near D l x0 x1 -> (arg < 2)%nat ->
    square_rows (l_ndx l) old ->
    exists J, l_Jdifference l x0 x1 arg old = Ret J /\ square_rows (l_ndx l) J /\
      forall w, length w = l_ndx l ->
        velocity (curve_diff (l_integrate l) (l_difference l) arg x0 x1 w) (mat_vec J w) }.

(** c times the identity. *)
Definition scaled_identity (c : R) (n : nat) (J : list rvec) : Prop :=
  square_rows n J /\ forall i j, (i < n)%nat -> (j < n)%nat -> nth j (nth i J []) 0 = if Nat.eqb i j then c else 0.
