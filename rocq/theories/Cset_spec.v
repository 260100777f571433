(** Specification of the constraint sets, written independently of the model's operations:
    which points are in the set, the penalty value, shapes, distances, normal cones. *)
From Coq Require Import Reals List Arith Lia.
From Verif Require Import Scalar Cset_model.
Import ListNotations.
Local Open Scope R_scope.

Notation rset := (cset RSc).

(** The set C (constraints must satisfy c(x) in C). For the l1 penalty every point is allowed. *)
Fixpoint in_set (c : rset) (z : list R) {struct c} : Prop :=
  match c with
  | CEq _ => Forall (fun x => x = 0) z
  | CNeg _ => Forall (fun x => x <= 0) z
  | CBox _ lo up => Forall2 Rle lo z /\ Forall2 Rle z up
  | CL1 _ => True
  | CProd _ comps =>
      (fix go (cs : list (rset * nat)) (z : list R) {struct cs} : Prop :=
         match cs with
         | [] => z = []
         | (c', n) :: r => in_set c' (firstn n z) /\ go r (skipn n z)
         end) comps z
  end.

(** Nonsmooth penalty value: sum of absolute values on l1 blocks, 0 on sets. *)
Fixpoint penalty (c : rset) (z : list R) {struct c} : R :=
  match c with
  | CL1 _ => fold_right (fun x s => Rabs x + s) 0 z
  | CProd _ comps =>
      (fix go (cs : list (rset * nat)) (z : list R) {struct cs} : R :=
         match cs with
         | [] => 0
         | (c', n) :: r => penalty c' (firstn n z) + go r (skipn n z)
         end) comps z
  | _ => 0
  end.

(** The set acts on vectors of length n; box limits are ordered. *)
Fixpoint shape (c : rset) (n : nat) {struct c} : Prop :=
  match c with
  | CBox _ lo up => length lo = n /\ length up = n /\ Forall2 Rle lo up
  | CProd _ comps =>
      (fix go (cs : list (rset * nat)) (n : nat) {struct cs} : Prop :=
         match cs with
         | [] => n = O
         | (c', k) :: r => (k <= n)%nat /\ shape c' k /\ go r (n - k)%nat
         end) comps n
  | _ => True
  end.

(** Every l1 block of the set uses the parameter mu. *)
Fixpoint l1_mu (mu : R) (c : rset) {struct c} : Prop :=
  match c with
  | CL1 m => m = mu
  | CProd _ comps =>
      (fix go (cs : list (rset * nat)) {struct cs} : Prop :=
         match cs with [] => True | (c', _) :: r => l1_mu mu c' /\ go r end) comps
  | _ => True
  end.

(** No l1 block at all: a genuine constraint set. *)
Fixpoint no_l1 (c : rset) {struct c} : Prop :=
  match c with
  | CL1 _ => False
  | CProd _ comps =>
      (fix go (cs : list (rset * nat)) {struct cs} : Prop :=
         match cs with [] => True | (c', _) :: r => no_l1 c' /\ go r end) comps
  | _ => True
  end.

(** z is not a point where the projection is not differentiable. *)
Fixpoint off_kinks (c : rset) (z : list R) {struct c} : Prop :=
  match c with
  | CEq _ => True
  | CNeg _ => Forall (fun x => x <> 0) z
  | CBox _ lo up => Forall2 (fun l x => x <> l) lo z /\ Forall2 (fun u x => x <> u) up z
  | CL1 mu => Forall (fun x => Rabs x <> mu) z
  | CProd _ comps =>
      (fix go (cs : list (rset * nat)) (z : list R) {struct cs} : Prop :=
         match cs with
         | [] => True
         | (c', n) :: r => off_kinks c' (firstn n z) /\ go r (skipn n z)
         end) comps z
  end.

(** Squared Euclidean distance and inner product. *)
Fixpoint dist2 (z w : list R) : R :=
  match z, w with a :: z', b :: w' => (a - b) * (a - b) + dist2 z' w' | _, _ => 0 end.
Fixpoint inner (z w : list R) : R :=
  match z, w with a :: z', b :: w' => a * b + inner z' w' | _, _ => 0 end.
(** w - p, coordinate by coordinate. *)
Fixpoint minus (w p : list R) : list R :=
  match w, p with a :: w', b :: p' => (a - b) :: minus w' p' | _, _ => [] end.
Fixpoint plus (w p : list R) : list R :=
  match w, p with a :: w', b :: p' => (a + b) :: plus w' p' | _, _ => [] end.

(** The directional move z + t d. *)
Fixpoint along (z d : list R) (t : R) : list R :=
  match z, d with a :: z', b :: d' => (a + t * b) :: along z' d' t | _, _ => [] end.


(** Every component, at every depth, receives the parameter mu: what a product whose
    [setProxParameter] reached its components would be. *)
Fixpoint forward (mu : R) (c : rset) {struct c} : rset :=
  match c with
  | CEq _ => CEq (K := RSc) mu
  | CNeg _ => CNeg (K := RSc) mu
  | CBox _ l u => CBox (K := RSc) mu l u
  | CL1 _ => CL1 (K := RSc) mu
  | CProd _ comps => CProd (K := RSc) mu (map (fun cn => (forward mu (fst cn), snd cn)) comps)
  end.
