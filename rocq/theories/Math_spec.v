(** Specification of the utilities of math.hpp (C103). *)
From Coq Require Import Reals List.
Import ListNotations.
Local Open Scope R_scope.

(** m is the largest absolute value of the entries; zero without entries. *)
Definition largest_abs (v : list R) (m : R) : Prop := (forall a, In a v -> Rabs a <= m) /\ ((v = [] /\ m = 0) \/ exists a, In a v /\ Rabs a = m).
(** a and b agree up to the absolute error e, or up to the relative error e. *)
Definition close_abs (e a b : R) : Prop := Rabs (a - b) < e.
Definition close_rel (e a b : R) : Prop := Rabs (a - b) < e * Rmax (Rabs a) (Rabs b).
