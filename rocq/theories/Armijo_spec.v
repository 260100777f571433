(** Specification vocabulary for the line search, independent of the model's loops. *)
From Coq Require Import Reals List.
From Verif Require Import Scalar.
Import ListNotations.
Local Open Scope R_scope.

(** Value of the polynomial with coefficients [cs] (highest degree first): sum of c_i a^(deg - i). *)
Fixpoint psum (cs : list R) (a : R) : R :=
  match cs with [] => 0 | c :: r => c * a ^ (length r) + psum r a end.

(** An extended real that is an ordinary number in [lo, hi]. *)
Definition between (x : xr) (lo hi : R) : Prop := exists r, x = XFin r /\ lo <= r <= hi.
Definition finite (x : xr) : Prop := exists r, x = XFin r.
