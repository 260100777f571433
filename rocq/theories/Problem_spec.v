(** Specification for the layout of the constraints. *)
From Coq Require Import List Arith.
From Verif Require Import Problem_model.
Import ListNotations.

(** Problems obtained from the constructor by any number of [addConstraint] calls, together with
    the dimensions given so far. *)
Inductive built : list nat -> layout -> Prop :=
| built_new : forall dims, built dims (mk_layout dims)
| built_add : forall dims p nr, built dims p -> built (dims ++ [nr]) (add_constraint nr p).

(** Entry k of the flat vector belongs to constraint i. *)
Definition belongs (p : layout) (k i : nat) : Prop :=
  exists s n, get_index p i = Some s /\ get_dim p i = Some n /\ s <= k < s + n.
