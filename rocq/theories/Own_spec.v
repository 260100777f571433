(** Specification of the memory of BlockLDLT. *)
From Coq Require Import List Bool Arith.
From Verif Require Import Own_model.
Import ListNotations.

(** What a program may do: the objects that exist, with their flags performed_llt, and the number of arrays
    that should be allocated: four per object and those that are lost (two for each permutation, two for each
    analysis that is not skipped). *)
Definition account := ((nat -> option bool) * nat)%type.
Definition mark (f : nat -> option bool) (x : nat) (e : option bool) : nat -> option bool := fun y => if Nat.eqb y x then e else f y.
Definition account_step (s : account) (o : mop) : option account :=
  let '(f, n) := s in
  match o with
  | Construct x llt => match f x with None => Some (mark f x (Some llt), n + 4) | Some _ => None end
  | CopyConstruct x y => match f x, f y with None, Some b => Some (mark f x (Some b), n + 4) | _, _ => None end
  | Assign x y => None
  | Analyze x ok => match f x with Some true => Some (f, n) | Some false => Some (mark f x (Some ok), n + 2) | None => None end
  | Permute x ok => match f x with Some true => Some (f, n + 2) | Some false => Some (mark f x (Some ok), n + 4) | None => None end
  | Use x => match f x with Some _ => Some (f, n) | None => None end
  | Delete x => match f x with Some _ => Some (mark f x None, n - 4) | None => None end
  end.
Fixpoint account_exec (s : account) (l : list mop) : option account :=
  match l with [] => Some s | o :: r => match account_step s o with None => None | Some s1 => account_exec s1 r end end.
(** The arrays of the objects exist and none is used twice. *)
Definition exclusive (m : mem) : Prop :=
  (forall x p i, blocks m x = Some p -> In i (ptrs p) -> nth i (arrays m) false = true) /\
  (forall x p, blocks m x = Some p -> NoDup (ptrs p)) /\
  (forall x y p q i, blocks m x = Some p -> blocks m y = Some q -> In i (ptrs p) -> In i (ptrs q) -> x = y).
