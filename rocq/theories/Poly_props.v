(** Property C59: polymorphic<T> has value semantics. *)
From Coq Require Import List Bool Arith.
From Verif Require Import Poly_model Poly_spec Poly_proofs.
Import ListNotations.

(** Every program behaves as with plain variables that hold optional values: undefined behaviour in the same
    programs only, the same exceptions, the same values; and every block not yet destroyed is in use by
    exactly one object. *)
Theorem C59_value_semantics : forall V copyv movev aeq select tr (l : list (@op V)), fair aeq tr ->
  match exec copyv movev aeq select tr start l, value_exec copyv movev aeq select tr (fun _ => None) l with
  | None, None => True
  | Some (b, st), Some (c, s) => b = c /\ (forall x, look st x = s x) /\ owned_once st
  | _, _ => False
  end.
Proof. intros V copyv movev aeq select tr l (H1 & H2 & H3 & H4). exact (value_semantics copyv movev aeq select tr H1 H2 H3 H4 l). Qed.
Print Assumptions C59_value_semantics.
(** When all objects are gone, all blocks are. *)
Theorem C59_all_destroyed : forall V copyv movev aeq select tr l bs (st : @state V), fair aeq tr -> exec copyv movev aeq select tr start l = Some (bs, st) ->
  (forall x, look st x = None) -> forall i c, nth_error (heap st) i = Some c -> c_live c = false.
Proof.
  intros V copyv movev aeq select tr l bs st (H1 & H2 & H3 & H4) E H. apply (no_leak copyv movev aeq select tr H1 H2 H3 H4 l bs st E). intros x. specialize (H x). unfold look in H. destruct (objs st x); [discriminate H|reflexivity].
Qed.
Print Assumptions C59_all_destroyed.
(** Copies are independent: an operation changes only the objects it names. *)
Theorem C59_independent : forall V copyv movev aeq select tr l bs (st : @state V) o b st' z, fair aeq tr -> exec copyv movev aeq select tr start l = Some (bs, st) ->
  step copyv movev aeq select tr st o = Some (b, st') -> ~ In z (named o) -> look st' z = look st z.
Proof. intros V copyv movev aeq select tr l bs st o b st' z (H1 & H2 & H3 & H4). exact (frame copyv movev aeq select tr H1 H2 H3 H4 l bs st o b st' z). Qed.
Print Assumptions C59_independent.
(** An operation that throws leaves every object as it was. *)
Theorem C59_strong_guarantee : forall V copyv movev aeq select tr l bs (st : @state V) o st', fair aeq tr -> exec copyv movev aeq select tr start l = Some (bs, st) ->
  step copyv movev aeq select tr st o = Some (true, st') -> forall x, look st' x = look st x.
Proof. intros V copyv movev aeq select tr l bs st o st' (H1 & H2 & H3 & H4). exact (throw_same copyv movev aeq select tr H1 H2 H3 H4 l bs st o st'). Qed.
Print Assumptions C59_strong_guarantee.
(** Assigning an object to itself changes nothing. *)
Theorem C59_self_assignment : forall V copyv movev aeq select tr (st : @state V) x, look st x <> None ->
  step copyv movev aeq select tr st (AssignCopy x x) = Some (false, st) /\ step copyv movev aeq select tr st (AssignMove x x) = Some (false, st).
Proof. intros V copyv movev aeq select tr st x H. unfold look in H. destruct (objs st x) as [p|] eqn:E; [|contradiction]. exact (self_assign copyv movev aeq select tr st x p E). Qed.
Print Assumptions C59_self_assignment.
(** Moving (with equal allocators) hands the value over and leaves the source valueless. *)
Theorem C59_moved_from_valueless : forall V copyv movev aeq select tr l bs (st : @state V) o x y a b v st', fair aeq tr -> exec copyv movev aeq select tr start l = Some (bs, st) ->
  o = Move x y \/ o = AssignMove x y -> x <> y -> look st y = Some (b, Some v) -> (o = AssignMove x y -> exists u, look st x = Some (a, u) /\ aeq a b = true) ->
  step copyv movev aeq select tr st o = Some (false, st') -> look st' y = Some (b, None) /\ exists a', look st' x = Some (a', Some v).
Proof. intros V copyv movev aeq select tr l bs st o x y a b v st' (H1 & H2 & H3 & H4). exact (moved_from copyv movev aeq select tr H1 H2 H3 H4 l bs st o x y a b v st'). Qed.
Print Assumptions C59_moved_from_valueless.
(** The moving constructor with an allocator asks for propagation on copy assignment where it needs equal
    allocators: with such an allocator type the block goes to an object that cannot free it. *)
Theorem C59_allocator_refuted : exists tr l, exec (V := nat) Some (fun v => (v, 0)) Nat.eqb (fun a => a) tr start l = None /\
  value_exec (V := nat) Some (fun v => (v, 0)) Nat.eqb (fun a => a) tr (fun _ => None) l <> None.
Proof. exists (mkTraits true true true), [Make 0 1 (Some 7); MoveExt 1 2 0; Destroy 1]. split; [reflexivity|discriminate]. Qed.
Print Assumptions C59_allocator_refuted.
(** The constructor from an initializer list makes a value of the base type. *)
Theorem C59_initializer_list_refuted : exists (mk : bool -> list nat -> option (bool * list nat)) st,
  make_from_list Some (fun v => (v, v)) std_equal (fun a => a) std_traits mk true false start 0 0 [5] = Some (false, st) /\
  look st 0 = Some (0, mk true [5]) /\ mk true [5] <> mk false [5].
Proof. exists (fun t l => Some (t, l)). eexists. split; [reflexivity|]. split; [reflexivity|discriminate]. Qed.
Print Assumptions C59_initializer_list_refuted.
(** The standard allocator is fair; a program with copies, writes to one of two copies, moves, a copy that throws (of 13), and all
    objects destroyed in the end. *)
Example C59_example_fair : fair std_equal std_traits.
Proof. repeat split. Qed.
Definition ex59 : list (@op nat) :=
  [Make 0 0 (Some 5); Copy 1 0; Write 1 6; Move 2 0; AssignCopy 0 1; Make 3 0 (Some 13); AssignCopy 2 3; Swap 0 2; AssignMove 1 0; AssignMove 1 1].
Definition ex59_copy (v : nat) : option nat := if Nat.eqb v 13 then None else Some v.
Example C59_example : match exec ex59_copy (fun v => (v, 0)) std_equal (fun a => a) std_traits start ex59 with
  | Some (b, st) => b = [false; false; false; false; false; false; true; false; false; false] /\ map (look st) [0; 1; 2; 3; 4] = [Some (0, None); Some (0, Some 5); Some (0, Some 6); Some (0, Some 13); None] /\
      map c_live (heap st) = [true; false; true; true]
  | None => False
  end.
Proof. cbn. repeat split. Qed.
Example C59_example_destroyed : match exec ex59_copy (fun v => (v, 0)) std_equal (fun a => a) std_traits start (ex59 ++ map Destroy [0; 1; 2; 3]) with
  | Some (b, st) => map c_live (heap st) = [false; false; false; false] | None => False end.
Proof. reflexivity. Qed.
