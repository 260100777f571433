(** Specification of value semantics: variables that hold an optional value, without control blocks. *)
From Coq Require Import List Bool Arith.
From Verif Require Import Poly_model.
Import ListNotations.

Section Spec.
  Context {V : Type} (copyv : V -> option V) (movev : V -> V * V) (aeq : nat -> nat -> bool) (select : nat -> nat) (tr : traits).
  (** Variables: allocator, and the value if any. *)
  Definition vars := nat -> option (nat * option V).
  Definition put (s : vars) (x : nat) (e : option (nat * option V)) : vars := fun y => if Nat.eqb y x then e else s y.
  (** The value of a copy of an optional value; None: the copy constructor threw. *)
  Definition copied (ov : option V) : option (option V) :=
    match ov with None => Some None | Some v => match copyv v with None => None | Some w => Some (Some w) end end.
  (** The values of target and source after a move, for equal and unequal allocators. *)
  Definition moved (same : bool) (ov : option V) : option V * option V :=
    match ov with
    | None => (None, None)
    | Some v => if same then (Some v, None) else (Some (fst (movev v)), Some (snd (movev v)))
    end.
  (** One operation: whether it throws and the variables after it; None: not allowed. *)
  Definition value_step (s : vars) (o : op) : option (bool * vars) :=
    let copy_to x a y :=
      match s x, s y with
      | None, Some (_, ov) => Some (match copied ov with None => (true, s) | Some ow => (false, put s x (Some (a, ow))) end)
      | _, _ => None
      end in
    let move_to x a y :=
      match s x, s y with
      | None, Some (b, ov) => let '(n, l) := moved (aeq a b) ov in Some (false, put (put s x (Some (a, n))) y (Some (b, l)))
      | _, _ => None
      end in
    match o with
    | Make x a v => match s x, v with Some _, _ => None | None, None => Some (true, s) | None, Some w => Some (false, put s x (Some (a, Some w))) end
    | CopyExt x a y => copy_to x a y
    | Copy x y => match s y with Some (b, _) => copy_to x (select b) y | None => None end
    | MoveExt x a y => move_to x a y
    | Move x y => match s y with Some (b, _) => move_to x b y | None => None end
    | Destroy x => match s x with Some _ => Some (false, put s x None) | None => None end
    | AssignCopy x y =>
        match s x, s y with
        | Some (a, _), Some (b, ov) =>
            if Nat.eqb x y then Some (false, s) else
            Some (match copied ov with None => (true, s) | Some ow => (false, put s x (Some (if pocca tr then b else a, ow))) end)
        | _, _ => None
        end
    | AssignMove x y =>
        match s x, s y with
        | Some (a, _), Some (b, ov) =>
            if Nat.eqb x y then Some (false, s) else
            let '(n, l) := moved (aeq a b) ov in Some (false, put (put s x (Some (if pocma tr then b else a, n))) y (Some (b, l)))
        | _, _ => None
        end
    | Swap x y =>
        match s x, s y with
        | Some (a, ov), Some (b, ow) =>
            if pocs tr then Some (false, put (put s x (Some (b, ow))) y (Some (a, ov)))
            else if aeq a b then Some (false, put (put s x (Some (a, ow))) y (Some (b, ov))) else None
        | _, _ => None
        end
    | Write x v => match s x with Some (a, Some _) => Some (false, put s x (Some (a, Some v))) | _ => None end
    end.
  (** A program. *)
  Fixpoint value_exec (s : vars) (l : list op) : option (list bool * vars) :=
    match l with
    | [] => Some ([], s)
    | o :: r => match value_step s o with
                | None => None
                | Some (b, s1) => match value_exec s1 r with None => None | Some (bs, s2) => Some (b :: bs, s2) end
                end
    end.
  (** Block i is in use by the object at x. *)
  Definition holds (st : @state V) (x i : nat) : Prop := exists p, objs st x = Some p /\ p_cb p = Some i.
  (** Every block that was not destroyed is in use by one object, and objects use no other blocks. *)
  Definition owned_once (st : @state V) : Prop :=
    (forall x i, holds st x i -> exists c, nth_error (heap st) i = Some c /\ c_live c = true) /\
    (forall i c, nth_error (heap st) i = Some c -> c_live c = true -> exists x, holds st x i /\ forall y, holds st y i -> y = x).
  (** The objects an operation names. *)
  Definition named (o : @op V) : list nat :=
    match o with
    | Make x _ _ | Destroy x | Write x _ => [x]
    | CopyExt x _ y | Copy x y | MoveExt x _ y | Move x y | AssignCopy x y | AssignMove x y | Swap x y => [x; y]
    end.
End Spec.
(** The allocator relation and the traits of the standard allocator. *)
Definition std_equal (a b : nat) : bool := true.
Definition std_traits : traits := mkTraits false true false.
(** What the theorems ask of allocators: operator== is an equivalence; and either allocators do not propagate on copy
    assignment or all of them are equal. *)
Definition fair (aeq : nat -> nat -> bool) (tr : traits) : Prop :=
  (forall a, aeq a a = true) /\ (forall a b, aeq a b = true -> aeq b a = true) /\ (forall a b c, aeq a b = true -> aeq b c = true -> aeq a c = true) /\
  (pocca tr = true -> forall a b, aeq a b = true).
