(** Model of polymorphic<T, A>, include/proxsuite-nlp/third-party/polymorphic_cxx14.hpp (cited as poly):
    the holder of the manifolds, costs, functions and constraint sets of the library (with
    A = std::allocator).

    Objects live at addresses, their control blocks in a heap.  A value stands for the stored object
    with its dynamic type.  Simplified: allocation and moves of values do not throw, the destructor of a
    value does nothing else, and the cast of p_ to T* is left out. *)
From Coq Require Import List Bool Arith.
Import ListNotations.

Section Poly.
  (** Values; the copy constructor of the dynamic type (None: it throws), poly:126-136; its move
      constructor: the new value and what is left, poly:138-148. *)
  Context {V : Type} (copyv : V -> option V) (movev : V -> V * V).
  (** Allocators: a number each; operator==, and select_on_container_copy_construction (poly:319). *)
  Variable aeq : nat -> nat -> bool.
  Variable select : nat -> nat.
  (** std::allocator_traits<A>::propagate_on_container_copy_assignment, _move_assignment and _swap,
      poly:327, 356, 383, 437. *)
  Record traits := mkTraits { pocca : bool; pocma : bool; pocs : bool }.
  Variable tr : traits.

  (** A control block, poly:106-155: the allocator that allocated it, the stored value, and whether it
      still exists. *)
  Record cell := mkCell { c_alloc : nat; c_val : V; c_live : bool }.
  (** A polymorphic object: allocator (poly:159) and cb_ (poly:161; None: nullptr). *)
  Record poly := mkPoly { p_alloc : nat; p_cb : option nat }.
  (** The control blocks allocated so far (poly:167-183) and the objects at their addresses. *)
  Record state := mkState { heap : list cell; objs : nat -> option poly }.
  (** Result of an operation (poly:192-462): whether it threw, and the state; None: undefined behaviour. *)
  Definition result := option (bool * state).

  (** Assignment to the members alloc_ and cb_ (poly:159-161) of the object at one address. *)
  Definition set_obj (st : state) (x : nat) (p : option poly) : state :=
    mkState (heap st) (fun y => if Nat.eqb y x then p else objs st y).
  (** Assignment to one control block (poly:106-155). *)
  Definition set_cell (i : nat) (c : cell) (h : list cell) : list cell := firstn i h ++ c :: skipn (S i) h.

  (** poly:167-183 [create_control_block] and 126-148: a new block with allocator a. *)
  Definition alloc_cell (a : nat) (v : V) (h : list cell) : list cell * nat := (h ++ [mkCell a v true], length h).
  (** The value in a block (poly:106-155); undefined behaviour if it was destroyed. *)
  Definition get_cell (h : list cell) (i : nat) : option V :=
    match nth_error h i with Some c => if c_live c then Some (c_val c) else None | None => None end.
  (** poly:126-136 [clone]: Some None: the copy constructor threw. *)
  Definition clone (a : nat) (h : list cell) (i : nat) : option (option (list cell * nat)) :=
    match get_cell h i with
    | None => None
    | Some v => match copyv v with None => Some None | Some w => Some (Some (alloc_cell a w h)) end
    end.
  (** poly:138-148 [move]: the source block keeps what is left of the value. *)
  Definition move_cell (a : nat) (h : list cell) (i : nat) : option (list cell * nat) :=
    match nth_error h i with
    | Some c => if c_live c then let '(w, rest) := movev (c_val c) in Some (alloc_cell a w (set_cell i (mkCell (c_alloc c) rest true) h)) else None
    | None => None
    end.
  (** poly:150-154 [destroy]: undefined behaviour if the block is gone or belongs to an unequal
      allocator. *)
  Definition destroy (a : nat) (h : list cell) (i : nat) : option (list cell) :=
    match nth_error h i with
    | Some c => if c_live c && aeq (c_alloc c) a then Some (set_cell i (mkCell (c_alloc c) (c_val c) false) h) else None
    | None => None
    end.
  (** poly:457-462 [reset] of the object p at address x. *)
  Definition reset (st : state) (x : nat) (p : poly) : option state :=
    match p_cb p with
    | None => Some st
    | Some i => match destroy (p_alloc p) (heap st) i with
                | None => None
                | Some h => Some (set_obj (mkState h (objs st)) x (Some (mkPoly (p_alloc p) None)))
                end
    end.

  (** The operations of a program, by the lines cited at each (poly:192-440).  The arguments are addresses; constructors need a free address and
      the other operations existing objects, anything else is undefined behaviour. *)
  Inductive op :=
  | Make (x a : nat) (v : option V)   (** in_place_type and value constructors, poly:192-306; None: the constructor of the value throws *)
  | CopyExt (x a y : nat)             (** poly:308-315 *)
  | Copy (x y : nat)                  (** poly:317-321 *)
  | MoveExt (x a y : nat)             (** poly:323-342 *)
  | Move (x y : nat)                  (** poly:344-346 *)
  | Destroy (x : nat)                 (** poly:348 *)
  | AssignCopy (x y : nat)            (** poly:350-373 *)
  | AssignMove (x y : nat)            (** poly:375-406 *)
  | Swap (x y : nat)                  (** poly:434-454 *)
  | Write (x : nat) (v : V).          (** assignment of the value through operator*, poly:418-421 *)

  (** poly:308-315. *)
  Definition copy_ext (st : state) (x a y : nat) : result :=
    match objs st x, objs st y with
    | None, Some q =>
        match p_cb q with
        | Some i => match clone a (heap st) i with
                    | None => None
                    | Some None => Some (true, st)
                    | Some (Some (h, j)) => Some (false, set_obj (mkState h (objs st)) x (Some (mkPoly a (Some j))))
                    end
        | None => Some (false, set_obj st x (Some (mkPoly a None)))
        end
    | _, _ => None
    end.
  (** poly:323-342. *)
  Definition move_ext (st : state) (x a y : nat) : result :=
    match objs st x, objs st y with
    | None, Some q =>
        if pocca tr || aeq a (p_alloc q) then
          Some (false, set_obj (set_obj st x (Some (mkPoly a (p_cb q)))) y (Some (mkPoly (p_alloc q) None)))
        else
          match p_cb q with
          | Some i => match move_cell a (heap st) i with
                      | None => None
                      | Some (h, j) => Some (false, set_obj (mkState h (objs st)) x (Some (mkPoly a (Some j))))
                      end
          | None => Some (false, set_obj st x (Some (mkPoly a None)))
          end
    | _, _ => None
    end.
  (** poly:350-373. *)
  Definition assign_copy (st : state) (x y : nat) : result :=
    match objs st x, objs st y with
    | Some p, Some q =>
        if Nat.eqb x y then Some (false, st) else
        let na := if pocca tr then p_alloc q else p_alloc p in
        match p_cb q with
        | None => match reset st x p with
                  | None => None
                  | Some st1 => Some (false, set_obj st1 x (Some (mkPoly na None)))
                  end
        | Some i => match clone na (heap st) i with
                    | None => None
                    | Some None => Some (true, st)
                    | Some (Some (h, j)) =>
                        match reset (mkState h (objs st)) x p with
                        | None => None
                        | Some st1 => Some (false, set_obj st1 x (Some (mkPoly na (Some j))))
                        end
                    end
        end
    | _, _ => None
    end.
  (** poly:375-406. *)
  Definition assign_move (st : state) (x y : nat) : result :=
    match objs st x, objs st y with
    | Some p, Some q =>
        if Nat.eqb x y then Some (false, st) else
        let na := if pocma tr then p_alloc q else p_alloc p in
        match p_cb q with
        | None => match reset st x p with
                  | None => None
                  | Some st1 => Some (false, set_obj st1 x (Some (mkPoly na None)))
                  end
        | Some i =>
            if aeq (p_alloc p) (p_alloc q) then
              let st1 := set_obj (set_obj st x (Some (mkPoly (p_alloc p) (p_cb q)))) y (Some (mkPoly (p_alloc q) (p_cb p))) in
              match reset st1 y (mkPoly (p_alloc q) (p_cb p)) with
              | None => None
              | Some st2 => Some (false, set_obj st2 x (Some (mkPoly na (p_cb q))))
              end
            else
              match move_cell na (heap st) i with
              | None => None
              | Some (h, j) =>
                  match reset (mkState h (objs st)) x p with
                  | None => None
                  | Some st1 => Some (false, set_obj st1 x (Some (mkPoly na (Some j))))
                  end
              end
        end
    | _, _ => None
    end.
  (** poly:434-454; unreachable() for unequal allocators that do not move along. *)
  Definition swap (st : state) (x y : nat) : result :=
    match objs st x, objs st y with
    | Some p, Some q =>
        if pocs tr then Some (false, set_obj (set_obj st x (Some q)) y (Some p))
        else if aeq (p_alloc p) (p_alloc q) then
          Some (false, set_obj (set_obj st x (Some (mkPoly (p_alloc p) (p_cb q)))) y (Some (mkPoly (p_alloc q) (p_cb p))))
        else None
    | _, _ => None
    end.
  (** poly:418-421, and assignment of the value: undefined behaviour when there is none. *)
  Definition write (st : state) (x : nat) (v : V) : result :=
    match objs st x with
    | Some p => match p_cb p with
                | Some i => match nth_error (heap st) i with
                            | Some c => if c_live c then Some (false, mkState (set_cell i (mkCell (c_alloc c) v true) (heap st)) (objs st)) else None
                            | None => None
                            end
                | None => None
                end
    | None => None
    end.
  (** One operation, by the lines cited at [op] (poly:192-440). *)
  Definition step (st : state) (o : op) : result :=
    match o with
    | Make x a v => match objs st x, v with
                    | Some _, _ => None
                    | None, None => Some (true, st)
                    | None, Some w => let '(h, i) := alloc_cell a w (heap st) in
                                      Some (false, set_obj (mkState h (objs st)) x (Some (mkPoly a (Some i))))
                    end
    | CopyExt x a y => copy_ext st x a y
    | Copy x y => match objs st y with Some q => copy_ext st x (select (p_alloc q)) y | None => None end
    | MoveExt x a y => move_ext st x a y
    | Move x y => match objs st y with Some q => move_ext st x (p_alloc q) y | None => None end
    | Destroy x => match objs st x with
                   | Some p => match reset st x p with None => None | Some st1 => Some (false, set_obj st1 x None) end
                   | None => None
                   end
    | AssignCopy x y => assign_copy st x y
    | AssignMove x y => assign_move st x y
    | Swap x y => swap st x y
    | Write x v => write st x v
    end.
  (** A program that uses the class of poly:157-462: the operations in turn (an exception is caught by the program); which of them threw. *)
  Fixpoint exec (st : state) (l : list op) : option (list bool * state) :=
    match l with
    | [] => Some ([], st)
    | o :: r => match step st o with
                | None => None
                | Some (b, st1) => match exec st1 r with None => None | Some (bs, st2) => Some (b :: bs, st2) end
                end
    end.
  (** No object yet: the state before the first constructor (poly:192-306). *)
  Definition start : state := mkState [] (fun _ => None).
  (** What a program can see of an object: allocator and value (valueless_after_move and operator->,
      poly:408-432). *)
  Definition look (st : state) (x : nat) : option (nat * option V) :=
    match objs st x with
    | None => None
    | Some p => Some (p_alloc p, match p_cb p with None => None | Some i => get_cell (heap st) i end)
    end.
  (** poly:217-232, the constructor from an initializer list: the block is created for T where the other
      constructors create it for the requested type U; [mk] builds a value of a type from the list. *)
  Definition make_from_list {Ty I : Type} (mk : Ty -> list I -> option V) (T U : Ty) (st : state) (x a : nat) (l : list I) : result :=
    step st (Make x a (mk T l)).
End Poly.
