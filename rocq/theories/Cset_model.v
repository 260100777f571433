(** Model of the constraint sets: include/proxsuite-nlp/constraint-set.hpp/.hxx and
    include/proxsuite-nlp/modelling/constraints/.

    Vectors are lists.  Size mismatches that Eigen only asserts (undefined behaviour in release
    builds) are the distinct outcome [None]. *)
From Coq Require Import List Bool Arith ZArith.
From Verif Require Import Scalar.
Import ListNotations.

Section Cset.
  Context {K : Sc}.
  Local Open Scope sc_scope.
  Notation vec := (list (car K)).

  (** The concrete subclasses of [ConstraintSetTpl], each with its own [mu_] field
      (constraint-set.hpp:114).
      - [CEq]   : modelling/constraints/equality-constraint.hpp:18
      - [CNeg]  : modelling/constraints/negative-orthant.hpp:19
      - [CBox]  : modelling/constraints/box-constraint.hpp:13-22
      - [CL1]   : modelling/constraints/l1-penalty.hpp:18
      - [CProd] : modelling/constraints/constraint-set-product.hpp:36, components paired with their
        block sizes (the constructor, lines 41-48, checks that the two vectors have equal length;
        see [mk_product]).
      [mu_inv_] (constraint-set.hpp:115) is always [1/mu_] after [setProxParameter] and is
      represented by that expression; before the first call it is uninitialised in the code. *)
  Inductive cset : Type :=
  | CEq (mu : car K)
  | CNeg (mu : car K)
  | CBox (mu : car K) (lower upper : vec)
  | CL1 (mu : car K)
  | CProd (mu : car K) (comps : list (cset * nat)).

  (** constraint-set-product.hpp:41-48: [None] models the exception. A fresh product has
      [mu_ = 0] (constraint-set.hpp:114). *)
  Definition mk_product (comps : list cset) (sizes : list nat) : option cset :=
    if Nat.eqb (length comps) (length sizes) then Some (CProd 0 (combine comps sizes)) else None.

  (** constraint-set.hpp:110 [mu()]. *)
  Definition mu_of (c : cset) : car K :=
    match c with CEq m | CNeg m | CBox m _ _ | CL1 m | CProd m _ => m end.

  (** constraint-set.hpp:70-73 [setProxParameter]: not virtual, sets the field of this object only
      (ConstraintSetProductTpl does not forward it). *)
  Definition set_prox (mu : car K) (c : cset) : cset :=
    match c with
    | CEq _ => CEq mu | CNeg _ => CNeg mu | CBox _ l u => CBox mu l u | CL1 _ => CL1 mu
    | CProd _ cs => CProd mu cs
    end.

  (** [Eigen::segment(start, n)] (problem-base.hpp:65, 69; blockVectorGetRow at
      constraint-set-product.hpp:66): [None] when the range is out of bounds. *)
  Definition segment {A} (start n : nat) (v : list A) : option (list A) :=
    if Nat.leb (start + n) (length v) then Some (firstn n (skipn start v)) else None.
  (** Writing a block of the same size into a segment (constraint-set-product.hpp:67-68). *)
  Definition write_segment {A} (start : nat) (b v : list A) : list A :=
    firstn start v ++ b ++ skipn (start + length b) v.

  (** Coefficientwise kernels.
      box-constraint.hpp:28-30 [z.cwiseMin(upper).cwiseMax(lower)]. *)
  Definition box1 (lo up z : car K) : car K := smax (smin z up) lo.
  (** negative-orthant.hpp:33 and :37. *)
  Definition neg1 (z : car K) : car K := smin z 0.
  (** negative-orthant.hpp:37. *)
  Definition neg1_cone (z : car K) : car K := smax z 0.
  (** l1-penalty.hpp:36-39 soft threshold. *)
  Definition l11 (mu z : car K) : car K := ssign z * smax (sabs z - mu) 0.

  (** Coefficientwise operation of three vectors (box-constraint.hpp:28-30). *)
  Fixpoint map3 {A B C D} (f : A -> B -> C -> D) (l : list A) (m : list B) (n : list C) : list D :=
    match l, m, n with
    | a :: l', b :: m', c :: n' => f a b c :: map3 f l' m' n'
    | _, _, _ => []
    end.

  (** Eigen's assertion of equal sizes in coefficientwise operations (box-constraint.hpp:28-30). *)
  Definition same_len {A B} (l : list A) (m : list B) : bool := Nat.eqb (length l) (length m).

  (** Loop over the components of a product (constraint-set-product.hpp:64-70, 72-79, 99-106):
      read a block of [z], write the block of [zout].  [alias = true] models the call
      [projection(v, v)] where the input and the output are the same memory
      (prox-solver.hxx:261), so that later blocks are read from the partially updated vector. *)
  Definition prod_loop {C A B} (f : C -> list A -> list B -> option (list B))
           (rd : list B -> list A) (* input vector as a function of the current output *)
    : list (C * nat) -> nat -> list B -> option (list B) :=
    fix go (comps : list (C * nat)) (start : nat) (zout : list B) {struct comps} :=
    match comps with
    | [] => Some zout
    | (c, n) :: r =>
        match segment start n (rd zout), segment start n zout with
        | Some zi, Some oi =>
            match f c zi oi with
            | Some b => go r (start + n)%nat (write_segment start b zout)
            | None => None
            end
        | _, _ => None
        end
    end.

  (** [projection(z, zout)]: equality-constraint.hpp:34-36, negative-orthant.hpp:32-34,
      box-constraint.hpp:32-34, l1-penalty.hpp:41-43, constraint-set-product.hpp:64-70. *)
  Fixpoint projection (c : cset) (z zout : vec) {struct c} : option vec :=
    match c with
    | CEq _ => Some (map (fun _ => 0) zout)
    | CNeg _ => if same_len z zout then Some (map neg1 z) else None
    | CBox _ lo up =>
        if same_len z zout && same_len lo z && same_len up z
        then Some (map3 box1 lo up z) else None
    | CL1 mu => if same_len z zout then Some (map (l11 mu) z) else None
    | CProd _ comps => prod_loop projection (fun _ => z) comps 0 zout
    end.

  (** The same call with [z] and [zout] being one vector (prox-solver.hxx:261). *)
  Fixpoint projection_inplace (c : cset) (v : vec) {struct c} : option vec :=
    match c with
    | CProd _ comps => prod_loop (fun c' zi _ => projection_inplace c' zi) (fun o => o) comps 0 v
    | _ => projection c v v
    end.

  (** [normalConeProjection(z, zout)]: equality-constraint.hpp:38-41, negative-orthant.hpp:36-38,
      box-constraint.hpp:36-38, l1-penalty.hpp:45-47, constraint-set-product.hpp:72-79. *)
  Fixpoint normal_cone (c : cset) (z zout : vec) {struct c} : option vec :=
    match c with
    | CEq _ => if same_len z zout then Some z else None
    | CNeg _ => if same_len z zout then Some (map neg1_cone z) else None
    | CBox _ lo up =>
        if same_len z zout && same_len lo z && same_len up z
        then Some (vsub z (map3 box1 lo up z)) else None
    | CL1 mu => if same_len z zout then Some (vsub z (map (l11 mu) z)) else None
    | CProd _ comps => prod_loop normal_cone (fun _ => z) comps 0 zout
    end.

  (** [computeActiveSet(z, out)]: equality-constraint.hpp:53-56, negative-orthant.hpp:41-44,
      box-constraint.hpp:40-44, l1-penalty.hpp:49-52, constraint-set-product.hpp:99-106. *)
  Fixpoint active_set (c : cset) (z : vec) (out : list bool) {struct c} : option (list bool) :=
    match c with
    | CEq _ => Some (map (fun _ => true) out)
    | CNeg _ => if same_len z out then Some (map (fun x => 0 <? x) z) else None
    | CBox _ lo up =>
        if same_len z out && same_len lo z && same_len up z
        then Some (map3 (fun l u x => (u <? x) || (x <? l)) lo up z) else None
    | CL1 mu => if same_len z out then Some (map (fun x => sabs x <=? mu) z) else None
    | CProd _ comps => prod_loop active_set (fun _ => z) comps 0 out
    end.

  (** Rows of a matrix as a list of lists.  constraint-set.hxx:10-23 (zero the active rows),
      overridden by equality-constraint.hpp:43-46 and constraint-set-product.hpp:81-88.  The base
      version allocates its own active set vector of size [z.size()] (line 15). *)
  Definition mask_rows (keep : bool -> bool) (act : list bool) (J : list vec) : list vec :=
    map2 (fun a row => if keep a then row else map (fun _ => 0) row) act J.
  (** constraint-set.hxx:10-23, equality-constraint.hpp:43-46, constraint-set-product.hpp:81-88 [applyProjectionJacobian]. *)
  Fixpoint proj_jac (c : cset) (z : vec) (J : list vec) {struct c} : option (list vec) :=
    match c with
    | CEq _ => Some (map (map (fun _ => 0)) J)
    | CProd _ comps => prod_loop proj_jac (fun _ => z) comps 0 J
    | _ =>
        if same_len z J then
          match active_set c z (map (fun _ => false) z) with
          | Some act => Some (mask_rows negb act J)
          | None => None
          end
        else None
    end.
  (** constraint-set.hxx:25-38 (zero the inactive rows), overridden by
      equality-constraint.hpp:48-51 and constraint-set-product.hpp:90-97. *)
  Fixpoint cone_jac (c : cset) (z : vec) (J : list vec) {struct c} : option (list vec) :=
    match c with
    | CEq _ => Some J
    | CProd _ comps => prod_loop cone_jac (fun _ => z) comps 0 J
    | _ =>
        if same_len z J then
          match active_set c z (map (fun _ => false) z) with
          | Some act => Some (mask_rows (fun a => a) act J)
          | None => None
          end
        else None
    end.

  (** [evaluate(zproj)]: constraint-set.hpp:33 (0 by default), l1-penalty.hpp:32-34,
      constraint-set-product.hpp:55-62. *)
  Fixpoint evaluate (c : cset) (z : vec) {struct c} : option (car K) :=
    match c with
    | CL1 _ => Some (vsum (map sabs z))
    | CProd _ comps =>
        (fix go (cs : list (cset * nat)) (start : nat) (acc : car K) {struct cs} :=
           match cs with
           | [] => Some acc
           | (c', n) :: r =>
               match segment start n z with
               | Some b => match evaluate c' b with
                           | Some e => go r (start + n)%nat (acc + e)
                           | None => None end
               | None => None
               end
           end) comps 0%nat 0
    | _ => Some 0
    end.

  (** constraint-set.hpp:95-100 [evaluateMoreauEnvelope]. *)
  Definition moreau_env_at (c : cset) (zin zproj : vec) : option (car K) :=
    match evaluate c (vsub zin zproj) with
    | Some e => Some (e + (shalf * (1 / mu_of c)) * vsqnorm zproj)
    | None => None
    end.
  (** constraint-set.hpp:104-108 [computeMoreauEnvelope]: value and output vector. *)
  Definition moreau_env (c : cset) (zin zout : vec) : option (car K * vec) :=
    match normal_cone c zin zout with
    | Some zp => match moreau_env_at c zin zp with Some e => Some (e, zp) | None => None end
    | None => None
    end.

  (** constraint-set.hpp:28 [disableGaussNewton], equality-constraint.hpp:32: true for all sets. *)
  Definition disable_gauss_newton (c : cset) : bool := true.
End Cset.
Arguments cset : clear implicits.
