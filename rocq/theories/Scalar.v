(** Scalar operations and small vector/matrix helpers shared by all model files.

    The C++ code is templated on [Scalar]; every model definition takes a record of scalar
    operations.  Instances: the reals [RSc], the reals extended by NaN and infinities [XSc],
    normalised rationals [QSc], IEEE binary64 [FSc]. *)
From Coq Require Import Reals QArith ZArith List Bool Floats.SpecFloat.
Import ListNotations.

(** Models the template parameter [Scalar] of the library: include/proxsuite-nlp/math.hpp:43-46
    ([math_types]) and the operations the sources apply to it. *)
Record Sc : Type := mkSc {
  car : Type;
  s0 : car; s1 : car;
  sadd : car -> car -> car; ssub : car -> car -> car;
  smul : car -> car -> car; sdiv : car -> car -> car;
  sopp : car -> car; sabs : car -> car; ssqrt : car -> car;
  sltb : car -> car -> bool; sleb : car -> car -> bool; seqb : car -> car -> bool;
  snan : car -> bool;   (* std::isnan *)
  sfin : car -> bool;   (* std::isfinite *)
  sofZ : Z -> car
}.

Arguments s0 {_}. Arguments s1 {_}.
Arguments sadd {_}. Arguments ssub {_}. Arguments smul {_}. Arguments sdiv {_}.
Arguments sopp {_}. Arguments sabs {_}. Arguments ssqrt {_}.
Arguments sltb {_}. Arguments sleb {_}. Arguments seqb {_}.
Arguments snan {_}. Arguments sfin {_}. Arguments sofZ {_}.

Declare Scope sc_scope.
Delimit Scope sc_scope with S.
Notation "a + b" := (sadd a b) : sc_scope.
Notation "a - b" := (ssub a b) : sc_scope.
Notation "a * b" := (smul a b) : sc_scope.
Notation "a / b" := (sdiv a b) : sc_scope.
Notation "- a" := (sopp a) : sc_scope.
Notation "a <? b" := (sltb a b) : sc_scope.
Notation "a <=? b" := (sleb a b) : sc_scope.
Notation "a =? b" := (seqb a b) : sc_scope.
Notation "0" := s0 : sc_scope.
Notation "1" := s1 : sc_scope.

Section Helpers.
  Context {K : Sc}.
  Local Open Scope sc_scope.

  (** A literal p/q; models decimal literals such as linesearch-base.hpp:20 [1e-4] or prox-solver.hxx:186 [0.5], correctly rounded when
      p and q are exactly representable. *)
  Definition slit (p q : Z) : car K := sofZ p / sofZ q.
  (** The literal 0.5 (prox-solver.hxx:186, constraint-set.hpp:98). *)
  Definition shalf : car K := slit 1 2.
  (** The literal 2 (linesearch-armijo.hpp:165-175). *)
  Definition stwo : car K := sofZ 2.

  (** [std::max(a,b)] (prox-solver.hxx:101): returns [b] iff [a < b] (C++ standard, alg.min.max). *)
  Definition smax (a b : car K) : car K := if a <? b then b else a.
  (** [std::min(a,b)], cwiseMin (negative-orthant.hpp:33): returns [b] iff [b < a]. *)
  Definition smin (a b : car K) : car K := if b <? a then b else a.

  (** [math::sign], include/proxsuite-nlp/math.hpp:95-98; also Eigen's array [sign()]. *)
  Definition ssign (x : car K) : car K :=
    sofZ (Z.sub (if 0 <? x then 1%Z else 0%Z) (if x <? 0 then 1%Z else 0%Z)).

  (** Vectors are lists.  Coefficientwise operations (vector-space.hpp:41, 56); Eigen asserts equal sizes, [map2] stops at
      the shorter operand, so the sizes are stated as hypotheses wherever they matter. *)
  Fixpoint map2 {A B C : Type} (f : A -> B -> C) (l : list A) (m : list B) : list C :=
    match l, m with a :: l', b :: m' => f a b :: map2 f l' m' | _, _ => [] end.
  (** [x + v], vector-space.hpp:41. *)
  Definition vadd := map2 (@sadd K).
  (** [x1 - x0], vector-space.hpp:56. *)
  Definition vsub := map2 (@ssub K).
  (** [a * v], vector-space.hpp:75. *)
  Definition vscale (a : car K) (v : list (car K)) := map (fun x => a * x) v.
  (** [-v], prox-solver.hxx:530, 534. *)
  Definition vneg (v : list (car K)) := map (fun x => - x) v.
  (** The sum of a dot product or squared norm (prox-solver.hxx:438-440, pdal.hxx:26); summation order is left to right here, unspecified in Eigen. *)
  Definition vsum (v : list (car K)) : car K := fold_left sadd v 0.
  (** [u.dot(v)], prox-solver.hxx:438-440. *)
  Definition vdot (u v : list (car K)) : car K := vsum (map2 smul u v).
  (** [squaredNorm()], constraint-set.hpp:98. *)
  Definition vsqnorm (v : list (car K)) : car K := vdot v v.

  (** [math::infty_norm], include/proxsuite-nlp/math.hpp:50-57: 0 when empty, else the maximal
      absolute coefficient.  NaN coefficients: Eigen leaves the result unspecified, here a NaN is
      ignored unless it comes first. *)
  Definition inf_norm (v : list (car K)) : car K :=
    match v with
    | [] => 0
    | x :: r => fold_left (fun m y => smax m (sabs y)) r (sabs x)
    end.

  (** Matrices as index functions (dimension carried separately), the MatrixXs of math.hpp:27-39. *)
  Definition mat := nat -> nat -> car K.
  (** Vectors as index functions, the VectorXs of math.hpp:27-39. *)
  Definition vecf := nat -> car K.

  (** [freeze] tabulates a matrix for evaluation; as a function it is the identity
      (see [freeze_id]). It models no line of the C++ code (nearest: the storage of math.hpp:27-39); it only makes [vm_compute] fast. *)
  Definition freeze (r c : nat) (a : mat) : mat :=
    let rows := map (fun i => map (a i) (seq 0 c)) (seq 0 r) in
    fun i j => match nth_error rows i with
               | Some row => match nth_error row j with Some v => v | None => a i j end
               | None => a i j end.
  (** The same for vectors (math.hpp:27-39). *)
  Definition freezev (n : nat) (a : vecf) : vecf :=
    let l := map a (seq 0 n) in
    fun i => match nth_error l i with Some v => v | None => a i end.

  (** Sum of f 0 .. f (n-1), the accumulation of the hand-written kernels and Eigen products (prox-solver.hxx:329-330). *)
  Fixpoint ssum (n : nat) (f : nat -> car K) : car K :=
    match n with O => 0 | S k => ssum k f + f k end.
End Helpers.

Arguments mat : clear implicits.
Arguments vecf : clear implicits.

Lemma nth_error_map_seq {A} (f : nat -> A) n i :
  nth_error (map f (seq 0 n)) i = if (i <? n)%nat then Some (f i) else None.
Proof.
  destruct (Nat.ltb_spec i n) as [Hi|Hi].
  - rewrite (nth_error_nth' _ (f O)) by (rewrite map_length, seq_length; exact Hi).
    f_equal. rewrite map_nth. f_equal. rewrite seq_nth by exact Hi. reflexivity.
  - apply nth_error_None. rewrite map_length, seq_length. exact Hi.
Qed.

Lemma freeze_id (K : Sc) r c (a : mat K) i j : freeze r c a i j = a i j.
Proof.
  unfold freeze. rewrite nth_error_map_seq. destruct (i <? r)%nat; [|reflexivity].
  rewrite nth_error_map_seq. destruct (j <? c)%nat; reflexivity.
Qed.
Lemma freezev_id (K : Sc) n (a : vecf K) i : freezev n a i = a i.
Proof. unfold freezev. rewrite nth_error_map_seq. destruct (i <? n)%nat; reflexivity. Qed.

(** ** Instance: real numbers *)
(** [operator<] on the scalars (math.hpp:97), for the reals. *)
Definition Rltb (a b : R) : bool := if Rlt_dec a b then true else false.
(** [operator<=] on the scalars (bunchkaufman.hpp:59), for the reals. *)
Definition Rleb (a b : R) : bool := if Rle_dec a b then true else false.
(** [operator==] on the scalars (prox-solver.hxx:271), for the reals. *)
Definition Reqb (a b : R) : bool := if Req_EM_T a b then true else false.
Canonical Structure RSc : Sc :=
  {| car := R; s0 := 0%R; s1 := 1%R; sadd := Rplus; ssub := Rminus; smul := Rmult; sdiv := Rdiv;
     sopp := Ropp; sabs := Rabs; ssqrt := sqrt; sltb := Rltb; sleb := Rleb; seqb := Reqb;
     snan := fun _ => false; sfin := fun _ => true; sofZ := IZR |}.

(** ** Instance: reals with NaN and infinities (IEEE exceptional values, no rounding, one zero) *)
(** IEEE scalars without rounding and with one zero (math.hpp:43-46 with Scalar = double, simplified). *)
Inductive xr : Type := XNaN | XInf (neg : bool) | XFin (r : R).
(** Sign of a number, for products with infinities (scalars of math.hpp:43-46). *)
Definition xsgn (r : R) : bool := Rltb r 0.
(** IEEE + without rounding (scalars of math.hpp:43-46, 69-98). *)
Definition xadd (a b : xr) : xr :=
  match a, b with
  | XNaN, _ | _, XNaN => XNaN
  | XInf s, XInf t => if Bool.eqb s t then XInf s else XNaN
  | XInf s, XFin _ => XInf s
  | XFin _, XInf t => XInf t
  | XFin x, XFin y => XFin (x + y)
  end.
(** IEEE unary - without rounding (scalars of math.hpp:43-46, 69-98). *)
Definition xopp (a : xr) : xr :=
  match a with XNaN => XNaN | XInf s => XInf (negb s) | XFin x => XFin (- x) end.
(** IEEE - without rounding (scalars of math.hpp:43-46, 69-98). *)
Definition xsub (a b : xr) : xr :=
  match a, b with
  | XNaN, _ | _, XNaN => XNaN
  | XInf s, XInf t => if Bool.eqb s t then XNaN else XInf s
  | XInf s, XFin _ => XInf s
  | XFin _, XInf t => XInf (negb t)
  | XFin x, XFin y => XFin (x - y)
  end.
(** IEEE * without rounding (scalars of math.hpp:43-46, 69-98). *)
Definition xmul (a b : xr) : xr :=
  match a, b with
  | XNaN, _ | _, XNaN => XNaN
  | XInf s, XInf t => XInf (xorb s t)
  | XInf s, XFin y => if Reqb y 0 then XNaN else XInf (xorb s (xsgn y))
  | XFin x, XInf t => if Reqb x 0 then XNaN else XInf (xorb (xsgn x) t)
  | XFin x, XFin y => XFin (x * y)
  end.
(** IEEE / without rounding (scalars of math.hpp:43-46, 69-98). *)
Definition xdiv (a b : xr) : xr :=
  match a, b with
  | XNaN, _ | _, XNaN => XNaN
  | XInf _, XInf _ => XNaN
  | XInf s, XFin y => XInf (xorb s (xsgn y))
  | XFin _, XInf _ => XFin 0
  | XFin x, XFin y => if Reqb y 0 then (if Reqb x 0 then XNaN else XInf (xsgn x)) else XFin (x / y)
  end.
(** IEEE std::abs without rounding (scalars of math.hpp:43-46, 69-98). *)
Definition xabs (a : xr) : xr :=
  match a with XNaN => XNaN | XInf _ => XInf false | XFin x => XFin (Rabs x) end.
(** IEEE std::sqrt without rounding (scalars of math.hpp:43-46, 69-98). *)
Definition xsqrt (a : xr) : xr :=
  match a with
  | XNaN => XNaN | XInf true => XNaN | XInf false => XInf false
  | XFin x => if Rltb x 0 then XNaN else XFin (sqrt x)
  end.
(** IEEE < without rounding (scalars of math.hpp:43-46, 69-98). *)
Definition xltb (a b : xr) : bool :=
  match a, b with
  | XNaN, _ | _, XNaN => false
  | XInf true, XInf true => false
  | XInf true, _ => true
  | XInf false, _ => false
  | XFin _, XInf t => negb t
  | XFin x, XFin y => Rltb x y
  end.
(** IEEE <= without rounding (scalars of math.hpp:43-46, 69-98). *)
Definition xleb (a b : xr) : bool :=
  match a, b with
  | XNaN, _ | _, XNaN => false
  | XInf true, _ => true
  | XInf false, XInf false => true
  | XInf false, _ => false
  | XFin _, XInf t => negb t
  | XFin x, XFin y => Rleb x y
  end.
(** IEEE == without rounding (scalars of math.hpp:43-46, 69-98). *)
Definition xeqb (a b : xr) : bool :=
  match a, b with
  | XInf s, XInf t => Bool.eqb s t
  | XFin x, XFin y => Reqb x y
  | _, _ => false
  end.
Canonical Structure XSc : Sc :=
  {| car := xr; s0 := XFin 0; s1 := XFin 1; sadd := xadd; ssub := xsub; smul := xmul; sdiv := xdiv;
     sopp := xopp; sabs := xabs; ssqrt := xsqrt; sltb := xltb; sleb := xleb; seqb := xeqb;
     snan := fun a => match a with XNaN => true | _ => false end;
     sfin := fun a => match a with XFin _ => true | _ => false end;
     sofZ := fun z => XFin (IZR z) |}.

(** ** Instance: rationals in lowest terms, for evaluation.
    The square root is exact on squares of rationals only (integer square roots of numerator and
    denominator); division by zero gives 0.  Used for witnesses where neither matters. *)
Canonical Structure QSc : Sc :=
  {| car := Q; s0 := 0%Q; s1 := 1%Q;
     sadd := fun a b => Qred (a + b); ssub := fun a b => Qred (a - b);
     smul := fun a b => Qred (a * b); sdiv := fun a b => Qred (a / b);
     sopp := Qopp; sabs := fun a => Qmake (Z.abs (Qnum a)) (Qden a);
     ssqrt := fun a => Qred (Qmake (Z.sqrt (Qnum a)) (Pos.sqrt (Qden a)));
     sltb := fun a b => negb (Qle_bool b a); sleb := Qle_bool; seqb := Qeq_bool;
     snan := fun _ => false; sfin := fun _ => true; sofZ := inject_Z |}.

(** ** Instance: IEEE binary64, round to nearest even (standard library [SpecFloat]) *)
(** Precision of double (math.hpp:43-46 with Scalar = double). *)
Definition fprec := 53%Z.
(** Exponent range of double (math.hpp:43-46 with Scalar = double). *)
Definition femax := 1024%Z.
Canonical Structure FSc : Sc :=
  {| car := spec_float; s0 := S754_zero false;
     s1 := binary_normalize fprec femax 1 0 false;
     sadd := SFadd fprec femax; ssub := SFsub fprec femax;
     smul := SFmul fprec femax; sdiv := SFdiv fprec femax;
     sopp := SFopp; sabs := SFabs; ssqrt := SFsqrt fprec femax;
     sltb := SFltb; sleb := SFleb; seqb := SFeqb;
     snan := fun a => match a with S754_nan => true | _ => false end;
     sfin := fun a => match a with S754_zero _ | S754_finite _ _ _ => true | _ => false end;
     sofZ := fun z => binary_normalize fprec femax z 0 false |}.

(** ** Reflection of the real comparisons *)
Lemma Rltb_true a b : Rltb a b = true <-> (a < b)%R.
Proof. unfold Rltb; destruct (Rlt_dec a b); split; intros; try discriminate; tauto. Qed.
Lemma Rltb_false a b : Rltb a b = false <-> (b <= a)%R.
Proof.
  unfold Rltb; destruct (Rlt_dec a b) as [H|H]; split; intros K; try discriminate; try reflexivity.
  - exfalso. apply (Rlt_irrefl a). apply Rlt_le_trans with b; assumption.
  - apply Rnot_lt_le; exact H.
Qed.
Lemma Rleb_true a b : Rleb a b = true <-> (a <= b)%R.
Proof. unfold Rleb; destruct (Rle_dec a b); split; intros; try discriminate; tauto. Qed.
Lemma Rleb_false a b : Rleb a b = false <-> (b < a)%R.
Proof.
  unfold Rleb; destruct (Rle_dec a b) as [H|H]; split; intros K; try discriminate; try reflexivity.
  - exfalso. apply (Rlt_irrefl a). apply Rle_lt_trans with b; assumption.
  - apply Rnot_le_lt; exact H.
Qed.
Lemma Reqb_true a b : Reqb a b = true <-> a = b.
Proof. unfold Reqb; destruct (Req_EM_T a b); split; intros; try discriminate; tauto. Qed.
Lemma Reqb_false a b : Reqb a b = false <-> a <> b.
Proof. unfold Reqb; destruct (Req_EM_T a b); split; intros; try discriminate; try reflexivity; tauto. Qed.

(** Case split on the first real comparison found in the goal, with its meaning as hypothesis. *)
Ltac rcase :=
  match goal with
  | |- context [Rltb ?a ?b] => let H := fresh "Hc" in destruct (Rltb a b) eqn:H;
       [apply Rltb_true in H | apply Rltb_false in H]
  | |- context [Rleb ?a ?b] => let H := fresh "Hc" in destruct (Rleb a b) eqn:H;
       [apply Rleb_true in H | apply Rleb_false in H]
  | |- context [Reqb ?a ?b] => let H := fresh "Hc" in destruct (Reqb a b) eqn:H;
       [apply Reqb_true in H | apply Reqb_false in H]
  end.
Ltac rhyp :=
  repeat match goal with
  | H : Rltb _ _ = true |- _ => apply Rltb_true in H
  | H : Rltb _ _ = false |- _ => apply Rltb_false in H
  | H : Rleb _ _ = true |- _ => apply Rleb_true in H
  | H : Rleb _ _ = false |- _ => apply Rleb_false in H
  | H : Reqb _ _ = true |- _ => apply Reqb_true in H
  | H : Reqb _ _ = false |- _ => apply Reqb_false in H
  end.

(** To run a concrete case: a boolean check of the result implies the stated facts. *)
Lemma some_check : forall {A} (P : A -> Prop) (check : A -> bool) (x : option A),
  (forall a, check a = true -> P a) ->
  match x with Some a => check a | None => false end = true -> exists a, x = Some a /\ P a.
Proof. intros A P check [a|] H E; [exists a; auto|discriminate]. Qed.
