(** Model of the utilities of include/proxsuite-nlp/math.hpp (cited as math); [sign], [infty_norm] of a vector and [check_value] of vectors and
    matrices are in Scalar.v and Solver_model.v. *)
From Coq Require Import List Bool ZArith.
From Verif Require Import Scalar Solver_model.
Import ListNotations.

Section Math.
  Context {K : Sc}.
  Local Open Scope sc_scope.
  (** math:59-67 [infty_norm] of a std::vector. *)
  Definition norm_of_list (z : list (list (car K))) : car K := fold_left (fun out zi => smax out (inf_norm zi)) z 0.
  (** std::isinf in math:71, from isnan and isfinite. *)
  Definition isinf (a : car K) : bool := negb (snan a) && negb (sfin a).
  (** math:70-72 [check_scalar]. *)
  Definition check_scalar (a : car K) : bool := snan a || isinf a.
  (** math:78-82 [scalar_close]; the default of [prec] (2^-52 for double) is passed by the caller. *)
  Definition scalar_close (a b prec : car K) : bool := sabs (a - b) <? prec * (1 + smax (sabs a) (sabs b)).
End Math.
