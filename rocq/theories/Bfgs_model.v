(** Model of the quasi-Newton updates: bfgs-strategy.hpp (below include/proxsuite-nlp). *)
From Coq Require Import List Bool Arith ZArith.
From Verif Require Import Scalar Cset_model Problem_model Manifold_model Function_model.
Import ListNotations.

Section Bfgs.
  Context {K : Sc}.
  Local Open Scope sc_scope.
  Notation vec := (list (car K)).
  Notation rows := (list (list (car K))).

  (** bfgs-strategy.hpp:85-99, the members that outlive a call: is_init, is_psd, is_valid, x_prev,
      g_prev.  The other members are written before they are read. *)
  Record bfgs := mkBfgs { b_init : bool; b_psd : bool; b_valid : bool; b_x : vec; b_g : vec }.
  (** bfgs-strategy.hpp:16-19, default constructor. *)
  Definition bfgs_default : bfgs := mkBfgs false false false [] [].
  (** bfgs-strategy.hpp:21-32. *)
  Definition bfgs_new (n : nat) : bfgs := mkBfgs false true true (repeat 0 n) (repeat 0 n).
  (** bfgs-strategy.hpp:34-43 [init]; the vectors take the size of the arguments. *)
  Definition bfgs_start (b : bfgs) (x g : vec) : outcome bfgs :=
    if b_valid b then Ret (mkBfgs true (b_psd b) true x g) else Throw ErrBfgs.
  (** a * b.transpose(), bfgs-strategy.hpp:60-66. *)
  Definition outer (a b : vec) : rows := map (fun p => map (fun q => p * q) b) a.
  (** M / a, bfgs-strategy.hpp:69, 72. *)
  Definition mdiv (M : rows) (a : car K) : rows := map (map (fun q => q / a)) M.
  (** bfgs-strategy.hpp:45-81 [update]; [inv]: BFGS_TYPE is InverseHessian.  The warning of line 76 is
      not modelled.  A Hessian that is not square of the size of s is an Eigen assertion. *)
  Definition bfgs_update (inv : bool) (b : bfgs) (x g : vec) (H : rows) : outcome (bfgs * rows) :=
    if negb (b_init b) then (do b' <- bfgs_start b x g; Ret (b', H))%out
    else
      (do s <- vop ssub x (b_x b);
       do y <- vop ssub g (b_g b);
       do sy <- dot s y;
       if sltb 0 sy then
         let p := if inv then s else y in
         let q := if inv then y else s in
         let n := length s in
         do V <- mop ssub (eye_scaled 1 n) (mdiv (outer p q) sy);
         do W <- mm n V H;
         do Z <- mm n W (transp n V);
         do H' <- mop sadd Z (mdiv (outer p p) sy);
         Ret (mkBfgs true true (b_valid b) x g, H')
       else Ret (mkBfgs true false (b_valid b) x g, H))%out.
End Bfgs.
Arguments bfgs : clear implicits.
