(** Model of include/proxsuite-nlp/linesearch-base.hpp and linesearch-armijo.hpp. *)
From Coq Require Import List Bool Arith ZArith.
From Verif Require Import Scalar.
Import ListNotations.

Section Armijo.
  Context {K : Sc}.
  Local Open Scope sc_scope.

  (** ** Polynomials, linesearch-armijo.hpp:17-41; coefficients in decreasing order of degree. *)

  (** linesearch-armijo.hpp:24-30 [evaluate]. *)
  Definition poly_eval (coeffs : list (car K)) (a : car K) : car K :=
    fold_left (fun r c => r * a + c) coeffs 0.

  (** linesearch-armijo.hpp:36-38, the loop over i of [derivative]; [deg] is [T(degree())]. *)
  Fixpoint deriv_loop (deg : Z) (i : Z) (coeffs : list (car K)) : list (car K) :=
    match coeffs with
    | [] => []
    | [_] => []
    | c :: r => c * (sofZ deg - sofZ i) :: deriv_loop deg (i + 1) r
    end.
  (** linesearch-armijo.hpp:31-40 [derivative]; [None]: no coefficients, degree -1 and a vector of
      negative size is requested (undefined in release builds). *)
  Definition poly_deriv (coeffs : list (car K)) : option (list (car K)) :=
    match coeffs with
    | [] => None
    | [_] => Some [0]
    | _ => Some (deriv_loop (Z.of_nat (length coeffs) - 1) 0 coeffs)
    end.

  (** ** Options and samples *)

  (** linesearch-base.hpp:12 [LSInterpolation]. *)
  Inductive interp_type := BISECTION | QUADRATIC | CUBIC.

  (** linesearch-base.hpp:18-30 [Options]; [wolfe_c2] is not used by the Armijo search. *)
  Record ls_options := mkLs {
    armijo_c1 : car K; dphi_thresh : car K; alpha_min : car K; max_num_steps : nat;
    interp : interp_type; contraction_min : car K; contraction_max : car K
  }.

  (** linesearch-base.hpp:19-22, the default options. *)
  Definition ls_default : ls_options :=
    mkLs (slit 1 10000) (slit 1 10000000000000) (slit 1 1000000) 20 CUBIC (slit 1 2) (slit 4 5).

  (** linesearch-base.hpp:45-53 [FunctionSample] and its three constructors. *)
  Record sample := mkSample { sa : car K; sphi : car K; sdphi : car K; svalid : bool }.
  (** linesearch-base.hpp:50, the default constructor. *)
  Definition sample0 : sample := mkSample 0 0 0 false.
  (** linesearch-base.hpp:51. *)
  Definition sample2 (a v : car K) : sample := mkSample a v 0 true.
  (** linesearch-base.hpp:52. *)
  Definition sample3 (a v g : car K) : sample := mkSample a v g true.

  (** ** Interpolation *)
  (** Solution of the 2x2 system [m00 m01; m10 m11] x = (b0, b1) (linesearch-armijo.hpp:193-194,
      [Eigen::HouseholderQR]): an argument of the model. *)
  Variable qr : car K -> car K -> car K -> car K -> car K -> car K -> car K * car K.

  (** linesearch-armijo.hpp:165-175 and 176-205: coefficients of the interpolant and unclipped
      minimiser, from the samples [lower_bound], [cand0] (latest) and possibly [cand1] (previous). *)
  Definition quad_interp (lb c0 : sample) : list (car K) * car K :=
    let a := (sphi c0 - sphi lb - sa c0 * sdphi lb) / (sa c0 * sa c0) in
    ([a; sdphi lb; sphi lb], (- sdphi lb) / (stwo * a)).
  (** linesearch-armijo.hpp:176-205, the cubic case. *)
  Definition cubic_interp (lb c0 c1 : sample) : list (car K) * car K :=
    let a0 := sa c0 in
    let a1 := sa c1 in
    let '(k3, k2) := qr (a0 * a0 * a0) (a0 * a0) (a1 * a1 * a1) (a1 * a1)
                        (sphi c1 - sphi lb - sdphi lb * a1) (sphi c0 - sphi lb - sdphi lb * a0) in
    ([k3; k2; sdphi lb; sphi lb],
     (- k2 + ssqrt (k2 * k2 - sofZ 3 * k3 * sdphi lb)) / (sofZ 3 * k3)).

  (** linesearch-armijo.hpp:210-219: safeguard. *)
  Definition clip (poly : list (car K)) (anext mn mx : car K) : car K :=
    if (mx <? anext) || (anext <? mn) then
      let pleft := poly_eval poly mn in
      let pright := poly_eval poly mx in
      if pleft <? pright then mn else mx
    else anext.

  (** linesearch-armijo.hpp:150-222 [minimize_interpolant]; called with strat QUADRATIC or CUBIC
      only, [prev = None] when [samples.size() == 2] (then strat is replaced by QUADRATIC,
      lines 160-162). *)
  Definition minimize_interpolant (lb latest : sample) (prev : option sample) (mn mx : car K) : car K :=
    let '(poly, anext) := match prev with
                          | None => quad_interp lb latest
                          | Some p => cubic_interp lb latest p
                          end in
    clip poly anext mn mx.

  (** linesearch-armijo.hpp:93-125: next trial step before the NaN/alpha_min treatment. *)
  Definition next_alpha (o : ls_options) (lb latest previous : sample) (alpha : car K) : car K :=
    match interp o with
    | BISECTION => alpha * shalf
    | QUADRATIC =>
        minimize_interpolant lb latest None (contraction_min o * alpha) (contraction_max o * alpha)
    | CUBIC =>
        minimize_interpolant lb latest (if svalid previous then Some previous else None)
          (contraction_min o * alpha) (contraction_max o * alpha)
    end.
  (** linesearch-armijo.hpp:127-132. *)
  Definition guard_alpha (o : ls_options) (previous : sample) (a : car K) : car K :=
    if snan a then contraction_min o * sa previous else smax a (alpha_min o).

  (** ** The search.
      The merit function is any deterministic, possibly stateful and possibly throwing function:
      it gets the list of the steps it was called with so far (most recent first) and the step;
      [None] is a [std::runtime_error]. *)
  Variable phi : list (car K) -> car K -> option (car K).

  (** linesearch-armijo.hpp:69-80; returns alpha, latest and the list of evaluated steps.
      [None] = out of fuel: the loop has made [fuel] evaluations and goes on. *)
  Fixpoint first_loop (fuel : nat) (o : ls_options) (alpha : car K) (tr : list (car K))
    : option (car K * sample * list (car K)) :=
    match fuel with
    | O => None
    | S f =>
        match phi tr alpha with
        | Some v => Some (alpha, sample2 alpha v, alpha :: tr)
        | None =>
            let a := alpha * shalf in
            if a <=? alpha_min o then Some (alpha_min o, sample0, alpha :: tr)
            else first_loop f o a (alpha :: tr)
        end
    end.

  (** linesearch-armijo.hpp:86-144; [n] iterations left. Returns alpha, latest, trace. *)
  Fixpoint main_loop (n : nat) (o : ls_options) (phi0 dphi0 : car K) (alpha : car K)
           (latest previous : sample) (tr : list (car K)) : car K * sample * list (car K) :=
    match n with
    | O => (alpha, latest, tr)
    | S n' =>
        if (sphi latest - phi0) <=? (armijo_c1 o * alpha * dphi0) then (alpha, latest, tr)
        else
          let a := guard_alpha o previous
                     (next_alpha o (sample3 0 phi0 dphi0) latest previous alpha) in
          match phi tr a with
          | None => main_loop n' o phi0 dphi0 a latest latest (a :: tr)
          | Some v =>
              if a <=? alpha_min o then (a, sample2 a v, a :: tr)
              else main_loop n' o phi0 dphi0 a (sample2 a v) latest (a :: tr)
          end
    end.

  (** linesearch-armijo.hpp:59-147 [run]: the value returned, the final [alpha_try] and the trace
      of evaluated steps (most recent first). *)
  Record ls_result := mkRes { r_phi : car K; r_alpha : car K; r_trace : list (car K) }.
  (** linesearch-armijo.hpp:59-147 [run]. *)
  Definition run (fuel : nat) (o : ls_options) (phi0 dphi0 : car K) : option ls_result :=
    match first_loop fuel o 1 [] with
    | None => None
    | Some (alpha, latest, tr) =>
        if sabs dphi0 <? dphi_thresh o then Some (mkRes (sphi latest) alpha tr)
        else
          let '(a, l, t) := main_loop (max_num_steps o) o phi0 dphi0 alpha latest sample0 tr in
          Some (mkRes (sphi l) (smax a (alpha_min o)) t)
    end.

  (** A solver for the 2x2 systems of linesearch-armijo.hpp:193-194 by Cramer's rule; in exact
      arithmetic it agrees with the QR solve whenever the matrix is regular (used for C07 and in
      examples only). *)
  Definition cramer (m00 m01 m10 m11 b0 b1 : car K) : car K * car K :=
    let det := m00 * m11 - m01 * m10 in
    ((b0 * m11 - m01 * b1) / det, (m00 * b1 - b0 * m10) / det).
End Armijo.
Arguments ls_options : clear implicits.
Arguments sample : clear implicits.
Arguments ls_result : clear implicits.
