(** Specification for C22: what may have happened to a solver before a call. *)
From Coq Require Import List Bool Arith.
From Verif Require Import Scalar Cset_model Problem_model Solver_model.
Import ListNotations.

(** In every product inside the set the sizes of the components add up to the size of the product. *)
Fixpoint whole {K : Sc} (c : cset K) (n : nat) {struct c} : Prop :=
  match c with
  | CProd _ cs => fold_right (fun cn s => snd cn + s) 0 cs = n /\
      (fix go (l : list (cset K * nat)) : Prop := match l with [] => True | (c', k) :: r => whole c' k /\ go r end) cs
  | _ => True
  end.
(** The solver s is the solver s0 after any number of calls of solve that returned, each with its own
    parameters, starting point and multipliers. *)
Inductive after {K : Sc} (O : oracles K) (p : @problem K) (s0 : solver_state O) : solver_state O -> Prop :=
| after_none : after O p s0 s0
| after_solve : forall fo fi fls fin P s x lams s' f, after O p s0 s ->
    run_solve O fo fi fls fin P p (Some s) x lams = Ret (s', f) -> after O p s0 s'.
(** Two calls end alike: the same exception, or the same flag, the same results, and the same calls of
    callbacks. *)
Definition same_call {K : Sc} {O : oracles K} (s t : solver_state O) (a b : outcome (solver_state O * conv_flag)) : Prop :=
  match a, b with
  | Ret (s', f), Ret (t', g) => f = g /\ res s' = res t' /\
      exists evs, s_events _ _ s' = s_events _ _ s ++ evs /\ s_events _ _ t' = s_events _ _ t ++ evs
  | Throw e, Throw e' => e = e'
  | UB, UB => True
  | Fuel, Fuel => True
  | _, _ => False
  end.
