(** Runs for C102. *)
From Coq Require Import Reals QArith List Bool Arith Lia.
From Verif Require Import Scalar Cset_model Armijo_model Problem_model Solver_model Solver_examples Log_model Log_spec Log_proofs.
Import ListNotations.

(** x^2 / 2 subject to x = 1, started at x = 1 (rationals). *)
Definition ex_text (v : verbosity) (active : bool) := let P := ex_params QSc 30 30 (1 # 1000000) MM_NEWTON in let p := ex_problem QSc [ex_minus QSc (1 # 1)] in
  solve_text (ex_oracles QSc) v active 31 30 50 50 P p (Some (ex_setup QSc P p [CEq (K := QSc) (1 # 100)])) [1 # 1] [].
Definition kind (l : line (K := QSc)) : list nat := match l with Titles => [0] | Row r => [1; lg_iter r] | Converged => [2] | OutOfIters => [3] | Newline => [4] end%nat.
Definition seen (x : list line * bool * outcome (solver_state (ex_oracles QSc) * conv_flag)) := (map kind (fst (fst x)), snd (fst x), match snd x with Ret (s, SUCCESS) => Some (r_num_iters (res s)) | _ => None end).
Lemma seen_short x a n : seen x = ([[2]; [4]], a, Some n)%nat -> exists s', x = ([Converged; Newline], a, Ret (s', SUCCESS)) /\ r_num_iters (res s') = n.
Proof.
  destruct x as [[t a0] o]. unfold seen. cbn [fst snd]. intros H. injection H as C1 -> C2. destruct o as [[s' []]| | |]; try discriminate C2. injection C2 as C2. exists s'. split; [|exact C2].
  destruct t as [|[] [|[] [|? ?]]]; try discriminate C1. reflexivity.
Qed.
Lemma quiet_prints : exists s', ex_text QUIET true = ([Converged; Newline], false, Ret (s', SUCCESS)).
Proof. destruct (seen_short (ex_text QUIET true) false 3 ltac:(vm_compute; reflexivity)) as (s' & E & _). exists s'. exact E. Qed.
Lemma silent_later : exists t a o s', ex_text QUIET true = (t, a, o) /\ ex_text VERYVERBOSE a = ([Converged; Newline], false, Ret (s', SUCCESS)) /\ (0 < r_num_iters (res s'))%nat.
Proof.
  destruct quiet_prints as [s1 E1]. destruct (seen_short (ex_text VERYVERBOSE false) false 3 ltac:(vm_compute; reflexivity)) as (s' & E & N).
  exists [Converged; Newline], false, (Ret (s1, SUCCESS)), s'. split; [exact E1|]. split; [exact E|]. rewrite N. lia.
Qed.
Lemma silenced (K : Sc) (O : oracles K) fo fi fls fin P p so x0 lams0 :
  (forall active, snd (fst (solve_text O QUIET active fo fi fls fin P p so x0 lams0)) = false) /\
  (forall v, let '(t, active', _) := solve_text O v false fo fi fls fin P p so x0 lams0 in rows_in t = [] /\ active' = false).
Proof.
  split.
  - intros active. unfold solve_text. destruct so as [s|]; [|reflexivity]. destruct (outer_text O _ fo fi fls fin P p _) as [t [s1|e| |]]; reflexivity.
  - intros v. destruct (solve_text O v false fo fi fls fin P p so x0 lams0) as [[t a] o] eqn:E. destruct so as [s|].
    + destruct (text_ok K O v false fo fi fls fin P p s x0 lams0 t a o E) as (rows & _ & _ & _ & Q & _). destruct (Q (or_intror eq_refl)) as [-> ->]. split; [|reflexivity]. destruct o as [[? []]| | |]; reflexivity.
    + cbn in E. injection E as <- <- <-. split; [reflexivity|]. destruct v; reflexivity.
Qed.
