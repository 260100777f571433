(** Proofs for C100. *)
From Coq Require Import List QArith Lia.
From Verif Require Import Scalar Cset_model Armijo_model Problem_model Solver_model Solver_examples Settings_spec.
Import ListNotations.

Lemma prox_twice {K : Sc} (a c : car K) (st : cset K) : set_prox a (set_prox c st) = set_prox a st.
Proof. destruct st; reflexivity. Qed.
(** Two states that differ in the parameters only. *)
Definition alike {K : Sc} {O : oracles K} (s t : solver_state O) : Prop :=
  (forall a, map (set_prox a) (sets s) = map (set_prox a) (sets t)) /\ s_target _ _ s = s_target _ _ t /\ res s = res t /\ wsp s = wsp t /\ s_events _ _ s = s_events _ _ t.
Lemma settings_alike {K : Sc} {O : oracles K} (l : list (@setting K)) : forall s : solver_state O, alike (settings l s) s.
Proof.
  induction l as [|[m|r] l IH]; intros s; [repeat split| |]; cbn [settings]; destruct (IH (set_penalty (o_fac O) (o_bfgs O) m s)) as (A & B & C & D & E) || destruct (IH (set_rho (o_fac O) (o_bfgs O) r s)) as (A & B & C & D & E);
    (split; [intros a; rewrite A; cbn; try reflexivity; rewrite map_map; apply map_ext; intros; apply prox_twice|]; repeat split; assumption).
Qed.
Lemma init_alike {K : Sc} {O : oracles K} (P : @params K) p x0 l0 (s t : solver_state O) : alike s t -> init_solve (o_pow O) (o_fac O) (o_bfgs O) P p x0 l0 s = init_solve (o_pow O) (o_fac O) (o_bfgs O) P p x0 l0 t.
Proof.
  destruct s, t. intros (A & B & C & D & E). cbn in *. subst. unfold init_solve, set_penalty, set_rho, init_point, tol_failure, set_tols, reset_counters. cbn. rewrite A. reflexivity.
Qed.
Lemma settings_lost {K : Sc} (O : oracles K) fo fi fls fin (P : @params K) p l (s : solver_state O) x0 l0 :
  run_solve O fo fi fls fin P p (Some (settings l s)) x0 l0 = run_solve O fo fi fls fin P p (Some s) x0 l0.
Proof. unfold run_solve, solve. rewrite (init_alike P p x0 l0 _ _ (settings_alike l s)). reflexivity. Qed.
Lemma target_stale : exists s' f x, ex_run QSc params3 problem3 (Some (ex_setup QSc params3 problem3 [])) [2%Q] [] = Ret (s', f) /\ r_x (res s') = [x] /\ (x == 3 # 2)%Q /\ (obj3 2 < obj3 x)%Q.
Proof.
  destruct (ex_run QSc params3 problem3 (Some (ex_setup QSc params3 problem3 [])) [2%Q] []) as [[s' f]| | |] eqn:E; vm_compute in E; try discriminate.
  exists s', f. injection E as <- <-. eexists. split; [reflexivity|]. split; [reflexivity|]. split; vm_compute; reflexivity.
Qed.
