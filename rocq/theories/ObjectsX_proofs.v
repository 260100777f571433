(** Counterexamples and examples for C91. *)
From Coq Require Import Reals List Arith Bool Lia Lra.
From Verif Require Import Scalar Cset_spec Cset_model Armijo_model Problem_model Solver_model Manifold_model Manifold_spec Function_model Function_spec FunctionX_proofs
  Objects_model Objects_spec Objects_proofs.
Import ListNotations.
Local Open Scope R_scope.

(** Objects: 0: x; 1: x^2 / 2; 2: 2 x; 3: object 1 after object 2, which is 2 x^2. *)
Definition ex91 : heap RSc :=
  [OLinear (K := RSc) 1 [[1]] [0]; OQuad (K := RSc) 1 1 0%nat [[1]] [0] 0 true (mkCache (K := RSc) [0] [[0]] [[0]]);
   OLinear (K := RSc) 1 [[2]] [0]; OCompose (K := RSc) 1 1 1 1%nat 2%nat].
Definition ex91_b : @buffers RSc := mkBuffers (K := RSc) 0 [0] [0] [[0]] [[0]] [[[0]]].
Definition ex91_p : oproblem := mkOproblem 1 1%nat [(2%nat, 1%nat)].
Definition ex91_cost : fx := XQuad 1 [[1]] [0] 0 (XBase (OLinear (K := RSc) 1 [[1]] [0])).
Definition ex91_con : fx := XBase (OLinear (K := RSc) 1 [[2]] [0]).
Lemma ex91_mat a : mat 1 1 [[a]].
Proof. split; [reflexivity|repeat constructor]. Qed.
Lemma ex91_repr : represents (SVec 1) ex91 ex91_p ex91_cost [ex91_con].
Proof.
  split; [reflexivity|]. split; [exact I|]. split; [|split].
  - split; [reflexivity|]. do 3 eexists. split; [reflexivity|]. split; [apply ex91_mat|]. split; [apply ex91_mat|]. split; [reflexivity|exact I].
  - left. left. reflexivity.
  - constructor; [|constructor]. split; [split; [reflexivity|exact I]|]. split; [reflexivity|left; exact I].
Qed.
Lemma ex91_good D a : good D (Geo (SVec 1)) [a] ex91_cost 1.
Proof.
  split; [reflexivity|]. split; [apply ex91_mat|]. split; [intros [|[|i]] [|[|j]]; reflexivity|]. split; [reflexivity|].
  split; [reflexivity|]. split; [reflexivity|]. split; [apply ex91_mat|]. split; [reflexivity|exact I].
Qed.
Lemma ex91_regular D a : regular D (SVec 1) ex91_cost [ex91_con] [a].
Proof.
  split; [apply ex91_good|]. split; [|split].
  - constructor; [|constructor]. split; [reflexivity|]. split; [reflexivity|]. split; [apply ex91_mat|]. split; [reflexivity|exact I].
  - intros q u v [E|[]] [E'|[]]. congruence.
  - apply flat_paths; [exact I|reflexivity].
Qed.
Lemma order_needed : exists s h p e es b b1 b2 h1, represents s h p e es /\ (forall D x, length x = 1%nat -> regular D s e es x) /\
  (forall junk n, (6 <= n)%nat -> obj_run (K := RSc) junk n p h b [PEval [1]; PEval [2]; PDerivs [1]] = Ret (b1, h1)) /\
  (forall junk n, (6 <= n)%nat -> pure_run (memoryless junk n h p) b [PEval [1]; PEval [2]; PDerivs [1]] = Ret b2) /\ bf_grad b1 <> bf_grad b2.
Proof.
  exists (SVec 1), ex91, ex91_p, ex91_cost, [ex91_con], ex91_b. eexists _, _, _. split; [exact ex91_repr|]. split; [|split; [|split]].
  - intros D [|a [|? ?]] L; try discriminate. apply ex91_regular.
  - intros junk n Hn. do 6 (destruct n as [|n]; [lia|]). cbn. reflexivity.
  - intros junk n Hn. do 6 (destruct n as [|n]; [lia|]). cbn. reflexivity.
  - cbn. intros E. injection E as E. lra.
Qed.
(** The same objective with object 3 as constraint. *)
Lemma sharing_spoils : exists s h p e es b b1 b2 h1, represents s h p e es /\
  (forall D, good D (Geo s) [1] e 1 /\ Forall (fun f => good D (Geo s) [1] f (xnr f)) es) /\
  (forall junk n, (6 <= n)%nat -> obj_run (K := RSc) junk n p h b [PEval [1]; PDerivs [1]] = Ret (b1, h1)) /\
  (forall junk n, (6 <= n)%nat -> pure_run (memoryless junk n h p) b [PEval [1]; PDerivs [1]] = Ret b2) /\ bf_grad b1 <> bf_grad b2.
Proof.
  exists (SVec 1), ex91, (mkOproblem 1 1%nat [(3%nat, 1%nat)]), ex91_cost, [XComp ex91_cost ex91_con], ex91_b. eexists _, _, _. split; [|split; [|split; [|split]]].
  - destruct ex91_repr as (A & B & C & E & _). split; [exact A|]. split; [exact B|]. split; [exact C|]. split; [exact E|].
    constructor; [|constructor]. split; [|split; [reflexivity|left; exact I]]. exists 1%nat, 2%nat. split; [reflexivity|]. split; [exact C|split; [reflexivity|exact I]].
  - intros D. split; [apply ex91_good|]. constructor; [|constructor]. split.
    + split; [reflexivity|]. split; [reflexivity|]. split; [apply ex91_mat|]. split; [reflexivity|exact I].
    + eexists. split; [reflexivity|]. split; [reflexivity|]. split; [apply ex91_mat|]. split; [intros [|[|i]] [|[|j]]; reflexivity|]. split; [reflexivity|].
      split; [reflexivity|]. split; [reflexivity|]. split; [apply ex91_mat|]. split; [reflexivity|exact I].
  - intros junk n Hn. do 6 (destruct n as [|n]; [lia|]). cbn. reflexivity.
  - intros junk n Hn. do 6 (destruct n as [|n]; [lia|]). cbn. reflexivity.
  - cbn. intros E. injection E as E. lra.
Qed.
