(** Property C58: the arrays of BlockLDLT objects are released once. *)
From Coq Require Import List Bool Arith.
From Verif Require Import Own_model Own_spec Own_proofs.
Import ListNotations.

(** A program that constructs, copies, permutes, analyses, uses and deletes objects, but never assigns one to
    another, has no undefined behaviour: no array is deleted twice or read after deletion, no two objects
    use the same array, and the number of arrays still allocated is four per object and those lost by
    analyzePattern and the permutations. *)
Theorem C58_released_once : forall l f n, account_exec ((fun _ => None), 0) l = Some (f, n) ->
  exists m, mexec mstart l = Some m /\ exclusive m /\ count_occ bool_dec (arrays m) true = n /\
    forall x, blocks m x = None <-> f x = None.
Proof. exact memory_ok. Qed.
Print Assumptions C58_released_once.

(** Three objects, one of them a copy of an analysed one, all used and deleted: with structures that need no analysis, nothing is left. *)
Example C58_example : exists f m, account_exec ((fun _ => None), 0)
    [Construct 0 true; Construct 1 true; CopyConstruct 2 0; Analyze 2 true; Use 2; Delete 0; Use 2; Delete 1; Delete 2] = Some (f, 0) /\
  mexec mstart [Construct 0 true; Construct 1 true; CopyConstruct 2 0; Analyze 2 true; Use 2; Delete 0; Use 2; Delete 1; Delete 2] = Some m /\
  arrays m = repeat false 12.
Proof. eexists. eexists. split; [reflexivity|]. split; reflexivity. Qed.

(** With an assignment this is false: the implicit assignment operator copies the pointers, both destructors
    delete them. *)
Theorem C58_assign_refuted : exists l, mexec mstart (l ++ [Use 0]) <> None /\ mexec mstart (l ++ [Delete 0]) <> None /\
  mexec mstart (l ++ [Delete 0; Use 1]) = None /\ mexec mstart (l ++ [Delete 0; Delete 1]) = None.
Proof. exists [Construct 0 true; Construct 1 true; Assign 0 1]. repeat split; discriminate. Qed.
Print Assumptions C58_assign_refuted.

(** Not every array is released: after findSparsifyingPermutation or setBlockPermutation on a fresh object,
    four arrays are never deleted. *)
Theorem C58_leak_refuted : exists l m, mexec mstart l = Some m /\ (forall x, blocks m x = None) /\ count_occ bool_dec (arrays m) true = 4.
Proof. exists [Construct 0 false; Permute 0 true; Use 0; Delete 0]. eexists. split; [reflexivity|]. split; [|reflexivity]. intros [|x]; reflexivity. Qed.
Print Assumptions C58_leak_refuted.
