From Coq Require Import Reals List Arith Lia Lra.
From Verif Require Import Scalar Lin_spec.
Import ListNotations.
Local Open Scope R_scope.

Lemma rsum_ext n f g : (forall i, (i < n)%nat -> f i = g i) -> rsum n f = rsum n g.
Proof. induction n as [|n IH]; intros H; [reflexivity|]. cbn. rewrite IH, H; [reflexivity|lia|intros; apply H; lia]. Qed.
Lemma rsum_zero n f : (forall i, (i < n)%nat -> f i = 0) -> rsum n f = 0.
Proof. induction n as [|n IH]; intros H; [reflexivity|]. cbn. rewrite IH, H; [lra|lia|intros; apply H; lia]. Qed.
Lemma rsum_plus n f g : rsum n (fun i => f i + g i) = rsum n f + rsum n g.
Proof. induction n as [|n IH]; cbn; [lra|]. rewrite IH. lra. Qed.
Lemma rsum_minus n f g : rsum n (fun i => f i - g i) = rsum n f - rsum n g.
Proof. induction n as [|n IH]; cbn; [lra|]. rewrite IH. lra. Qed.
Lemma rsum_scale n a f : rsum n (fun i => a * f i) = a * rsum n f.
Proof. induction n as [|n IH]; cbn; [lra|]. rewrite IH. lra. Qed.
Lemma rsum_scale_r n a f : rsum n (fun i => f i * a) = rsum n f * a.
Proof. induction n as [|n IH]; cbn; [lra|]. rewrite IH. lra. Qed.
Lemma rsum_split n m f : rsum (n + m) f = rsum n f + rsum m (fun i => f (n + i)%nat).
Proof. induction m as [|m IH]; [rewrite Nat.add_0_r; cbn; lra|]. rewrite Nat.add_succ_r. cbn. rewrite IH. lra. Qed.
Lemma rsum_head n f : rsum (S n) f = f 0%nat + rsum n (fun i => f (S i)).
Proof. change (S n) with (1 + n)%nat. rewrite rsum_split. cbn. lra. Qed.
Lemma rsum_cut n m f : (m <= n)%nat -> (forall i, (m <= i)%nat -> (i < n)%nat -> f i = 0) -> rsum n f = rsum m f.
Proof. intros L H. replace n with (m + (n - m))%nat by lia. rewrite rsum_split, (rsum_zero (n - m)); [lra|]. intros i Hi. apply H; lia. Qed.
Lemma rsum_one n f k : (k < n)%nat -> (forall i, (i < n)%nat -> i <> k -> f i = 0) -> rsum n f = f k.
Proof.
  intros L H. rewrite (rsum_cut n (S k)); [|lia|intros; apply H; lia]. cbn. rewrite rsum_zero; [lra|]. intros; apply H; lia.
Qed.
Lemma rsum_swap n m (f : nat -> nat -> R) : rsum n (fun i => rsum m (fun j => f i j)) = rsum m (fun j => rsum n (fun i => f i j)).
Proof. induction n as [|n IH]; cbn; [symmetry; apply rsum_zero; reflexivity|]. rewrite IH, <- rsum_plus. reflexivity. Qed.
Lemma ssum_rsum n f : ssum (K := RSc) n f = rsum n f.
Proof. induction n as [|n IH]; cbn; [reflexivity|]. rewrite IH. reflexivity. Qed.

(** The scalar recursion of the factorisation. *)
Lemma ldl_entry n L D i j : unit_lower n L -> (j <= i)%nat -> (i < n)%nat -> ldl n L D i j = rsum j (fun t => L i t * D t * L j t) + L i j * D j.
Proof.
  intros [U Lw] Hj Hi. unfold ldl. rewrite (rsum_cut n (S j)); [|lia|].
  - cbn. rewrite (U j) by lia. lra.
  - intros t H1 H2. rewrite (Lw j t) by lia. lra.
Qed.
Lemma ldl_sym n L D i j : ldl n L D i j = ldl n L D j i.
Proof. unfold ldl. apply rsum_ext. intros; lra. Qed.
