(** Proofs about the constraint sets. *)
From Coq Require Import Reals List Bool Arith Lia Lra Psatz.
From Verif Require Import Scalar Cset_model Cset_spec.
Import ListNotations.
Local Open Scope R_scope.

(** Induction principle for nested products. *)
Section Ind.
  Variable K : Sc.
  Variable P : cset K -> Prop.
  Hypothesis HE : forall m, P (CEq m).
  Hypothesis HN : forall m, P (CNeg m).
  Hypothesis HB : forall m l u, P (CBox m l u).
  Hypothesis HL : forall m, P (CL1 m).
  Hypothesis HP : forall m cs, Forall (fun cn => P (fst cn)) cs -> P (CProd m cs).
  Fixpoint cset_ind' (c : cset K) : P c :=
    match c with
    | CEq m => HE m | CNeg m => HN m | CBox m l u => HB m l u | CL1 m => HL m
    | CProd m cs =>
        HP m cs ((fix go (l : list (cset K * nat)) : Forall (fun cn => P (fst cn)) l :=
                    match l with
                    | [] => Forall_nil _
                    | cn :: r => Forall_cons cn (cset_ind' (fst cn)) (go r)
                    end) cs)
    end.
End Ind.

Lemma skipn_skipn {A} (m n : nat) (l : list A) : skipn m (skipn n l) = skipn (m + n) l.
Proof.
  revert l; induction n as [|n IH]; intros l; [now rewrite Nat.add_0_r|].
  rewrite Nat.add_succ_r. destruct l as [|a l]; cbn; [apply skipn_nil|apply IH].
Qed.

(** ** Block loops *)
Section Loop.
  Context {C A B : Type}.
  Variable f : C -> list A -> list B -> option (list B).
  Variable g : C -> nat -> list A -> list B -> list B.
  Definition total (cs : list (C * nat)) : nat := fold_right (fun cn s => (snd cn + s)%nat) O cs.
  Fixpoint blocks (cs : list (C * nat)) (z : list A) (o : list B) : list B :=
    match cs with
    | [] => o
    | (c, k) :: r => g c k (firstn k z) (firstn k o) ++ blocks r (skipn k z) (skipn k o)
    end.
  Definition good (cn : C * nat) : Prop :=
    forall z o, length z = snd cn -> length o = snd cn ->
      f (fst cn) z o = Some (g (fst cn) (snd cn) z o) /\ length (g (fst cn) (snd cn) z o) = snd cn.

  Lemma skipn_firstn_app (k n : nat) (l : list B) b :
    length b = n -> (k + n <= length l)%nat ->
    skipn (k + n) (firstn k l ++ b ++ skipn (k + n) l) = skipn (k + n) l.
  Proof.
    intros Hb Hl. rewrite app_assoc.
    assert (Hlen : length (firstn k l ++ b) = (k + n)%nat).
    { rewrite app_length, firstn_length_le by lia. lia. }
    rewrite <- Hlen at 1. rewrite skipn_app, skipn_all, Nat.sub_diag. reflexivity.
  Qed.

  Lemma loop_gen (rd : list B -> list A) cs : Forall good cs ->
    forall start z zout,
      (forall k o, (k <= length zout)%nat -> length o = length zout ->
                   skipn k o = skipn k zout -> skipn k (rd o) = skipn k z /\ length (rd o) = length z) ->
      (start + total cs <= length z)%nat -> (start + total cs <= length zout)%nat ->
      forall o, length o = length zout -> skipn start o = skipn start zout ->
      prod_loop f rd cs start o =
        Some (firstn start o ++ blocks cs (skipn start z) (skipn start zout)).
  Proof.
    induction 1 as [|[c k] cs Hg Hcs IH]; intros start z zout Hrd Hz Hzo o Ho Heq.
    - cbn. rewrite <- Heq, firstn_skipn. reflexivity.
    - cbn [prod_loop total fold_right snd blocks] in *.
      assert (Hst : (start <= length zout)%nat) by lia.
      destruct (Hrd start o Hst Ho Heq) as [Hr1 Hr2].
      unfold segment.
      destruct (Nat.leb_spec (start + k) (length (rd o))) as [H1|H1]; [|lia].
      destruct (Nat.leb_spec (start + k) (length o)) as [H2|H2]; [|lia].
      rewrite Hr1, Heq.
      assert (L1 : length (firstn k (skipn start z)) = k)
        by (rewrite firstn_length, skipn_length; lia).
      assert (L2 : length (firstn k (skipn start zout)) = k)
        by (rewrite firstn_length, skipn_length; lia).
      destruct (Hg _ _ L1 L2) as [E1 E2]. cbn [fst snd] in E1, E2. rewrite E1.
      set (b := g c k (firstn k (skipn start z)) (firstn k (skipn start zout))) in *.
      change (_ = ?r) with (prod_loop f rd cs (start + k) (write_segment start b o) = r).
      unfold write_segment. rewrite E2.
      assert (Lw : length (firstn start o ++ b ++ skipn (start + k) o) = length zout).
      { rewrite !app_length, firstn_length_le, skipn_length, E2 by lia. lia. }
      assert (Sw : skipn (start + k) (firstn start o ++ b ++ skipn (start + k) o)
                   = skipn (start + k) zout).
      { rewrite skipn_firstn_app by (try exact E2; lia).
        replace (start + k)%nat with (k + start)%nat by lia.
        rewrite <- !skipn_skipn, Heq. reflexivity. }
      assert (T1 : (start + k + total cs <= length z)%nat) by (unfold total; lia).
      assert (T2 : (start + k + total cs <= length zout)%nat) by (unfold total; lia).
      rewrite (IH (start + k)%nat z zout Hrd T1 T2 _ Lw Sw). f_equal.
      assert (Hlen : length (firstn start o ++ b) = (start + k)%nat).
      { rewrite app_length, firstn_length_le by lia. lia. }
      rewrite (app_assoc (firstn start o) b), firstn_app, Hlen, Nat.sub_diag.
      cbn [firstn]. rewrite app_nil_r, <- Hlen, firstn_all, Hlen, <- app_assoc.
      rewrite !(skipn_skipn k start). replace (k + start)%nat with (start + k)%nat by lia.
      reflexivity.
  Qed.

  Lemma loop_const cs z zout : Forall good cs ->
    (total cs <= length z)%nat -> (total cs <= length zout)%nat ->
    prod_loop f (fun _ => z) cs 0 zout = Some (blocks cs z zout).
  Proof.
    intros Hg H1 H2.
    rewrite (loop_gen (fun _ => z) cs Hg O z zout); auto.
  Qed.
End Loop.

Lemma loop_alias {C A} (f : C -> list A -> list A -> option (list A)) g cs z :
  Forall (good f g) cs -> (total cs <= length z)%nat ->
  prod_loop f (fun o => o) cs 0 z = Some (blocks g cs z z).
Proof.
  intros Hg H1. rewrite (loop_gen f g (fun o => o) cs Hg O z z); auto.
Qed.

(** ** Coordinates: every set is a product of one-dimensional sets *)
Inductive coord := KEq | KNeg | KBox (lo up : R) | KL1 (mu : R).

Fixpoint coords (c : rset) (n : nat) {struct c} : list coord :=
  match c with
  | CEq _ => repeat KEq n
  | CNeg _ => repeat KNeg n
  | CBox _ lo up => map2 KBox lo up
  | CL1 mu => repeat (KL1 mu) n
  | CProd _ comps => flat_map (fun cn => coords (fst cn) (snd cn)) comps
  end.

Definition cproj (k : coord) (z : R) : R :=
  match k with
  | KEq => 0
  | KNeg => neg1 (K := RSc) z
  | KBox lo up => box1 (K := RSc) lo up z
  | KL1 mu => l11 (K := RSc) mu z
  end.
Definition ccone (k : coord) (z : R) : R :=
  match k with
  | KEq => z
  | KNeg => neg1_cone (K := RSc) z
  | _ => z - cproj k z
  end.
Definition cact (k : coord) (z : R) : bool :=
  match k with
  | KEq => true
  | KNeg => Rltb 0 z
  | KBox lo up => Rltb up z || Rltb z lo
  | KL1 mu => Rleb (Rabs z) mu
  end.
Definition cin (k : coord) (z : R) : Prop :=
  match k with KEq => z = 0 | KNeg => z <= 0 | KBox lo up => lo <= z <= up | KL1 _ => True end.
Definition cpen (k : coord) (z : R) : R := match k with KL1 _ => Rabs z | _ => 0 end.
Definition cok (k : coord) : Prop := match k with KBox lo up => lo <= up | _ => True end.
Definition cmu (mu : R) (k : coord) : Prop := match k with KL1 m => m = mu | _ => True end.
Definition cnol1 (k : coord) : Prop := match k with KL1 _ => False | _ => True end.
Definition ckink (k : coord) (z : R) : Prop :=
  match k with KEq => True | KNeg => z <> 0 | KBox lo up => z <> lo /\ z <> up | KL1 mu => Rabs z <> mu end.

(** *** list helpers *)
Lemma map2_length {A B C} (f : A -> B -> C) l m : length (map2 f l m) = Nat.min (length l) (length m).
Proof. revert m; induction l as [|a l IH]; intros [|b m]; cbn; auto. Qed.
Lemma map3_length {A B C D} (f : A -> B -> C -> D) l m n :
  length (map3 f l m n) = Nat.min (length l) (Nat.min (length m) (length n)).
Proof. revert m n; induction l as [|a l IH]; intros [|b m] [|c n]; cbn; auto. Qed.
Lemma map2_app {A B C} (f : A -> B -> C) l1 l2 m1 m2 :
  length l1 = length m1 -> map2 f (l1 ++ l2) (m1 ++ m2) = map2 f l1 m1 ++ map2 f l2 m2.
Proof. revert m1; induction l1 as [|a l IH]; intros [|b m] H; cbn in *; try discriminate; auto.
  f_equal. apply IH. lia. Qed.
Lemma map3_app {A B C D} (f : A -> B -> C -> D) l1 l2 m1 m2 n1 n2 :
  length l1 = length m1 -> length l1 = length n1 ->
  map3 f (l1 ++ l2) (m1 ++ m2) (n1 ++ n2) = map3 f l1 m1 n1 ++ map3 f l2 m2 n2.
Proof. revert m1 n1; induction l1 as [|a l IH]; intros [|b m] [|c n] H H'; cbn in *;
    try discriminate; auto. f_equal. apply IH; lia. Qed.
Lemma map3_firstn {A B C D} (f : A -> B -> C -> D) l1 l2 z o k :
  length l1 = k -> (k <= length z)%nat -> (k <= length o)%nat ->
  map3 f (l1 ++ l2) z o = map3 f l1 (firstn k z) (firstn k o) ++ map3 f l2 (skipn k z) (skipn k o).
Proof.
  intros H1 H2 H3. rewrite <- (firstn_skipn k z) at 1. rewrite <- (firstn_skipn k o) at 1.
  apply map3_app; rewrite firstn_length; lia.
Qed.
Lemma map3_nil {A B C D} (f : A -> B -> C -> D) m n : map3 f [] m n = [].
Proof. reflexivity. Qed.

(** *** shape lemmas *)
Definition shape_go := fix go (cs : list (rset * nat)) (n : nat) {struct cs} : Prop :=
   match cs with
   | [] => n = O
   | (c', k) :: r => (k <= n)%nat /\ shape c' k /\ go r (n - k)%nat
   end.
Lemma shape_prod m cs n : shape (CProd m cs) n = shape_go cs n.
Proof. reflexivity. Qed.
Lemma shape_total cs : forall n, shape_go cs n -> total cs = n /\ Forall (fun cn => shape (fst cn) (snd cn)) cs.
Proof.
  induction cs as [|[c k] cs IH]; intros n H; cbn in *.
  - subst; auto.
  - destruct H as (H1 & H2 & H3). destruct (IH _ H3) as [I1 I2]. split; [unfold total in *; cbn in *; lia|].
    constructor; auto.
Qed.

Lemma Forall_impl2 {A} (P Q T : A -> Prop) l :
  (forall a, P a -> Q a -> T a) -> Forall P l -> Forall Q l -> Forall T l.
Proof.
  intros H HP; induction HP; intros HQ; constructor; inversion HQ; subst; auto.
Qed.

Lemma coords_length c : forall n, shape c n -> length (coords c n) = n.
Proof.
  induction c as [m|m|m l u|m|m cs IH] using cset_ind'; intros n Hs; cbn [coords].
  1,2,4: apply repeat_length.
  - destruct Hs as (H1 & H2 & _). rewrite map2_length. cbn in *. lia.
  - rewrite shape_prod in Hs. revert n Hs.
    induction cs as [|[c k] cs IHcs]; intros n Hs; cbn in *; [auto|].
    destruct Hs as (H1 & H2 & H3). inversion IH as [|? ? J1 J2]; subst.
    rewrite app_length. cbn in J1. rewrite (J1 _ H2), (IHcs J2 _ H3). lia.
Qed.

(** General form: an operation defined blockwise acts coordinatewise. *)
Lemma blocks_map3 {A B} (h : coord -> A -> B -> B) cs :
  Forall (fun cn => shape (fst cn) (snd cn)) cs ->
  forall z o, length z = total cs -> length o = total cs ->
  blocks (fun c k z o => map3 h (coords c k) z o) cs z o =
  map3 h (flat_map (fun cn => coords (fst cn) (snd cn)) cs) z o.
Proof.
  induction 1 as [|[c k] cs H1 H2 IH]; intros z o Hz Ho.
  - destruct o; [reflexivity|discriminate].
  - cbn [blocks flat_map fst snd total fold_right] in *.
    rewrite (map3_firstn h _ _ z o k) by (try (apply coords_length; assumption); lia).
    f_equal. apply IH; rewrite skipn_length; unfold total in *; lia.
Qed.

Lemma map_repeat3 {B} (k : coord) (n : nat) (h : coord -> R -> B -> B) (z : list R) (o : list B) (g : R -> B) :
  length z = n -> length o = n -> (forall x y, h k x y = g x) -> map g z = map3 h (repeat k n) z o.
Proof.
  revert z o; induction n as [|n IH]; intros [|a z] [|b o] H1 H2 H; cbn in *; try discriminate; auto.
  rewrite H. f_equal. apply IH; auto.
Qed.
Lemma map_repeat3o {A B} (k : coord) (n : nat) (h : coord -> A -> B -> B) (z : list A) (o : list B) (g : B -> B) :
  length z = n -> length o = n -> (forall x y, h k x y = g y) -> map g o = map3 h (repeat k n) z o.
Proof.
  revert z o; induction n as [|n IH]; intros [|a z] [|b o] H1 H2 H; cbn in *; try discriminate; auto.
  rewrite H. f_equal. apply IH; auto.
Qed.
Lemma map3_box {B} (h : coord -> R -> B -> B) (g : R -> R -> R -> B) lo up z o :
  length lo = length z -> length up = length z -> length o = length z ->
  (forall l u x y, h (KBox l u) x y = g l u x) ->
  map3 g lo up z = map3 h (map2 KBox lo up) z o.
Proof.
  revert up z o; induction lo as [|l lo IH]; intros [|u up] [|x z] [|y o] H1 H2 H3 H;
    cbn in *; try discriminate; auto.
  rewrite H. f_equal. apply IH; auto.
Qed.

Lemma same_len_true {A B} (l : list A) (m : list B) : length l = length m -> same_len l m = true.
Proof. intros H. apply Nat.eqb_eq; exact H. Qed.

(** [projection] acts coordinatewise. *)
Definition hproj (k : coord) (x _ : R) : R := cproj k x.
Definition hcone (k : coord) (x _ : R) : R := ccone k x.
Definition hact (k : coord) (x : R) (_ : bool) : bool := cact k x.
Definition hpj (k : coord) (x : R) (row : list R) : list R :=
  if negb (cact k x) then row else map (fun _ => 0) row.
Definition hcj (k : coord) (x : R) (row : list R) : list R :=
  if cact k x then row else map (fun _ => 0) row.

Ltac lenlia := cbn [car RSc] in *; unfold total in *; lia.
Ltac prodcase IH Hs h :=
  rewrite shape_prod in Hs; destruct (shape_total _ _ Hs) as [Ht Hf];
  rewrite loop_const with (g := fun c k z o => map3 h (coords c k) z o);
  [ f_equal; apply blocks_map3; auto; lenlia
  | eapply Forall_impl2; [|exact IH|exact Hf];
    intros [c k] Hc Hk; cbn [fst snd] in *; intros z' o' L1 L2; split;
    [apply Hc; auto | rewrite map3_length, coords_length by auto; cbn [fst snd] in *; lenlia]
  | lenlia | lenlia ].

Lemma vsub_map2 l m : vsub (K := RSc) l m = minus l m.
Proof. revert m; induction l as [|a l IH]; intros [|b m]; cbn; auto. f_equal; apply IH. Qed.

Lemma minus_map3 lo up z : length lo = length z -> length up = length z ->
  minus z (map3 (box1 (K := RSc)) lo up z) = map3 (fun l u x => x - box1 (K := RSc) l u x) lo up z.
Proof.
  revert up z; induction lo as [|l lo IH]; intros [|u up] [|x z] H1 H2; cbn in *; try discriminate; auto.
  f_equal. apply IH; auto.
Qed.
Lemma minus_map g z : minus z (map g z) = map (fun x => x - g x) z.
Proof. induction z as [|x z IH]; cbn; auto. f_equal; auto. Qed.

Lemma projection_coords c : forall n z o, shape c n -> length z = n -> length o = n ->
  projection c z o = Some (map3 hproj (coords c n) z o).
Proof.
  induction c as [m|m|m l u|m|m cs IH] using cset_ind'; intros n z o Hs Hz Ho; cbn [projection coords].
  - f_equal. apply (map_repeat3o (A := R)); auto.
  - rewrite same_len_true by (cbn in *; congruence). f_equal. apply map_repeat3; auto.
  - destruct Hs as (H1 & H2 & _). cbn in H1, H2. rewrite !same_len_true by (cbn in *; congruence). cbn [andb].
    f_equal. apply map3_box; (reflexivity || (cbn in *; congruence)).
  - rewrite same_len_true by (cbn in *; congruence). f_equal. apply map_repeat3; auto.
  - prodcase IH Hs hproj.
Qed.

Lemma projection_inplace_coords c : forall n z, shape c n -> length z = n ->
  projection_inplace c z = Some (map3 hproj (coords c n) z z).
Proof.
  induction c as [m|m|m l u|m|m cs IH] using cset_ind'; intros n z Hs Hz.
  1-4: apply projection_coords; auto.
  cbn [projection_inplace coords].
  rewrite shape_prod in Hs; destruct (shape_total _ _ Hs) as [Ht Hf].
  rewrite loop_alias with (g := fun c k z (_ : list R) => map3 hproj (coords c k) z z).
  - f_equal. rewrite <- blocks_map3; auto; try lenlia.
    clear -Hf Hz Ht. subst n. revert z Ht.
    induction cs as [|[c k] cs IHcs]; intros z Ht; cbn; auto.
    inversion Hf; subst. f_equal. apply IHcs; auto.
    cbn in Ht. rewrite skipn_length. unfold total in *. lia.
  - eapply Forall_impl2; [|exact IH|exact Hf].
    intros [c k] Hc Hk; cbn [fst snd] in *; intros z' o' L1 L2; split.
    + apply Hc; auto.
    + rewrite map3_length, coords_length by auto. cbn [fst snd] in *; lenlia.
  - lenlia.
Qed.

Lemma normal_cone_coords c : forall n z o, shape c n -> length z = n -> length o = n ->
  normal_cone c z o = Some (map3 hcone (coords c n) z o).
Proof.
  induction c as [m|m|m l u|m|m cs IH] using cset_ind'; intros n z o Hs Hz Ho; cbn [normal_cone coords].
  - rewrite same_len_true by (cbn in *; congruence). f_equal. rewrite <- (map_id z) at 1. apply map_repeat3; auto.
  - rewrite same_len_true by (cbn in *; congruence). f_equal. apply map_repeat3; auto.
  - destruct Hs as (H1 & H2 & _). cbn in H1, H2. rewrite !same_len_true by (cbn in *; congruence). cbn [andb].
    f_equal. rewrite vsub_map2. rewrite minus_map3 by (cbn in *; congruence). apply map3_box; (reflexivity || (cbn in *; congruence)).
  - rewrite same_len_true by (cbn in *; congruence). f_equal. rewrite vsub_map2, minus_map.
    apply map_repeat3; auto.
  - prodcase IH Hs hcone.
Qed.

Lemma active_coords c : forall n z (o : list bool), shape c n -> length z = n -> length o = n ->
  active_set c z o = Some (map3 hact (coords c n) z o).
Proof.
  induction c as [m|m|m l u|m|m cs IH] using cset_ind'; intros n z o Hs Hz Ho; cbn [active_set coords].
  - f_equal. apply (map_repeat3o (A := R)); auto.
  - rewrite same_len_true by (cbn in *; congruence). f_equal. apply map_repeat3; auto.
  - destruct Hs as (H1 & H2 & _). cbn in H1, H2. rewrite !same_len_true by (cbn in *; congruence). cbn [andb].
    f_equal. apply map3_box; (reflexivity || (cbn in *; congruence)).
  - rewrite same_len_true by (cbn in *; congruence). f_equal. apply map_repeat3; auto.
  - prodcase IH Hs hact.
Qed.

Lemma mask_map3 (keep : bool -> bool) (h : coord -> R -> list R -> list R) (ks : list coord) (z : list R) (J : list (list R)) :
  length ks = length z ->
  (forall k x row, h k x row = if keep (cact k x) then row else map (fun _ => 0) row) ->
  mask_rows (K := RSc) keep (map3 hact ks z (map (fun _ => false) z)) J = map3 h ks z J.
Proof.
  intros Hl H. unfold mask_rows. revert z J Hl.
  induction ks as [|k ks IH]; intros [|x z] [|r J] Hl; cbn in *; try discriminate; auto.
  rewrite H. f_equal. apply IH. lia.
Qed.

Lemma proj_jac_coords c : forall n z (J : list (list R)), shape c n -> length z = n -> length J = n ->
  proj_jac c z J = Some (map3 hpj (coords c n) z J).
Proof.
  induction c as [m|m|m l u|m|m cs IH] using cset_ind'; intros n z o Hs Hz Ho.
  - cbn [proj_jac coords]. f_equal. apply (map_repeat3o (A := R)); auto.
  - cbn [proj_jac]. rewrite same_len_true by (cbn in *; congruence).
    rewrite (active_coords (CNeg m) n) by (try rewrite map_length; auto).
    f_equal. apply mask_map3; [rewrite coords_length; auto|reflexivity].
  - cbn [proj_jac]. rewrite same_len_true by (cbn in *; congruence).
    rewrite (active_coords (CBox m l u) n) by (try rewrite map_length; auto).
    f_equal. apply mask_map3; [rewrite coords_length; auto|reflexivity].
  - cbn [proj_jac]. rewrite same_len_true by (cbn in *; congruence).
    rewrite (active_coords (CL1 m) n) by (try rewrite map_length; auto).
    f_equal. apply mask_map3; [rewrite coords_length; auto|reflexivity].
  - cbn [proj_jac coords]. prodcase IH Hs hpj.
Qed.

Lemma cone_jac_coords c : forall n z (J : list (list R)), shape c n -> length z = n -> length J = n ->
  cone_jac c z J = Some (map3 hcj (coords c n) z J).
Proof.
  induction c as [m|m|m l u|m|m cs IH] using cset_ind'; intros n z o Hs Hz Ho.
  - cbn [cone_jac coords]. f_equal. rewrite <- (map_id o) at 1. apply (map_repeat3o (A := R)); auto.
  - cbn [cone_jac]. rewrite same_len_true by (cbn in *; congruence).
    rewrite (active_coords (CNeg m) n) by (try rewrite map_length; auto).
    f_equal. apply mask_map3; [rewrite coords_length; auto|reflexivity].
  - cbn [cone_jac]. rewrite same_len_true by (cbn in *; congruence).
    rewrite (active_coords (CBox m l u) n) by (try rewrite map_length; auto).
    f_equal. apply mask_map3; [rewrite coords_length; auto|reflexivity].
  - cbn [cone_jac]. rewrite same_len_true by (cbn in *; congruence).
    rewrite (active_coords (CL1 m) n) by (try rewrite map_length; auto).
    f_equal. apply mask_map3; [rewrite coords_length; auto|reflexivity].
  - cbn [cone_jac coords]. prodcase IH Hs hcj.
Qed.

(** ** One-dimensional facts *)
Ltac atomic t := lazymatch t with context [Rltb _ _] => fail | context [Rleb _ _] => fail | _ => idtac end.
Ltac rcasei :=
  match goal with
  | |- context [Rltb ?a ?b] => atomic a; atomic b; let H := fresh "Hc" in destruct (Rltb a b) eqn:H;
       [apply Rltb_true in H | apply Rltb_false in H]
  | |- context [Rleb ?a ?b] => atomic a; atomic b; let H := fresh "Hc" in destruct (Rleb a b) eqn:H;
       [apply Rleb_true in H | apply Rleb_false in H]
  end.
Ltac ck := unfold hproj, hcone, hact, ccone, cproj, neg1, neg1_cone, box1, l11, smax, smin, ssign in *; cbn in *;
  repeat rcasei; cbn in *.

Lemma cabs_cases x : (0 <= x /\ Rabs x = x) \/ (x < 0 /\ Rabs x = - x).
Proof. destruct (Rle_or_lt 0 x); [left|right]; split; auto; [apply Rabs_pos_eq|apply Rabs_left]; auto. Qed.
Ltac abses := repeat match goal with
  | |- context [Rabs ?x] => let H := fresh "Ha" in
      destruct (cabs_cases x) as [[? H]|[? H]]; rewrite ?H in *; clear H
  | _ : context [Rabs ?x] |- _ => let H := fresh "Ha" in
      destruct (cabs_cases x) as [[? H]|[? H]]; rewrite ?H in *; clear H
  end.

Lemma cproj_cin k x : cok k -> cin k (cproj k x).
Proof. destruct k; cbn; intros; auto; ck; lra. Qed.

Lemma cone_sum k x : cproj k x + ccone k x = x.
Proof. destruct k; ck; lra. Qed.

Lemma cvar k mu x y : cok k -> cmu mu k -> 0 <= mu -> cin k y ->
  ccone k x * (y - cproj k x) <= mu * (cpen k y - cpen k (cproj k x)).
Proof.
  destruct k as [| |lo up|m]; cbn; intros Hok Hm Hmu Hin; subst; ck; try nra.
  all: abses; try nra.
Qed.

Lemma cproj_fix k x : cnol1 k -> cok k -> cin k x -> cproj k x = x.
Proof. destruct k; cbn; intros; try tauto; subst; auto; ck; lra. Qed.

(** Monotonicity of the operator gives nonexpansiveness. *)
Lemma cnonexp k mu x y : cok k -> cmu mu k -> 0 <= mu ->
  (cproj k x - cproj k y) * (cproj k x - cproj k y) <= (x - y) * (x - y).
Proof.
  intros Hok Hm Hmu.
  pose proof (cvar k mu x (cproj k y) Hok Hm Hmu (cproj_cin _ _ Hok)).
  pose proof (cvar k mu y (cproj k x) Hok Hm Hmu (cproj_cin _ _ Hok)).
  pose proof (cone_sum k x); pose proof (cone_sum k y).
  set (a := cproj k x) in *; set (b := cproj k y) in *; set (c := ccone k x) in *; set (d := ccone k y) in *.
  assert (x - y = (a - b) + (c - d)) by lra.
  assert (0 <= (a - b) * (c - d)) by nra.
  replace (x - y) with ((a - b) + (c - d)) by lra. pose proof (Rle_0_sqr (c - d)) as Hq. unfold Rsqr in Hq. lra.
Qed.

(** ** Bridges from the specification predicates to coordinates *)
Fixpoint sumk (f : coord -> R -> R) (ks : list coord) (z : list R) : R :=
  match ks, z with k :: ks', x :: z' => f k x + sumk f ks' z' | _, _ => 0 end.
Lemma sumk_app f k1 k2 z1 z2 : length k1 = length z1 ->
  sumk f (k1 ++ k2) (z1 ++ z2) = sumk f k1 z1 + sumk f k2 z2.
Proof. revert z1; induction k1 as [|a l IH]; intros [|b m] H; cbn in *; try discriminate; [lra|].
  rewrite IH by lia. lra. Qed.

Lemma Forall2_repeat (P : coord -> R -> Prop) k n z : length z = n ->
  (Forall (P k) z <-> Forall2 P (repeat k n) z).
Proof.
  revert z; induction n as [|n IH]; intros [|a z] H; cbn in *; try discriminate.
  - split; constructor.
  - assert (Hz : length z = n) by lia. specialize (IH z Hz).
    split; intros K; inversion K; subst; constructor; tauto.
Qed.
Lemma Forall2_box (P : coord -> R -> Prop) (Q T : R -> R -> Prop) lo up z :
  (forall l u x, P (KBox l u) x <-> Q l x /\ T u x) ->
  length lo = length z -> length up = length z ->
  (Forall2 Q lo z /\ Forall2 T up z <-> Forall2 P (map2 KBox lo up) z).
Proof.
  intros H. revert up z; induction lo as [|l lo IH]; intros [|u up] [|x z] H1 H2; cbn in *; try discriminate.
  - split; auto.
  - assert (L1 : length lo = length z) by lia. assert (L2 : length up = length z) by lia.
    specialize (IH up z L1 L2). specialize (H l u x).
    split.
    + intros [K1 K2]. inversion K1; inversion K2; subst. constructor; tauto.
    + intros K. inversion K; subst. split; constructor; tauto.
Qed.
Lemma Forall2_flip {A B} (P : A -> B -> Prop) (Q : B -> A -> Prop) l m :
  (forall a b, P a b <-> Q b a) -> (Forall2 P l m <-> Forall2 Q m l).
Proof.
  intros H; split; induction 1; constructor; auto; apply H; auto.
Qed.
Lemma Forall2_app_split {A B} (P : A -> B -> Prop) l1 l2 m1 m2 : length l1 = length m1 ->
  (Forall2 P (l1 ++ l2) (m1 ++ m2) <-> Forall2 P l1 m1 /\ Forall2 P l2 m2).
Proof.
  intros H; split.
  - revert m1 H; induction l1 as [|a l IH]; intros [|b m] H K; cbn in *; try discriminate; auto.
    inversion K; subst. destruct (IH m); auto.
  - intros [? ?]. apply Forall2_app; auto.
Qed.

Lemma in_set_coords c : forall n z, shape c n -> length z = n ->
  (in_set c z <-> Forall2 cin (coords c n) z).
Proof.
  induction c as [m|m|m l u|m|m cs IH] using cset_ind'; intros n z Hs Hz.
  - apply (Forall2_repeat cin KEq); auto.
  - apply (Forall2_repeat cin KNeg); auto.
  - destruct Hs as (H1 & H2 & _). cbn in H1, H2. cbn [in_set coords].
    rewrite <- (Forall2_box cin Rle (fun u x => x <= u)) by (cbn; try tauto; lenlia).
    rewrite (Forall2_flip Rle (fun u x => x <= u) z u) by tauto. tauto.
  - cbn [in_set coords]. rewrite <- (Forall2_repeat cin (KL1 m)) by auto.
    split; auto. intros _. apply Forall_forall. cbn. auto.
  - rewrite shape_prod in Hs. revert n z Hs Hz.
    induction cs as [|[c k] cs IHcs]; intros n z Hs Hz; cbn in *.
    + subst n. destruct z; [|discriminate]. split; auto.
    + destruct Hs as (H1 & H2 & H3). inversion IH as [|? ? J1 J2]; subst. cbn in J1.
      assert (Hl : length (firstn k z) = k) by (rewrite firstn_length; lia).
      rewrite (J1 k (firstn k z)) by auto.
      assert (Hl2 : length (skipn k z) = (length z - k)%nat) by (rewrite skipn_length; lia).
      rewrite (IHcs J2 _ _ H3 Hl2).
      rewrite <- (firstn_skipn k z) at 3.
      rewrite Forall2_app_split; [tauto|]. rewrite coords_length; auto.
Qed.

Lemma sumk_repeat f k n z : length z = n -> sumk f (repeat k n) z = fold_right (fun x s => f k x + s) 0 z.
Proof. revert z; induction n as [|n IH]; intros [|a z] H; cbn in *; try discriminate; auto. rewrite IH; auto. Qed.
Lemma fold_zero (z : list R) : fold_right (fun _ s => 0 + s) 0 z = 0.
Proof. induction z; cbn; lra. Qed.
Lemma sumk_box lo up z : sumk cpen (map2 KBox lo up) z = 0.
Proof. revert up z; induction lo as [|l lo IH]; intros [|u up] [|x z]; cbn in *; auto. rewrite IH; lra. Qed.

Lemma penalty_coords c : forall n z, shape c n -> length z = n ->
  penalty c z = sumk cpen (coords c n) z.
Proof.
  induction c as [m|m|m l u|m|m cs IH] using cset_ind'; intros n z Hs Hz; cbn [penalty coords].
  1,2: rewrite sumk_repeat by auto; cbn; rewrite fold_zero; auto.
  - rewrite sumk_box; auto.
  - rewrite sumk_repeat by auto; auto.
  - rewrite shape_prod in Hs. revert n z Hs Hz.
    induction cs as [|[c k] cs IHcs]; intros n z Hs Hz; cbn in *; [auto|].
    destruct Hs as (H1 & H2 & H3). inversion IH as [|? ? J1 J2]; subst. cbn in J1.
    assert (Hl : length (firstn k z) = k) by (rewrite firstn_length; lia).
    assert (Hl2 : length (skipn k z) = (length z - k)%nat) by (rewrite skipn_length; lia).
    rewrite (J1 k (firstn k z)) by auto.
    rewrite (IHcs J2 _ _ H3 Hl2).
    rewrite <- (firstn_skipn k z) at 3. rewrite sumk_app; auto. rewrite coords_length; auto.
Qed.

Lemma shape_cok c : forall n, shape c n -> Forall cok (coords c n).
Proof.
  induction c as [m|m|m l u|m|m cs IH] using cset_ind'; intros n Hs; cbn [coords].
  1,2,4: apply Forall_forall; intros x Hx; apply repeat_spec in Hx; subst; cbn; auto.
  - destruct Hs as (_ & _ & H). induction H; cbn; constructor; auto.
  - rewrite shape_prod in Hs. revert n Hs.
    induction cs as [|[c k] cs IHcs]; intros n Hs; cbn in *; [auto|].
    destruct Hs as (H1 & H2 & H3). inversion IH as [|? ? J1 J2]; subst. cbn in J1.
    apply Forall_app; split; eauto.
Qed.

Lemma l1_mu_cmu mu c : l1_mu mu c -> forall n, Forall (cmu mu) (coords c n).
Proof.
  induction c as [m|m|m l u|m|m cs IH] using cset_ind'; intros H n; cbn [coords].
  1,2,4: apply Forall_forall; intros x Hx; apply repeat_spec in Hx; subst; cbn; auto.
  - clear. revert u; induction l as [|a l IH]; intros [|b u]; cbn; constructor; auto. cbn; auto.
  - induction cs as [|[c k] cs IHcs]; cbn in *; [auto|].
    destruct H as [H1 H2]. inversion IH; subst. apply Forall_app; split; auto.
Qed.
Lemma no_l1_cnol1 c : no_l1 c -> forall n, Forall cnol1 (coords c n).
Proof.
  induction c as [m|m|m l u|m|m cs IH] using cset_ind'; intros H n; cbn [coords].
  1,2: apply Forall_forall; intros x Hx; apply repeat_spec in Hx; subst; cbn; auto.
  - clear. revert u; induction l as [|a l IH]; intros [|b u]; cbn; constructor; auto. cbn; auto.
  - destruct H.
  - induction cs as [|[c k] cs IHcs]; cbn in *; [auto|].
    destruct H as [H1 H2]. inversion IH; subst. apply Forall_app; split; auto.
Qed.
Lemma no_l1_l1_mu mu c : no_l1 c -> l1_mu mu c.
Proof.
  induction c as [m|m|m l u|m|m cs IH] using cset_ind'; intros H; cbn in *; auto; try tauto.
  induction cs as [|[c k] cs IHcs]; [exact I|].
  destruct H as [H1 H2]. inversion IH as [|? ? J1 J2]; subst. split; [apply J1; exact H1|apply (IHcs J2 H2)].
Qed.

Lemma off_kinks_coords c : forall n z, shape c n -> length z = n ->
  (off_kinks c z <-> Forall2 ckink (coords c n) z).
Proof.
  induction c as [m|m|m l u|m|m cs IH] using cset_ind'; intros n z Hs Hz.
  - cbn [off_kinks coords]. rewrite <- (Forall2_repeat ckink KEq) by auto.
    split; auto. intros _. apply Forall_forall. cbn. auto.
  - apply (Forall2_repeat ckink KNeg); auto.
  - destruct Hs as (H1 & H2 & _). cbn in H1, H2. cbn [off_kinks coords].
    apply (Forall2_box ckink (fun l x => x <> l) (fun u x => x <> u)); cbn; try tauto; lenlia.
  - apply (Forall2_repeat ckink (KL1 m)); auto.
  - rewrite shape_prod in Hs. revert n z Hs Hz.
    induction cs as [|[c k] cs IHcs]; intros n z Hs Hz; cbn in *.
    + subst n. destruct z; [|discriminate]. split; auto.
    + destruct Hs as (H1 & H2 & H3). inversion IH as [|? ? J1 J2]; subst. cbn in J1.
      assert (Hl : length (firstn k z) = k) by (rewrite firstn_length; lia).
      rewrite (J1 k (firstn k z)) by auto.
      assert (Hl2 : length (skipn k z) = (length z - k)%nat) by (rewrite skipn_length; lia).
      rewrite (IHcs J2 _ _ H3 Hl2).
      rewrite <- (firstn_skipn k z) at 3.
      rewrite Forall2_app_split; [tauto|]. rewrite coords_length; auto.
Qed.

(** ** Vector facts on coordinates *)
Lemma proj_len ks (z o : list R) n : length ks = n -> length z = n -> length o = n ->
  length (map3 hproj ks z o) = n /\ length (map3 hcone ks z o) = n.
Proof. intros; rewrite !map3_length; lia. Qed.

Lemma proj_in ks : Forall cok ks -> forall z o, length z = length ks -> length o = length ks ->
  Forall2 cin ks (map3 hproj ks z o).
Proof.
  induction 1 as [|k ks Hk Hks IH]; intros [|x z] [|y o] H1 H2; cbn in *; try discriminate; constructor.
  - apply cproj_cin; auto.
  - apply IH; lia.
Qed.

Lemma moreau_sum ks : forall z o o', length z = length ks -> length o = length ks -> length o' = length ks ->
  plus (map3 hproj ks z o) (map3 hcone ks z o') = z.
Proof.
  induction ks as [|k ks IH]; intros [|x z] [|y o] [|y' o'] H1 H2 H3; cbn in *; try discriminate; auto.
  f_equal; [apply cone_sum|apply IH; lia].
Qed.

Lemma var_ineq mu ks : Forall cok ks -> Forall (cmu mu) ks -> 0 <= mu ->
  forall z o o' w, length z = length ks -> length o = length ks -> length o' = length ks ->
  Forall2 cin ks w ->
  inner (map3 hcone ks z o') (minus w (map3 hproj ks z o))
    <= mu * (sumk cpen ks w - sumk cpen ks (map3 hproj ks z o)).
Proof.
  intros Hok Hm Hmu. induction Hok as [|k ks Hk Hks IH]; intros [|x z] [|y o] [|y' o'] w H1 H2 H3 Hw;
    cbn in *; try discriminate; [lra|].
  inversion Hw; subst. inversion Hm; subst. cbn.
  assert (A := cvar k mu x y0 Hk ltac:(auto) Hmu ltac:(auto)).
  assert (B : inner (map3 hcone ks z o') (minus l' (map3 hproj ks z o))
    <= mu * (sumk cpen ks l' - sumk cpen ks (map3 hproj ks z o))) by (apply IH; auto; lia).
  change (hproj k x y) with (cproj k x). change (hcone k x y') with (ccone k x). lra.
Qed.

(** Pythagoras-type expansion: |w-z|^2 = |w-p|^2 + |p-z|^2 - 2 (z-p).(w-p). *)
Lemma dist2_expand ks : forall z o o' w,
  length z = length ks -> length o = length ks -> length o' = length ks -> length w = length ks ->
  dist2 w z = dist2 w (map3 hproj ks z o) + dist2 (map3 hproj ks z o) z
              - 2 * inner (map3 hcone ks z o') (minus w (map3 hproj ks z o)).
Proof.
  induction ks as [|k ks IH]; intros [|x z] [|y o] [|y' o'] [|v w] H1 H2 H3 H4; cbn in *; try discriminate; [lra|].
  rewrite (IH z o o' w) by lia.
  change (hproj k x y) with (cproj k x). change (hcone k x y') with (ccone k x).
  pose proof (cone_sum k x). replace (ccone k x) with (x - cproj k x) by lra. lra.
Qed.

Lemma dist2_sym a b : dist2 a b = dist2 b a.
Proof. revert b; induction a as [|x a IH]; intros [|y b]; cbn; auto. rewrite IH; lra. Qed.
Lemma dist2_nonneg a b : 0 <= dist2 a b.
Proof. revert b; induction a as [|x a IH]; intros [|y b]; cbn; try lra. specialize (IH b); pose proof (Rle_0_sqr (x - y)) as Hq; unfold Rsqr in Hq; lra. Qed.
Lemma dist2_zero a : forall b, length a = length b -> dist2 a b = 0 -> a = b.
Proof.
  induction a as [|x a IH]; intros [|y b] L H; cbn in *; try discriminate; auto.
  pose proof (dist2_nonneg a b). pose proof (Rle_0_sqr (x - y)) as Hq. unfold Rsqr in Hq.
  assert (Hx : (x - y) * (x - y) = 0) by lra.
  f_equal; [apply Rmult_integral in Hx; lra|apply IH; [lia|lra]].
Qed.
Lemma sumk_cin_nol1 ks : Forall cnol1 ks -> forall w, sumk cpen ks w = 0.
Proof. induction 1 as [|k ks Hk Hks IH]; intros [|x w]; cbn; auto. rewrite IH. destruct k; cbn in *; try tauto; lra. Qed.

Lemma nonexp mu ks : Forall cok ks -> Forall (cmu mu) ks -> 0 <= mu ->
  forall z o w o', length z = length ks -> length o = length ks ->
    length w = length ks -> length o' = length ks ->
  dist2 (map3 hproj ks z o) (map3 hproj ks w o') <= dist2 z w.
Proof.
  intros Hok Hm Hmu. induction Hok as [|k ks Hk Hks IH]; intros [|x z] [|y o] [|v w] [|y' o'] H1 H2 H3 H4;
    cbn in *; try discriminate; [lra|].
  inversion Hm; subst. apply Rplus_le_compat; [apply (cnonexp k mu); auto|apply IH; auto; lia].
Qed.

Lemma idem ks : Forall cok ks -> Forall cnol1 ks -> forall z o o', length z = length ks ->
  length o = length ks -> length o' = length ks ->
  map3 hproj ks (map3 hproj ks z o) o' = map3 hproj ks z o.
Proof.
  intros Hok. induction Hok as [|k ks Hk Hks IH]; intros Hn [|x z] [|y o] [|v o'] H1 H2 H3; cbn in *; try discriminate; auto.
  inversion Hn; subst. f_equal; [|apply IH; auto; lia].
  apply cproj_fix; auto. apply cproj_cin; auto.
Qed.
Lemma proj_fix ks : Forall cok ks -> Forall cnol1 ks -> forall w o,
  length o = length ks -> Forall2 cin ks w -> map3 hproj ks w o = w.
Proof.
  intros Hok. induction Hok as [|k ks Hk Hks IH]; intros Hn w [|y o] H1 H2; cbn in *; try discriminate;
  inversion H2; subst; auto.
  inversion Hn; subst. f_equal; [|apply IH; auto; lia].
  apply cproj_fix; auto.
Qed.

(** ** Main lemmas *)
Lemma lem_nearest c n z o : shape c n -> no_l1 c -> length z = n -> length o = n ->
  exists p, projection c z o = Some p /\ length p = n /\ in_set c p /\
    (forall w, length w = n -> in_set c w -> dist2 z p <= dist2 z w) /\
    (forall w, length w = n -> in_set c w -> dist2 z w <= dist2 z p -> w = p).
Proof.
  intros Hs Hn Hz Ho.
  pose proof (coords_length c n Hs) as Lk.
  pose proof (shape_cok c n Hs) as Hok.
  pose proof (no_l1_cnol1 c Hn n) as Hnl.
  pose proof (l1_mu_cmu 0 c (no_l1_l1_mu 0 c Hn) n) as Hm.
  exists (map3 hproj (coords c n) z o).
  destruct (proj_len (coords c n) z o n Lk Hz Ho) as [Lp Lq].
  assert (V : forall w, length w = n -> in_set c w ->
     dist2 w z >= dist2 w (map3 hproj (coords c n) z o) + dist2 (map3 hproj (coords c n) z o) z).
  { intros w Hw Hin. apply (in_set_coords c n w Hs Hw) in Hin.
    pose proof (var_ineq 0 _ Hok Hm (Rle_refl 0) z o z w ltac:(lenlia) ltac:(lenlia) ltac:(lenlia) Hin).
    rewrite (dist2_expand (coords c n) z o z w) by lenlia. nra. }
  repeat split.
  - apply projection_coords; auto.
  - auto.
  - apply (in_set_coords c n); auto. apply proj_in; auto; lenlia.
  - intros w Hw Hin. specialize (V w Hw Hin).
    rewrite (dist2_sym z), (dist2_sym z w).
    pose proof (dist2_nonneg w (map3 hproj (coords c n) z o)). lra.
  - intros w Hw Hin Hle. specialize (V w Hw Hin).
    rewrite (dist2_sym z w), (dist2_sym z) in Hle.
    apply dist2_zero; [lenlia|].
    pose proof (dist2_nonneg w (map3 hproj (coords c n) z o)). lra.
Qed.

Lemma lem_in_set c n z o : shape c n -> length z = n -> length o = n ->
  exists p, projection c z o = Some p /\ length p = n /\ in_set c p.
Proof.
  intros Hs Hz Ho. pose proof (coords_length c n Hs) as Lk.
  exists (map3 hproj (coords c n) z o). repeat split.
  - apply projection_coords; auto.
  - rewrite map3_length. lenlia.
  - apply (in_set_coords c n); auto. rewrite map3_length; lenlia.
    apply proj_in; try lenlia. apply shape_cok; auto.
Qed.

Lemma lem_idem c n z o o' p : shape c n -> no_l1 c -> length z = n -> length o = n -> length o' = n ->
  projection c z o = Some p -> projection c p o' = Some p.
Proof.
  intros Hs Hn Hz Ho Ho' Hp. pose proof (coords_length c n Hs) as Lk.
  rewrite (projection_coords c n z o Hs Hz Ho) in Hp. injection Hp as <-.
  rewrite (projection_coords c n) by (auto; rewrite map3_length; lenlia).
  apply (f_equal Some). apply idem; try lenlia. apply shape_cok; auto. apply no_l1_cnol1; auto.
Qed.

Lemma lem_fix c n w o : shape c n -> no_l1 c -> length w = n -> length o = n ->
  in_set c w -> projection c w o = Some w.
Proof.
  intros Hs Hn Hw Ho Hin. pose proof (coords_length c n Hs) as Lk.
  rewrite (projection_coords c n) by auto. apply (f_equal Some). apply proj_fix; try lenlia.
  - apply shape_cok; auto.
  - apply no_l1_cnol1; auto.
  - apply (in_set_coords c n); auto.
Qed.

Lemma lem_nonexp c n mu z w o o' p q : shape c n -> l1_mu mu c -> 0 <= mu ->
  length z = n -> length w = n -> length o = n -> length o' = n ->
  projection c z o = Some p -> projection c w o' = Some q -> dist2 p q <= dist2 z w.
Proof.
  intros Hs Hm Hmu Hz Hw Ho Ho' Hp Hq. pose proof (coords_length c n Hs) as Lk.
  rewrite (projection_coords c n) in Hp by auto. rewrite (projection_coords c n) in Hq by auto.
  injection Hp as <-. injection Hq as <-.
  apply (nonexp mu); auto; try lenlia. apply shape_cok; auto. apply l1_mu_cmu; auto.
Qed.

Lemma lem_inplace c n z o : shape c n -> length z = n -> length o = n ->
  projection_inplace c z = projection c z o.
Proof.
  intros Hs Hz Ho. pose proof (coords_length c n Hs) as Lk.
  rewrite (projection_inplace_coords c n), (projection_coords c n) by auto. apply (f_equal Some).
  clear Hs. revert n z o Hz Ho Lk. generalize (coords c). intros f n z o Hz Ho Lk.
  revert Hz Ho Lk. generalize (f n). intros ks. intros Hz Ho Lk.
  assert (length z = length ks /\ length o = length ks) as [A B] by lenlia. clear -A B.
  revert z o A B; induction ks as [|k ks IH]; intros [|x z] [|y o] A B; cbn in *; try discriminate; auto.
  f_equal. apply IH; lenlia.
Qed.

Lemma lem_moreau c n mu z o o' : shape c n -> l1_mu mu c -> 0 <= mu ->
  length z = n -> length o = n -> length o' = n ->
  exists p q, projection c z o = Some p /\ normal_cone c z o' = Some q /\
    length p = n /\ length q = n /\ plus p q = z /\ in_set c p /\
    (forall w, length w = n -> in_set c w ->
       inner q (minus w p) <= mu * (penalty c w - penalty c p)).
Proof.
  intros Hs Hm Hmu Hz Ho Ho'. pose proof (coords_length c n Hs) as Lk.
  pose proof (shape_cok c n Hs) as Hok.
  exists (map3 hproj (coords c n) z o), (map3 hcone (coords c n) z o').
  destruct (proj_len (coords c n) z o n Lk Hz Ho) as [Lp _].
  destruct (proj_len (coords c n) z o' n Lk Hz Ho') as [_ Lq].
  repeat split; auto.
  - apply projection_coords; auto.
  - apply normal_cone_coords; auto.
  - apply moreau_sum; lenlia.
  - apply (in_set_coords c n); auto. apply proj_in; auto; lenlia.
  - intros w Hw Hin. rewrite !(penalty_coords c n) by auto.
    apply var_ineq; auto; try lenlia.
    + apply l1_mu_cmu; auto.
    + apply (in_set_coords c n); auto.
Qed.

Lemma lem_prox c n mu z o p : shape c n -> l1_mu mu c -> 0 < mu ->
  length z = n -> length o = n -> projection c z o = Some p ->
  length p = n /\ in_set c p /\
  (forall w, length w = n -> in_set c w ->
     penalty c p + dist2 p z / (2 * mu) + dist2 w p / (2 * mu) <= penalty c w + dist2 w z / (2 * mu)).
Proof.
  intros Hs Hm Hmu Hz Ho Hp. pose proof (coords_length c n Hs) as Lk.
  pose proof (shape_cok c n Hs) as Hok.
  rewrite (projection_coords c n) in Hp by auto. injection Hp as <-.
  destruct (proj_len (coords c n) z o n Lk Hz Ho) as [Lp _].
  split; [exact Lp|]. split.
  { apply (in_set_coords c n); auto. apply proj_in; auto; lenlia. }
  intros w Hw Hin. rewrite !(penalty_coords c n) by auto.
  pose proof (var_ineq mu (coords c n) Hok (l1_mu_cmu mu c Hm n) ltac:(lra) z o z w
     ltac:(lenlia) ltac:(lenlia) ltac:(lenlia) (proj1 (in_set_coords c n w Hs Hw) Hin)) as V.
  rewrite (dist2_expand (coords c n) z o z w) by lenlia.
  set (P := map3 hproj (coords c n) z o) in *.
  set (Q := inner _ _) in *. set (a := sumk cpen _ w) in *. set (b := sumk cpen _ P) in *.
  set (d1 := dist2 w P). set (d2 := dist2 P z).
  assert (Q / mu <= a - b).
  { apply Rmult_le_reg_l with mu; auto. replace (mu * (Q / mu)) with Q by (field; lra). lra. }
  replace ((d1 + d2 - 2 * Q) / (2 * mu)) with (d1 / (2 * mu) + d2 / (2 * mu) - Q / mu) by (field; lra).
  lra.
Qed.

(** *** Moreau envelope value *)
Lemma fold_left_plus (l : list R) a : fold_left Rplus l a = a + fold_right Rplus 0 l.
Proof. revert a; induction l as [|x l IH]; intros a; cbn; [lra|]. rewrite IH. lra. Qed.
Lemma vsum_abs (z : list R) : vsum (K := RSc) (map Rabs z) = fold_right (fun x s => Rabs x + s) 0 z.
Proof. unfold vsum. cbn. rewrite fold_left_plus. induction z as [|x z IH]; cbn in *; lra. Qed.
Definition eval_go := fix go (cs : list (rset * nat)) (z : list (car RSc)) (start : nat) (acc : car RSc) {struct cs} : option (car RSc) :=
           match cs with
           | [] => Some acc
           | (c', n) :: r =>
               match segment start n z with
               | Some b => match evaluate c' b with
                           | Some e => go r z (start + n)%nat (acc + e)%S
                           | None => None end
               | None => None
               end
           end.
Lemma eval_prod m cs z : evaluate (CProd m cs : rset) z = eval_go cs z O 0.
Proof.
  cbn [evaluate]. change (@s0 RSc) with 0. generalize O 0.
  induction cs as [|[c k] cs IH]; intros s a; cbn [eval_go]; auto.
  destruct (segment s k z) as [b|]; [|reflexivity]. destruct (evaluate c b); [apply IH|reflexivity].
Qed.
Lemma evaluate_penalty c : forall n z, shape c n -> length z = n -> evaluate c z = Some (penalty c z).
Proof.
  induction c as [m|m|m l u|m|m cs IH] using cset_ind'; intros n z Hs Hz; auto.
  - cbn [evaluate penalty]. f_equal. apply vsum_abs.
  - rewrite eval_prod. rewrite shape_prod in Hs.
    assert (G : forall start n (z : list (car RSc)) acc, shape_go cs n -> (start + n = length z)%nat ->
       eval_go cs z start acc = Some (acc + penalty (CProd m cs) (skipn start z))).
    2:{ rewrite (G O n z 0 Hs) by lenlia. f_equal. cbn -[penalty]. lra. }
    clear n z Hs Hz. induction cs as [|[c k] cs IHcs]; intros start n z acc Hs Hz.
    + cbn. f_equal. lra.
    + cbn [eval_go shape_go penalty] in *. destruct Hs as (H1 & H2 & H3).
      inversion IH as [|? ? J1 J2]; subst. cbn in J1.
      unfold segment. destruct (Nat.leb_spec (start + k) (length z)) as [Hk|Hk]; [|lenlia].
      assert (Lf : length (firstn k (skipn start z)) = k).
      { rewrite firstn_length, skipn_length. lenlia. }
      rewrite (J1 k) by auto.
      change (_ = ?r) with (eval_go cs z (start + k) (acc + penalty c (firstn k (skipn start z))) = r).
      rewrite (IHcs J2 (start + k)%nat (n - k)%nat z) by (auto; lenlia).
      f_equal. cbn [penalty]. rewrite skipn_skipn, (Nat.add_comm k start). rewrite Rplus_assoc. reflexivity.
Qed.

Lemma vsqnorm_dist2 z p q : plus p q = z -> length p = length q -> vsqnorm (K := RSc) q = dist2 p z.
Proof.
  intros H L. unfold vsqnorm, vdot, vsum. cbn. rewrite fold_left_plus. subst z.
  revert p L; induction q as [|y q IH]; intros [|x p] L; cbn in *; try discriminate; try lra.
  specialize (IH p ltac:(lenlia)). lra.
Qed.
Lemma vsub_plus p : forall q, length p = length q -> vsub (K := RSc) (plus p q) q = p.
Proof.
  induction p as [|x p IH]; intros [|y q] L; cbn in *; try discriminate; auto.
  f_equal; [lra|]. apply IH. lenlia.
Qed.

Lemma lem_env c n z o : shape c n -> l1_mu (mu_of c) c -> 0 < mu_of c ->
  length z = n -> length o = n ->
  exists p q e, projection c z o = Some p /\ moreau_env c z o = Some (e, q) /\
     e = penalty c p + dist2 p z / (2 * mu_of c) /\ normal_cone c z o = Some q.
Proof.
  intros Hs Hm Hmu Hz Ho.
  destruct (lem_moreau c n (mu_of c) z o o Hs Hm ltac:(lra) Hz Ho Ho)
    as (p & q & Hp & Hq & Lp & Lq & Hsum & _ & _).
  exists p, q. eexists. repeat split; eauto.
  unfold moreau_env. rewrite Hq. unfold moreau_env_at. rewrite <- Hsum at 1.
  rewrite vsub_plus by lenlia. rewrite (evaluate_penalty c n) by auto.
  f_equal. f_equal. rewrite (vsqnorm_dist2 z p q) by (auto; lenlia).
  unfold shalf, slit. cbn. field. cbn in *; lra.
Qed.

(** ** Derivatives *)
Lemma lim_local f g x l : (exists d, 0 < d /\ forall y, Rabs (y - x) < d -> f y = g y) ->
  derivable_pt_lim g x l -> derivable_pt_lim f x l.
Proof.
  intros (d & Hd & H) Hg eps He. destruct (Hg eps He) as [del Hdel].
  assert (Hm : 0 < Rmin d del) by (apply Rmin_pos; auto; apply cond_pos).
  exists (mkposreal _ Hm). intros h Hh Hlt. cbn in Hlt.
  assert (Rabs h < d /\ Rabs h < del).
  { split; eapply Rlt_le_trans; eauto; [apply Rmin_l|apply Rmin_r]. }
  rewrite !H.
  - apply Hdel; tauto.
  - replace (x - x) with 0 by lra. rewrite Rabs_R0. auto.
  - replace (x + h - x) with h by lra. tauto.
Qed.

Lemma lim_affine a b x : derivable_pt_lim (fun t => a + t * b) x b.
Proof.
  assert (H : derivable_pt_lim (fun t => a + t * b) x (0 + (1 * b + x * 0))).
  2:{ replace (0 + (1 * b + x * 0)) with b in H by lra. exact H. }
  apply (derivable_pt_lim_plus (fct_cte a) (fun t => t * b)); [apply derivable_pt_lim_const|].
  apply (derivable_pt_lim_mult id (fct_cte b)); [apply derivable_pt_lim_id|apply derivable_pt_lim_const].
Qed.

(** Near a non-kink point the projection is either the identity plus a constant, or constant. *)
Lemma cproj_local k x : ckink k x -> cok k -> (match k with KL1 m => 0 <= m | _ => True end) ->
  exists d, 0 < d /\ forall y, Rabs (y - x) < d ->
    cproj k y = if cact k x then cproj k x else cproj k x + (y - x).
Proof.
  assert (AB : forall a b d, Rabs (a - b) < d -> b - d < a < b + d).
  { intros a b d H. apply Rabs_def2 in H. lra. }
  destruct k as [| |lo up|m]; cbn [ckink cok cact]; intros Hk Hok Hm.
  - exists 1. split; [lra|]. reflexivity.
  - exists (Rabs x). split; [apply Rabs_pos_lt; auto|]. intros y Hy. apply AB in Hy.
    abses; ck; lra.
  - destruct Hk as [K1 K2].
    exists (Rmin (Rabs (x - lo)) (Rabs (x - up))). split.
    { apply Rmin_pos; apply Rabs_pos_lt; lra. }
    intros y Hy.
    assert (Rabs (y - x) < Rabs (x - lo)) as H1 by (eapply Rlt_le_trans; [exact Hy|apply Rmin_l]).
    assert (Rabs (y - x) < Rabs (x - up)) as H2 by (eapply Rlt_le_trans; [exact Hy|apply Rmin_r]).
    clear Hy. apply AB in H1. apply AB in H2.
    abses; ck; lra.
  - exists (Rabs (Rabs x - m)). split; [apply Rabs_pos_lt; lra|].
    intros y Hy. apply AB in Hy. abses; ck; abses; try lra.
Qed.

Lemma cproj_deriv k x v : ckink k x -> cok k -> (match k with KL1 m => 0 <= m | _ => True end) ->
  derivable_pt_lim (fun t => cproj k (x + t * v)) 0 (if cact k x then 0 else v).
Proof.
  intros Hk Hok Hm. destruct (cproj_local k x Hk Hok Hm) as (d & Hd & H).
  apply lim_local with (g := fun t => if cact k x then cproj k x else cproj k x + t * v).
  - exists (d / (1 + Rabs v)). pose proof (Rabs_pos v).
    assert (0 < d / (1 + Rabs v)) by (apply Rdiv_lt_0_compat; lra).
    split; auto. intros y Hy. rewrite H.
    + destruct (cact k x); auto. lra.
    + replace (x + y * v - x) with (y * v) by lra. rewrite Rabs_mult.
      replace (y - 0) with y in Hy by lra.
      destruct (Req_dec (Rabs v) 0) as [E|E]; [rewrite E; lra|].
      apply Rlt_trans with (d / (1 + Rabs v) * Rabs v).
      { apply Rmult_lt_compat_r; auto. lra. }
      apply Rmult_lt_reg_r with (1 + Rabs v); [lra|].
      replace (d / (1 + Rabs v) * Rabs v * (1 + Rabs v)) with (d * Rabs v) by (field; lra). nra.
  - destruct (cact k x).
    + apply derivable_pt_lim_const.
    + apply lim_affine.
Qed.

Lemma along_length z : forall d t, length d = length z -> length (along z d t) = length z.
Proof. induction z as [|a z IH]; intros [|b d] t H; cbn in *; try discriminate; auto. Qed.

Lemma map3_nth3 {A B C D} (f : A -> B -> C -> D) l m n i a b c e :
  (i < length l)%nat -> (i < length m)%nat -> (i < length n)%nat ->
  nth i (map3 f l m n) e = f (nth i l a) (nth i m b) (nth i n c).
Proof.
  revert m n i; induction l as [|x l IH]; intros [|y m] [|z n] [|i] H1 H2 H3; cbn in *; try lenlia; auto.
  apply IH; lenlia.
Qed.
Lemma along_nth z : forall d t i, length d = length z -> (i < length z)%nat ->
  nth i (along z d t) 0 = nth i z 0 + t * nth i d 0.
Proof.
  induction z as [|a z IH]; intros [|b d] t [|i] L H; cbn in *; try lenlia; auto.
  apply IH; lenlia.
Qed.
Lemma Forall2_nth {A B} (P : A -> B -> Prop) l m i a b : Forall2 P l m -> (i < length l)%nat -> P (nth i l a) (nth i m b).
Proof. intros H. revert i; induction H; intros [|i] Hi; cbn in *; try lenlia; auto. apply IHForall2; lenlia. Qed.
Lemma Forall_nth' {A} (P : A -> Prop) l i a : Forall P l -> (i < length l)%nat -> P (nth i l a).
Proof. intros H Hi. eapply Forall_forall; eauto. apply nth_In; auto. Qed.

Lemma nth_map0 {A} (l : list A) j : nth j (map (fun _ => 0) l) 0 = 0.
Proof. revert j; induction l as [|a l IH]; intros [|j]; cbn; auto. Qed.
Lemma nth_mapcol (J : list (list R)) j i :
  nth i (map (fun row => nth j row 0) J) 0 = nth j (nth i J []) 0.
Proof. revert i; induction J as [|r J IH]; intros [|i]; cbn; auto; destruct j; auto. Qed.

Lemma lim_val f x a b : a = b -> derivable_pt_lim f x a -> derivable_pt_lim f x b.
Proof. intros ->; auto. Qed.

Lemma lem_jac c n mu z J : shape c n -> l1_mu mu c -> 0 <= mu ->
  length z = n -> length J = n -> off_kinks c z ->
  exists PJ CJ, proj_jac c z J = Some PJ /\ cone_jac c z J = Some CJ /\
    length PJ = n /\ length CJ = n /\
    forall j i, (i < n)%nat ->
      derivable_pt_lim (fun t => nth i (match projection c (along z (map (fun row => nth j row 0) J) t) z
                                        with Some p => p | None => [] end) 0) 0 (nth j (nth i PJ []) 0) /\
      derivable_pt_lim (fun t => nth i (match normal_cone c (along z (map (fun row => nth j row 0) J) t) z
                                        with Some p => p | None => [] end) 0) 0 (nth j (nth i CJ []) 0).
Proof.
  intros Hs Hm Hmu Hz HJ Hk. pose proof (coords_length c n Hs) as Lk.
  pose proof (shape_cok c n Hs) as Hok. pose proof (l1_mu_cmu mu c Hm n) as Hcm.
  apply (off_kinks_coords c n z Hs Hz) in Hk.
  exists (map3 hpj (coords c n) z J), (map3 hcj (coords c n) z J).
  repeat split.
  - apply proj_jac_coords; auto.
  - apply cone_jac_coords; auto.
  - rewrite map3_length; lenlia.
  - rewrite map3_length; lenlia.
  - set (d := map (fun row => nth j row 0) J).
    assert (Ld : length d = length z) by (unfold d; rewrite map_length; lenlia).
    pose (k := nth i (coords c n) KEq). pose (x := nth i z 0). pose (v := nth i d 0).
    assert (Hd : derivable_pt_lim (fun t => cproj k (x + t * v)) 0 (if cact k x then 0 else v)).
    { apply cproj_deriv.
      - apply (Forall2_nth ckink); auto. lenlia.
      - apply Forall_nth'; auto. lenlia.
      - assert (cmu mu k) by (apply Forall_nth'; auto; lenlia). destruct k; cbn in *; subst; auto. }
    rewrite (map3_nth3 _ _ _ _ i KEq 0 []) by lenlia.
    fold k x. unfold hpj.
    assert (Ev : nth j (if negb (cact k x) then nth i J [] else map (fun _ => 0) (nth i J [])) 0
                 = if cact k x then 0 else v).
    { unfold v, d. destruct (cact k x); cbn; rewrite ?nth_map0, ?nth_mapcol; reflexivity. }
    apply (lim_val _ _ _ _ (eq_sym Ev)).
    eapply lim_local; [|exact Hd]. exists 1. split; [lra|]. intros t _.
    rewrite (projection_coords c n) by (auto; rewrite ?along_length; auto).
    rewrite (map3_nth3 _ _ _ _ i KEq 0 0) by (rewrite ?along_length; auto; lenlia).
    rewrite along_nth by (auto; lenlia). reflexivity.
  - set (d := map (fun row => nth j row 0) J).
    assert (Ld : length d = length z) by (unfold d; rewrite map_length; lenlia).
    pose (k := nth i (coords c n) KEq). pose (x := nth i z 0). pose (v := nth i d 0).
    assert (Hd : derivable_pt_lim (fun t => cproj k (x + t * v)) 0 (if cact k x then 0 else v)).
    { apply cproj_deriv.
      - apply (Forall2_nth ckink); auto. lenlia.
      - apply Forall_nth'; auto. lenlia.
      - assert (cmu mu k) by (apply Forall_nth'; auto; lenlia). destruct k; cbn in *; subst; auto. }
    rewrite (map3_nth3 _ _ _ _ i KEq 0 []) by lenlia.
    fold k x. unfold hcj.
    assert (Ev : nth j (if cact k x then nth i J [] else map (fun _ => 0) (nth i J [])) 0
                 = if cact k x then v else 0).
    { unfold v, d. destruct (cact k x); cbn; rewrite ?nth_map0, ?nth_mapcol; reflexivity. }
    apply (lim_val _ _ _ _ (eq_sym Ev)).
    assert (Hd2 : derivable_pt_lim (fun t => (x + t * v) - cproj k (x + t * v)) 0 (v - if cact k x then 0 else v)).
    { apply (derivable_pt_lim_minus (fun t => x + t * v) (fun t => cproj k (x + t * v))); auto. apply lim_affine. }
    assert (Ed : v - (if cact k x then 0 else v) = if cact k x then v else 0) by (destruct (cact k x); lra).
    apply (lim_val _ _ _ _ Ed) in Hd2.
    eapply lim_local; [|exact Hd2]. exists 1. split; [lra|]. intros t _.
    rewrite (normal_cone_coords c n) by (auto; rewrite ?along_length; auto).
    rewrite (map3_nth3 _ _ _ _ i KEq 0 0) by (rewrite ?along_length; auto; lenlia).
    rewrite along_nth by (auto; lenlia). unfold hcone. fold k x v.
    pose proof (cone_sum k (x + t * v)). lra.
Qed.

(** ** Products and the penalty parameter *)
Lemma prod_loop_ext {C A B} (f g : C -> list A -> list B -> option (list B)) h rd cs :
  Forall (fun cn => forall z o, f (h (fst cn)) z o = g (fst cn) z o) cs ->
  forall s o, prod_loop f rd (map (fun cn => (h (fst cn), snd cn)) cs) s o = prod_loop g rd cs s o.
Proof.
  induction 1 as [|[c k] cs H Hs IH]; intros s o; cbn [prod_loop map fst snd]; [reflexivity|].
  destruct (segment s k (rd o)); [|reflexivity]. destruct (segment s k o); [|reflexivity].
  cbn in H. rewrite H. destruct (g c _ _); [apply IH|reflexivity].
Qed.

Lemma forward_prod mu m cs :
  forward mu (CProd m cs) = CProd (K := RSc) mu (map (fun cn => (forward mu (fst cn), snd cn)) cs).
Proof. reflexivity. Qed.

Lemma no_l1_Forall m cs : no_l1 (CProd m cs) -> Forall (fun cn => no_l1 (fst cn)) cs.
Proof. induction cs as [|[c k] cs IH]; intros H; constructor; cbn in *; [tauto|apply IH; tauto]. Qed.

Lemma forward_same (mu : R) c : no_l1 c ->
  (forall z o, projection (forward mu c) z o = projection c z o) /\
  (forall z o, normal_cone (forward mu c) z o = normal_cone c z o) /\
  (forall z o, active_set (forward mu c) z o = active_set c z o) /\
  (forall z J, proj_jac (forward mu c) z J = proj_jac c z J) /\
  (forall z J, cone_jac (forward mu c) z J = cone_jac c z J).
Proof.
  induction c as [m|m|m l u|m|m cs IH] using cset_ind'; intros Hn; cbn [no_l1] in Hn.
  1-3: repeat split; reflexivity.
  - destruct Hn.
  - apply (no_l1_Forall m) in Hn.
    assert (F : Forall (fun cn : rset * nat =>
       (forall z o, projection (forward mu (fst cn)) z o = projection (fst cn) z o) /\
       (forall z o, normal_cone (forward mu (fst cn)) z o = normal_cone (fst cn) z o) /\
       (forall z o, active_set (forward mu (fst cn)) z o = active_set (fst cn) z o) /\
       (forall z J, proj_jac (forward mu (fst cn)) z J = proj_jac (fst cn) z J) /\
       (forall z J, cone_jac (forward mu (fst cn)) z J = cone_jac (fst cn) z J)) cs).
    { eapply Forall_impl2; [|exact IH|exact Hn]. auto. }
    rewrite forward_prod.
    repeat split; intros; cbn [projection normal_cone active_set proj_jac cone_jac];
      apply prod_loop_ext; refine (Forall_impl _ _ F); intros a (H1 & H2 & H3 & H4 & H5);
      first [exact H1 | exact H2 | exact H3 | exact H4 | exact H5].
Qed.

Lemma lem_forward (mu : R) c : no_l1 c ->
  (forall z o, projection (set_prox (K := RSc) mu c) z o = projection (forward mu c) z o) /\
  (forall z o, normal_cone (set_prox (K := RSc) mu c) z o = normal_cone (forward mu c) z o) /\
  (forall z o, active_set (set_prox (K := RSc) mu c) z o = active_set (forward mu c) z o) /\
  (forall z J, proj_jac (set_prox (K := RSc) mu c) z J = proj_jac (forward mu c) z J) /\
  (forall z J, cone_jac (set_prox (K := RSc) mu c) z J = cone_jac (forward mu c) z J).
Proof.
  intros Hn. destruct (forward_same mu c Hn) as (H1 & H2 & H3 & H4 & H5).
  repeat split; intros; rewrite ?H1, ?H2, ?H3, ?H4, ?H5; destruct c; try reflexivity; destruct Hn.
Qed.

Lemma lem_prod_blocks m c1 k1 c2 k2 z1 z2 o1 o2 p1 p2 :
  length z1 = k1 -> length z2 = k2 -> length o1 = k1 -> length o2 = k2 ->
  shape c1 k1 -> shape c2 k2 ->
  projection c1 z1 o1 = Some p1 -> projection c2 z2 o2 = Some p2 ->
  projection (CProd m [(c1, k1); (c2, k2)]) (z1 ++ z2) (o1 ++ o2) = Some (p1 ++ p2).
Proof.
  intros A1 A2 B1 B2 S1 S2 H1 H2.
  rewrite (projection_coords _ (k1 + k2)).
  2:{ cbn. repeat split; auto; lenlia || (replace (k1 + k2 - k1)%nat with k2 by lia; auto). }
  2,3: rewrite app_length; lenlia.
  rewrite (projection_coords c1 k1) in H1 by auto. rewrite (projection_coords c2 k2) in H2 by auto.
  injection H1 as <-. injection H2 as <-. cbn [coords flat_map fst snd]. rewrite app_nil_r.
  apply (f_equal Some). rewrite map3_app; auto; rewrite coords_length; auto; lenlia.
Qed.
