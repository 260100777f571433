(** Lemmas on the memory of BlockLDLT. *)
From Coq Require Import List Bool Arith Lia.
From Verif Require Import Own_model Own_spec.
Import ListNotations.

Notation alive a := (count_occ bool_dec a true).
Lemma delete_ok a i : nth i a false = true -> exists b, delete a i = Some b /\ (forall j, nth j b false = if Nat.eqb j i then false else nth j a false) /\ alive a = S (alive b) /\ length b = length a.
Proof.
  intros H. unfold delete. rewrite H. eexists. split; [reflexivity|]. revert i H. induction a as [|c a IH]; intros i H; [destruct i; discriminate H|].
  destruct i as [|i]; cbn in H.
  - subst c. cbn. split; [|split; [reflexivity|reflexivity]]. intros [|j]; reflexivity.
  - destruct (IH i H) as (H1 & H2 & H3). cbn [firstn skipn app]. split; [|split].
    + intros [|j]; [reflexivity|]. cbn. apply H1.
    + cbn [count_occ]. destruct (bool_dec c true); rewrite H2; reflexivity.
    + exact (f_equal S H3).
Qed.
Lemma deletes_ok l : forall a, NoDup l -> (forall i, In i l -> nth i a false = true) -> exists b, deletes a l = Some b /\ (forall j, ~ In j l -> nth j b false = nth j a false) /\ alive a = length l + alive b /\ length b = length a.
Proof.
  induction l as [|i l IH]; intros a N H; cbn [deletes].
  - exists a. auto.
  - inversion N as [|? ? Ni Nl]; subst. destruct (delete_ok a i (H i (or_introl eq_refl))) as (b & -> & B1 & B2 & B3).
    destruct (IH b Nl) as (c & -> & C1 & C2 & C3).
    + intros j Hj. rewrite B1. destruct (Nat.eqb_spec j i) as [->|]; [contradiction|]. apply H. right. exact Hj.
    + exists c. split; [reflexivity|]. split; [|split; [cbn [length]; lia|congruence]]. intros j Hj. rewrite C1, B1 by (intros X; apply Hj; right; exact X). destruct (Nat.eqb_spec j i) as [->|]; [exfalso; apply Hj; left; reflexivity|reflexivity].
Qed.
Lemma live_bound a i : nth i a false = true -> i < length a.
Proof. intros H. destruct (Nat.lt_ge_cases i (length a)) as [|L]; [assumption|]. rewrite nth_overflow in H by exact L. discriminate H. Qed.
Lemma nth_new a i : nth i (a ++ [true; true]) false = if Nat.ltb i (length a) then nth i a false else Nat.ltb i (length a + 2).
Proof.
  destruct (Nat.ltb_spec i (length a)); [apply app_nth1; assumption|]. rewrite app_nth2 by assumption. destruct (Nat.ltb_spec i (length a + 2)).
  - assert (E : i - length a = 0 \/ i - length a = 1) by lia. destruct E as [-> | ->]; reflexivity.
  - apply nth_overflow. cbn. lia.
Qed.
Lemma alive_new a : alive (a ++ [true; true]) = alive a + 2.
Proof. rewrite count_occ_app. reflexivity. Qed.

(** The invariant. *)
Definition inv (m : mem) (s : account) : Prop :=
  exclusive m /\ (forall x, match blocks m x with None => fst s x = None | Some p => fst s x = Some (b_llt p) end) /\ alive (arrays m) = snd s.
Lemma inv_more m s : inv m s -> inv (fst (new2 m)) (fst s, snd s + 2).
Proof.
  intros ((E1 & E2 & E3) & F & N). split; [split; [|split]|split]; cbn.
  - intros x p i Hx Hi. specialize (E1 x p i Hx Hi). rewrite nth_new. pose proof (live_bound _ _ E1). destruct (Nat.ltb_spec i (length (arrays m))); [exact E1|lia].
  - exact E2.
  - exact E3.
  - exact F.
  - rewrite alive_new, N. reflexivity.
Qed.
(** Object x gets arrays that no other object uses. *)
Lemma inv_set m f n x p o : inv m (f, n) -> NoDup (ptrs p) -> (forall i, In i (ptrs p) -> nth i (arrays m) false = true) ->
  (forall y q i, y <> x -> blocks m y = Some q -> In i (ptrs q) -> ~ In i (ptrs p)) -> o = b_llt p -> inv (set_block m x (Some p)) (mark f x (Some o), n).
Proof.
  intros ((E1 & E2 & E3) & F & N) Nd L Fr ->. unfold inv, exclusive, set_block, mark. cbn [fst snd arrays blocks] in *. split; [split; [|split]|split].
  - intros y q i. destruct (Nat.eqb y x); intros X Hi; [injection X as <-; apply L, Hi|exact (E1 y q i X Hi)].
  - intros y q. destruct (Nat.eqb y x); intros X; [injection X as <-; exact Nd|exact (E2 y q X)].
  - intros y z q r i. destruct (Nat.eqb_spec y x) as [->|Ny], (Nat.eqb_spec z x) as [->|Nz]; intros X Y P Q.
    + reflexivity.
    + injection X as <-. destruct (Fr z r i Nz Y Q P).
    + injection Y as <-. destruct (Fr y q i Ny X P Q).
    + exact (E3 y z q r i X Y P Q).
  - intros y. destruct (Nat.eqb y x); [reflexivity|apply F].
  - exact N.
Qed.
Lemma construct_inv m f n x llt : inv m (f, n) -> blocks m x = None -> inv (construct m x llt) (mark f x (Some llt), n + 4).
Proof.
  intros I Hx. pose proof (inv_more _ _ (inv_more _ _ I)) as I2. cbn [fst snd] in I2. replace (n + 2 + 2) with (n + 4) in I2 by lia. destruct I as ((E1 & _) & _). unfold construct. cbn [new2]. cbn [new2 fst arrays blocks] in I2 |- *.
  set (k := length (arrays m)) in *. assert (L2 : length (arrays m ++ [true; true]) = k + 2) by (rewrite app_length; reflexivity). rewrite L2.
  apply inv_set.
  - exact I2.
  - unfold ptrs. cbn [b_data b_lens b_tdata b_tlens]. repeat constructor; cbn; lia.
  - intros i Hi. cbn [arrays]. rewrite nth_new, L2. unfold ptrs in Hi. cbn in Hi. destruct (Nat.ltb_spec i (k + 2)).
    + rewrite nth_new. fold k. destruct (Nat.ltb_spec i k); [lia|]. apply Nat.ltb_lt. lia.
    + apply Nat.ltb_lt. lia.
  - intros y q i Ny Hy Hi X. cbn [blocks] in Hy. pose proof (live_bound _ _ (E1 y q i Hy Hi)). fold k in H. unfold ptrs in X. cbn in X. lia.
  - reflexivity.
Qed.
Lemma analyze_inv m f n x p ok : inv m (f, n) -> blocks m x = Some p -> inv (analyze m x p ok) (if b_llt p then (f, n) else (mark f x (Some ok), n + 2)).
Proof.
  intros I Hx. unfold analyze. destruct (b_llt p); [exact I|]. pose proof (inv_more _ _ I) as I2. cbn [fst snd new2] in I2. cbn [new2]. destruct I as ((E1 & E2 & E3) & _). set (k := length (arrays m)) in *.
  pose proof (fun i => E1 x p i Hx) as Ex. unfold ptrs in Ex. cbn [In] in Ex. pose proof (E2 x p Hx) as Dx. unfold ptrs in Dx.
  assert (B : b_data p < k /\ b_lens p < k) by (split; apply live_bound; apply Ex; tauto). apply inv_set.
  - exact I2.
  - inversion Dx as [|? ? D1 D2]; subst. inversion D2 as [|? ? D3 D4]; subst. unfold ptrs. cbn [b_data b_lens b_tdata b_tlens]. cbn in D1, D3. repeat constructor; cbn; lia.
  - intros i Hi. cbn [arrays]. rewrite nth_new. fold k. unfold ptrs in Hi. cbn in Hi. destruct (Nat.ltb_spec i k); [apply Ex; lia|apply Nat.ltb_lt; lia].
  - intros y q i Ny Hy Hi X. cbn [blocks] in Hy. pose proof (live_bound _ _ (E1 y q i Hy Hi)). fold k in H. assert (In i (ptrs p)) by (unfold ptrs in X |- *; cbn in X |- *; lia). exact (Ny (E3 y x q p i Hy Hx Hi H0)).
  - reflexivity.
Qed.
Lemma readable_of m s x p l : inv m s -> blocks m x = Some p -> incl l (ptrs p) -> readable (arrays m) l = true.
Proof. intros ((E1 & _) & _) Hx Hl. unfold readable. apply forallb_forall. intros i Hi. apply (E1 x p i Hx). apply Hl, Hi. Qed.
Lemma first_two p : incl [b_data p; b_lens p] (ptrs p).
Proof. intros i H. unfold ptrs. cbn in *. tauto. Qed.
Lemma mstep_ok m s o s' : inv m s -> account_step s o = Some s' -> exists m', mstep m o = Some m' /\ inv m' s'.
Proof.
  intros I H. destruct s as [f n]. assert (F := fun x => proj1 (proj2 I) x). cbn [fst] in F. destruct o as [x llt|x y|x y|x ok|x ok|x|x]; cbn [account_step mstep] in *.
  - specialize (F x). destruct (blocks m x) as [p|] eqn:Ex; rewrite F in H; [discriminate H|]. injection H as <-. eexists. split; [reflexivity|]. apply construct_inv; assumption.
  - pose proof (F x) as Fx. pose proof (F y) as Fy. destruct (blocks m x) as [p|] eqn:Ex; rewrite Fx in H; [discriminate H|]. destruct (blocks m y) as [q|] eqn:Ey; rewrite Fy in H; [|discriminate H]. injection H as <-.
    rewrite (readable_of _ _ _ _ _ I Ey (first_two q)). eexists. split; [reflexivity|]. apply construct_inv; assumption.
  - discriminate H.
  - specialize (F x). destruct (blocks m x) as [p|] eqn:Ex; rewrite F in H; [|discriminate H]. rewrite (readable_of _ _ _ _ _ I Ex (first_two p)), orb_true_r. eexists. split; [reflexivity|]. pose proof (analyze_inv m f n x p ok I Ex) as A. destruct (b_llt p); injection H as <-; exact A.
  - specialize (F x). destruct (blocks m x) as [p|] eqn:Ex; rewrite F in H; [|discriminate H]. rewrite (readable_of _ _ _ _ _ I Ex (first_two p)). eexists. split; [reflexivity|]. pose proof (inv_more _ _ I) as I2. pose proof (analyze_inv (fst (new2 m)) f (n + 2) x p ok I2 Ex) as A. destruct (b_llt p); injection H as <-; [exact A|]. replace (n + 4) with (n + 2 + 2) by lia. exact A.
  - specialize (F x). destruct (blocks m x) as [p|] eqn:Ex; rewrite F in H; [|discriminate H]. injection H as <-. rewrite (readable_of _ _ _ _ _ I Ex (incl_refl _)). exists m. auto.
  - specialize (F x). destruct (blocks m x) as [p|] eqn:Ex; rewrite F in H; [|discriminate H]. injection H as <-. destruct I as ((E1 & E2 & E3) & G & N). destruct (deletes_ok (ptrs p) (arrays m) (E2 x p Ex) (fun i => E1 x p i Ex)) as (a & -> & A1 & A2 & A3). eexists. split; [reflexivity|].
    unfold inv, exclusive, mark. cbn [fst snd arrays blocks] in *. split; [split; [|split]|split].
    + intros y q i. destruct (Nat.eqb_spec y x) as [->|Ny]; [discriminate|]. intros Hy Hi. rewrite A1; [exact (E1 y q i Hy Hi)|]. intros X. exact (Ny (E3 y x q p i Hy Ex Hi X)).
    + intros y q. destruct (Nat.eqb y x); [discriminate|]. apply E2.
    + intros y z q r i. destruct (Nat.eqb y x); [discriminate|]. destruct (Nat.eqb z x); [discriminate|]. apply E3.
    + intros y. destruct (Nat.eqb y x); [reflexivity|apply G].
    + cbn [ptrs length] in A2. lia.
Qed.
Lemma mexec_ok l : forall m s s', inv m s -> account_exec s l = Some s' -> exists m', mexec m l = Some m' /\ inv m' s'.
Proof.
  induction l as [|o l IH]; intros m s s' I H; cbn [account_exec mexec] in *.
  - injection H as <-. exists m. auto.
  - destruct (account_step s o) as [s1|] eqn:E; [|discriminate H]. destruct (mstep_ok m s o s1 I E) as (m1 & -> & I1). exact (IH m1 s1 s' I1 H).
Qed.
Lemma inv_start : inv mstart ((fun _ => None), 0).
Proof. split; [split; [|split]|split]; cbn; try discriminate; reflexivity. Qed.
Lemma memory_ok l f n : account_exec ((fun _ => None), 0) l = Some (f, n) -> exists m, mexec mstart l = Some m /\ exclusive m /\ alive (arrays m) = n /\ forall x, blocks m x = None <-> f x = None.
Proof.
  intros H. destruct (mexec_ok l _ _ _ inv_start H) as (m & E & I1 & I2 & I3). exists m. split; [exact E|]. split; [exact I1|]. split; [exact I3|]. intros x. specialize (I2 x). cbn [fst] in I2. destruct (blocks m x); rewrite I2; split; try discriminate; reflexivity.
Qed.
