(** Proofs for the manifolds.  Products and bundles are first shown to act like binary products. *)
From Coq Require Import Reals List Bool Arith Lia Lra Ranalysis.
From Verif Require Import Scalar Cset_model Cset_spec Cset_proofs Problem_model Manifold_model Manifold_spec.
Import ListNotations.

(** * Generic scalars *)
Section Gen.
  Context {K : Sc}.
  Notation vec := (list (car K)).
  Notation rows := (list (list (car K))).
  Notation sp := (space K).

  Lemma space_ind2 (P : sp -> Prop) :
    (forall n, P (SVec n)) -> (forall l, P (SLeaf l)) -> P (SProd []) ->
    (forall c r, P c -> P (SProd r) -> P (SProd (c :: r))) ->
    (forall b, P b -> P (SBundle b)) -> forall s, P s.
  Proof.
    intros HV HL HN HC HB. fix IH 1. intros [n|l|cs|b].
    - apply HV.
    - apply HL.
    - induction cs as [|c r IHr]; [apply HN | apply HC; [apply IH | exact IHr]].
    - apply HB, IH.
  Qed.

  Lemma seg_app_l (a b : vec) n : length a = n -> seg 0 n (a ++ b) = Ret a.
  Proof.
    intros <-. unfold seg, segment. rewrite app_length. cbn.
    destruct (Nat.leb_spec (length a) (length a + length b)); [|lia]. cbn.
    rewrite firstn_app, Nat.sub_diag, firstn_all. cbn. now rewrite app_nil_r.
  Qed.
  Lemma seg_shift (a b : vec) k c n : length a = k -> seg (k + c) n (a ++ b) = seg c n b.
  Proof.
    intros <-. unfold seg, segment. rewrite app_length.
    replace (length a + c + n)%nat with (length a + (c + n))%nat by lia.
    destruct (Nat.leb_spec (length a + (c + n)) (length a + length b)), (Nat.leb_spec (c + n) (length b)); try lia; [|reflexivity].
    rewrite skipn_app, skipn_all2 by lia. cbn. do 2 f_equal. replace (length a + c - length a)%nat with c by lia. reflexivity.
  Qed.
  Lemma tail_app (a b : vec) n : length b = n -> tail_seg n (a ++ b) = Ret b.
  Proof.
    intros <-. unfold tail_seg. rewrite app_length.
    destruct (Nat.leb_spec (length b) (length a + length b)); [|lia].
    replace (length a + length b - length b)%nat with (length a) by lia.
    rewrite skipn_app, skipn_all2, Nat.sub_diag by lia. reflexivity.
  Qed.
  Lemma fixed_ok {A} (v : list A) n : length v = n -> fixed n v = Ret v.
  Proof. intros <-. unfold fixed. now rewrite Nat.eqb_refl. Qed.
  Lemma fixed_inv {A} (v w : list A) n : fixed n v = Ret w -> v = w /\ length w = n.
  Proof. unfold fixed. destruct (Nat.eqb_spec (length v) n); [|discriminate]. intros [= <-]. auto. Qed.
  Lemma bind_inv {A B} (m : outcome A) (f : A -> outcome B) y : bind m f = Ret y -> exists x, m = Ret x /\ f x = Ret y.
  Proof. destruct m; cbn; try discriminate. eauto. Qed.
  Lemma bind_assoc {A B C} (m : outcome A) (f : A -> outcome B) (g : B -> outcome C) :
    bind (bind m f) g = bind m (fun x => bind (f x) g).
  Proof. now destruct m. Qed.
  Lemma bind_ext {A B} (m : outcome A) (f g : A -> outcome B) : (forall x, m = Ret x -> f x = g x) -> bind m f = bind m g.
  Proof. destruct m; cbn; auto. Qed.

  Lemma nx_cons (c : sp) r : nx (SProd (c :: r)) = (nx c + nx (SProd r))%nat.
  Proof. reflexivity. Qed.
  Lemma ndx_cons (c : sp) r : ndx (SProd (c :: r)) = (ndx c + ndx (SProd r))%nat.
  Proof. reflexivity. Qed.

  (** ** Products act like binary products *)
  Lemma int_loop_shift f (cs : list sp) (a va : vec) k k' : length a = k -> length va = k' ->
    forall cq cv x v, int_loop f cs (k + cq) (k' + cv) (a ++ x) (va ++ v) = int_loop f cs cq cv x v.
  Proof.
    intros Ha Hv. induction cs as [|c r IH]; intros cq cv x v; [reflexivity|]. cbn.
    rewrite (seg_shift a), (seg_shift va) by assumption.
    rewrite <- !Nat.add_assoc, IH. reflexivity.
  Qed.
  Lemma diff_loop_shift f (cs : list sp) (a a' : vec) k : length a = k -> length a' = k ->
    forall cq x y, diff_loop f cs (k + cq) (a ++ x) (a' ++ y) = diff_loop f cs cq x y.
  Proof.
    intros Ha Hv. induction cs as [|c r IH]; intros cq x y; [reflexivity|]. cbn.
    rewrite (seg_shift a), (seg_shift a') by assumption.
    rewrite <- !Nat.add_assoc, IH. reflexivity.
  Qed.
  Lemma int_view_loop f (c : sp) r a b v1 v2 : length a = nx c -> length v1 = ndx c ->
    int_loop f (c :: r) 0 0 (a ++ b) (v1 ++ v2) =
    (do o <- f c a v1; do o <- fixed (nx c) o; do q <- int_loop f r 0 0 b v2; Ret (o ++ q))%out.
  Proof.
    intros Ha Hv. cbn. rewrite !seg_app_l by assumption. cbn.
    apply bind_ext; intros o _. apply bind_ext; intros o' _.
    rewrite <- (int_loop_shift f r a v1 (nx c) (ndx c) Ha Hv 0 0 b v2). now rewrite !Nat.add_0_r.
  Qed.
  Lemma diff_view_loop f (c : sp) r a b a' b' : length a = nx c -> length a' = nx c ->
    diff_loop f (c :: r) 0 (a ++ b) (a' ++ b') =
    (do o <- f c a a'; do o <- fixed (ndx c) o; do q <- diff_loop f r 0 b b'; Ret (o ++ q))%out.
  Proof.
    intros Ha Hv. cbn. rewrite !seg_app_l by assumption. cbn.
    apply bind_ext; intros o _. apply bind_ext; intros o' _.
    rewrite <- (diff_loop_shift f r a a' (nx c) Ha Hv 0 b b'). now rewrite !Nat.add_0_r.
  Qed.

  (** Sizes of results *)
  Lemma int_loop_len f (cs : list sp) : forall cq cv x v y, int_loop f cs cq cv x v = Ret y -> length y = nx (SProd cs).
  Proof.
    induction cs as [|c r IH]; intros cq cv x v y H; cbn in H.
    - injection H as <-. reflexivity.
    - apply bind_inv in H as (? & _ & H). apply bind_inv in H as (? & _ & H). apply bind_inv in H as (? & _ & H).
      apply bind_inv in H as (o & E & H). apply fixed_inv in E as [_ E]. apply bind_inv in H as (q & E' & H).
      injection H as <-. rewrite app_length, E. cbn. f_equal. eapply IH; eauto.
  Qed.
  Lemma diff_loop_len f (cs : list sp) : forall cq x v y, diff_loop f cs cq x v = Ret y -> length y = ndx (SProd cs).
  Proof.
    induction cs as [|c r IH]; intros cq x v y H; cbn in H.
    - injection H as <-. reflexivity.
    - apply bind_inv in H as (? & _ & H). apply bind_inv in H as (? & _ & H). apply bind_inv in H as (? & _ & H).
      apply bind_inv in H as (o & E & H). apply fixed_inv in E as [_ E]. apply bind_inv in H as (q & E' & H).
      injection H as <-. rewrite app_length, E. cbn. f_equal. eapply IH; eauto.
  Qed.
  Lemma tail_len n (x y : vec) : tail_seg n x = Ret y -> length y = n.
  Proof.
    unfold tail_seg. destruct (Nat.leb_spec n (length x)); [|discriminate]. intros [= <-].
    rewrite skipn_length. lia.
  Qed.
  Lemma vop_len f (x y z : vec) : vop f x y = Ret z -> length x = length y /\ length z = length x /\ z = map2 f x y.
  Proof.
    unfold vop. destruct (Nat.eqb_spec (length x) (length y)); [|discriminate]. intros [= <-].
    rewrite map2_length, e. repeat split; lia.
  Qed.
  Lemma integrate_len (s : sp) : forall x v y, integrate s x v = Ret y -> length y = nx s.
  Proof.
    induction s as [n|l| |c r|b IH] using space_ind2; intros x v y H.
    - apply bind_inv in H as (o & _ & H). apply fixed_inv in H as [_ H]. exact H.
    - apply bind_inv in H as (o & _ & H). apply fixed_inv in H as [_ H]. exact H.
    - now injection H as <-.
    - eapply int_loop_len; exact H.
    - cbn in H. apply bind_inv in H as (p & _ & H). apply bind_inv in H as (t & _ & H). apply bind_inv in H as (o & E & H).
      apply bind_inv in H as (xv & E1 & H). apply bind_inv in H as (dv & E2 & H). apply bind_inv in H as (w & E3 & H).
      injection H as <-. apply tail_len in E1. apply vop_len in E3. rewrite app_length, (IH _ _ _ E). cbn. lia.
  Qed.
  Lemma difference_len (s : sp) : forall x v y, difference s x v = Ret y -> length y = ndx s.
  Proof.
    induction s as [n|l| |c r|b IH] using space_ind2; intros x v y H.
    - apply bind_inv in H as (o & _ & H). apply fixed_inv in H as [_ H]. exact H.
    - apply bind_inv in H as (o & _ & H). apply fixed_inv in H as [_ H]. exact H.
    - now injection H as <-.
    - eapply diff_loop_len; exact H.
    - cbn in H. apply bind_inv in H as (p & _ & H). apply bind_inv in H as (t & _ & H). apply bind_inv in H as (o & E & H).
      apply bind_inv in H as (xv & E1 & H). apply bind_inv in H as (dv & E2 & H). apply bind_inv in H as (w & E3 & H).
      injection H as <-. apply tail_len in E1. apply vop_len in E3. rewrite app_length, (IH _ _ _ E). cbn. lia.
  Qed.

  (** ** The binary view of a space *)
  Record paired (S s1 s2 : sp) : Prop := {
    pr_nx : nx S = (nx s1 + nx s2)%nat;
    pr_ndx : ndx S = (ndx s1 + ndx s2)%nat;
    pr_int : forall a b v1 v2, length a = nx s1 -> length b = nx s2 -> length v1 = ndx s1 -> length v2 = ndx s2 ->
      integrate S (a ++ b) (v1 ++ v2) = (do o <- integrate s1 a v1; do q <- integrate s2 b v2; Ret (o ++ q))%out;
    pr_diff : forall a b a' b', length a = nx s1 -> length b = nx s2 -> length a' = nx s1 -> length b' = nx s2 ->
      difference S (a ++ b) (a' ++ b') = (do o <- difference s1 a a'; do q <- difference s2 b b'; Ret (o ++ q))%out;
    pr_jint : forall a b v1 v2 arg old, length a = nx s1 -> length b = nx s2 -> length v1 = ndx s1 -> length v2 = ndx s2 ->
      Jintegrate S (a ++ b) (v1 ++ v2) arg old =
      (do J1 <- Jintegrate s1 a v1 arg (zeros (ndx s1) (ndx s1)); do J1 <- fixed2 (ndx s1) (ndx s1) J1;
       do J2 <- Jintegrate s2 b v2 arg (zeros (ndx s2) (ndx s2));
       Ret (map (fun row => row ++ repeat s0 (ndx s2)) J1 ++ map (fun row => repeat s0 (ndx s1) ++ row) J2))%out;
    pr_jdiff : forall a b a' b' arg old, (arg < 2)%nat -> length a = nx s1 -> length b = nx s2 -> length a' = nx s1 -> length b' = nx s2 ->
      Jdifference S (a ++ b) (a' ++ b') arg old =
      (do J1 <- Jdifference s1 a a' arg (zeros (ndx s1) (ndx s1)); do J1 <- fixed2 (ndx s1) (ndx s1) J1;
       do J2 <- Jdifference s2 b b' arg (zeros (ndx s2) (ndx s2));
       Ret (map (fun row => row ++ repeat s0 (ndx s2)) J1 ++ map (fun row => repeat s0 (ndx s1) ++ row) J2))%out }.

  Lemma fixed2_inv r c (M N : rows) : fixed2 r c M = Ret N -> M = N /\ length N = r /\ Forall (fun row => length row = c) N.
  Proof.
    unfold fixed2. destruct (Nat.eqb_spec (length M) r); cbn; [|discriminate].
    destruct (forallb _ M) eqn:E; [|discriminate]. intros [= <-]. repeat split; auto.
    rewrite forallb_forall in E. apply Forall_forall. intros x Hx. now apply Nat.eqb_eq, E.
  Qed.
  Lemma fixed2_ok r c (M : rows) : length M = r -> Forall (fun row => length row = c) M -> fixed2 r c M = Ret M.
  Proof.
    intros H F. unfold fixed2. rewrite H, Nat.eqb_refl. cbn.
    replace (forallb _ M) with true; [reflexivity|]. symmetry. apply forallb_forall. intros x Hx.
    apply Nat.eqb_eq. rewrite Forall_forall in F. auto.
  Qed.

  Lemma shifted_first n1 n2 (J : rows) : Forall (fun row => length row = n1) J ->
    shifted_rows 0 (n1 + n2) J = map (fun row => row ++ repeat s0 n2) J.
  Proof.
    intros F. unfold shifted_rows. apply map_ext_in. intros row Hr. rewrite Forall_forall in F.
    cbn. rewrite (F _ Hr). do 2 f_equal. lia.
  Qed.
  Lemma shifted_more k c w (J : rows) : shifted_rows (k + c) (k + w) J = map (fun row => repeat s0 k ++ row) (shifted_rows c w J).
  Proof.
    unfold shifted_rows. rewrite map_map. apply map_ext. intros row. rewrite repeat_app, <- app_assoc.
    do 4 f_equal. lia.
  Qed.
  Lemma jint_loop_shift f (cs : list sp) (a va : vec) k k' w : length a = k -> length va = k' ->
    forall cq cv x v arg, jint_loop f (k' + w) cs (k + cq) (k' + cv) (a ++ x) (va ++ v) arg =
      (do q <- jint_loop f w cs cq cv x v arg; Ret (map (fun row => repeat s0 k' ++ row) q))%out.
  Proof.
    intros Ha Hv. induction cs as [|c r IH]; intros cq cv x v arg; [reflexivity|]. cbn.
    rewrite (seg_shift a), (seg_shift va) by assumption.
    rewrite <- !Nat.add_assoc, IH. do 4 (rewrite bind_assoc; apply bind_ext; intros ? _).
    rewrite !bind_assoc. apply bind_ext. intros q _. cbn. now rewrite shifted_more, map_app.
  Qed.
  Lemma jdiff_loop_shift f (cs : list sp) (a a' : vec) k k' w : length a = k -> length a' = k ->
    forall cq cv x v arg, jdiff_loop f (k' + w) cs (k + cq) (k' + cv) (a ++ x) (a' ++ v) arg =
      (do q <- jdiff_loop f w cs cq cv x v arg; Ret (map (fun row => repeat s0 k' ++ row) q))%out.
  Proof.
    intros Ha Hv. induction cs as [|c r IH]; intros cq cv x v arg; [reflexivity|]. cbn.
    rewrite (seg_shift a), (seg_shift a') by assumption.
    rewrite <- !Nat.add_assoc, IH. do 4 (rewrite bind_assoc; apply bind_ext; intros ? _).
    rewrite !bind_assoc. apply bind_ext. intros q _. cbn. now rewrite shifted_more, map_app.
  Qed.

  Lemma paired_cons (c : sp) r : paired (SProd (c :: r)) c (SProd r).
  Proof.
    constructor; try reflexivity.
    - intros a b v1 v2 Ha Hb H1 H2. cbn [integrate]. rewrite int_view_loop by assumption.
      apply bind_ext. intros o E. rewrite fixed_ok by (eapply integrate_len; eauto). reflexivity.
    - intros a b a' b' Ha Hb H1 H2. cbn [difference]. rewrite diff_view_loop by assumption.
      apply bind_ext. intros o E. rewrite fixed_ok by (eapply difference_len; eauto). reflexivity.
    - intros a b v1 v2 arg old Ha Hb H1 H2. cbn [Jintegrate]. cbn [jint_loop]. rewrite !seg_app_l by assumption.
      cbn [bind]. apply bind_ext. intros J _. apply bind_ext. intros J1 E. apply fixed2_inv in E as (_ & _ & F).
      rewrite ndx_cons, (Nat.add_comm 0 (nx c)), (Nat.add_comm 0 (ndx c)).
      rewrite (jint_loop_shift _ r a v1) by (assumption || lia). rewrite bind_assoc. apply bind_ext. intros J2 _. cbn [bind].
      rewrite shifted_first by assumption. reflexivity.
    - intros a b a' b' arg old _ Ha Hb H1 H2. cbn [Jdifference]. cbn [jdiff_loop]. rewrite !seg_app_l by assumption.
      cbn [bind]. apply bind_ext. intros J _. apply bind_ext. intros J1 E. apply fixed2_inv in E as (_ & _ & F).
      rewrite ndx_cons, (Nat.add_comm 0 (nx c)), (Nat.add_comm 0 (ndx c)).
      rewrite (jdiff_loop_shift _ r a a') by (assumption || lia). rewrite bind_assoc. apply bind_ext. intros J2 _. cbn [bind].
      rewrite shifted_first by assumption. reflexivity.
  Qed.

  Lemma eye_rows c n : length (eye_scaled (K:=K) c n) = n /\ Forall (fun row => length row = n) (eye_scaled (K:=K) c n).
  Proof.
    unfold eye_scaled. rewrite map_length, seq_length. split; [reflexivity|]. apply Forall_forall. intros row H.
    apply in_map_iff in H as (i & <- & H). apply in_seq in H. rewrite app_length. cbn. rewrite !repeat_length. lia.
  Qed.
  Lemma shifted_last n (J : rows) : Forall (fun row => length row = n) J ->
    shifted_rows n (n + n) J = map (fun row => repeat s0 n ++ row) J.
  Proof.
    intros F. unfold shifted_rows. apply map_ext_in. intros row Hr. rewrite Forall_forall in F.
    rewrite (F _ Hr). replace (n + n - n - n)%nat with 0%nat by lia. cbn. now rewrite app_nil_r.
  Qed.
  Lemma paired_bundle (s : sp) : paired (SBundle s) s (SVec (ndx s)).
  Proof.
    constructor; try reflexivity.
    - cbn. lia.
    - intros a b v1 v2 Ha Hb H1 H2. cbn in Hb, H2 |- *. rewrite !seg_app_l by assumption. cbn.
      apply bind_ext. intros o E. rewrite !tail_app by assumption. cbn.
      rewrite bind_assoc. apply bind_ext. intros w E'. apply vop_len in E' as (_ & E' & _). now rewrite fixed_ok by lia.
    - intros a b a' b' Ha Hb H1 H2. cbn in Hb, H2 |- *. rewrite !seg_app_l by assumption. cbn.
      apply bind_ext. intros o E. rewrite !tail_app by assumption. cbn.
      rewrite bind_assoc. apply bind_ext. intros w E'. apply vop_len in E' as (_ & E' & _). now rewrite fixed_ok by lia.
    - intros a b v1 v2 arg old Ha Hb H1 H2. cbn [Jintegrate ndx bind]. rewrite !seg_app_l by assumption. cbn [bind].
      apply bind_ext. intros J _. apply bind_ext. intros J1 E. apply fixed2_inv in E as (_ & _ & F).
      replace (2 * ndx s)%nat with (ndx s + ndx s)%nat by lia. rewrite shifted_first by assumption.
      now rewrite shifted_last by apply eye_rows.
    - intros a b a' b' arg old Harg Ha Hb H1 H2. cbn [Jdifference ndx bind]. rewrite !seg_app_l by assumption. cbn [bind].
      apply bind_ext. intros J _. apply bind_ext. intros J1 E. apply fixed2_inv in E as (_ & _ & F).
      replace (2 * ndx s)%nat with (ndx s + ndx s)%nat by lia. rewrite shifted_first by assumption.
      destruct arg as [|[|arg]]; [| |lia]; cbn [bundle_diag bind]; now rewrite shifted_last by apply eye_rows.
  Qed.
End Gen.

(** * Split and merge, normalisation, transport, products *)
Section Gen2.
  Context {K : Sc}.
  Notation vec := (list (car K)).
  Notation rows := (list (list (car K))).
  Notation sp := (space K).

  Lemma split_loop_shift size (cs : list sp) (a x : vec) k c : length a = k ->
    split_loop size cs (k + c) (a ++ x) = split_loop size cs c x.
  Proof.
    intros Ha. revert c. induction cs as [|s r IH]; intros c; [reflexivity|]. cbn.
    rewrite (seg_shift a) by assumption. rewrite <- Nat.add_assoc, IH. reflexivity.
  Qed.
  Lemma split_loop_concat size (cs : list sp) : forall xs, Forall2 (fun s p => length p = size s) cs xs ->
    split_loop size cs 0 (concat xs) = Ret xs.
  Proof.
    intros xs H. induction H as [|s p cs xs Hp H IH]; [reflexivity|]. cbn. rewrite seg_app_l by assumption. cbn.
    replace (size s) with (size s + 0)%nat by lia. rewrite split_loop_shift by assumption. now rewrite IH.
  Qed.
  Lemma merge_loop_concat size (cs : list sp) : forall xs, Forall2 (fun s p => length p = size s) cs xs ->
    merge_loop size cs xs = Ret (concat xs).
  Proof.
    intros xs H. induction H as [|s p cs xs Hp H IH]; [reflexivity|]. cbn. rewrite fixed_ok by assumption. cbn. now rewrite IH.
  Qed.
  Lemma cut (size : sp -> nat) (cs : list sp) : forall x : vec, length x = list_sum (map size cs) ->
    exists xs, x = concat xs /\ Forall2 (fun s p => length p = size s) cs xs.
  Proof.
    induction cs as [|s r IH]; intros x H; cbn in H.
    - destruct x; [|discriminate]. exists []. auto.
    - destruct (IH (skipn (size s) x)) as (xs & E & F); [rewrite skipn_length; unfold list_sum; lia|].
      exists (firstn (size s) x :: xs). cbn. rewrite <- E, firstn_skipn. split; [reflexivity|].
      constructor; [rewrite firstn_length; lia|exact F].
  Qed.
  Lemma concat_sum (size : sp -> nat) (cs : list sp) (xs : list vec) : Forall2 (fun s p => length p = size s) cs xs ->
    length (concat xs) = list_sum (map size cs).
  Proof. induction 1 as [|s p cs xs Hp H IH]; cbn; [reflexivity|]. rewrite app_length, Hp, IH. reflexivity. Qed.
  Lemma lem_split_merge (cs : list sp) :
    (forall x, length x = nx (SProd cs) -> exists xs, split cs x = Ret xs /\ x = concat xs /\
        Forall2 (fun s p => length p = nx s) cs xs /\ merge cs xs = Ret x) /\
    (forall xs, Forall2 (fun s p => length p = nx s) cs xs -> exists x, merge cs xs = Ret x /\ length x = nx (SProd cs) /\ split cs x = Ret xs) /\
    (forall x, length x <> nx (SProd cs) -> split cs x = Throw ErrDim).
  Proof.
    split; [|split].
    - intros x H. destruct (cut nx cs x H) as (xs & -> & F). exists xs. unfold split, merge. rewrite H, Nat.eqb_refl.
      rewrite split_loop_concat, merge_loop_concat by assumption. auto.
    - intros xs F. exists (concat xs). unfold split, merge. rewrite merge_loop_concat, split_loop_concat by assumption.
      rewrite (concat_sum nx cs xs F). cbn. rewrite Nat.eqb_refl. auto.
    - intros x H. unfold split. now destruct (Nat.eqb_spec (length x) (nx (SProd cs))).
  Qed.
  Lemma lem_split_merge_v (cs : list sp) :
    (forall x, length x = ndx (SProd cs) -> exists xs, split_vector cs x = Ret xs /\ x = concat xs /\
        Forall2 (fun s p => length p = ndx s) cs xs /\ merge_vector cs xs = Ret x) /\
    (forall xs, Forall2 (fun s p => length p = ndx s) cs xs -> exists x, merge_vector cs xs = Ret x /\ length x = ndx (SProd cs) /\ split_vector cs x = Ret xs) /\
    (forall x, length x <> ndx (SProd cs) -> split_vector cs x = Throw ErrDim).
  Proof.
    split; [|split].
    - intros x H. destruct (cut ndx cs x H) as (xs & -> & F). exists xs. unfold split_vector, merge_vector. rewrite H, Nat.eqb_refl.
      rewrite split_loop_concat, merge_loop_concat by assumption. auto.
    - intros xs F. exists (concat xs). unfold split_vector, merge_vector. rewrite merge_loop_concat, split_loop_concat by assumption.
      rewrite (concat_sum ndx cs xs F). cbn. rewrite Nat.eqb_refl. auto.
    - intros x H. unfold split_vector. now destruct (Nat.eqb_spec (length x) (ndx (SProd cs))).
  Qed.

  (** Normalisation *)
  Lemma norm_loop_true f (cs : list sp) (xs : list vec) :
    Forall2 (fun s p => exists b, f s p = Ret b) cs xs -> norm_loop f cs xs true = Ret true.
  Proof.
    induction 1 as [|s p cs xs (b & E) H IH]; [reflexivity|]. cbn. rewrite E. cbn. exact IH.
  Qed.
  Lemma norm_total (s : sp) : forall x, length x = nx s -> exists b, is_normalized s x = Ret b.
  Proof.
    revert s. fix IH 1. intros [n|l|cs|s] x H.
    - cbn. eauto.
    - cbn. eauto.
    - destruct (lem_split_merge cs) as (A & _ & _). destruct (A x H) as (xs & E & _ & F & _).
      exists true. cbn. rewrite E. cbn. apply norm_loop_true.
      clear A H E x. revert xs F. induction cs as [|c r IHr]; intros xs F.
      + inversion F. constructor.
      + inversion F as [|? p ? xr Hp Hr]; subst. constructor; [apply IH, Hp|apply IHr, Hr].
    - cbn in H. assert (exists a b, x = a ++ b /\ length a = nx s) as (a & b & -> & Ha).
      { exists (firstn (nx s) x), (skipn (nx s) x). rewrite firstn_skipn, firstn_length. split; [reflexivity|lia]. }
      cbn. rewrite seg_app_l by assumption. cbn. now apply IH.
  Qed.
  Lemma lem_norm_product (cs : list sp) x : length x = nx (SProd cs) -> is_normalized (SProd cs) x = Ret true.
  Proof.
    intros H. destruct (lem_split_merge cs) as (A & _ & _). destruct (A x H) as (xs & E & _ & F & _).
    cbn. rewrite E. cbn. apply norm_loop_true. clear -F. induction F; constructor; auto. now apply norm_total.
  Qed.
  Lemma lem_norm_bundle (s : sp) p v : length p = nx s -> is_normalized (SBundle s) (p ++ v) = is_normalized s p.
  Proof. intros H. cbn. now rewrite seg_app_l by assumption. Qed.

  (** Transport *)
  Lemma segment_app_l {A} (a b : list A) n : length a = n -> segment 0 n (a ++ b) = Some a.
  Proof.
    intros <-. unfold segment. rewrite app_length. cbn.
    destruct (Nat.leb_spec (length a) (length a + length b)); [|lia]. cbn.
    rewrite firstn_app, Nat.sub_diag, firstn_all. cbn. now rewrite app_nil_r.
  Qed.
  Lemma segment_shift {A} (a b : list A) k c n : length a = k -> segment (k + c) n (a ++ b) = segment c n b.
  Proof.
    intros <-. unfold segment. rewrite app_length.
    replace (length a + c + n)%nat with (length a + (c + n))%nat by lia.
    destruct (Nat.leb_spec (length a + (c + n)) (length a + length b)), (Nat.leb_spec (c + n) (length b)); try lia; [|reflexivity].
    rewrite skipn_app, skipn_all2 by lia. cbn. do 2 f_equal. replace (length a + c - length a)%nat with c by lia. reflexivity.
  Qed.
  Lemma write_app_l {A} (a b c : list A) : length c = length a -> write_segment 0 c (a ++ b) = c ++ b.
  Proof.
    intros H. unfold write_segment. cbn. rewrite H, skipn_app, skipn_all, Nat.sub_diag. reflexivity.
  Qed.
  Lemma write_shift {A} (a b c : list A) k n : length a = k -> write_segment (k + n) c (a ++ b) = a ++ write_segment n c b.
  Proof.
    intros <-. unfold write_segment. rewrite firstn_app, firstn_all2 by lia. rewrite <- app_assoc. f_equal.
    replace (length a + n - length a)%nat with n by lia. do 2 f_equal. rewrite skipn_app, skipn_all2 by lia. cbn. f_equal. lia.
  Qed.
  Lemma transport_loop_shift f (cs : list sp) (a va : vec) (B : rows) k k' arg : length a = k -> length va = k' -> length B = k' ->
    forall cq cv x v J, transport_loop f cs (k + cq) (k' + cv) (a ++ x) (va ++ v) arg (B ++ J) =
      (do q <- transport_loop f cs cq cv x v arg J; Ret (B ++ q))%out.
  Proof.
    intros Ha Hv HB. induction cs as [|c r IH]; intros cq cv x v J; [reflexivity|]. cbn.
    rewrite (seg_shift a), (seg_shift va), (segment_shift B) by assumption.
    rewrite <- !Nat.add_assoc. do 5 (rewrite bind_assoc; apply bind_ext; intros ? _).
    rewrite write_shift by assumption. apply IH.
  Qed.
  Lemma lem_transport_cons (c : sp) r a b va vb arg J1 J2 K1 K2 :
    length a = nx c -> length va = ndx c -> length J1 = ndx c -> length K1 = ndx c ->
    transport c a va arg J1 = Ret K1 -> transport (SProd r) b vb arg J2 = Ret K2 ->
    transport (SProd (c :: r)) (a ++ b) (va ++ vb) arg (J1 ++ J2) = Ret (K1 ++ K2).
  Proof.
    intros Ha Hva HJ HK E1 E2. cbn [transport]. cbn [transport_loop]. rewrite !seg_app_l, segment_app_l by assumption. cbn [ub bind].
    rewrite E1. cbn [bind]. rewrite fixed_ok by assumption. cbn [bind]. rewrite write_app_l by congruence.
    rewrite (Nat.add_comm 0 (nx c)), (Nat.add_comm 0 (ndx c)). rewrite (transport_loop_shift _ r a va K1) by assumption.
    cbn [transport] in E2. now rewrite E2.
  Qed.
  Lemma lem_transport_bundle (s : sp) a b va vb arg J1 J2 K1 :
    length a = nx s -> length va = ndx s -> length J1 = ndx s -> length K1 = ndx s ->
    transport s a va arg J1 = Ret K1 ->
    transport (SBundle s) (a ++ b) (va ++ vb) arg (J1 ++ J2) = Ret (K1 ++ J2).
  Proof.
    intros Ha Hva HJ HK E1. cbn [transport]. rewrite !seg_app_l, segment_app_l by assumption. cbn [ub bind].
    rewrite E1. cbn [bind]. rewrite fixed_ok by assumption. cbn [bind]. now rewrite write_app_l by congruence.
  Qed.

  (** Concatenated products *)
  Lemma add_product_app (l r : list sp) : add_product l r = l ++ r.
  Proof.
    unfold add_product. revert l. induction r as [|c r IH]; intros l; cbn; [now rewrite app_nil_r|].
    rewrite IH. unfold add_component. now rewrite <- app_assoc.
  Qed.
  Lemma prod_app_int (l r : list sp) : forall a b va vb,
    length a = nx (SProd l) -> length va = ndx (SProd l) ->
    integrate (SProd (l ++ r)) (a ++ b) (va ++ vb) =
    (do o <- integrate (SProd l) a va; do q <- integrate (SProd r) b vb; Ret (o ++ q))%out.
  Proof.
    induction l as [|c l IH]; intros a b va vb Ha Hva.
    - destruct a; [|discriminate]. destruct va; [|discriminate]. cbn [app integrate int_loop bind].
      now destruct (int_loop integrate r 0 0 b vb).
    - rewrite nx_cons in Ha. rewrite ndx_cons in Hva.
      assert (exists a1 a2, a = a1 ++ a2 /\ length a1 = nx c /\ length a2 = nx (SProd l)) as (a1 & a2 & -> & L1 & L2).
      { exists (firstn (nx c) a), (skipn (nx c) a). rewrite firstn_skipn, firstn_length, skipn_length. repeat split; lia. }
      assert (exists a1 a2, va = a1 ++ a2 /\ length a1 = ndx c /\ length a2 = ndx (SProd l)) as (v1 & v2 & -> & M1 & M2).
      { exists (firstn (ndx c) va), (skipn (ndx c) va). rewrite firstn_skipn, firstn_length, skipn_length. repeat split; lia. }
      rewrite <- !app_assoc. cbn [app]. specialize (IH a2 b v2 vb L2 M2). cbn [integrate] in IH |- *.
      rewrite !int_view_loop by assumption. rewrite !bind_assoc. apply bind_ext. intros o _.
      rewrite !bind_assoc. apply bind_ext. intros o' _. rewrite IH, !bind_assoc. apply bind_ext. intros q _. cbn [bind].
      rewrite !bind_assoc. apply bind_ext. intros q' _. cbn [bind]. now rewrite app_assoc.
  Qed.
  Lemma prod_one_int (s : sp) a va : length a = nx s -> length va = ndx s -> integrate (SProd [s]) a va = integrate s a va.
  Proof.
    intros Ha Hva. pose proof (pr_int _ _ _ (paired_cons s []) a [] va [] Ha eq_refl Hva eq_refl) as E.
    rewrite !app_nil_r in E. rewrite E. cbn. destruct (integrate s a va); cbn; try reflexivity. now rewrite app_nil_r.
  Qed.
  Lemma nx_one (s : sp) : nx (SProd [s]) = nx s. Proof. cbn. lia. Qed.
  Lemma ndx_one (s : sp) : ndx (SProd [s]) = ndx s. Proof. cbn. lia. Qed.
  Lemma neutral_app (l r : list sp) : neutral (SProd (l ++ r)) = neutral (SProd l) ++ neutral (SProd r).
  Proof. cbn. now rewrite map_app, concat_app. Qed.
  Lemma neutral_one (s : sp) : neutral (SProd [s]) = neutral s.
  Proof. cbn. now rewrite app_nil_r. Qed.
End Gen2.
