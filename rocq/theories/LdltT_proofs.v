From Coq Require Import Reals List Bool Arith Lia Lra Permutation.
From Verif Require Import Scalar Problem_model Symb_model Lin_spec Lin_proofs Symb_spec Symb_proofs SymbL_proofs SymbC_proofs SymbP_proofs SymbQ_proofs Ldlt_model Ldlt_spec Ldlt_proofs LdltG_proofs LdltB_proofs LdltS_proofs LdltO_proofs.
Import ListNotations.

(** ** Results of the triangular solves *)
Definition solvableb (k : kind) : bool := match k with Zero | Dense => false | _ => true end.
Lemma solvable_iff k : solvableb k = true <-> solvable k.
Proof. unfold solvable. destruct k; cbn; split; intros; auto; try discriminate; destruct H as [H|[H|H]]; discriminate. Qed.
Section Flags.
  Variables (s : symb) (T : mat RSc).
  Let n := sy_n s.
  Let len j := nth j (sy_lens s) 0.
  Let st j := start (sy_lens s) j.
  Hypothesis W : well s.
  Lemma gemm_ret r m c dst lhs rhs k al : (k = Diag -> r = c) -> exists d, gemmt (K := RSc) r m c dst lhs rhs k Dense al = Ret d.
  Proof.
    intros H. destruct k; cbn; unfold gemm_dx, gemm_sum; try (eexists; reflexivity). rewrite (H eq_refl), Nat.min_id, Nat.eqb_refl. eexists; reflexivity.
  Qed.
  Lemma tri_update_ret i o : i < n -> forall l p0 b, (forall p, In p l -> p < n /\ (blk s p i = Diag -> len p = len i)) -> exists b', tri_update (K := RSc) s T i o (len i) l p0 b = Ret b'.
  Proof.
    intros Hi. induction l as [|p l IH]; intros p0 b H; cbn [tri_update]; [eexists; reflexivity|].
    destruct (H p (or_introl eq_refl)) as [Hp Hd]. rewrite (load_nth _ _ 0) by (destruct W as (_ & -> & _); exact Hp). cbn [bind]. unfold kind_at. rewrite blk_load by assumption. cbn [bind]. fold (len p).
    match goal with |- context[gemmt ?r ?m ?c ?d ?x ?y ?k Dense ?al] => destruct (gemm_ret r m c d x y k al Hd) as [d' E]; rewrite E end. cbn [bind]. apply IH. intros q Hq. apply H. right. exact Hq.
  Qed.
  Lemma sub_flag lower o n0 b k : snd (subsolve (K := RSc) lower o n0 T k b) = solvableb k.
  Proof. destruct k; reflexivity. Qed.
  Lemma len_n2 : length (sy_lens s) = n. Proof. apply W. Qed.
  Lemma lower_flag : (forall k i, k < i -> i < n -> blk s i k = Diag -> len i = len k) -> forall m k b, k + m = n ->
    exists b', tri_lower (K := RSc) (total (sy_lens s)) s T (seq k m) (st k) b = Ret (b', forallb (fun i => solvableb (blk s i i)) (seq k m)).
  Proof.
    intros SQ. induction m as [|m IH]; intros k b Hn; cbn [seq tri_lower forallb]; [eexists; reflexivity|]. assert (Hk : k < n) by lia.
    rewrite (load_nth _ _ 0) by (rewrite len_n2; exact Hk). cbn [bind]. fold (len k).
    assert (NX : st (S k) = st k + len k) by (apply start_S; rewrite len_n2; exact Hk).
    assert (HN : st k + len k <= total (sy_lens s)) by (apply start_next; rewrite len_n2; lia).
    rewrite (proj2 (Nat.ltb_ge _ _) HN). unfold kind_at. rewrite blk_load by assumption. cbn [bind].
    match goal with |- context[subsolve ?a ?b' ?c ?d ?e ?f] => pose proof (sub_flag a b' c f e) as SF; destruct (subsolve a b' c d e f) as [b1 ok] end. cbn [snd] in SF. subst ok.
    destruct (solvableb (blk s k k)); cbn [andb]; [|eexists; reflexivity].
    destruct (tri_update_ret k (st k) Hk (seq (S k) m) (st k + len k) b1) as [b2 E]. { intros p Hp. apply in_seq in Hp. split; [lia|]. apply SQ; lia. }
    rewrite E. cbn [bind]. rewrite <- NX. apply IH. lia.
  Qed.
  Lemma upper_flag : (forall k i, k < i -> i < n -> blk s k i = Diag -> len k = len i) -> forall m b, m <= n ->
    exists b', tri_upper (K := RSc) m s T (st m) b = Ret (b', forallb (fun i => solvableb (blk s i i)) (seq 0 m)).
  Proof.
    intros SQ. induction m as [|k IH]; intros b Hn; [eexists; reflexivity|]. cbn [tri_upper]. assert (Hk : k < n) by lia.
    rewrite (load_nth _ _ 0) by (rewrite len_n2; exact Hk). cbn [bind]. fold (len k).
    assert (NX : st (S k) = st k + len k) by (apply start_S; rewrite len_n2; exact Hk).
    rewrite NX. rewrite (proj2 (Nat.ltb_ge (st k + len k) (len k))) by lia. replace (st k + len k - len k) with (st k) by lia. unfold kind_at. rewrite blk_load by assumption. cbn [bind].
    match goal with |- context[subsolve ?a ?b' ?c ?d ?e ?f] => pose proof (sub_flag a b' c f e) as SF; destruct (subsolve a b' c d e f) as [b1 ok] end. cbn [snd] in SF. subst ok.
    rewrite seq_S, forallb_app. cbn [forallb Nat.add]. rewrite andb_true_r. destruct (solvableb (blk s k k)); [|rewrite andb_false_r; eexists; reflexivity]. rewrite andb_true_r.
    destruct (tri_update_ret k (st k) Hk (seq 0 k) 0 b1) as [b2 E]. { intros p Hp. apply in_seq in Hp. split; [lia|]. apply SQ; lia. }
    rewrite E. cbn [bind]. apply IH. lia.
  Qed.
End Flags.
Lemma solve_flag (b : bldlt RSc) x : let s := bs_struct (bl_sym b) in
  well s -> bl_n b = total (sy_lens s) -> same (bs_tr (bl_sym b)) (sy_n s) (sy_lens s) (fun i j => trans (blk s j i)) ->
  (forall k i, k < i -> i < sy_n s -> blk s i k = Diag -> nth i (sy_lens s) 0 = nth k (sy_lens s) 0) ->
  exists x' ok, bldlt_solve (K := RSc) b x = Ret (x', ok) /\ (ok = true <-> forall i, i < sy_n s -> solvable (blk s i i)).
Proof.
  intros s W Nb (Wt & Nt & Lt & Bt) SQ. unfold bldlt_solve. fold s. rewrite Nb.
  destruct (lower_flag s (bl_mat b) W SQ (sy_n s) 0 (perm_inv (K := RSc) (total (sy_lens s)) (bs_idx (bl_sym b)) x) eq_refl) as (x1 & E1). change (start (sy_lens s) 0) with 0 in E1. rewrite E1. cbn [bind fst snd].
  assert (EN : start (sy_lens (bs_tr (bl_sym b))) (sy_n (bs_tr (bl_sym b))) = total (sy_lens s)). { rewrite Lt, Nt. unfold total. destruct W as (_ & -> & _). reflexivity. }
  match goal with |- context[tri_upper _ _ _ _ ?z] => destruct (upper_flag (bs_tr (bl_sym b)) (fun i j => bl_mat b j i) Wt) with (m := sy_n (bs_tr (bl_sym b))) (b := z) as (x2 & E2) end.
  - rewrite Nt, Lt. intros k i Hk Hi X. rewrite Bt in X by lia. symmetry. apply SQ; auto. destruct (blk s i k); cbn in X; congruence.
  - lia.
  - rewrite EN in E2. rewrite E2. cbn [bind fst snd]. eexists _, _. split; [reflexivity|].
    assert (EQ : forallb (fun i => solvableb (blk (bs_tr (bl_sym b)) i i)) (seq 0 (sy_n (bs_tr (bl_sym b)))) = forallb (fun i => solvableb (blk s i i)) (seq 0 (sy_n s))).
    { rewrite Nt. assert (H : forall l, (forall i, In i l -> i < sy_n s) -> forallb (fun i => solvableb (blk (bs_tr (bl_sym b)) i i)) l = forallb (fun i => solvableb (blk s i i)) l).
      { induction l as [|i l IH]; intros H; [reflexivity|]. cbn [forallb]. rewrite IH by (intros; apply H; right; assumption). rewrite Bt by (apply H; left; reflexivity). destruct (blk s i i); reflexivity. }
      apply H. intros i Hi. apply in_seq in Hi. lia. }
    rewrite EQ, orb_diag, forallb_forall. split.
    + intros H i Hi. apply solvable_iff, H, in_seq. lia.
    + intros H i Hi. apply in_seq in Hi. apply solvable_iff, H. lia.
Qed.
