(** Lemmas on polymorphic. *)
From Coq Require Import List Bool Arith Lia.
From Verif Require Import Poly_model Poly_spec.
Import ListNotations.

Section Proofs.
  Context {V : Type} (copyv : V -> option V) (movev : V -> V * V) (aeq : nat -> nat -> bool) (select : nat -> nat) (tr : traits).
  Hypothesis aeq_refl : forall a, aeq a a = true.
  Hypothesis aeq_sym : forall a b, aeq a b = true -> aeq b a = true.
  Hypothesis aeq_trans : forall a b c, aeq a b = true -> aeq b c = true -> aeq a c = true.
  Notation state := (@state V).

  Lemma set_cell_nth i (c : @cell V) h j : i < length h -> nth_error (set_cell i c h) j = if Nat.eqb j i then Some c else nth_error h j.
  Proof.
    revert h j. induction i as [|i IH]; intros h j L; destruct h as [|d h]; cbn in L; try lia.
    - destruct j; reflexivity.
    - destruct j as [|j]; [reflexivity|]. change (nth_error (set_cell i c h) j = if Nat.eqb j i then Some c else nth_error h j). apply IH. lia.
  Qed.
  Lemma nth_some {A} (h : list A) i c : nth_error h i = Some c -> i < length h.
  Proof. intros E. apply nth_error_Some. rewrite E. discriminate. Qed.
  Lemma snoc_nth (h : list (@cell V)) c j : nth_error (h ++ [c]) j = if Nat.eqb j (length h) then Some c else nth_error h j.
  Proof.
    destruct (Nat.eqb_spec j (length h)) as [->|N]; [rewrite nth_error_app2, Nat.sub_diag by lia; reflexivity|].
    destruct (Nat.lt_ge_cases j (length h)); [apply nth_error_app1; assumption|]. rewrite nth_error_app2 by lia.
    rewrite (proj2 (nth_error_None h j)) by lia. apply nth_error_None. cbn. lia.
  Qed.

  (** The invariant, with the live blocks not held by an object listed. *)
  Definition W (e : option nat) (st : state) : Prop :=
    (forall x p i, objs st x = Some p -> p_cb p = Some i -> e <> Some i /\ exists c, nth_error (heap st) i = Some c /\ c_live c = true /\ aeq (c_alloc c) (p_alloc p) = true) /\
    (forall x y p q i, objs st x = Some p -> objs st y = Some q -> p_cb p = Some i -> p_cb q = Some i -> x = y) /\
    (forall i c, nth_error (heap st) i = Some c -> c_live c = true -> e = Some i \/ exists x p, objs st x = Some p /\ p_cb p = Some i).

  Lemma obj_set (st : state) x p y : objs (set_obj st x p) y = (if Nat.eqb y x then p else objs st y) :> option poly. Proof. reflexivity. Qed.
  Lemma heap_set (st : state) x p : heap (set_obj st x p) = heap st. Proof. reflexivity. Qed.
  Lemma look_set (st : state) x p y : look (set_obj st x p) y =
    if Nat.eqb y x then (match p with None => None | Some q => Some (p_alloc q, match p_cb q with None => None | Some i => get_cell (heap st) i end) end) else look st y.
  Proof. unfold look. rewrite obj_set. destruct (Nat.eqb y x); reflexivity. Qed.

  Lemma alloc_ok st a v : W None st -> let '(h, j) := alloc_cell a v (heap st) in let st1 := mkState h (objs st) in
    W (Some j) st1 /\ (forall z, look st1 z = look st z) /\ get_cell h j = Some v /\ (forall i u, get_cell (heap st) i = Some u -> get_cell h i = Some u) /\
    exists c, nth_error h j = Some c /\ c_live c = true /\ c_alloc c = a.
  Proof.
    intros (W1 & W2 & W3). cbn. assert (NJ : nth_error (heap st ++ [mkCell a v true]) (length (heap st)) = Some (mkCell a v true)) by (rewrite snoc_nth, Nat.eqb_refl; reflexivity).
    assert (GO : forall i u, get_cell (heap st) i = Some u -> get_cell (heap st ++ [mkCell a v true]) i = Some u).
    { intros i u G. unfold get_cell in *. rewrite snoc_nth. destruct (Nat.eqb_spec i (length (heap st))) as [->|]; [|exact G]. rewrite (proj2 (nth_error_None _ _)) in G by lia. discriminate. }
    split; [split; [|split]|split; [|split; [|split]]]; cbn.
    - intros x p i Hx Hp. destruct (W1 x p i Hx Hp) as (_ & c & E & L & A). pose proof (nth_some _ _ _ E). split; [intros X; injection X; lia|]. exists c. rewrite snoc_nth. destruct (Nat.eqb_spec i (length (heap st))); [lia|auto].
    - exact W2.
    - intros i c. rewrite snoc_nth. destruct (Nat.eqb_spec i (length (heap st))) as [->|]; [left; reflexivity|]. intros E L. destruct (W3 i c E L) as [X|X]; [discriminate X|right; exact X].
    - intros z. unfold look. cbn. destruct (objs st z) as [p|] eqn:Ez; [|reflexivity]. destruct (p_cb p) as [i|] eqn:Ep; [|reflexivity]. destruct (W1 z p i Ez Ep) as (_ & c & E & L & A).
      assert (G : get_cell (heap st) i = Some (c_val c)) by (unfold get_cell; rewrite E, L; reflexivity). rewrite G. f_equal. f_equal. apply GO, G.
    - unfold get_cell. rewrite NJ. reflexivity.
    - exact GO.
    - exists (mkCell a v true). auto.
  Qed.
  Lemma attach st x a j : W (Some j) st -> match objs st x with None => True | Some p => p_cb p = None end -> (exists c, nth_error (heap st) j = Some c /\ c_live c = true /\ aeq (c_alloc c) a = true) ->
    W None (set_obj st x (Some (mkPoly a (Some j)))).
  Proof.
    intros (W1 & W2 & W3) Hx (c & E & L & A). assert (NJ : forall y q, objs st y = Some q -> p_cb q = Some j -> False) by (intros y q Hy Hq; destruct (W1 y q j Hy Hq) as (X & _); apply X; reflexivity). split; [|split].
    - intros y p i. rewrite obj_set. destruct (Nat.eqb y x).
      + intros X Y. injection X as <-. cbn in Y. injection Y as <-. split; [discriminate|]. exists c. auto.
      + intros X Y. split; [discriminate|]. apply (W1 y p i X Y).
    - intros y z p q i. rewrite !obj_set. destruct (Nat.eqb_spec y x) as [->|Ny], (Nat.eqb_spec z x) as [->|Nz]; intros X Y P Q.
      + reflexivity.
      + injection X as <-. cbn in P. injection P as <-. destruct (NJ z q Y Q).
      + injection Y as <-. cbn in Q. injection Q as <-. destruct (NJ y p X P).
      + exact (W2 _ _ _ _ _ X Y P Q).
    - intros i d Ei Li. right. destruct (W3 i d Ei Li) as [X|(y & q & Hy & Hq)].
      + injection X as <-. exists x, (mkPoly a (Some j)). rewrite obj_set, Nat.eqb_refl. auto.
      + destruct (Nat.eqb_spec y x) as [->|N]; [rewrite Hy in Hx; rewrite Hx in Hq; discriminate Hq|]. exists y, q. rewrite obj_set. destruct (Nat.eqb_spec y x); [contradiction|auto].
  Qed.
  Lemma detach st x a j : W None st -> objs st x = Some (mkPoly a (Some j)) -> forall b, W (Some j) (set_obj st x (Some (mkPoly b None))).
  Proof.
    intros (W1 & W2 & W3) Hx b. split; [|split].
    - intros y p i. rewrite obj_set. destruct (Nat.eqb_spec y x) as [->|N]; intros X Y; [injection X as <-; discriminate Y|]. split; [|apply (W1 y p i X Y)]. intros Z. injection Z as <-. apply N. exact (W2 _ _ _ _ j X Hx Y eq_refl).
    - intros y z p q i. rewrite !obj_set. destruct (Nat.eqb_spec y x) as [->|Ny], (Nat.eqb_spec z x) as [->|Nz]; intros X Y P Q; [reflexivity|injection X as <-; discriminate P|injection Y as <-; discriminate Q|exact (W2 _ _ _ _ _ X Y P Q)].
    - intros i d Ei Li. destruct (W3 i d Ei Li) as [X|(y & q & Hy & Hq)]; [discriminate X|]. destruct (Nat.eqb_spec y x) as [->|N].
      + left. rewrite Hx in Hy. injection Hy as <-. exact Hq.
      + right. exists y, q. rewrite obj_set. destruct (Nat.eqb_spec y x); [contradiction|auto].
  Qed.
  (** An object without a block may change its allocator, appear or disappear. *)
  Lemma empty_set e st x p : W e st -> match objs st x with None => True | Some q => p_cb q = None end -> match p with None => True | Some q => p_cb q = None end -> W e (set_obj st x p).
  Proof.
    intros (W1 & W2 & W3) Hx Hp. split; [|split].
    - intros y q i. rewrite obj_set. destruct (Nat.eqb y x); intros X Y; [rewrite X in Hp; rewrite Hp in Y; discriminate Y|]. apply (W1 y q i X Y).
    - intros y z q r i. rewrite !obj_set. destruct (Nat.eqb_spec y x) as [->|Ny], (Nat.eqb_spec z x) as [->|Nz]; intros X Y P Q; [reflexivity|rewrite X in Hp; rewrite Hp in P; discriminate P|rewrite Y in Hp; rewrite Hp in Q; discriminate Q|exact (W2 _ _ _ _ _ X Y P Q)].
    - intros i d Ei Li. destruct (W3 i d Ei Li) as [X|(y & q & Hy & Hq)]; [left; exact X|right]. destruct (Nat.eqb_spec y x) as [->|N]; [rewrite Hy in Hx; rewrite Hx in Hq; discriminate Hq|]. exists y, q. rewrite obj_set. destruct (Nat.eqb_spec y x); [contradiction|auto].
  Qed.
  Lemma live_of e st x p i : W e st -> objs st x = Some p -> p_cb p = Some i -> exists c, nth_error (heap st) i = Some c /\ c_live c = true /\ aeq (c_alloc c) (p_alloc p) = true /\ get_cell (heap st) i = Some (c_val c).
  Proof. intros (W1 & _) Hx Hp. destruct (W1 x p i Hx Hp) as (_ & c & E & L & A). exists c. repeat split; auto. unfold get_cell. rewrite E, L. reflexivity. Qed.

  Lemma reset_ok e st x p : W e st -> objs st x = Some p -> exists st1, reset aeq st x p = Some st1 /\ W e st1 /\ objs st1 x = Some (mkPoly (p_alloc p) None) /\
    (forall z, look st1 z = if Nat.eqb z x then Some (p_alloc p, None) else look st z) /\ (forall z, z <> x -> objs st1 z = objs st z) /\
    (forall j, e = Some j -> nth_error (heap st1) j = nth_error (heap st) j).
  Proof.
    intros Hw Hx. unfold reset. destruct (p_cb p) as [i|] eqn:Ep.
    2: { exists st. split; [reflexivity|]. split; [exact Hw|]. split; [destruct p; cbn in *; subst; assumption|]. split; [|split; [reflexivity|reflexivity]]. intros z. destruct (Nat.eqb_spec z x) as [->|]; [|reflexivity]. unfold look. rewrite Hx, Ep. reflexivity. }
    destruct (live_of e st x p i Hw Hx Ep) as (c & E & L & A & _). unfold destroy. rewrite E, L, A. cbn [andb]. pose proof (nth_some _ _ _ E) as Hi. destruct Hw as (W1 & W2 & W3).
    set (c0 := mkCell (c_alloc c) (c_val c) false). exists (set_obj (mkState (set_cell i c0 (heap st)) (objs st)) x (Some (mkPoly (p_alloc p) None))). split; [reflexivity|].
    assert (Nt : forall j, nth_error (set_cell i c0 (heap st)) j = if Nat.eqb j i then Some c0 else nth_error (heap st) j) by (intros j; apply set_cell_nth; exact Hi).
    split; [split; [|split]|split; [|split; [|split]]].
    - intros y q j. rewrite obj_set. destruct (Nat.eqb_spec y x) as [->|N]; intros X Y; [injection X as <-; discriminate Y|]. destruct (W1 y q j X Y) as (H1 & d & H2). split; [exact H1|]. exists d. cbn. rewrite Nt. destruct (Nat.eqb_spec j i) as [->|]; [|exact H2]. exfalso. apply N. exact (W2 _ _ _ _ _ X Hx Y Ep).
    - intros y z q r j. rewrite !obj_set. destruct (Nat.eqb_spec y x) as [->|Ny], (Nat.eqb_spec z x) as [->|Nz]; intros X Y P Q; [reflexivity|injection X as <-; discriminate P|injection Y as <-; discriminate Q|exact (W2 _ _ _ _ _ X Y P Q)].
    - intros j d. rewrite heap_set. cbn [heap]. rewrite Nt. destruct (Nat.eqb_spec j i) as [->|N]; [intros X; injection X as <-; discriminate|]. intros Ej Lj. destruct (W3 j d Ej Lj) as [X|(y & q & Hy & Hq)]; [left; exact X|right]. destruct (Nat.eqb_spec y x) as [->|N'].
      + exfalso. rewrite Hx in Hy. injection Hy as <-. congruence.
      + exists y, q. rewrite obj_set. destruct (Nat.eqb_spec y x); [contradiction|auto].
    - rewrite obj_set, Nat.eqb_refl. reflexivity.
    - intros z. rewrite look_set. destruct (Nat.eqb_spec z x) as [->|N]; [reflexivity|]. unfold look. cbn. destruct (objs st z) as [q|] eqn:Ez; [|reflexivity]. destruct (p_cb q) as [j|] eqn:Eq; [|reflexivity]. f_equal. f_equal. unfold get_cell. rewrite Nt. destruct (Nat.eqb_spec j i) as [->|]; [|reflexivity]. exfalso. apply N. exact (W2 _ _ _ _ _ Ez Hx Eq Ep).
    - intros z N. rewrite obj_set. destruct (Nat.eqb_spec z x); [contradiction|reflexivity].
    - intros j ->. rewrite heap_set. cbn. rewrite Nt. destruct (Nat.eqb_spec j i) as [->|]; [|reflexivity]. exfalso. destruct (W1 x p i Hx Ep) as (X & _). apply X. reflexivity.
  Qed.
  (** A new value for the block of x. *)
  Lemma setval_ok st x p i c v : W None st -> objs st x = Some p -> p_cb p = Some i -> nth_error (heap st) i = Some c ->
    let st1 := mkState (set_cell i (mkCell (c_alloc c) v true) (heap st)) (objs st) in W None st1 /\ forall z, look st1 z = if Nat.eqb z x then Some (p_alloc p, Some v) else look st z.
  Proof.
    intros (W1 & W2 & W3) Hx Ep E. pose proof (nth_some _ _ _ E) as Hi. set (c0 := mkCell (c_alloc c) v true).
    assert (Nt : forall j, nth_error (set_cell i c0 (heap st)) j = if Nat.eqb j i then Some c0 else nth_error (heap st) j) by (intros j; apply set_cell_nth; exact Hi).
    split; [split; [|split]|]; cbn.
    - intros y q j X Y. destruct (W1 y q j X Y) as (H1 & d & H2 & H3 & H4). split; [exact H1|]. rewrite Nt. destruct (Nat.eqb_spec j i) as [->|]; [|exists d; auto]. exists c0. rewrite H2 in E. injection E as <-. auto.
    - exact W2.
    - intros j d. rewrite Nt. destruct (Nat.eqb_spec j i) as [->|]; [intros _ _; right; exists x, p; auto|]. apply W3.
    - intros z. unfold look. cbn. destruct (Nat.eqb_spec z x) as [->|N].
      + rewrite Hx, Ep. unfold get_cell. rewrite Nt, Nat.eqb_refl. reflexivity.
      + destruct (objs st z) as [q|] eqn:Ez; [|reflexivity]. destruct (p_cb q) as [j|] eqn:Eq; [|reflexivity]. f_equal. f_equal. unfold get_cell. rewrite Nt. destruct (Nat.eqb_spec j i) as [->|]; [|reflexivity]. exfalso. apply N. exact (W2 _ _ _ _ _ Ez Hx Eq Ep).
  Qed.

  Notation vstep := (value_step copyv movev aeq select tr).
  Notation mstep := (step copyv movev aeq select tr).
  Hypothesis pocca_equal : pocca tr = true -> forall a b, aeq a b = true.

  (** What an abstract variable says about the object. *)
  Definition agree (st : state) (s : nat -> option (nat * option V)) : Prop := forall x, look st x = s x.
  Lemma agree_none st s x : agree st s -> objs st x = None <-> s x = None.
  Proof. intros A. rewrite <- (A x). unfold look. destruct (objs st x); split; try discriminate; reflexivity. Qed.
  Lemma agree_some st s x p : agree st s -> objs st x = Some p -> s x = Some (p_alloc p, match p_cb p with None => None | Some i => get_cell (heap st) i end).
  Proof. intros A E. rewrite <- (A x). unfold look. rewrite E. reflexivity. Qed.

  (** Simulation of one result. *)
  Definition sim (r : @result V) (q : option (bool * (nat -> option (nat * option V)))) : Prop :=
    match r, q with
    | None, None => True
    | Some (b, st), Some (c, s) => b = c /\ W None st /\ agree st s
    | _, _ => False
    end.
  Lemma put_look (st : state) s x e y : agree st s -> (put s x e) y = if Nat.eqb y x then e else look st y.
  Proof. intros A. unfold put. rewrite A. reflexivity. Qed.
  Ltac eqs := repeat match goal with |- context[Nat.eqb ?a ?b] => destruct (Nat.eqb_spec a b); subst; cbn; try congruence; try reflexivity end.

  Lemma copy_sim st s x a y : W None st -> agree st s -> sim (copy_ext copyv st x a y)
    (match s x, s y with None, Some (_, ov) => Some (match copied copyv ov with None => (true, s) | Some ow => (false, put s x (Some (a, ow))) end) | _, _ => None end).
  Proof.
    intros Hw A. unfold copy_ext. destruct (objs st x) as [p|] eqn:Ex.
    { rewrite (agree_some _ _ _ _ A Ex). exact I. }
    rewrite (proj1 (agree_none _ _ _ A) Ex). destruct (objs st y) as [q|] eqn:Ey; [|rewrite (proj1 (agree_none _ _ _ A) Ey); exact I].
    rewrite (agree_some _ _ _ _ A Ey). destruct (p_cb q) as [i|] eqn:Eq.
    - destruct (live_of _ _ _ _ _ Hw Ey Eq) as (c & E & L & _ & G). unfold clone. rewrite G. cbn [copied]. destruct (copyv (c_val c)) as [w|]; [|split; auto].
      pose proof (alloc_ok st a w Hw) as AO. destruct (alloc_cell a w (heap st)) as [h j]. destruct AO as (W1 & L1 & G1 & _ & c1 & N1 & V1 & A1). split; [reflexivity|]. split.
      + apply attach; [exact W1|cbn; rewrite Ex; exact I|]. exists c1. cbn. subst a. auto.
      + intros z. rewrite look_set, (put_look st s) by exact A. cbn [p_alloc p_cb heap]. rewrite G1. destruct (Nat.eqb z x); [reflexivity|]. apply L1.
    - cbn [copied]. split; [reflexivity|]. split; [apply empty_set; [exact Hw|rewrite Ex; exact I|reflexivity]|]. intros z. rewrite look_set, (put_look st s) by exact A. reflexivity.
  Qed.
  Lemma move_sim st s x a y : W None st -> agree st s -> sim (move_ext movev aeq tr st x a y)
    (match s x, s y with None, Some (b, ov) => let '(n, l) := moved movev (aeq a b) ov in Some (false, put (put s x (Some (a, n))) y (Some (b, l))) | _, _ => None end).
  Proof.
    intros Hw A. unfold move_ext. destruct (objs st x) as [p|] eqn:Ex.
    { rewrite (agree_some _ _ _ _ A Ex). exact I. }
    rewrite (proj1 (agree_none _ _ _ A) Ex). destruct (objs st y) as [q|] eqn:Ey; [|rewrite (proj1 (agree_none _ _ _ A) Ey); exact I].
    rewrite (agree_some _ _ _ _ A Ey). assert (Nxy : x <> y) by (intros ->; congruence).
    assert (Pq : pocca tr || aeq a (p_alloc q) = aeq a (p_alloc q)) by (destruct (pocca tr) eqn:Pc; [rewrite (pocca_equal eq_refl); reflexivity|reflexivity]). rewrite Pq.
    destruct q as [b cb]. cbn [p_alloc p_cb] in *. destruct (aeq a b) eqn:Aq.
    - destruct cb as [i|].
      + destruct (live_of _ _ _ _ _ Hw Ey eq_refl) as (c & E & L & Ac & G). rewrite G. cbn [moved]. split; [reflexivity|]. split.
        * assert (X : W None (set_obj (set_obj st y (Some (mkPoly b None))) x (Some (mkPoly a (Some i))))).
          { apply attach; [exact (detach st y b i Hw Ey b)|cbn; destruct (Nat.eqb_spec x y); [contradiction|rewrite Ex; exact I]|]. exists c. repeat split; auto. apply aeq_trans with b; [exact Ac|apply aeq_sym, Aq]. }
          destruct X as (X1 & X2 & X3). assert (O : forall z, objs (set_obj (set_obj st x (Some (mkPoly a (Some i)))) y (Some (mkPoly b None))) z = objs (set_obj (set_obj st y (Some (mkPoly b None))) x (Some (mkPoly a (Some i)))) z) by (intros z; rewrite !obj_set; eqs).
          split; [|split]; intros *; rewrite ?O; [apply X1|apply X2|]. intros H1 H2. destruct (X3 _ _ H1 H2) as [X|(z & pz & Z)]; [left; exact X|right; exists z, pz; rewrite O; exact Z].
        * intros z. rewrite !look_set, heap_set. cbn [p_alloc p_cb]. rewrite G. unfold put. rewrite (A z). reflexivity.
      + cbn [moved]. split; [reflexivity|]. split; [apply empty_set; [apply empty_set; [exact Hw|rewrite Ex; exact I|reflexivity]|rewrite obj_set; destruct (Nat.eqb y x); [reflexivity|rewrite Ey; reflexivity]|reflexivity]|].
        intros z. rewrite !look_set. cbn [p_alloc p_cb]. unfold put. rewrite (A z). reflexivity.
    - destruct cb as [i|].
      + destruct (live_of _ _ _ _ _ Hw Ey eq_refl) as (c & E & L & Ac & G). rewrite G. cbn [moved]. unfold move_cell. rewrite E, L. destruct (movev (c_val c)) as [w rest]. cbn [fst snd].
        destruct (setval_ok st y _ i c rest Hw Ey eq_refl E) as (W1 & L1). pose proof (alloc_ok _ a w W1) as AO. cbn [heap objs] in AO. destruct (alloc_cell a w _) as [h j]. destruct AO as (W2 & L2 & G2 & _ & c2 & N2 & V2 & A2).
        split; [reflexivity|]. split.
        * apply attach; [exact W2|cbn; rewrite Ex; exact I|]. exists c2. subst a. auto.
        * intros z. rewrite look_set. cbn [p_alloc p_cb heap]. rewrite G2. rewrite (L2 z), (L1 z). unfold put. rewrite (A z). cbn [p_alloc]. eqs.
      + cbn [moved]. split; [reflexivity|]. split; [apply empty_set; [exact Hw|rewrite Ex; exact I|reflexivity]|]. intros z. rewrite look_set. unfold put. cbn [p_alloc p_cb]. rewrite (A z). destruct (Nat.eqb_spec z x) as [->|N]; [destruct (Nat.eqb_spec x y); [contradiction|reflexivity]|].
        destruct (Nat.eqb_spec z y) as [->|]; [|reflexivity]. rewrite <- (A y). unfold look. rewrite Ey. reflexivity.
  Qed.
  Lemma step_sim st s o : W None st -> agree st s -> sim (mstep st o) (vstep s o).
  Proof.
    intros Hw A. destruct o as [x a v|x a y|x y|x a y|x y|x|x y|x y|x y|x v]; cbn [step value_step].
    - destruct (objs st x) as [p|] eqn:Ex; [rewrite (agree_some _ _ _ _ A Ex); exact I|]. rewrite (proj1 (agree_none _ _ _ A) Ex). destruct v as [w|]; [|split; auto].
      pose proof (alloc_ok st a w Hw) as AO. destruct (alloc_cell a w (heap st)) as [h j]. destruct AO as (W1 & L1 & G1 & _ & c1 & N1 & V1 & A1). split; [reflexivity|]. split.
      + apply attach; [exact W1|cbn; rewrite Ex; exact I|]. exists c1. subst a. auto.
      + intros z. rewrite look_set, (put_look st s) by exact A. cbn [p_alloc p_cb heap]. rewrite G1. destruct (Nat.eqb z x); [reflexivity|]. apply L1.
    - apply copy_sim; assumption.
    - destruct (objs st y) as [q|] eqn:Ey; [rewrite (agree_some _ _ _ _ A Ey) at 1|rewrite (proj1 (agree_none _ _ _ A) Ey); exact I]. apply copy_sim; assumption.
    - apply move_sim; assumption.
    - destruct (objs st y) as [q|] eqn:Ey; [rewrite (agree_some _ _ _ _ A Ey) at 1|rewrite (proj1 (agree_none _ _ _ A) Ey); exact I]. apply move_sim; assumption.
    - destruct (objs st x) as [p|] eqn:Ex; [|rewrite (proj1 (agree_none _ _ _ A) Ex); exact I]. rewrite (agree_some _ _ _ _ A Ex). destruct (reset_ok _ _ _ _ Hw Ex) as (st1 & -> & W1 & O1 & L1 & _). split; [reflexivity|]. split.
      + apply empty_set; [exact W1|rewrite O1; reflexivity|exact I].
      + intros z. rewrite look_set, L1, (put_look st s) by exact A. destruct (Nat.eqb z x); reflexivity.
    - unfold assign_copy. destruct (objs st x) as [p|] eqn:Ex; [|rewrite (proj1 (agree_none _ _ _ A) Ex); exact I]. rewrite (agree_some _ _ _ _ A Ex). destruct (objs st y) as [q|] eqn:Ey; [|rewrite (proj1 (agree_none _ _ _ A) Ey); exact I]. rewrite (agree_some _ _ _ _ A Ey).
      destruct (Nat.eqb_spec x y) as [->|N]; [split; auto|]. set (na := if pocca tr then p_alloc q else p_alloc p). destruct (p_cb q) as [i|] eqn:Eq.
      + destruct (live_of _ _ _ _ _ Hw Ey Eq) as (c & E & L & _ & G). unfold clone. rewrite G. cbn [copied]. destruct (copyv (c_val c)) as [w|]; [|split; auto].
        pose proof (alloc_ok st na w Hw) as AO. destruct (alloc_cell na w (heap st)) as [h j]. destruct AO as (W1 & L1 & G1 & _ & c1 & N1 & V1 & A1).
        destruct (reset_ok _ (mkState h (objs st)) x p W1 Ex) as (st1 & -> & W2 & O2 & L2 & _ & K2). specialize (K2 j eq_refl). cbn [heap] in K2.
        split; [reflexivity|]. split.
        * apply attach; [exact W2|rewrite O2; reflexivity|]. exists c1. rewrite K2. subst na. rewrite A1. auto.
        * intros z. rewrite look_set, (put_look st s), L2, L1 by exact A. cbn [p_alloc p_cb]. unfold get_cell in G1 |- *. rewrite K2, G1. destruct (Nat.eqb z x); reflexivity.
      + cbn [copied]. destruct (reset_ok _ _ _ _ Hw Ex) as (st1 & -> & W1 & O1 & L1 & _). split; [reflexivity|]. split.
        * apply empty_set; [exact W1|rewrite O1; reflexivity|reflexivity].
        * intros z. rewrite look_set, L1, (put_look st s) by exact A. destruct (Nat.eqb z x); reflexivity.
    - unfold assign_move. destruct (objs st x) as [p|] eqn:Ex; [|rewrite (proj1 (agree_none _ _ _ A) Ex); exact I]. rewrite (agree_some _ _ _ _ A Ex). destruct (objs st y) as [q|] eqn:Ey; [|rewrite (proj1 (agree_none _ _ _ A) Ey); exact I]. rewrite (agree_some _ _ _ _ A Ey).
      destruct (Nat.eqb_spec x y) as [->|N]; [split; auto|]. set (na := if pocma tr then p_alloc q else p_alloc p). destruct (p_cb q) as [i|] eqn:Eq.
      + destruct (live_of _ _ _ _ _ Hw Ey Eq) as (c & E & L & Ac & G). rewrite G. destruct (aeq (p_alloc p) (p_alloc q)) eqn:Aq.
        * cbn [moved]. set (st1 := set_obj (set_obj st x _) y _).
          (* the same state, reached by reset, detach and attach *)
          assert (Wsw : W None st1).
          { destruct Hw as (W1 & W2 & W3). assert (O : forall z, objs st1 z = if Nat.eqb z y then Some (mkPoly (p_alloc q) (p_cb p)) else if Nat.eqb z x then Some (mkPoly (p_alloc p) (Some i)) else objs st z) by reflexivity.
            split; [|split].
            - intros z r k. rewrite O. destruct (Nat.eqb_spec z y) as [->|Ny]; [|destruct (Nat.eqb_spec z x) as [->|Nx]]; intros X Y; try (injection X as <-; cbn in Y).
              + destruct (W1 x p k Ex Y) as (_ & d & D1 & D2 & D3). split; [discriminate|]. exists d. cbn. repeat split; auto. apply aeq_trans with (p_alloc p); assumption.
              + injection Y as <-. split; [discriminate|]. exists c. cbn. repeat split; auto. apply aeq_trans with (p_alloc q); [assumption|apply aeq_sym, Aq].
              + exact (W1 z r k X Y).
            - assert (T : forall z r k, objs st1 z = Some r -> p_cb r = Some k -> exists z' r', objs st z' = Some r' /\ p_cb r' = Some k /\ z = (if Nat.eqb z' x then y else if Nat.eqb z' y then x else z')).
              { intros z r k. rewrite O. destruct (Nat.eqb_spec z y) as [->|Ny]; [|destruct (Nat.eqb_spec z x) as [->|Nx]]; intros X Y; try (injection X as <-; cbn in Y).
                - exists x, p. rewrite Nat.eqb_refl. auto.
                - exists y, q. rewrite Nat.eqb_refl. destruct (Nat.eqb_spec y x); [congruence|]. split; [exact Ey|]. split; [congruence|reflexivity].
                - exists z, r. destruct (Nat.eqb_spec z x); [contradiction|]. destruct (Nat.eqb_spec z y); [contradiction|auto]. }
              intros z z' r r' k X Y P Q. destruct (T _ _ _ X P) as (u & ru & U1 & U2 & ->). destruct (T _ _ _ Y Q) as (u' & ru' & U1' & U2' & ->). rewrite (W2 _ _ _ _ _ U1 U1' U2 U2'). reflexivity.
            - intros k d Ek Lk. right. destruct (W3 k d Ek Lk) as [X|(z & r & Z1 & Z2)]; [discriminate X|]. destruct (Nat.eqb_spec z x) as [->|Nx]; [|destruct (Nat.eqb_spec z y) as [->|Ny]].
              + exists y, (mkPoly (p_alloc q) (p_cb p)). rewrite O, Nat.eqb_refl. split; [reflexivity|]. cbn. congruence.
              + exists x, (mkPoly (p_alloc p) (Some i)). rewrite O, Nat.eqb_refl. destruct (Nat.eqb_spec x y); [contradiction|]. split; [reflexivity|]. cbn. congruence.
              + exists z, r. rewrite O. destruct (Nat.eqb_spec z y); [contradiction|]. destruct (Nat.eqb_spec z x); [contradiction|auto]. }
          assert (O1 : objs st1 y = Some (mkPoly (p_alloc q) (p_cb p))) by (unfold st1; rewrite obj_set, Nat.eqb_refl; reflexivity).
          destruct (reset_ok _ st1 y _ Wsw O1) as (st2 & -> & W2 & O2 & L2 & K2 & _).
          assert (Ox : objs st2 x = Some (mkPoly (p_alloc p) (Some i))) by (rewrite K2 by exact N; unfold st1; rewrite !obj_set, Nat.eqb_refl; destruct (Nat.eqb_spec x y); [contradiction|reflexivity]).
          assert (Lx : look st2 x = Some (p_alloc p, Some (c_val c))).
          { rewrite L2. destruct (Nat.eqb_spec x y); [contradiction|]. unfold st1. rewrite !look_set, Nat.eqb_refl. destruct (Nat.eqb_spec x y); [contradiction|]. cbn [p_alloc p_cb]. rewrite G. reflexivity. }
          split; [reflexivity|]. split.
          -- destruct (live_of _ _ _ _ _ W2 Ox eq_refl) as (d & D1 & D2 & D3 & D4). cbn [p_alloc] in D3.
             assert (X : W None (set_obj (set_obj st2 x (Some (mkPoly na None))) x (Some (mkPoly na (Some i))))).
             { apply attach; [exact (detach st2 x (p_alloc p) i W2 Ox na)|rewrite obj_set, Nat.eqb_refl; reflexivity|]. exists d. repeat split; auto. unfold na. destruct (pocma tr); [apply aeq_trans with (p_alloc p)|]; assumption. }
             destruct X as (X1 & X2 & X3). assert (O : forall z, objs (set_obj st2 x (Some (mkPoly na (Some i)))) z = objs (set_obj (set_obj st2 x (Some (mkPoly na None))) x (Some (mkPoly na (Some i)))) z) by (intros z; rewrite !obj_set; eqs).
             split; [|split]; intros *; rewrite ?O; [apply X1|apply X2|]. intros H1 H2. destruct (X3 _ _ H1 H2) as [X|(z & pz & Z)]; [left; exact X|right; exists z, pz; rewrite O; exact Z].
          -- intros z. rewrite look_set. cbn [p_alloc p_cb]. assert (Gx : get_cell (heap st2) i = Some (c_val c)) by (unfold look in Lx; rewrite Ox in Lx; cbn in Lx; injection Lx as Lx; exact Lx). rewrite Gx.
             rewrite L2. unfold put. destruct (Nat.eqb_spec z x) as [->|Nx]; [destruct (Nat.eqb_spec x y); [contradiction|reflexivity]|]. destruct (Nat.eqb_spec z y) as [->|Ny]; [reflexivity|].
             unfold st1. rewrite !look_set. destruct (Nat.eqb_spec z y); [contradiction|]. destruct (Nat.eqb_spec z x); [contradiction|]. apply A.
        * cbn [moved]. unfold move_cell. rewrite E, L. destruct (movev (c_val c)) as [w rest]. cbn [fst snd].
          destruct (setval_ok st y _ i c rest Hw Ey Eq E) as (W1 & L1). pose proof (alloc_ok _ na w W1) as AO. cbn [heap objs] in AO. destruct (alloc_cell na w _) as [h j]. destruct AO as (W2 & L2 & G2 & _ & c2 & N2 & V2 & A2).
          destruct (reset_ok _ (mkState h (objs st)) x p W2 Ex) as (st1 & -> & W3 & O3 & L3 & _ & K3). specialize (K3 j eq_refl). cbn [heap] in K3.
          split; [reflexivity|]. split.
          -- apply attach; [exact W3|rewrite O3; reflexivity|]. exists c2. rewrite K3. rewrite A2. auto.
          -- intros z. rewrite look_set, L3, L2, L1. cbn [p_alloc p_cb]. unfold get_cell in G2 |- *. rewrite K3, G2. unfold put. rewrite (A z). destruct (Nat.eqb_spec z x) as [->|]; [destruct (Nat.eqb_spec x y); [contradiction|reflexivity]|reflexivity].
      + cbn [moved]. destruct (reset_ok _ _ _ _ Hw Ex) as (st1 & -> & W1 & O1 & L1 & _). split; [reflexivity|]. split.
        * apply empty_set; [exact W1|rewrite O1; reflexivity|reflexivity].
        * intros z. rewrite look_set, L1. unfold put. cbn [p_alloc p_cb]. destruct (Nat.eqb_spec z x) as [->|Nx]; [destruct (Nat.eqb_spec x y); [contradiction|reflexivity]|]. destruct (Nat.eqb_spec z y) as [->|]; [|apply A]. unfold look. rewrite Ey, Eq. reflexivity.
    - unfold swap. destruct (objs st x) as [p|] eqn:Ex; [|rewrite (proj1 (agree_none _ _ _ A) Ex); exact I]. rewrite (agree_some _ _ _ _ A Ex). destruct (objs st y) as [q|] eqn:Ey; [|rewrite (proj1 (agree_none _ _ _ A) Ey); exact I]. rewrite (agree_some _ _ _ _ A Ey).
      assert (G : forall ap aq, (forall c, aeq c (p_alloc q) = true -> aeq c ap = true) -> (forall c, aeq c (p_alloc p) = true -> aeq c aq = true) -> (x = y -> mkPoly aq (p_cb p) = p) ->
        let st1 := set_obj (set_obj st x (Some (mkPoly ap (p_cb q)))) y (Some (mkPoly aq (p_cb p))) in W None st1).
      { intros ap aq Hp Hq Hxy st1. destruct Hw as (W1 & W2 & W3). assert (O : forall z, objs st1 z = if Nat.eqb z y then Some (mkPoly aq (p_cb p)) else if Nat.eqb z x then Some (mkPoly ap (p_cb q)) else objs st z) by reflexivity.
        split; [|split].
        - intros z r k. rewrite O. destruct (Nat.eqb_spec z y) as [->|Ny]; [|destruct (Nat.eqb_spec z x) as [->|Nx]]; intros X Y; try (injection X as <-; cbn in Y).
          + destruct (W1 x p k Ex Y) as (_ & d & D1 & D2 & D3). split; [discriminate|]. exists d. cbn. auto.
          + destruct (W1 y q k Ey Y) as (_ & d & D1 & D2 & D3). split; [discriminate|]. exists d. cbn. auto.
          + exact (W1 z r k X Y).
        - assert (T : forall z r k, objs st1 z = Some r -> p_cb r = Some k -> exists z' r', objs st z' = Some r' /\ p_cb r' = Some k /\ z = (if Nat.eqb z' x then y else if Nat.eqb z' y then x else z')).
          { intros z r k. rewrite O. destruct (Nat.eqb_spec z y) as [->|Ny]; [|destruct (Nat.eqb_spec z x) as [->|Nx]]; intros X Y; try (injection X as <-; cbn in Y).
            - exists x, p. rewrite Nat.eqb_refl. auto.
            - exists y, q. rewrite Nat.eqb_refl. destruct (Nat.eqb_spec y x); [congruence|]. auto.
            - exists z, r. destruct (Nat.eqb_spec z x); [contradiction|]. destruct (Nat.eqb_spec z y); [contradiction|auto]. }
          intros z z' r r' k X Y P Q. destruct (T _ _ _ X P) as (u & ru & U1 & U2 & ->). destruct (T _ _ _ Y Q) as (u' & ru' & U1' & U2' & ->). rewrite (W2 _ _ _ _ _ U1 U1' U2 U2'). reflexivity.
        - intros k d Ek Lk. right. destruct (W3 k d Ek Lk) as [X|(z & r & Z1 & Z2)]; [discriminate X|]. destruct (Nat.eqb_spec z x) as [->|Nx]; [|destruct (Nat.eqb_spec z y) as [->|Ny]].
          + exists y, (mkPoly aq (p_cb p)). rewrite O, Nat.eqb_refl. split; [reflexivity|]. cbn. congruence.
          + exists x, (mkPoly ap (p_cb q)). rewrite O, Nat.eqb_refl. destruct (Nat.eqb_spec x y); [congruence|]. split; [reflexivity|]. cbn. congruence.
          + exists z, r. rewrite O. destruct (Nat.eqb_spec z y); [contradiction|]. destruct (Nat.eqb_spec z x); [contradiction|auto]. }
      destruct (pocs tr).
      + split; [reflexivity|]. split.
        * replace (Some q) with (Some (mkPoly (p_alloc q) (p_cb q))) by (destruct q; reflexivity). replace (Some p) with (Some (mkPoly (p_alloc p) (p_cb p))) by (destruct p; reflexivity). apply G; auto. intros _. destruct p; reflexivity.
        * intros z. rewrite !look_set, heap_set. unfold put. rewrite (A z). reflexivity.
      + destruct (aeq (p_alloc p) (p_alloc q)) eqn:Aq; [|exact I]. split; [reflexivity|]. split.
        * apply G; [intros c H; apply aeq_trans with (p_alloc q); [exact H|apply aeq_sym, Aq]|intros c H; apply aeq_trans with (p_alloc p); assumption|]. intros ->. rewrite Ex in Ey. injection Ey as <-. destruct p; reflexivity.
        * intros z. rewrite !look_set, heap_set. unfold put. cbn [p_alloc p_cb]. rewrite (A z). reflexivity.
    - unfold write. destruct (objs st x) as [p|] eqn:Ex; [|rewrite (proj1 (agree_none _ _ _ A) Ex); exact I]. rewrite (agree_some _ _ _ _ A Ex). destruct (p_cb p) as [i|] eqn:Ep; [|exact I].
      destruct (live_of _ _ _ _ _ Hw Ex Ep) as (c & E & L & Ac & G). rewrite G, E, L. destruct (setval_ok st x p i c v Hw Ex Ep E) as (W1 & L1). split; [reflexivity|]. split; [exact W1|]. intros z. rewrite L1. unfold put. rewrite (A z). reflexivity.
  Qed.
  Lemma exec_sim l : forall st s, W None st -> agree st s ->
    match exec copyv movev aeq select tr st l, value_exec copyv movev aeq select tr s l with
    | None, None => True
    | Some (b, st'), Some (c, s') => b = c /\ W None st' /\ agree st' s'
    | _, _ => False
    end.
  Proof.
    induction l as [|o l IH]; intros st s Hw A; cbn [exec value_exec]; [split; [reflexivity|split; assumption]|]. pose proof (step_sim st s o Hw A) as S.
    destruct (mstep st o) as [[b st1]|], (vstep s o) as [[c s1]|]; cbn [sim] in S; try exact S; try (exfalso; exact S). destruct S as (-> & W1 & A1). specialize (IH st1 s1 W1 A1).
    destruct (exec copyv movev aeq select tr st1 l) as [[bs st2]|], (value_exec copyv movev aeq select tr s1 l) as [[cs s2]|]; try exact IH. destruct IH as (-> & H). split; [reflexivity|exact H].
  Qed.
  Lemma W_start : W None (start (V := V)).
  Proof. split; [|split]; cbn; [discriminate|discriminate|]. intros i c E. destruct i; discriminate E. Qed.
  Lemma W_owned st : W None st -> owned_once st.
  Proof.
    intros (W1 & W2 & W3). split.
    - intros x i (p & Hx & Hp). destruct (W1 x p i Hx Hp) as (_ & c & E & L & _). exists c. auto.
    - intros i c E L. destruct (W3 i c E L) as [X|(x & p & Hx & Hp)]; [discriminate X|]. exists x. split; [exists p; auto|]. intros y (q & Hy & Hq). exact (W2 _ _ _ _ _ Hy Hx Hq Hp).
  Qed.
  Lemma value_semantics l :
    match exec copyv movev aeq select tr start l, value_exec copyv movev aeq select tr (fun _ => None) l with
    | None, None => True
    | Some (b, st), Some (c, s) => b = c /\ (forall x, look st x = s x) /\ owned_once st
    | _, _ => False
    end.
  Proof.
    pose proof (exec_sim l start (fun _ => None) W_start (fun _ => eq_refl)) as S. destruct (exec copyv movev aeq select tr start l) as [[b st]|], (value_exec copyv movev aeq select tr (fun _ => None) l) as [[c s]|]; try exact S.
    destruct S as (-> & Hw & A). split; [reflexivity|]. split; [exact A|]. apply W_owned, Hw.
  Qed.
End Proofs.

Section Corollaries.
  Context {V : Type} (copyv : V -> option V) (movev : V -> V * V) (aeq : nat -> nat -> bool) (select : nat -> nat) (tr : traits).
  Hypothesis aeq_refl : forall a, aeq a a = true.
  Hypothesis aeq_sym : forall a b, aeq a b = true -> aeq b a = true.
  Hypothesis aeq_trans : forall a b c, aeq a b = true -> aeq b c = true -> aeq a c = true.
  Hypothesis pocca_equal : pocca tr = true -> forall a b, aeq a b = true.
  Notation ex := (exec copyv movev aeq select tr).
  Notation stp := (step copyv movev aeq select tr).

  Lemma reach l bs (st : @state V) : ex start l = Some (bs, st) -> W aeq None st.
  Proof.
    intros E. pose proof (exec_sim copyv movev aeq select tr aeq_refl aeq_sym aeq_trans pocca_equal l start (fun _ => None) (W_start aeq) (fun _ => eq_refl)) as S. rewrite E in S.
    destruct (value_exec copyv movev aeq select tr (fun _ => None) l) as [[c s]|]; [apply S|destruct S].
  Qed.
  Lemma no_leak l bs (st : @state V) : ex start l = Some (bs, st) -> (forall x, objs st x = None) -> forall i c, nth_error (heap st) i = Some c -> c_live c = false.
  Proof.
    intros E H i c Ei. destruct (c_live c) eqn:L; [|reflexivity]. exfalso. destruct (reach l bs st E) as (_ & _ & W3). destruct (W3 i c Ei L) as [X|(x & p & Hx & _)]; [discriminate X|]. rewrite H in Hx. discriminate Hx.
  Qed.
  Lemma step_spec l bs (st : @state V) o b st' : ex start l = Some (bs, st) -> stp st o = Some (b, st') ->
    exists s', value_step copyv movev aeq select tr (look st) o = Some (b, s') /\ forall x, look st' x = s' x.
  Proof.
    intros E H. pose proof (step_sim copyv movev aeq select tr aeq_refl aeq_sym aeq_trans pocca_equal st (look st) o (reach l bs st E) (fun _ => eq_refl)) as S. rewrite H in S.
    destruct (value_step copyv movev aeq select tr (look st) o) as [[c s]|]; cbn [sim] in S; [|destruct S]. destruct S as (-> & _ & A). exists s. split; [reflexivity|exact A].
  Qed.
  Lemma frame l bs (st : @state V) o b st' z : ex start l = Some (bs, st) -> stp st o = Some (b, st') -> ~ In z (named o) -> look st' z = look st z.
  Proof.
    intros E H N. destruct (step_spec l bs st o b st' E H) as (s' & S & ->). clear H E.
    assert (P : forall s x e, z <> x -> put s x e z = s z :> option (nat * option V)) by (intros s x e Hz; unfold put; destruct (Nat.eqb_spec z x); [contradiction|reflexivity]).
    assert (Q : forall a, ~ In z a -> forall x, In x a -> z <> x) by (intros a Ha x Hx ->; contradiction). specialize (Q _ N).
    destruct o; cbn [value_step named] in *; repeat match type of S with
      | context[match ?e with _ => _ end] => destruct e eqn:?
      end; try discriminate S; injection S as <- <-; rewrite ?P by (apply Q; cbn; auto); reflexivity.
  Qed.
  Lemma throw_same l bs (st : @state V) o st' : ex start l = Some (bs, st) -> stp st o = Some (true, st') -> forall x, look st' x = look st x.
  Proof.
    intros E H x. destruct (step_spec l bs st o true st' E H) as (s' & S & ->). clear H E.
    destruct o; cbn [value_step] in *; repeat match type of S with
      | context[match ?e with _ => _ end] => destruct e eqn:?
      end; try discriminate S; injection S as <-; reflexivity.
  Qed.
  Lemma self_assign (st : @state V) x p : objs st x = Some p -> stp st (AssignCopy x x) = Some (false, st) /\ stp st (AssignMove x x) = Some (false, st).
  Proof. intros E. cbn [step]. unfold assign_copy, assign_move. rewrite E, Nat.eqb_refl. auto. Qed.
  Lemma moved_from l bs (st : @state V) o x y a b v st' : ex start l = Some (bs, st) -> o = Move x y \/ o = AssignMove x y -> x <> y -> look st y = Some (b, Some v) ->
    (o = AssignMove x y -> exists u, look st x = Some (a, u) /\ aeq a b = true) -> stp st o = Some (false, st') ->
    look st' y = Some (b, None) /\ exists a', look st' x = Some (a', Some v).
  Proof.
    intros E O N Ly La H. destruct (step_spec l bs st o false st' E H) as (s' & S & A). rewrite !A. clear H E. destruct O as [-> | ->]; cbn [value_step] in S.
    - rewrite Ly in S. destruct (look st x); [discriminate S|]. rewrite aeq_refl in S. cbn [moved] in S. injection S as <-. unfold put. rewrite !Nat.eqb_refl. destruct (Nat.eqb_spec x y); [contradiction|]. split; [reflexivity|exists b; reflexivity].
    - destruct (La eq_refl) as (u & Lx & Aq). rewrite Lx, Ly in S. destruct (Nat.eqb_spec x y); [contradiction|]. rewrite Aq in S. cbn [moved] in S. injection S as <-. unfold put. rewrite !Nat.eqb_refl. destruct (Nat.eqb_spec x y); [contradiction|]. split; [reflexivity|eexists; reflexivity].
  Qed.
End Corollaries.
