(** Jacobians and gradients of function objects are derivatives. *)
From Coq Require Import Reals List Arith Bool Lia Lra.
From Verif Require Import Scalar Cset_spec Cset_proofs Problem_model Merit_proofs Manifold_model Manifold_spec Manifold_proofs ManifoldR_proofs
  Function_model Function_spec Function_proofs FunctionE_proofs.
Import ListNotations.
Local Open Scope R_scope.

Lemma velocity_weaken f f' w : velocity f w -> (forall t v, f t = Ret v -> length v = length w -> f' t = Ret v) -> velocity f' w.
Proof.
  intros (g & e & H1 & H2 & H3 & H4) E. exists g, e. split; [exact H1|]. split; [|split; assumption].
  intros t Ht. apply E; [auto|apply H3].
Qed.

Lemma plus_zero_r (a : rvec) : map2 Rplus a (repeat 0 (length a)) = a.
Proof. induction a as [|x a IH]; [reflexivity|]. cbn. rewrite IH. f_equal. ring. Qed.
Lemma plus_zero_l (b a : rvec) : length b = length a -> map2 Rplus (map (fun _ => 0) b) a = a.
Proof. revert a. induction b as [|y b IH]; intros [|x a] L; cbn in *; try discriminate; [reflexivity|]. rewrite IH by lia. f_equal. ring. Qed.
(** * Sizes *)
Lemma xdim_eta e : xdim e = (fst (fst (xdim e)), xndx e, xnr e).
Proof. unfold xndx, xnr. destruct (xdim e) as [[a b] c]. reflexivity. Qed.
Lemma path_defined k x w g : path k x w g -> exists e, 0 < e /\ forall t, Rabs t < e -> exists y, g t = Ret y.
Proof.
  intros [_ P]. destruct k as [s|n]; [apply P|]. destruct P as (h & e & He & H & _). exists e. split; [exact He|]. eauto.
Qed.
Lemma linear_val n A (b x : rvec) : Forall (fun row => length row = length x) A -> length A = length b ->
  base_val (OLinear (K := RSc) n A b) x = Ret (map2 Rplus (mat_vec A x) b).
Proof.
  intros F L. cbn [base_val]. pose proof (proj2 (forallb_len (length x) A) F) as E. cbn [car RSc] in *. rewrite E, L, Nat.eqb_refl. reflexivity.
Qed.
Lemma quad_val q W b c f x y : sem f x = Ret y -> mat (length y) (length y) W -> length b = length y ->
  sem (XQuad q W b c f) x = Ret [1 / 2 * inner y (mat_vec W y) + inner b y + c].
Proof.
  intros S [L F] Lb. cbn [sem]. rewrite S. cbn [bind]. pose proof (proj2 (forallb_len (length y) W) F) as E. cbn [car RSc] in *.
  rewrite E, L, Lb, Nat.eqb_refl. reflexivity.
Qed.
Lemma sum_val_good D k x cs : Forall (fun p => forall k x dr, good D k x (snd p) dr ->
    xndx (snd p) = pk_dim k /\ xnr (snd p) = dr /\ exists v, sem (snd p) x = Ret v /\ length v = dr) cs ->
  good_all D k x cs -> exists v, sum_val cs x = Ret v.
Proof.
  induction 1 as [|[w f] cs Hf _ IH]; intros G; [exists 0; reflexivity|]. destruct G as (_ & Gf & G).
  destruct (Hf _ _ _ Gf) as (_ & _ & v & Sv & Lv). destruct (IH G) as [s Ss]. cbn [snd] in *. cbn [sum_val]. rewrite Sv. cbn [bind].
  destruct v as [|a [|? ?]]; try discriminate. rewrite Ss. eexists. reflexivity.
Qed.
Lemma good_facts D e : forall k x dr, good D k x e dr ->
  xndx e = pk_dim k /\ xnr e = dr /\ exists v, sem e x = Ret v /\ length v = dr.
Proof.
  induction e as [o|f g IHf IHg|f IHf|dx dv cs IHc|q W b c f IHf] using fx_ind'; intros k x dr G.
  - unfold xndx, xnr. cbn [xdim sem] in *. destruct o; try contradiction; cbn [good good_base] in G; cbn [dims fst snd base_val].
    + destruct G as (A & B & (v & Ev & Lv) & _). eauto.
    + destruct G as (A1 & B & C & E & F). subst cols. destruct C as [C1 C2]. split; [reflexivity|]. split; [exact C1|].
      rewrite <- B in C2. cbn [car RSc] in *. eexists. split; [apply (linear_val 0); [exact C2|exact (eq_trans C1 (eq_sym E))]|]. rewrite map2_length, mat_vec_len. cbn [car RSc] in *. lia.
    + destruct G as [-> G]. destruct k as [s'|n].
      * destruct G as (-> & A & B & _ & C). split; [reflexivity|]. split; [reflexivity|].
        destruct (proj2 (lem_inverse D s A B) target x C) as (v & Ev & Tv & _). exists v. split; [exact Ev|]. eapply tangent_len; eassumption.
      * destruct G as (A & B & C & E). split; [symmetry; exact B|]. split; [reflexivity|]. pose proof (flat_dim s A) as Fd.
        rewrite flat_diff by (first [exact A|exact (eq_trans E (eq_trans B (eq_sym Fd)))|exact (eq_trans C (eq_trans B (eq_sym Fd)))]). eexists. split; [reflexivity|]. rewrite map2_length. cbn [car RSc] in *. lia.
    + destruct G as (A & -> & (v & Ev & Lv) & _). rewrite A. eauto.
  - destruct G as (Gg & y & Sy & Gf). destruct (IHg _ _ _ Gg) as (A & _ & _). destruct (IHf _ _ _ Gf) as (B & C & v & Sv & Lv).
    split; [exact A|]. split; [exact C|]. cbn [sem]. rewrite Sy. cbn [bind]. eauto.
  - destruct G as [-> G]. destruct (IHf _ _ _ G) as (A & B & v & Sv & Lv). split; [exact A|]. split; [reflexivity|].
    cbn [sem]. rewrite Sv. cbn [bind]. destruct v as [|a v]; [discriminate|]. eexists. split; reflexivity.
  - apply good_sum in G. destruct G as (-> & -> & G). split; [reflexivity|]. split; [reflexivity|].
    destruct (sum_val_good D k x cs IHc G) as [v Sv]. rewrite sem_sum, Sv. eexists. split; reflexivity.
  - destruct G as (-> & [W1 W2] & S & Lb & G). destruct (IHf _ _ _ G) as (A & _ & v & Sv & Lv). split; [exact A|]. split; [reflexivity|].
    rewrite <- Lv in *. eexists. split; [apply quad_val; [exact Sv|split; assumption|assumption]|reflexivity].
Qed.

(** * Caches that hold the value of the residual *)
Definition err_at (h : heap RSc) (q : nat) : option rvec :=
  match nth_error h q with Some (OQuad _ _ _ _ _ _ _ ca) => Some (c_err ca) | _ => None end.
Definition warm (h : heap RSc) (l : list (nat * rvec)) : Prop := forall q v, In (q, v) l -> err_at h q = Some v.
Lemma warm_app h a b : warm h (a ++ b) <-> warm h a /\ warm h b.
Proof.
  unfold warm. split.
  - intros H. split; intros q v I; apply H; apply in_or_app; auto.
  - intros [A B] q v I. apply in_app_or in I. destruct I; auto.
Qed.
Lemma err_at_sim h h' q : sim h h' -> err_at h' q = err_at h q.
Proof.
  intros S. specialize (S q). unfold err_at. destruct (nth_error h q) as [o|], (nth_error h' q) as [o'|]; try contradiction; try reflexivity.
  destruct S as [->|(dx & dv & p & W & s & c & gn & ca & ca' & -> & -> & _ & _ & E)]; [reflexivity|]. rewrite E; reflexivity.
Qed.
Lemma warm_sim h h' l : sim h h' -> warm h l -> warm h' l.
Proof. intros S Wm q v I. rewrite (err_at_sim h h' q S). auto. Qed.
Lemma set_err_sim h q v : err_at h q = Some v -> sim h (update h q (set_err (K := RSc) v)).
Proof.
  unfold err_at. intros E. apply update_sim. intros o Eo. rewrite Eo in E. destruct o; try discriminate. injection E as <-.
  right. do 9 eexists. split; [reflexivity|]. split; [reflexivity|]. repeat split.
Qed.
Lemma warm_after_sim l : forall h, warm h l -> sim h (after h l).
Proof.
  induction l as [|[q v] l IH]; intros h Wm; [apply sim_refl|]. cbn [after fold_left fst snd].
  assert (S : sim h (update h q (set_err (K := RSc) v))) by (apply set_err_sim, Wm; left; reflexivity).
  eapply sim_trans; [exact S|]. apply IH. eapply warm_sim; [exact S|]. intros a b I. apply Wm. right. exact I.
Qed.
Definition quad_at (h : heap RSc) (q : nat) : Prop := exists v, err_at h q = Some v.
Lemma err_update h q v i : quad_at h q -> err_at (update h q (set_err (K := RSc) v)) i = if Nat.eqb i q then Some v else err_at h i.
Proof.
  intros [u E]. unfold err_at in *. rewrite nth_update. destruct (Nat.eqb_spec i q) as [->|N]; [|reflexivity].
  destruct (nth_error h q) as [o|]; [|discriminate]. destruct o; try discriminate. reflexivity.
Qed.
Lemma after_warm l : consistent l -> forall h, (forall q v, In (q, v) l -> quad_at h q) -> warm (after h l) l.
Proof.
  intros C h HQ.
  assert (G : forall l' h, (forall q v, In (q, v) l' -> quad_at h q) -> forall q v,
     (forall u, In (q, u) l' -> u = v) -> (In (q, v) l' \/ err_at h q = Some v) -> err_at (after h l') q = Some v).
  { clear. induction l' as [|[p u] l' IH]; intros h HQ q v U H; [destruct H as [[]|H]; exact H|].
    cbn [after fold_left fst snd]. apply IH.
    - intros a b I. destruct (HQ a b (or_intror I)) as [z Z]. assert (Qp : quad_at h p) by (eapply HQ; left; reflexivity).
      unfold quad_at. rewrite err_update by exact Qp. destruct (Nat.eqb a p); eauto.
    - intros z I. apply U. right. exact I.
    - rewrite err_update by (eapply HQ; left; reflexivity). destruct (Nat.eqb_spec q p) as [->|N].
      + right. f_equal. apply U. left. reflexivity.
      + destruct H as [[H|H]|H]; [injection H as -> _; congruence|left; exact H|right; exact H]. }
  intros q v I. apply G; [exact HQ| |left; exact I]. intros u Iu. eapply C; eassumption.
Qed.
Lemma visits_quad h e : forall r x q v, repr h r e -> In (q, v) (visits e x) -> quad_at h q.
Proof.
  induction e as [o|f g IHf IHg|f IHf|dx dv cs IHc|q0 W b c f IHf] using fx_ind'; intros r x q v R I.
  - destruct I.
  - destruct R as (l & p & _ & Rf & Rg). cbn [visits] in I. apply in_app_or in I. destruct I as [I|I]; [eapply IHg; eassumption|].
    destruct (sem g x) as [y| | |]; try contradiction. eapply IHf; eassumption.
  - destruct R as (p & _ & Rf). eapply IHf; eassumption.
  - apply repr_sum in R. destruct R as (rs & ws & _ & Rs). rewrite visits_sum in I. revert rs ws Rs.
    induction IHc as [|[a f] cs Hf _ IH]; intros [|p rs] [|w ws] Rs; try contradiction. destruct Rs as (_ & _ & Rf & Rs). cbn [visits_all] in I. apply in_app_or in I.
    destruct I as [I|I]; [eapply Hf; eassumption|eapply IH; eassumption].
  - destruct R as (-> & p & gn & ca & E & _ & _ & Rf). cbn [visits] in I. apply in_app_or in I. destruct I as [I|I]; [eapply IHf; eassumption|].
    destruct (sem f x) as [y| | |]; try contradiction. destruct I as [I|[]]. injection I as -> _. exists (c_err ca). unfold err_at. rewrite E. reflexivity.
Qed.
Lemma set_J_sim r c h q J : mat r c J -> (forall o dx dv p W s d gn ca, nth_error h q = Some o -> o = OQuad dx dv p W s d gn ca -> mat r c (c_J ca)) ->
  sim h (update h q (set_J (K := RSc) J)).
Proof.
  intros M H. apply update_sim. intros o E. destruct o; try apply quad_like_refl. specialize (H _ _ _ _ _ _ _ _ _ E eq_refl).
  right. do 9 eexists. split; [reflexivity|]. split; [reflexivity|]. cbn [c_J c_H c_err]. split; [|split; reflexivity].
  etransitivity; [apply map_len_mat; exact M|]. symmetry. apply map_len_mat. exact H.
Qed.
Lemma set_H_sim r c h q J : mat r c J -> (forall o dx dv p W s d gn ca, nth_error h q = Some o -> o = OQuad dx dv p W s d gn ca -> mat r c (c_H ca)) ->
  sim h (update h q (set_H (K := RSc) J)).
Proof.
  intros M H. apply update_sim. intros o E. destruct o; try apply quad_like_refl. specialize (H _ _ _ _ _ _ _ _ _ E eq_refl).
  right. do 9 eexists. split; [reflexivity|]. split; [reflexivity|]. cbn [c_J c_H c_err]. split; [reflexivity|]. split; [|reflexivity].
  etransitivity; [apply map_len_mat; exact M|]. symmetry. apply map_len_mat. exact H.
Qed.

(** * Elementary functions *)
Lemma flat_path s x w g : flat s -> length x = ndx s -> length w = ndx s -> path (Geo s) x w g -> velocity g w.
Proof.
  intros F Hx Hw [_ [P _]]. replace w with (map (fun q => 1 * q) w) by (rewrite <- (map_id w) at 2; apply map_ext; intros; ring).
  apply velocity_line with (a := x); [congruence|]. intros t. rewrite P. rewrite flat_int by (rewrite ?line_len, ?flat_dim; assumption).
  f_equal. unfold line. clear. revert w. induction x as [|a x IH]; intros [|b w]; cbn; try reflexivity. rewrite IH. f_equal. ring.
Qed.
Lemma alloc_mat junk r c : mat r c (alloc (K := RSc) junk r c).
Proof.
  split; [unfold alloc; now rewrite map_length, seq_length|]. apply Forall_forall. intros row H. unfold alloc in H. apply in_map_iff in H.
  destruct H as (i & <- & _). now rewrite map_length, seq_length.
Qed.
Section Jac.
  Variable junk : nat -> nat -> R.
  Definition jac_ok (e : fx) : Prop := forall D k x dr n h r old,
    good D k x e dr -> (ht e <= n)%nat -> repr h r e -> warm h (visits e x) -> mat dr (pk_dim k) old ->
    exists J h', jac (K := RSc) junk n h r x old = Ret (J, h') /\ sim h h' /\ mat dr (pk_dim k) J /\
      forall w g, length w = pk_dim k -> path k x w g -> velocity (fun t => (do y <- g t; sem e y)%out) (mat_vec J w).
  Definition grad_ok (e : fx) : Prop := forall D k x n h r old,
    is_cost e -> good D k x e 1 -> (ht e <= S n)%nat -> repr h r e -> warm h (visits e x) -> length old = pk_dim k ->
    exists G h', grad (K := RSc) junk n h r x old = Ret (G, h') /\ sim h h' /\ length G = pk_dim k /\
      forall w g, length w = pk_dim k -> path k x w g -> velocity (fun t => (do y <- g t; sem e y)%out) [inner G w].

  Lemma base_jac o : jac_ok (XBase o).
  Proof.
    intros D k x dr n h r old G Hn [R El] _ Mo. destruct n as [|n]; [cbn in Hn; lia|]. rewrite jac_S, R. cbn [ub bind].
    destruct o; try contradiction; cbn [good good_base] in G.
    - destruct G as (_ & _ & _ & Dj). destruct (Dj old Mo) as (J & EJ & MJ & V). rewrite EJ. cbn [bind]. rewrite (like_ok dr (pk_dim k)) by assumption. cbn [bind].
      exists J, h. split; [reflexivity|]. split; [apply sim_refl|]. split; [exact MJ|]. exact V.
    - destruct G as (Hk & Hx & MA & Lb & F). rewrite Hk in *. rewrite (like_ok dr cols) by assumption. cbn [bind].
      exists A, h. split; [reflexivity|]. split; [apply sim_refl|]. split; [exact MA|]. intros w g Hw P.
      assert (V : velocity g w).
      { destruct k as [s|m]; [|apply P]. cbn in Hk. eapply flat_path; try eassumption; congruence. }
      destruct MA as [M1 M2].
      eapply velocity_bind with (F := base_val (OLinear cols A b)); [exact V| |reflexivity]. intros g' Fg' _.
      exists (fun t => map2 Rplus (mat_vec A (g' t)) b). split.
      + intros t. assert (L : length (g' t) = cols) by (rewrite (proj1 Fg'); exact Hw).
        apply linear_val; [rewrite L; exact M2|cbn [car RSc] in *; congruence].
      + apply (flows_shift Rplus (fun t => mat_vec A (g' t))); [intros; now apply shift_plus|rewrite mat_vec_len; exact (eq_trans Lb (eq_sym M1))|].
        eapply flows_mat_vec; eassumption.
    - destruct G as (-> & G). destruct k as [s'|m]; cbn [pk_dim] in *.
      + destruct G as (-> & HS & HI & HJ & N). destruct (lem_Jdiff D s HS HJ target x 1 old N ltac:(lia) Mo) as (J & EJ & MJ & V).
        rewrite EJ. cbn [bind]. rewrite (like_ok (ndx s) (ndx s)) by assumption. cbn [bind].
        exists J, h. split; [reflexivity|]. split; [apply sim_refl|]. split; [exact MJ|]. intros w g Hw P.
        eapply velocity_ext; [|apply V; exact Hw]. intros t. cbn [curve_diff sem base_val]. rewrite (proj1 (proj2 P) t). reflexivity.
      + destruct G as (F & -> & Hx & Ht). pose proof (flat_dim s F) as Fd.
        rewrite flat_Jdiff by (first [exact F|lia|exact (eq_trans Ht (eq_sym Fd))|exact (eq_trans Hx (eq_sym Fd))]). cbn [bind]. rewrite (like_ok (ndx s) (ndx s)) by (try assumption; apply eye_square). cbn [bind].
        eexists _, h. split; [reflexivity|]. split; [apply sim_refl|]. split; [apply eye_square|]. intros w g Hw P.
        replace (mat_vec (eye_scaled 1 (ndx s)) w) with w.
        2: { rewrite <- Hw. symmetry. refine (eq_trans (mat_vec_eye 1 w) _). rewrite <- (map_id w) at 2. apply map_ext. intros; ring. }
        eapply velocity_bind with (F := base_val (ODiff s target)); [apply P| |reflexivity]. intros g' Fg' _.
        exists (fun t => map2 Rminus (g' t) target). split.
        * intros t. cbn [base_val]. apply flat_diff; [exact F|exact (eq_trans Ht (eq_sym Fd))|exact (eq_trans (proj1 Fg' t) (eq_trans Hw (eq_sym Fd)))].
        * apply (flows_shift Rminus g'); [intros; now apply shift_minus|exact (eq_trans Ht (eq_sym Hw))|exact Fg'].
    - destruct G as (_ & _ & _ & Dj). destruct (Dj old Mo) as (J & EJ & MJ & V). rewrite EJ. cbn [bind].
      exists J, h. split; [reflexivity|]. split; [apply sim_refl|]. split; [exact MJ|]. exact V.
  Qed.

  Lemma grad_jac e D k x dr n h r old : grad_ok e -> is_cost e -> good D k x e dr -> (ht e <= n)%nat -> repr h r e -> warm h (visits e x) -> mat dr (pk_dim k) old ->
    exists J h', jac (K := RSc) junk n h r x old = Ret (J, h') /\ sim h h' /\ mat dr (pk_dim k) J /\
      forall w g, length w = pk_dim k -> path k x w g -> velocity (fun t => (do y <- g t; sem e y)%out) (mat_vec J w).
  Proof.
    intros GK Ic G Hn R Wm Mo. destruct n as [|n]; [pose proof (ht_pos e); lia|].
    assert (dr = 1%nat) as -> by (destruct e; try contradiction; apply G).
    destruct Mo as [Lo Fo]. destruct old as [|g0 [|? ?]]; try discriminate. inversion Fo as [|? ? L0 _]; subst.
    destruct (GK D k x n h r g0 Ic G Hn R Wm L0) as (g & h' & Eg & S & Lg & V).
    exists [g], h'. split; [|split; [exact S|split; [split; [reflexivity|constructor; [exact Lg|constructor]]|exact V]]].
    assert (exists o, nth_error h r = Some o /\ match o with OCost _ _ _ | OSum _ _ _ _ | OQuad _ _ _ _ _ _ _ _ => True | _ => False end) as (o & Eo & Ho).
    { destruct e as [o|f g'|f|dx dv cs|q W b c' f]; try contradiction.
      - destruct R as (q & E & _). eauto.
      - destruct R as (rs & ws & E & _). eauto.
      - destruct R as (Q & p & gn & ca & E & _). eauto. }
    rewrite jac_S, Eo. cbn [ub bind]. destruct o; try contradiction; cbn [ub bind]; rewrite Eg; reflexivity.
  Qed.
  Lemma comp_jac f g : jac_ok f -> jac_ok g -> jac_ok (XComp f g).
  Proof.
    intros IHf IHg D k x dr n h r old G Hn R Wm Mo. destruct n as [|n]; [cbn in Hn; lia|]. cbn [ht] in Hn.
    destruct R as (l & p & E & Rf & Rg). destruct G as (Gg & y & Sy & Gf).
    cbn [visits] in Wm. rewrite Sy in Wm. apply warm_app in Wm. destruct Wm as [Wg Wf].
    destruct (good_facts _ _ _ _ _ Gg) as (Dg & _ & _). destruct (good_facts _ _ _ _ _ Gf) as (Df & Rf' & _). cbn [pk_dim] in Df.
    rewrite jac_S, E. cbn [ub bind]. rewrite (proj1 (eval_sem g) n h p x y) by (try assumption; lia). cbn [bind].
    rewrite (dims_repr _ _ _ Rf), (dims_repr _ _ _ Rg). cbn [bind].
    pose proof (xdim_eta f) as Xf. pose proof (xdim_eta g) as Xg. rewrite Df, Rf' in Xf. rewrite Dg in Xg.
    rewrite Xf, Xg. cbn [snd].
    assert (S1 : sim h (after h (visits g x))) by (apply warm_after_sim; exact Wg).
    destruct (IHf D (Euc (xnr g)) y dr n (after h (visits g x)) l (alloc junk dr (xnr g))) as (Jl & h2 & EJ & S2 & Ml & Vl).
    { exact Gf. } { lia. } { eapply repr_skel; [apply sim_skel; exact S1|exact Rf]. } { eapply warm_sim; eassumption. } { apply alloc_mat. }
    destruct (IHg D k x (xnr g) n h2 p (alloc junk (xnr g) (pk_dim k))) as (Jg & h3 & EJg & S3 & Mg & Vg).
    { exact Gg. } { lia. } { eapply repr_skel; [apply sim_skel; exact (sim_trans _ _ _ _ S1 S2)|exact Rg]. } { eapply warm_sim; [exact (sim_trans _ _ _ _ S1 S2)|exact Wg]. } { apply alloc_mat. }
    cbn [car RSc] in *. rewrite EJ. cbn [bind]. rewrite EJg. cbn [bind].
    destruct (mm_ok dr (xnr g) (pk_dim k) Jl Jg Ml Mg) as (P & EP & MP & VP & _). rewrite EP. cbn [bind].
    rewrite (like_ok dr (pk_dim k)) by assumption. cbn [bind]. exists P, h3. split; [reflexivity|].
    split; [exact (sim_trans _ _ _ _ S1 (sim_trans _ _ _ _ S2 S3))|]. split; [exact MP|]. intros w c Hw Pc. rewrite VP by exact Hw.
    eapply velocity_ext; [|apply (Vl (mat_vec Jg w) (fun t => do z <- c t; sem g z)%out)].
    - intros t. cbv beta. destruct (c t) as [z| | |]; cbn [bind]; reflexivity.
    - rewrite mat_vec_len. exact (proj1 Mg).
    - split; [rewrite (proj1 Pc); exact Sy|]. apply Vg; assumption.
  Qed.
  Lemma cost_grad f : jac_ok f -> grad_ok (XCost f).
  Proof.
    intros IH D k x n h r old _ [_ G] Hn R Wm Lo. destruct n as [|n]; [cbn in Hn; lia|]. cbn [ht] in Hn.
    destruct R as (p & E & Rf). rewrite grad_S, E. cbn [ub bind].
    destruct (IH D k x 1%nat n h p [old]) as (J & h' & EJ & S & [LJ FJ] & V); try assumption; [lia|split; [reflexivity|constructor; [exact Lo|constructor]]|].
    cbn [car RSc] in *. rewrite EJ. cbn [bind]. destruct J as [|g [|? ?]]; try discriminate. cbn [nth_error ub bind].
    inversion FJ; subst. exists g, h'. split; [reflexivity|]. split; [exact S|]. split; [assumption|]. intros w c Hw Pc.
    eapply velocity_weaken; [apply (V w c Hw Pc)|]. intros t v. cbv beta. destruct (c t) as [y| | |]; cbn [bind]; try discriminate. cbn [sem]. intros -> L. cbn [bind].
    destruct v as [|a [|? ?]]; try discriminate. reflexivity.
  Qed.
  Lemma quad_grad q W b c f : jac_ok f -> grad_ok (XQuad q W b c f).
  Proof.
    intros IH D k x n h r old _ (_ & MW & SW & Lb & G) Hn R Wm Lo. destruct n as [|n]; [cbn in Hn; lia|]. cbn [ht] in Hn.
    pose proof R as R0. destruct R as (-> & p & gn & ca & E & MJ & MH & Rf).
    destruct (good_facts _ _ _ _ _ G) as (Dk & _ & y & Sy & Ly). cbn [xdim fst snd] in E. fold (xndx f) in *. rewrite Dk in *.
    rewrite grad_S, E. cbn [ub bind].
    cbn [visits] in Wm. rewrite Sy in Wm. apply warm_app in Wm. destruct Wm as [Wf Wq].
    assert (Ey : c_err ca = y). { specialize (Wq q y (or_introl eq_refl)). unfold err_at in Wq. rewrite E in Wq. congruence. }
    destruct (IH D k x (xnr f) n h p (c_J ca)) as (J & h1 & EJ & S & MJ' & V); try assumption; [lia|].
    cbn [car RSc] in *. rewrite EJ. cbn [bind]. pose proof (transp_mat _ _ _ MJ') as MT.
    destruct (mm_ok (pk_dim k) (xnr f) (xnr f) _ W MT MW) as (P & EP & MP & VP & _). rewrite (proj1 MW), EP. cbn [bind].
    rewrite mv_ok by (rewrite Ey, Ly; exact (proj2 MP)). cbn [bind]. unfold fixed. cbn [car RSc] in *.
    rewrite mat_vec_len, (proj1 MP), Lo, Nat.eqb_refl. cbn [bind]. rewrite mv_ok by (rewrite Lb; exact (proj2 MT)). cbn [bind].
    rewrite vop_ok by (rewrite !mat_vec_len; exact (eq_trans (proj1 MP) (eq_sym (proj1 MT)))). cbn [bind].
    eexists _, _. split; [reflexivity|]. split; [|split].
    - eapply sim_trans; [exact S|]. eapply set_J_sim; [exact MJ'|]. intros o a0 a1 a2 a3 a4 a5 a6 a7 Eo ->.
      pose proof (repr_skel h h1 _ (sim_skel _ _ S) q R0) as (_ & p' & gn' & ca' & E' & M' & _). rewrite Eo in E'. injection E' as _ _ _ _ _ _ _ ->. rewrite Dk in M'. exact M'.
    - rewrite map2_length, !mat_vec_len. rewrite (proj1 MP). pose proof (proj1 MT) as Q. cbn [car RSc] in *. rewrite Q. lia.
    - intros w g Hw Pg. specialize (V w g Hw Pg). set (u := mat_vec J w) in *.
      assert (Lu : length u = xnr f) by (unfold u; rewrite mat_vec_len; exact (proj1 MJ')).
      eapply velocity_bind with (F := fun y => if forallb (fun row => Nat.eqb (length row) (length y)) W && Nat.eqb (length W) (length y) && Nat.eqb (length b) (length y)
         then Ret [1 / 2 * inner y (mat_vec W y) + inner b y + c] else UB); [exact V| |].
      2: { intros t. cbv beta. destruct (g t) as [z| | |]; cbn [bind]; reflexivity. }
      intros h' Fh H0. cbv beta in H0. rewrite (proj1 Pg) in H0. cbn [bind] in H0. assert (H0y : h' 0 = y) by congruence.
      exists (fun t => [1 / 2 * inner (h' t) (mat_vec W (h' t)) + inner b (h' t) + c]). split.
      + intros t. assert (Lt : length (h' t) = xnr f) by (rewrite (proj1 Fh); exact Lu). rewrite Lt. destruct MW as [W1 W2].
        pose proof (proj2 (forallb_len _ _) W2) as FW. cbn [car RSc] in *. rewrite FW, W1, Lb, Nat.eqb_refl. reflexivity.
      + apply flows_1. apply shift_plus. rewrite inner_add_l; [|rewrite mat_vec_len, Hw; exact (proj1 MP)|rewrite mat_vec_len, Hw; exact (proj1 MT)].
        rewrite Ey, VP by exact Ly. rewrite !(transp_adjoint (xnr f) (pk_dim k)) by (try assumption; rewrite ?mat_vec_len; first [exact (proj1 MW)|assumption]).
        fold u. replace (inner (mat_vec W y) u + inner b u) with (1 / 2 * (inner u (mat_vec W (h' 0)) + inner (h' 0) (mat_vec W u)) + inner b u).
        * apply derivable_pt_lim_plus; [|apply der_inner_l; [congruence|exact Fh]].
          apply derivable_pt_lim_scal. apply (der_inner u (mat_vec W u) h' (fun t => mat_vec W (h' t))); [rewrite mat_vec_len, Lu; symmetry; exact (proj1 MW)|exact Fh|].
          eapply flows_mat_vec; [exact (proj2 MW)|exact Lu|exact Fh].
        * rewrite H0y. rewrite (sym_inner W (xnr f) MW SW y u Ly Lu). rewrite (inner_comm (mat_vec W y) u). lra.
  Qed.
  Lemma sum_grad' dx dv cs : Forall (fun p => grad_ok (snd p)) cs -> grad_ok (XSum dx dv cs).
  Proof.
    intros IHc D k x n h r old _ G Hn R Wm Lo. rewrite ht_sum in Hn. destruct n as [|n]; [lia|].
    apply good_sum in G. destruct G as (_ & -> & G). apply repr_sum in R. destruct R as (rs & ws & E & Rs). rewrite visits_sum in Wm.
    rewrite grad_S, E. cbn [ub bind].
    assert (L : forall rs ws h acc, good_all D k x cs -> (ht_all cs <= S n)%nat -> repr_all h rs ws cs -> warm h (visits_all cs x) -> length acc = pk_dim k ->
      exists G h', sum_grad (K := RSc) (fun h c x => (do (_, dv, _) <- dims_at h c; grad junk n h c x (nth 0 (alloc junk 1 dv) []))%out) x rs ws acc h = Ret (map2 Rplus acc G, h') /\
        sim h h' /\ length G = pk_dim k /\
        forall w g, length w = pk_dim k -> path k x w g -> velocity (fun t => (do y <- g t; do v <- sum_val cs y; Ret [v])%out) [inner G w]).
    { clear - IHc. induction IHc as [|[a f] cs Hf _ IH]; intros [|p rs] [|w ws] h acc G Hn Rs Wm La; try contradiction.
      - exists (repeat 0 (pk_dim k)), h. cbn [sum_grad]. split; [|split; [apply sim_refl|split; [apply repeat_length|]]].
        + rewrite <- La. apply (f_equal (fun l => Ret (l, h))). symmetry. apply plus_zero_r.
        + intros w g Hw P. rewrite inner_zeros. exists (fun _ => [0]).
          destruct (path_defined _ _ _ _ P) as (e & He & V). exists e. split; [exact He|]. split; [|split; [reflexivity|]].
          * intros t Ht. destruct (V t Ht) as [y ->]. reflexivity.
          * intros [|i] Hi; [|cbn in Hi; lia]. apply derivable_pt_lim_const.
      - destruct Rs as (-> & Ic & Rf & Rs). destruct G as (_ & Gf & G). cbn [ht_all visits_all] in *. apply warm_app in Wm. destruct Wm as [Wf Wm].
        cbn [snd] in Hf. destruct (good_facts _ _ _ _ _ Gf) as (Df & _ & _). pose proof (xdim_eta f) as Xf. rewrite Df in Xf.
        destruct (Hf D k x n h p (nth 0 (alloc junk 1 (pk_dim k)) [])) as (g1 & h1 & Eg & S1 & L1 & V1); try assumption; [lia| |].
        { cbn. now rewrite map_length, seq_length. }
        destruct (IH rs ws h1 (map2 Rplus acc (map (fun q => a * q) g1))) as (G2 & h2 & E2 & S2 & L2 & V2); try assumption; [lia| | | |].
        { eapply repr_all_skel; [apply sim_skel; exact S1|exact Rs]. } { eapply warm_sim; eassumption. } { rewrite map2_length, map_length. cbn [car RSc] in *. lia. }
        exists (map2 Rplus (map (fun q => a * q) g1) G2), h2. split; [|split; [exact (sim_trans _ _ _ _ S1 S2)|split; [rewrite map2_length, map_length; cbn [car RSc] in *; lia|]]].
        + cbn [sum_grad]. rewrite (dims_repr _ _ _ Rf), Xf. cbn [bind]. cbn [car RSc] in *. rewrite Eg. cbn [bind].
          rewrite vop_ok by (unfold vscale; rewrite map_length; exact (eq_trans La (eq_sym L1))). cbn [bind]. refine (eq_trans E2 _). apply (f_equal (fun l => Ret (l, h2))).
          assert (L1' : length (map (fun q => a * q) g1) = length G2) by (rewrite map_length; exact (eq_trans L1 (eq_sym L2))).
          assert (La' : length acc = length G2) by exact (eq_trans La (eq_sym L2)). revert L1' La'. generalize (map (fun q => a * q) g1). clear.
          revert G2. induction acc as [|u acc IH]; intros [|v G2] [|z l] A B; cbn in *; try discriminate; [reflexivity|]. rewrite (IH G2) by congruence. f_equal. ring.
        + intros w g Hw P. specialize (V1 w g Hw P). specialize (V2 w g Hw P).
          assert (V : velocity (fun t => do z <- g t; do u <- sem f z; do v <- sum_val cs z; Ret (u ++ [v]))%out ([inner g1 w] ++ [inner G2 w])).
          { eapply velocity_app; [exact V1|exact V2|]. intros t u v. cbv beta. destruct (g t) as [z| | |]; cbn [bind]; try discriminate.
            intros ->. cbn [bind]. destruct (sum_val cs z) as [b| | |]; cbn [bind]; try discriminate. intros [= <-]. reflexivity. }
          assert (V' : velocity (fun t => do l <- (do z <- g t; do u <- sem f z; do v <- sum_val cs z; Ret (u ++ [v])); match l with [u; v] => Ret [a * u + v] | _ => UB end)%out
             [inner (map2 Rplus (map (fun q => a * q) g1) G2) w]).
          { eapply velocity_bind with (F := fun l => match l with [u; v] => Ret [a * u + v] | _ => UB end); [exact V| |reflexivity].
            intros q Fq _. exists (fun t => [a * nth 0 (q t) 0 + nth 1 (q t) 0]). split.
            - intros t. pose proof (proj1 Fq t) as Lq. destruct (q t) as [|u [|v [|? ?]]]; try discriminate. reflexivity.
            - rewrite inner_add_l, inner_scale_l by (rewrite ?map_length; first [exact (eq_trans L1 (eq_sym Hw))|exact (eq_trans L2 (eq_sym Hw))]). apply flows_1.
              apply derivable_pt_lim_plus; [apply derivable_pt_lim_scal; exact (proj2 Fq 0%nat ltac:(cbn; lia))|exact (proj2 Fq 1%nat ltac:(cbn; lia))]. }
          eapply velocity_weaken; [exact V'|]. intros t v. cbv beta. destruct (g t) as [z| | |]; cbn [bind]; try discriminate. cbn [sum_val].
          destruct (sem f z) as [u| | |]; cbn [bind]; try discriminate. destruct (sum_val cs z) as [b| | |]; cbn [bind]; try discriminate.
          destruct u as [|u [|u' [|? ?]]]; cbn [app]; try discriminate. intros Ev _. exact Ev. }
    destruct (L rs ws h (map (fun _ => 0) old)) as (Gr & h' & EG & S & LG & V); try assumption; [lia|rewrite map_length; exact Lo|].
    exists Gr, h'. split; [|split; [exact S|split; [exact LG|]]].
    - refine (eq_trans EG _). apply (f_equal (fun l => Ret (l, h'))). apply plus_zero_l. exact (eq_trans Lo (eq_sym LG)).
    - intros w g Hw P. eapply velocity_ext; [|apply (V w g Hw P)]. intros t. cbv beta. destruct (g t); try reflexivity. cbn [bind]. now rewrite sem_sum.
  Qed.
  Lemma jac_grad_sem e : jac_ok e /\ grad_ok e.
  Proof.
    induction e as [o|f g [IHf _] [IHg _]|f [IHf _]|dx dv cs IHc|q W b c f [IHf _]] using fx_ind'.
    - split; [apply base_jac|]. intros ? ? ? ? ? ? ? [].
    - split; [apply comp_jac; assumption|]. intros ? ? ? ? ? ? ? [].
    - pose proof (cost_grad f IHf) as C. split; [|exact C]. intros D k x dr n h r old ? ? ? ? ?. eapply grad_jac; try eassumption. exact I.
    - assert (C : grad_ok (XSum dx dv cs)) by (apply sum_grad'; eapply Forall_impl; [|exact IHc]; cbn; tauto).
      split; [|exact C]. intros D k x dr n h r old ? ? ? ? ?. eapply grad_jac; try eassumption. exact I.
    - pose proof (quad_grad q W b c f IHf) as C. split; [|exact C]. intros D k x dr n h r old ? ? ? ? ?. eapply grad_jac; try eassumption. exact I.
  Qed.
End Jac.
