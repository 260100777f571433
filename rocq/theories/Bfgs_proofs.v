From Coq Require Import Reals List Arith Bool Lia Lra.
From Verif Require Import Scalar Cset_spec Cset_proofs Problem_model Merit_proofs Manifold_model Manifold_spec Manifold_proofs ManifoldR_proofs
  Function_model Function_spec Function_proofs FunctionE_proofs FunctionJ_proofs FunctionH_proofs FunctionQ_proofs FunctionD_proofs Bfgs_model Bfgs_spec.
Import ListNotations.
Local Open Scope R_scope.

Lemma less_len w c p : length p = length w -> length (less w c p) = length w.
Proof. intros L. unfold less. rewrite map2_length. lia. Qed.
Lemma inner_less (a w p : rvec) c : length a = length w -> length p = length w -> inner a (less w c p) = inner a w - c * inner a p.
Proof.
  revert w p. induction a as [|x a IH]; intros [|y w] [|z p] L1 L2; try discriminate; cbn; [ring|]. unfold less in IH. rewrite IH by (injection L1; injection L2; congruence). ring.
Qed.
Lemma inner_less_l (a w p : rvec) c : length a = length w -> length p = length w -> inner (less w c p) a = inner w a - c * inner p a.
Proof. intros L1 L2. rewrite inner_comm, inner_less by assumption. rewrite (inner_comm a w), (inner_comm a p). reflexivity. Qed.
Lemma outer_mat (a b : rvec) : mat (length a) (length b) (outer (K := RSc) a b).
Proof. split; [apply map_length|]. apply Forall_forall. intros row H. apply in_map_iff in H. destruct H as (z & <- & _). apply map_length. Qed.
Lemma mdiv_mat r c M k : mat r c M -> mat r c (mdiv (K := RSc) M k).
Proof. apply map_mat. Qed.
Lemma outer_vec (a b u : rvec) k : mat_vec (mdiv (K := RSc) (outer (K := RSc) a b) k) u = map (fun p => inner b u / k * p) a.
Proof.
  unfold mdiv, outer, mat_vec. rewrite !map_map. apply map_ext. intros p. rewrite map_map. clear a.
  revert u. induction b as [|x b IH]; intros [|y u]; cbn; try (unfold Rdiv; ring). rewrite IH. cbn. unfold Rdiv. ring.
Qed.
Lemma mat_vec_minus r c (A B : list rvec) w : mat r c A -> mat r c B -> length w = c -> mat_vec (map2 (map2 Rminus) A B) w = map2 Rminus (mat_vec A w) (mat_vec B w).
Proof.
  intros [LA FA] [LB FB] Lw. assert (L : length A = length B) by congruence. clear LA LB. revert B L FB.
  induction FA as [|a A Ha FA IH]; intros [|b B] L FB; try discriminate; [reflexivity|]. cbn.
  inversion FB as [|? ? Hb FB']; subst. f_equal.
  - assert (L' : length a = length w) by congruence. assert (L2 : length b = length w) by congruence. clear - L' L2. revert b w L' L2. induction a as [|x a IH]; intros [|y b] [|z w] L' L2; try discriminate; cbn in *; [ring|]. rewrite (IH b w) by congruence. ring.
  - apply IH; [injection L; auto|exact FB'].
Qed.
Lemma V_ok n (p q : rvec) k : length p = n -> length q = n -> exists V, mop (K := RSc) Rminus (eye_scaled (K := RSc) 1 n) (mdiv (K := RSc) (outer (K := RSc) p q) k) = Ret V /\ mat n n V /\
  forall w, length w = n -> mat_vec V w = less w (inner q w / k) p.
Proof.
  intros Lp Lq. assert (ME : mat n n (eye_scaled (K := RSc) 1 n)).
  { destruct (eye_square 1 n) as [A B]. split; [exact A|]. exact B. }
  assert (MO : mat n n (mdiv (K := RSc) (outer (K := RSc) p q) k)). { apply mdiv_mat. rewrite <- Lp at 1. rewrite <- Lq. apply outer_mat. }
  eexists. split; [apply (mop_ok _ n n); assumption|]. split; [apply map2_mat; assumption|]. intros w Lw.
  rewrite (mat_vec_minus n n) by assumption. rewrite eye_id by exact Lw. rewrite outer_vec. unfold less. generalize (inner q w / k). intros c. assert (L : length p = length w) by congruence. clear - L. revert w L.
  induction p as [|a p IH]; intros [|b w] L; try discriminate; [reflexivity|]. cbn. f_equal. apply IH. injection L; auto.
Qed.
Lemma axis_len n i : length (axis n i) = n.
Proof. unfold axis. now rewrite map_length, seq_length. Qed.
Lemma axis_inner n i z : (i < n)%nat -> length z = n -> inner z (axis n i) = nth i z 0.
Proof.
  intros Hi Lz. rewrite (inner_sumn z (axis n i) n) by (rewrite ?axis_len; assumption || reflexivity).
  transitivity (sumn n (fun j => if Nat.eqb j i then nth i z 0 else 0)).
  - apply sumn_ext. intros j Hj. unfold axis. rewrite nth_map_seq by exact Hj. destruct (Nat.eqb_spec j i); [subst; ring|ring].
  - clear - Hi. induction n as [|n IH]; [lia|]. cbn [sumn]. destruct (Nat.eqb_spec n i).
    + subst. rewrite sumn_zero; [ring|]. intros j Hj. destruct (Nat.eqb_spec j i); [lia|reflexivity].
    + rewrite IH by lia. ring.
Qed.
Lemma Vt_ok n (p q : rvec) k V : length p = n -> length q = n -> mat n n V -> (forall w, length w = n -> mat_vec V w = less w (inner q w / k) p) ->
  forall w, length w = n -> mat_vec (transp (K := RSc) n V) w = less w (inner p w / k) q.
Proof.
  intros Lp Lq MV HV w Lw. pose proof (transp_mat _ _ _ MV) as MT.
  assert (L1 : length (mat_vec (transp (K := RSc) n V) w) = n) by (rewrite mat_vec_len; exact (proj1 MT)).
  assert (L2 : length (less w (inner p w / k) q) = n) by (rewrite less_len; congruence).
  apply (nth_ext _ _ 0 0); [congruence|]. intros i Hi. rewrite L1 in Hi.
  pose proof (axis_len n i) as LA.
  rewrite <- (axis_inner n i (mat_vec (transp (K := RSc) n V) w)), <- (axis_inner n i (less w (inner p w / k) q)) by assumption.
  rewrite (transp_adjoint n n V w (axis n i)) by assumption.
  rewrite HV by exact LA. rewrite inner_less, inner_less_l by congruence. rewrite (inner_comm w p). unfold Rdiv. ring.
Qed.
Lemma core n (p q : rvec) k H : length p = n -> length q = n -> mat n n H -> k = inner p q -> exists V W Z H',
  mop (K := RSc) Rminus (eye_scaled (K := RSc) 1 n) (mdiv (K := RSc) (outer (K := RSc) p q) k) = Ret V /\ mm (K := RSc) n V H = Ret W /\
  mm (K := RSc) n W (transp (K := RSc) n V) = Ret Z /\ mop (K := RSc) Rplus Z (mdiv (K := RSc) (outer (K := RSc) p p) k) = Ret H' /\ mat n n H' /\
  forall u, length u = n -> mat_vec H' u = rank_two H p q u.
Proof.
  intros Lp Lq MH ->. set (k := inner p q). destruct (V_ok n p q k Lp Lq) as (V & EV & MV & HV).
  pose proof (Vt_ok n p q k V Lp Lq MV HV) as HT. pose proof (transp_mat _ _ _ MV) as MT.
  destruct (mm_ok n n n V H MV MH) as (W & EW & MW & HW & _). destruct (mm_ok n n n W (transp (K := RSc) n V) MW MT) as (Z & EZ & MZ & HZ & _).
  assert (MO : mat n n (mdiv (K := RSc) (outer (K := RSc) p p) k)). { apply mdiv_mat. rewrite <- Lp. apply outer_mat. }
  eexists V, W, Z, _. split; [exact EV|]. split; [exact EW|]. split; [exact EZ|]. split; [apply (mop_ok _ n n); assumption|]. split; [apply map2_mat; assumption|].
  intros u Lu. rewrite (mat_vec_plus n n) by assumption. rewrite outer_vec, HZ by exact Lu. pose proof (HT u Lu) as E1. rewrite E1.
  assert (L1 : length (less u (inner p u / k) q) = n) by (rewrite less_len; congruence). rewrite HW by exact L1.
  rewrite HV by (rewrite mat_vec_len; exact (proj1 MH)). unfold rank_two. fold k. set (z := mat_vec H _).
  assert (Lz : length z = length p) by (unfold z; rewrite mat_vec_len, (proj1 MH); auto). generalize (inner p u / k). intros c.
  assert (Ll : length (less z (inner q z / k) p) = length p) by (rewrite less_len; auto). revert Ll. generalize (less z (inner q z / k) p). clear.
  intros l L. revert l L. induction p as [|a p IH]; intros [|b l] L; try discriminate; [reflexivity|]. cbn. f_equal. apply IH. injection L; auto.
Qed.
Lemma rank_two_form n M (p q u w : rvec) : mat n n M -> length p = n -> length q = n -> length u = n -> length w = n ->
  inner w (rank_two M p q u) = inner (less w (inner p w / inner p q) q) (mat_vec M (less u (inner p u / inner p q) q)) + inner p w * inner p u / inner p q.
Proof.
  intros MM Lp Lq Lu Lw. unfold rank_two. set (z := mat_vec M _). assert (Lz : length z = n) by (unfold z; rewrite mat_vec_len; exact (proj1 MM)).
  replace (map2 (fun a b => a + inner p u / inner p q * b) (less z (inner q z / inner p q) p) p) with (less (less z (inner q z / inner p q) p) (- (inner p u / inner p q)) p).
  2: { unfold less at 1. generalize (less z (inner q z / inner p q) p). intros l. generalize (inner p u / inner p q). intros c. clear. revert l. induction p as [|a p IH]; intros [|b l]; try reflexivity. cbn. f_equal; [ring|apply IH]. }
  rewrite inner_less, inner_less, inner_less_l by (rewrite ?less_len; congruence). rewrite (inner_comm w p). unfold Rdiv. ring.
Qed.
Lemma rank_two_secant n M (p q : rvec) : mat n n M -> length p = n -> length q = n -> inner p q <> 0 -> rank_two M p q q = p.
Proof.
  intros MM Lp Lq Hk. assert (E1 : inner p q / inner p q = 1) by (field; exact Hk). unfold rank_two. rewrite E1.
  assert (Z : less q 1 q = map (fun _ => 0) q). { unfold less. clear. induction q; cbn; [reflexivity|]. f_equal; [ring|assumption]. }
  rewrite Z. assert (Zv : mat_vec M (map (fun _ => 0) q) = repeat 0 n).
  { rewrite <- (proj1 MM). unfold mat_vec. clear. induction M as [|row M IH]; [reflexivity|]. cbn. rewrite IH, inner_comm, inner_zero_r. reflexivity. }
  rewrite Zv, inner_comm, inner_zeros. clear - Lp. unfold Rdiv. rewrite Rmult_0_l. revert p Lp. induction n as [|n IH]; intros [|a p] Lp; try discriminate; [reflexivity|].
  cbn. f_equal; [ring|]. apply IH. injection Lp; auto.
Qed.
Lemma bilinear_symmetric n M : mat n n M -> (forall u w, length u = n -> length w = n -> inner u (mat_vec M w) = inner w (mat_vec M u)) -> symmetric M.
Proof.
  intros MM Hb. pose proof MM as [LM FM]. rewrite Forall_forall in FM.
  assert (En : forall i j, (i < n)%nat -> (j < n)%nat -> inner (axis n i) (mat_vec M (axis n j)) = nth j (nth i M []) 0).
  { intros i j Hi Hj. rewrite inner_comm, axis_inner by (rewrite ?mat_vec_len; assumption). rewrite nth_mat_vec, axis_inner; [reflexivity|exact Hj|]. apply FM, nth_In. lia. }
  assert (Out : forall i j, (n <= i)%nat -> nth j (nth i M []) 0 = 0). { intros i j Hi. rewrite (nth_overflow M []) by lia. destruct j; reflexivity. }
  assert (Out2 : forall i j, (n <= j)%nat -> nth j (nth i M []) 0 = 0).
  { intros i j Hj. destruct (Nat.lt_ge_cases i n) as [Hi|Hi]; [|apply Out; exact Hi]. apply nth_overflow. rewrite FM; [exact Hj|]. apply nth_In. lia. }
  intros i j. destruct (Nat.lt_ge_cases i n) as [Hi|Hi]; [|rewrite Out, Out2 by exact Hi; reflexivity].
  destruct (Nat.lt_ge_cases j n) as [Hj|Hj]; [|rewrite Out2, Out by exact Hj; reflexivity].
  rewrite <- !En by assumption. apply Hb; apply axis_len.
Qed.
Lemma less_zero n (u q : rvec) c : length u = n -> length q = n -> c = 0 -> less u c q = u.
Proof. intros Lu Lq ->. assert (L : length u = length q) by congruence. clear - L. revert q L. unfold less. induction u as [|a u IH]; intros [|b q] L; try discriminate; [reflexivity|]. cbn. f_equal; [ring|apply IH; injection L; auto]. Qed.
Lemma rank_two_spd n M M' (p q : rvec) : spd n M -> length p = n -> length q = n -> 0 < inner p q -> mat n n M' -> (forall u, length u = n -> mat_vec M' u = rank_two M p q u) -> spd n M'.
Proof.
  intros (MM & Sy & Pd) Lp Lq Hk MM' HM. split; [exact MM'|]. split.
  - apply (bilinear_symmetric n); [exact MM'|]. intros u w Lu Lw. rewrite !HM by assumption. rewrite !(rank_two_form n) by assumption.
    rewrite (sym_inner M n MM Sy) by (rewrite less_len; congruence). unfold Rdiv. ring.
  - intros u Lu Nu. rewrite HM, (rank_two_form n) by assumption. destruct (Req_dec (inner p u) 0) as [E|E].
    + rewrite (less_zero n) by (try assumption; rewrite E; unfold Rdiv; ring). rewrite E. specialize (Pd u Lu Nu). replace (0 * 0 / inner p q) with 0 by (unfold Rdiv; ring). lra.
    + set (v := less u (inner p u / inner p q) q). assert (Lv : length v = n) by (unfold v; rewrite less_len; congruence).
      assert (P1 : 0 < inner p u * inner p u / inner p q). { apply Rdiv_lt_0_compat; [|exact Hk]. pose proof (Rsqr_pos_lt _ E) as Q. exact Q. }
      assert (P2 : 0 <= inner v (mat_vec M v)); [|lra].
      destruct (list_eq_dec Req_EM_T v (repeat 0 n)) as [->|Nv]; [rewrite inner_zeros; lra|]. left. apply Pd; assumption.
Qed.
(** One update. *)
Lemma update_step inv b x g H n : b_init b = true -> length x = n -> length g = n -> length (b_x b) = n -> length (b_g b) = n -> mat n n H ->
  let s := minus x (b_x b) in let y := minus g (b_g b) in
  exists b' H', bfgs_update (K := RSc) inv b x g H = Ret (b', H') /\ b_init b' = true /\ b_valid b' = b_valid b /\ b_x b' = x /\ b_g b' = g /\ mat n n H' /\
    (0 < inner s y -> b_psd b' = true /\ forall u, length u = n -> mat_vec H' u = if inv then rank_two H s y u else rank_two H y s u) /\
    (inner s y <= 0 -> b_psd b' = false /\ H' = H).
Proof.
  intros Hi Lx Lg Lbx Lbg MH s y. unfold bfgs_update. rewrite Hi. cbn [negb].
  assert (Ls : length s = n) by (unfold s, minus; rewrite map2_length; cbn [car RSc] in *; lia).
  assert (Ly : length y = n) by (unfold y, minus; rewrite map2_length; cbn [car RSc] in *; lia).
  assert (Es : vop (K := RSc) Rminus x (b_x b) = Ret s) by (apply vop_ok; cbn [car RSc] in *; congruence).
  assert (Ey : vop (K := RSc) Rminus g (b_g b) = Ret y) by (apply vop_ok; cbn [car RSc] in *; congruence).
  assert (Ed : dot (K := RSc) s y = Ret (inner s y)) by (apply dot_ok; congruence). clearbody s y.
  cbn [car RSc ssub sadd] in *. rewrite Es. cbn [bind]. rewrite Ey. cbn [bind]. rewrite Ed. cbn [bind sltb RSc].
  unfold Rltb. match goal with |- context [Rlt_dec ?a ?b] => change a with 0; destruct (Rlt_dec 0 (inner s y)) as [P|P] end.
  - assert (Eq : inner s y = inner (if inv then s else y) (if inv then y else s)) by (destruct inv; [reflexivity|apply inner_comm]).
    destruct (core n (if inv then s else y) (if inv then y else s) (inner s y) H) as (V & W & Z & H' & EV & EW & EZ & EH & MH' & HH); try assumption; try (destruct inv; assumption).
    rewrite Ls. cbv zeta. refine (eq_ind_r (fun o => exists b' H', bind o _ = Ret (b', H') /\ _) _ EV). cbn [bind]. cbn [car RSc] in *. rewrite EW. cbn [bind]. rewrite EZ. cbn [bind].
    refine (eq_ind_r (fun o => exists b' H', bind o _ = Ret (b', H') /\ _) _ EH). cbn [bind].
    eexists _, H'. split; [reflexivity|]. cbn. repeat (split; [reflexivity || exact MH'|]). split; [|lra]. intros _. split; [reflexivity|]. intros u Lu. rewrite HH by exact Lu. destruct inv; reflexivity.
  - eexists _, H. split; [reflexivity|]. cbn. repeat (split; [reflexivity || exact MH|]). split; [lra|]. intros _. split; reflexivity.
Qed.
Lemma mat_vec_less r n (M : list rvec) u c v : mat r n M -> length u = n -> length v = n -> mat_vec M (less u c v) = less (mat_vec M u) c (mat_vec M v).
Proof.
  intros [_ F] Lu Lv. unfold mat_vec, less. induction F as [|row M Hr F IH]; [reflexivity|]. cbn. f_equal; [|exact IH]. apply inner_less; congruence.
Qed.
Lemma rank_two_inverse n M N (p q u : rvec) : mat n n M -> mat n n N -> (forall w, length w = n -> mat_vec M (mat_vec N w) = w) ->
  length p = n -> length q = n -> length u = n -> inner p q <> 0 -> inner p (mat_vec N p) <> 0 -> rank_two M p q (inverse_two N p q u) = u.
Proof.
  intros MM MN Inv Lp Lq Lu Hk Hn. unfold inverse_two. set (t := inner p (mat_vec N u) / inner p (mat_vec N p)). set (c := inner q u / inner p q).
  assert (LN : forall w, length (mat_vec N w) = n) by (intros w; rewrite mat_vec_len; exact (proj1 MN)).
  assert (L1 : length (less (mat_vec N u) t (mat_vec N p)) = n) by (rewrite less_len; rewrite !LN; reflexivity).
  set (w := less (less (mat_vec N u) t (mat_vec N p)) (- c) q).
  assert (Lw : length w = n) by (unfold w; rewrite less_len; congruence).
  assert (Ep : inner p w / inner p q = c).
  { unfold w. rewrite inner_less by congruence. rewrite inner_less by (rewrite ?LN; congruence). unfold t, c. field. auto. }
  unfold rank_two. rewrite Ep.
  assert (Ew : less w c q = less (mat_vec N u) t (mat_vec N p)).
  { unfold w. clearbody c t. clear - L1 Lq. revert L1. generalize (less (mat_vec N u) t (mat_vec N p)). intros l L1. assert (L : length l = length q) by congruence. clear - L. revert q L. unfold less.
    induction l as [|a l IH]; intros [|b q] L; try discriminate; [reflexivity|]. cbn. f_equal; [ring|apply IH; injection L; auto]. }
  rewrite Ew, (mat_vec_less n n) by (rewrite ?LN; auto). rewrite !Inv by assumption.
  rewrite (inner_less q u p t) by congruence. rewrite (inner_comm q p).
  assert (Ec : (inner q u - t * inner p q) / inner p q = c - t) by (unfold c; field; exact Hk). rewrite Ec. clearbody c t. clear - Lp Lu. unfold less. assert (L : length u = length p) by congruence. clear - L.
  revert p L. induction u as [|a u IH]; intros [|b p] L; try discriminate; [reflexivity|]. cbn. f_equal; [ring|apply IH; injection L; auto].
Qed.
Definition ready (n : nat) (b : bfgs RSc) : Prop := b_valid b = true /\ (b_init b = true -> length (b_x b) = n /\ length (b_g b) = n).
Lemma one_update inv b H x g n : ready n b -> spd n H -> length x = n -> length g = n ->
  exists b' H', bfgs_update (K := RSc) inv b x g H = Ret (b', H') /\ ready n b' /\ spd n H'.
Proof.
  intros [Hv Hr] Sp Lx Lg. destruct (b_init b) eqn:Ei.
  - destruct (Hr eq_refl) as [L1 L2]. destruct (update_step inv b x g H n Ei Lx Lg L1 L2 (proj1 Sp)) as (b' & H' & E & Ei' & Ev' & Ex & Eg & MH & Hp & Hn).
    exists b', H'. split; [exact E|]. split; [split; [congruence|intros _; split; congruence]|].
    assert (Ls : length (minus x (b_x b)) = n) by (unfold minus; rewrite map2_length; cbn [car RSc] in *; lia).
    assert (Ly : length (minus g (b_g b)) = n) by (unfold minus; rewrite map2_length; cbn [car RSc] in *; lia).
    destruct (Rlt_le_dec 0 (inner (minus x (b_x b)) (minus g (b_g b)))) as [P|P].
    + destruct (Hp P) as [_ HH]. destruct inv.
      * eapply rank_two_spd; [exact Sp| | | |exact MH|exact HH]; assumption.
      * eapply rank_two_spd; [exact Sp| | | |exact MH|exact HH]; try assumption. rewrite inner_comm. exact P.
    + destruct (Hn P) as [_ ->]. exact Sp.
  - unfold bfgs_update, bfgs_start. rewrite Ei, Hv. cbn. eexists _, H. split; [reflexivity|]. split; [|exact Sp]. split; [reflexivity|]. intros _. split; assumption.
Qed.
Lemma all_updates inv n l : Forall (fun p => length (fst p) = n /\ length (snd p) = n) l -> forall b H, ready n b -> spd n H ->
  exists b' H', updates inv b H l b' H' /\ spd n H'.
Proof.
  induction 1 as [|[x g] l [Lx Lg] F IH]; intros b H Rb Sp; [exists b, H; split; [constructor|exact Sp]|].
  destruct (one_update inv b H x g n Rb Sp Lx Lg) as (b1 & H1 & E & R1 & S1). destruct (IH b1 H1 R1 S1) as (b2 & H2 & U & S2). exists b2, H2. split; [econstructor; eassumption|exact S2].
Qed.
Lemma eye_spd n : spd n (eye_scaled (K := RSc) 1 n).
Proof.
  assert (ME : mat n n (eye_scaled (K := RSc) 1 n)) by (destruct (eye_square 1 n) as [A B]; split; assumption). split; [exact ME|]. split.
  - apply (bilinear_symmetric n); [exact ME|]. intros u w Lu Lw. rewrite !eye_id by assumption. apply inner_comm.
  - intros u Lu Nu. rewrite eye_id by exact Lu. destruct (Rlt_le_dec 0 (inner u u)) as [P|P]; [exact P|]. contradiction Nu. subst n. clear - P. induction u as [|a u IH]; [reflexivity|]. cbn in *.
    pose proof (Rle_0_sqr a) as Q. unfold Rsqr in Q. assert (0 <= inner u u). { clear. induction u; cbn; [lra|]. pose proof (Rle_0_sqr a). unfold Rsqr in *. lra. }
    assert (a * a = 0) by lra. f_equal; [nra|apply IH; lra].
Qed.
Lemma after_two inv n x0 g0 x g H : length x0 = n -> length g0 = n -> length x = n -> length g = n -> spd n H -> 0 < inner (minus x x0) (minus g g0) ->
  exists b1 b2 H', bfgs_update (K := RSc) inv (bfgs_new (K := RSc) n) x0 g0 H = Ret (b1, H) /\ bfgs_update (K := RSc) inv b1 x g H = Ret (b2, H') /\ spd n H' /\
    (if inv then mat_vec H' (minus g g0) = minus x x0 else mat_vec H' (minus x x0) = minus g g0).
Proof.
  intros L1 L2 L3 L4 Sp P. eexists. destruct (update_step inv (mkBfgs (K := RSc) true true true x0 g0) x g H n eq_refl L3 L4 L1 L2 (proj1 Sp)) as (b2 & H' & E & _ & _ & _ & _ & MH & Hp & _).
  exists b2, H'. split; [reflexivity|]. split; [exact E|]. cbn [b_x b_g] in Hp. destruct (Hp P) as [_ HH].
  assert (Ls : length (minus x x0) = n) by (unfold minus; rewrite map2_length; cbn [car RSc] in *; lia).
  assert (Ly : length (minus g g0) = n) by (unfold minus; rewrite map2_length; cbn [car RSc] in *; lia).
  destruct inv; (split; [eapply rank_two_spd; [exact Sp| | | |exact MH|exact HH]; try assumption; try (rewrite inner_comm; exact P)|]); rewrite HH by assumption; apply (rank_two_secant n); try assumption; try exact (proj1 Sp); try lra.
  rewrite inner_comm. lra.
Qed.
