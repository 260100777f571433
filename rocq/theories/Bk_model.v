(** Model of the Bunch-Kaufman factorisation include/proxsuite-nlp/linalg/bunchkaufman.hpp (cited as
    bk) and of its signature, include/proxsuite-nlp/ldlt-allocator.hpp:137-179, for real scalars
    (numext::conj and numext::real are the identity).

    Matrices are index functions with separate sizes, as in Ldlt_model; the pivots are a function from
    indices to integers (the casts to int are left out); pivot_count is written but never read and is
    left out.  Eigen's products are summed from left to right. *)
From Coq Require Import ZArith List Bool Arith.
From Verif Require Import Scalar Problem_model Ldlt_model.
Import ListNotations.

Section Bk.
  Context {K : Sc}.
  Local Open Scope out_scope.
  Local Open Scope sc_scope.
  Local Notation M := (mat K).
  Local Notation V := (vecf K).
  Local Notation P := (nat -> Z).

  (** bk:26, 178: alpha. *)
  Definition bk_alpha : car K := (1 + ssqrt (sofZ 17)) / sofZ 8.
  (** Eigen::numext::maxi, bk:56, 67, 207, 230. *)
  Definition maxi (x y : car K) : car K := if x <? y then y else x.
  (** cwiseAbs().maxCoeff(&index) of a segment of [len] > 0 entries, the first maximum: bk:51, 64, 67-70,
      202, 227, 230-233. *)
  Definition max_abs (f : nat -> car K) (len : nat) : car K * nat :=
    fold_left (fun m i => if fst m <? sabs (f i) then (sabs (f i), i) else m) (seq 1 (len - 1)) (sabs (f 0%nat), 0%nat).
  (** Outcomes of the pivot choice, (kp, k_step): (k, 1), (imax, 1), (imax, 2), bk:55-81, 206-246. *)
  Inductive choice := Keep | Pick | Pair.
  (** bk:59-81, 210-246: the choice, from |a(k,k)|, colmax, rowmax and |a(imax,imax)|. *)
  Definition choose (akk colmax rowmax aii : car K) : choice :=
    if colmax * bk_alpha <=? akk then Keep
    else if (bk_alpha * colmax) * (colmax / rowmax) <=? akk then Keep
    else if bk_alpha * rowmax <=? aii then Pick else Pair.
  (** colmax and imax for column k of [a]: bk:47-53, 198-204. *)
  Definition col_max (n k : nat) (a : M) : car K * nat :=
    if Nat.ltb (k + 1) n then let m := max_abs (fun t => a (k + 1 + t)%nat k) (n - k - 1) in (fst m, (snd m + k + 1)%nat) else (0, (k + 1)%nat).
  (** The entry r of row imax of the symmetric matrix with the lower triangle [a]: bk:64, 67-70, 213-216. *)
  Definition row_entry (imax : nat) (a : M) (r : nat) : car K := if Nat.ltb r imax then a imax r else a r imax.
  (** rowmax from the entries [f]: bk:62-71, 225-234. *)
  Definition row_max (n k imax : nat) (f : nat -> car K) : car K :=
    let m := if Nat.ltb 0 (imax - k) then fst (max_abs (fun t => f (k + t)%nat) (imax - k)) else 0 in
    if Nat.ltb 0 (n - imax - 1) then maxi m (fst (max_abs (fun t => f (imax + 1 + t)%nat) (n - imax - 1))) else m.

  (** bk:83-101: symmetric swap of the rows and columns kk and kp of the lower triangle, for kk < kp;
      with two rows also a(k+1,k) and a(kp,k).  The assignments touch different entries. *)
  Definition sym_swap (n k kk kp : nat) (two : bool) (a : M) : M :=
    if Nat.eqb kp kk then a else fun r c =>
      if Nat.ltb kp r && Nat.ltb r n && Nat.eqb c kk then a r kp
      else if Nat.ltb kp r && Nat.ltb r n && Nat.eqb c kp then a r kk
      else if Nat.ltb kk r && Nat.ltb r kp && Nat.eqb c kk then a kp r
      else if Nat.eqb r kp && Nat.ltb kk c && Nat.ltb c kp then a c kk
      else if Nat.eqb r kk && Nat.eqb c kk then a kp kp
      else if Nat.eqb r kp && Nat.eqb c kp then a kk kk
      else if two && Nat.eqb r (k + 1) && Nat.eqb c k then a kp k
      else if two && Nat.eqb r kp && Nat.eqb c k then a (k + 1)%nat k
      else a r c.
  (** bk:103-120: a pivot of one row. *)
  Definition elim_one (n k : nat) (a : M) : M :=
    let d11 := 1 / a k k in
    fun r c =>
      if Nat.eqb r k && Nat.eqb c k then d11
      else if Nat.eqb c k && Nat.ltb k r && Nat.ltb r n then a r k * d11
      else if Nat.ltb k c && Nat.leb c r && Nat.ltb r n then a r c - (a c k * d11) * a r k
      else a r c.
  (** bk:122-129, 272-279: the scaled entries (d11, d22, d, d21) of a pivot of two rows x = a(k,k),
      y = a(k+1,k), z = a(k+1,k+1). *)
  Definition pair_coeffs (x y z : car K) : car K * car K * car K * car K :=
    let d21_inv := 1 / sabs y in
    let d11 := d21_inv * z in
    let d22 := d21_inv * x in
    let t := 1 / (d11 * d22 - 1) in
    (d11, d22, t * d21_inv, y * d21_inv).
  (** wk, bk:136, 286. *)
  Definition pair_wk (co : car K * car K * car K * car K) (u v : car K) : car K := let '(d11, d22, d, d21) := co in (u * d11 - v * d21) * d.
  (** wkp1, bk:137-138, 287-288. *)
  Definition pair_wkp1 (co : car K * car K * car K * car K) (u v : car K) : car K := let '(d11, d22, d, d21) := co in (v * d22 - u * d21) * d.
  (** bk:131-133, 281-283: the inverse pivot: entries (k,k), (k+1,k), (k+1,k+1). *)
  Definition pair_inverse (co : car K * car K * car K * car K) : car K * car K * car K := let '(d11, d22, d, d21) := co in (d11 * d, - d21 * d, d22 * d).
  (** bk:121-149: a pivot of two rows. *)
  Definition elim_two (n k : nat) (a : M) : M :=
    let co := pair_coeffs (a k k) (a (k + 1)%nat k) (a (k + 1)%nat (k + 1)%nat) in
    let '(i11, i21, i22) := pair_inverse co in
    fun r c =>
      if Nat.eqb r k && Nat.eqb c k then i11
      else if Nat.eqb r (k + 1) && Nat.eqb c k then i21
      else if Nat.eqb r (k + 1) && Nat.eqb c (k + 1) then i22
      else if Nat.ltb (k + 1) r && Nat.ltb r n && Nat.eqb c k then pair_wk co (a r k) (a r (k + 1)%nat)
      else if Nat.ltb (k + 1) r && Nat.ltb r n && Nat.eqb c (k + 1) then pair_wkp1 co (a r k) (a r (k + 1)%nat)
      else if Nat.ltb (k + 1) c && Nat.leb c r && Nat.ltb r n
           then a r c - (a r k * pair_wk co (a c k) (a c (k + 1)%nat) + a r (k + 1)%nat * pair_wkp1 co (a c k) (a c (k + 1)%nat))
      else a r c.
  (** pivots[k] = v, bk:157-160, 306-309. *)
  Definition set_piv (piv : P) (k : nat) (v : Z) : P := fun i => if Nat.eqb i k then v else piv i.
  (** bk:156-161, 305-310. *)
  Definition record_piv (piv : P) (k kp : nat) (two : bool) : P :=
    if two then set_piv (set_piv piv k (-1 - Z.of_nat kp)%Z) (k + 1) (-1 - Z.of_nat kp)%Z else set_piv piv k (Z.of_nat kp).
  (** bk:43-166, the loop of [bunch_kaufman_in_place_unblocked] from row k on; false: NumericalIssue. *)
  Fixpoint unb_loop (fuel n k : nat) (a : M) (piv : P) : outcome (M * P * bool) :=
    if Nat.ltb k n then
      match fuel with
      | O => Fuel
      | S f =>
        let akk := sabs (a k k) in
        let '(colmax, imax) := col_max n k a in
        if maxi akk colmax =? 0 then Ret (a, piv, false) else
        let ch := choose akk colmax (row_max n k imax (row_entry imax a)) (sabs (a imax imax)) in
        let kp := match ch with Keep => k | _ => imax end in
        let two := match ch with Pair => true | _ => false end in
        let a1 := freeze n n (sym_swap n k (if two then k + 1 else k)%nat kp two a) in
        let a2 := freeze n n (if two then elim_two n k a1 else elim_one n k a1) in
        unb_loop f n (if two then k + 2 else k + 1)%nat a2 (record_piv piv k kp two)
      end
    else Ret (a, piv, true).
  (** bk:20-167 [bunch_kaufman_in_place_unblocked]. *)
  Definition bk_unblocked (n : nat) (a : M) (piv : P) : outcome (M * P * bool) :=
    if Nat.eqb n 0 then Ret (a, piv, true)
    else if Nat.eqb n 1 then
      (if sabs (a 0%nat 0%nat) =? 0 then Ret (a, piv, false)
       else Ret (fun r c => if Nat.eqb r 0 && Nat.eqb c 0 then 1 / a 0%nat 0%nat else a r c, piv, true))
    else unb_loop n n 0 a piv.

  (** bk:188-194: column k of the panel, updated. *)
  Definition pan_col (n k : nat) (a w : M) : M :=
    fun r c => if Nat.eqb c k && Nat.leb k r && Nat.ltb r n then a r k - ssum k (fun t => a r t * w k t) else w r c.
  (** bk:213-223: column k+1 of the panel, row imax of the matrix, updated. *)
  Definition pan_row (n k imax : nat) (a w : M) : M :=
    fun r c => if Nat.eqb c (k + 1) && Nat.leb k r && Nat.ltb r n then row_entry imax a r - ssum k (fun t => a r t * w imax t) else w r c.
  (** bk:241: column k of the panel becomes column k+1. *)
  Definition pan_pick (n k : nat) (w : M) : M := fun r c => if Nat.eqb c k && Nat.leb k r && Nat.ltb r n then w r (k + 1)%nat else w r c.
  (** bk:248-258, on [a]: the old column kk goes to the place of column kp, and the rows kk and kp of the
      first k columns are swapped. *)
  Definition pan_swap_a (n k kk kp : nat) (a : M) : M :=
    if Nat.eqb kp kk then a else fun r c =>
      if Nat.eqb r kp && Nat.eqb c kp then a kk kk
      else if Nat.eqb r kp && Nat.ltb kk c && Nat.ltb c kp then a c kk
      else if Nat.ltb kp r && Nat.ltb r n && Nat.eqb c kp then a r kk
      else if Nat.ltb c k && Nat.eqb r kk then a kp c
      else if Nat.ltb c k && Nat.eqb r kp then a kk c
      else a r c.
  (** bk:259, on w: the rows kk and kp of the columns up to kk are swapped. *)
  Definition pan_swap_w (kk kp : nat) (w : M) : M :=
    if Nat.eqb kp kk then w else fun r c => if Nat.leb c kk && Nat.eqb r kk then w kp c else if Nat.leb c kk && Nat.eqb r kp then w kk c else w r c.
  (** bk:262-270: a pivot of one row. *)
  Definition pan_one (n k : nat) (a w : M) : M :=
    let d11 := 1 / w k k in
    fun r c => if Nat.eqb r k && Nat.eqb c k then d11 else if Nat.eqb c k && Nat.ltb k r && Nat.ltb r n then w r k * d11 else a r c.
  (** bk:271-298: a pivot of two rows. *)
  Definition pan_two (n k : nat) (a w : M) : M :=
    let co := pair_coeffs (w k k) (w (k + 1)%nat k) (w (k + 1)%nat (k + 1)%nat) in
    let '(i11, i21, i22) := pair_inverse co in
    fun r c =>
      if Nat.eqb r k && Nat.eqb c k then i11
      else if Nat.eqb r (k + 1) && Nat.eqb c k then i21
      else if Nat.eqb r (k + 1) && Nat.eqb c (k + 1) then i22
      else if Nat.ltb (k + 1) r && Nat.ltb r n && Nat.eqb c k then pair_wk co (w r k) (w r (k + 1)%nat)
      else if Nat.ltb (k + 1) r && Nat.ltb r n && Nat.eqb c (k + 1) then pair_wkp1 co (w r k) (w r (k + 1)%nat)
      else a r c.
  (** bk:185-313, the loop of [bunch_kaufman_in_place_one_block] with nb panel columns: a, w, pivots, the
      number of columns done; false: NumericalIssue. *)
  Fixpoint pan_loop (fuel n nb k : nat) (a w : M) (piv : P) : outcome (M * M * P * nat * bool) :=
    if Nat.ltb k n && Nat.ltb (k + 1) nb then
      match fuel with
      | O => Fuel
      | S f =>
        let w1 := freeze n nb (pan_col n k a w) in
        let akk := sabs (w1 k k) in
        let '(colmax, imax) := col_max n k w1 in
        if maxi akk colmax =? 0 then Ret (a, w1, piv, k, false) else
        let first := colmax * bk_alpha <=? akk in
        let w2 := if first then w1 else freeze n nb (pan_row n k imax a w1) in
        let ch := if first then Keep else choose akk colmax (row_max n k imax (fun r => w2 r (k + 1)%nat)) (sabs (w2 imax (k + 1)%nat)) in
        let kp := match ch with Keep => k | _ => imax end in
        let two := match ch with Pair => true | _ => false end in
        let w3 := match ch with Pick => pan_pick n k w2 | _ => w2 end in
        let kk := (if two then k + 1 else k)%nat in
        let a1 := freeze n n (pan_swap_a n k kk kp a) in
        let w4 := freeze n nb (pan_swap_w kk kp w3) in
        let a2 := freeze n n (if two then pan_two n k a1 w4 else pan_one n k a1 w4) in
        pan_loop f n nb (if two then k + 2 else k + 1)%nat a2 w4 (record_piv piv k kp two)
      end
    else Ret (a, w, piv, k, true).
  (** bk:315-319: the trailing lower triangle -= a_left * w'. *)
  Definition pan_finish (n k : nat) (a w : M) : M :=
    fun r c => if Nat.leb k c && Nat.leb c r && Nat.ltb r n then a r c - ssum k (fun t => a r t * w c t) else a r c.
  (** Swap of the rows i and j of the first m columns: bk:336, 409, 412. *)
  Definition row_swap (i j m : nat) (a : M) : M :=
    fun r c => if Nat.ltb c m then (if Nat.eqb r i then a j c else if Nat.eqb r j then a i c else a r c) else a r c.
  (** bk:320-341: the row swaps of the panel are undone, from column j = k-1 down. *)
  Fixpoint pan_undo (fuel n : nat) (piv : P) (j : nat) (a : M) : outcome M :=
    match fuel with
    | O => Fuel
    | S f =>
      let jj := j in
      let two := (piv j <? 0)%Z in
      let jp := Z.to_nat (if two then -1 - piv j else piv j)%Z in
      if two && Nat.eqb j 0 then UB else
      let j1 := (if two then j - 1 else j)%nat in
      if Nat.eqb j1 0 then Ret a else
      let j2 := (j1 - 1)%nat in
      let a' := if Nat.eqb jp jj then a else freeze n n (row_swap jp jj (j2 + 1) a) in
      if Nat.eqb j2 0 then Ret a' else pan_undo f n piv j2 a'
    end.
  (** bk:169-342 [bunch_kaufman_in_place_one_block]: a, w, pivots, processed_cols; without any processed
      column (a panel of less than two columns) pivots[-1] is read. *)
  Definition bk_one_block (n nb : nat) (a w : M) (piv : P) : outcome (M * M * P * nat * bool) :=
    if Nat.eqb n 0 then Ret (a, w, piv, 0%nat, true) else
    do r <- pan_loop n n nb 0 a w piv;
    let '(a1, w1, piv1, k, ok) := r in
    if ok then
      if Nat.eqb k 0 then UB else
      do a2 <- pan_undo k n piv1 (k - 1) (freeze n n (pan_finish n k a1 w1));
      Ret (a2, w1, piv1, k, true)
    else Ret (a1, w1, piv1, 0%nat, false).

  (** Shift of the pivots of a block that starts at row k, bk:372-383. *)
  Definition shift_piv (k kb : nat) (piv : P) : P :=
    fun j => if Nat.leb k j && Nat.ltb j (k + kb) then (if 0 <=? piv j then piv j + Z.of_nat k else piv j - Z.of_nat k)%Z else piv j.
  (** bk:353-387, the loop over the blocks, from row k on. *)
  Fixpoint bk_blocks (fuel n nb k : nat) (a w : M) (piv : P) : outcome (M * P * bool) :=
    if Nat.ltb k n then
      match fuel with
      | O => Fuel
      | S f =>
        let a_block := view k a in
        let pivots_block : P := fun i => piv (k + i)%nat in
        do r <- if negb (Nat.eqb nb 0) && Nat.ltb nb (n - k)
                then bk_one_block (n - k) nb a_block w pivots_block
                else (do u <- bk_unblocked (n - k) a_block pivots_block; let '(a', piv', ok) := u in Ret (a', w, piv', (n - k)%nat, ok));
        let '(a', w', piv', kb, ok) := r in
        let a1 := freeze n n (paste k (n - k) a' a) in
        let piv1 : P := fun i => if Nat.leb k i && Nat.ltb i n then piv' (i - k)%nat else piv i in
        if ok then bk_blocks f n nb (k + kb) a1 w' (shift_piv k kb piv1) else Ret (a1, piv1, false)
      end
    else Ret (a, piv, true).
  (** bk:391-402: the entries below the diagonal of the pivots of two rows move to subdiag. *)
  Fixpoint sub_pass (fuel n k : nat) (piv : P) (a : M) (sd : V) : outcome (M * V) :=
    if Nat.ltb k n then
      match fuel with
      | O => Fuel
      | S f =>
        if (piv k <? 0)%Z then
          if Nat.leb n (k + 1) then UB else
          sub_pass f n (k + 2) piv (fun r c => if Nat.eqb r (k + 1) && Nat.eqb c k then 0 else a r c)
            (fun i => if Nat.eqb i k then a (k + 1)%nat k else if Nat.eqb i (k + 1) then 0 else sd i)
        else sub_pass f n (k + 1) piv a (fun i => if Nat.eqb i k then 0 else sd i)
      end
    else Ret (a, sd).
  (** bk:404-415: the row swaps, applied to the columns on the left. *)
  Fixpoint row_pass (fuel n k : nat) (piv : P) (a : M) : outcome M :=
    if Nat.ltb k n then
      match fuel with
      | O => Fuel
      | S f =>
        let two := (piv k <? 0)%Z in
        let p := Z.to_nat (if two then -1 - piv k else piv k)%Z in
        if Nat.leb n p || (two && Nat.leb n (k + 1)) then UB else
        row_pass f n (if two then k + 2 else k + 1)%nat piv (freeze n n (row_swap (if two then k + 1 else k)%nat p k a))
      end
    else Ret a.
  (** bk:344-418 [bunch_kaufman_in_place]: a, subdiag, pivots. *)
  Definition bk_in_place (n nb : nat) (a : M) (sd : V) (piv : P) (w : M) : outcome (M * V * P * bool) :=
    do r <- bk_blocks n n nb 0 a w piv;
    let '(a1, piv1, ok) := r in
    if ok then
      do r <- sub_pass n n 0 piv1 a1 sd;
      let '(a2, sd1) := r in
      do a3 <- row_pass n n 0 piv1 (freeze n n a2);
      Ret (a3, sd1, piv1, true)
    else Ret (a1, sd, piv1, false).

  (** bk:519-608 [BunchKaufman]: size and m_matrix, m_subdiag, m_pivots, m_info (true: Success). *)
  Record bk := mkBk { bk_n : nat; bk_mat : M; bk_sub : V; bk_piv : P; bk_ok : bool }.
  (** bk:529, 652: BlockSize and m_blocksize. *)
  Definition blocksize (n : nat) : nat := if Nat.leb n 32 then 0%nat else 32%nat.
  (** bk:639-662 [compute] for a matrix given by its lower triangle; the object is overwritten
      completely, so its old contents are no argument. *)
  Definition bk_compute (n : nat) (a : M) : outcome bk :=
    do r <- bk_in_place n (blocksize n) (freeze n n (fun r c => if Nat.leb c r then a r c else 0)) (fun _ => 0) (fun _ => 0%Z) (fun _ _ => 0);
    let '(m, sd, piv, ok) := r in
    Ret (mkBk n m sd piv ok).
  (** x.row(i).swap(x.row(j)), bk:460, 463, 510, 513, for one column. *)
  Definition vswap (i j : nat) (x : V) : V := fun r => if Nat.eqb r i then x j else if Nat.eqb r j then x i else x r.
  (** bk:455-466: the swaps, forwards. *)
  Fixpoint swap_pass (fuel n k : nat) (piv : P) (x : V) : outcome V :=
    if Nat.ltb k n then
      match fuel with
      | O => Fuel
      | S f =>
        let two := (piv k <? 0)%Z in
        let p := Z.to_nat (if two then -1 - piv k else piv k)%Z in
        if Nat.leb n p || (two && Nat.leb n (k + 1)) then UB else
        swap_pass f n (if two then k + 2 else k + 1)%nat piv (freezev n (vswap (if two then k + 1 else k)%nat p x))
      end
    else Ret x.
  (** bk:472-500: multiplication by the inverse pivots. *)
  Fixpoint diag_pass (fuel n k : nat) (L : M) (sd : V) (piv : P) (x : V) : outcome V :=
    if Nat.ltb k n then
      match fuel with
      | O => Fuel
      | S f =>
        if (piv k <? 0)%Z then
          if Nat.leb n (k + 1) then UB else
          diag_pass f n (k + 2) L sd piv (freezev n (fun i =>
            if Nat.eqb i k then x k * L k k + x (k + 1)%nat * sd k
            else if Nat.eqb i (k + 1) then x (k + 1)%nat * L (k + 1)%nat (k + 1)%nat + x k * sd k else x i))
        else diag_pass f n (k + 1) L sd piv (freezev n (fun i => if Nat.eqb i k then x k * L k k else x i))
      end
    else Ret x.
  (** bk:504-515: the swaps, backwards; [k] rows are left. *)
  Fixpoint back_pass (fuel n k : nat) (piv : P) (x : V) : outcome V :=
    match k with
    | O => Ret x
    | S k1 =>
      match fuel with
      | O => Fuel
      | S f =>
        let two := (piv k1 <? 0)%Z in
        let p := Z.to_nat (if two then -1 - piv k1 else piv k1)%Z in
        if Nat.leb n p || (two && Nat.eqb k1 0) then UB else
        back_pass f n (if two then k1 - 1 else k1)%nat piv (freezev n (vswap k1 p x))
      end
    end.
  (** bk:447-516 [bunch_kaufman_solve_in_place], 610-637: solve for one right-hand side; always returns
      true. *)
  Definition bk_solve (s : bk) (b : V) : outcome V :=
    let n := bk_n s in let L := bk_mat s in
    do x1 <- swap_pass n n 0 (bk_piv s) b;
    let x2 := fwd 0 n L x1 in
    do x3 <- diag_pass n n 0 L (bk_sub s) (bk_piv s) x2;
    let x4 := bwd 0 n (fun r c => L c r) x3 in
    back_pass n n n (bk_piv s) x4.

  (** math::sign, include/proxsuite-nlp/math.hpp:95-98, cast to int. *)
  Definition isign (x : car K) : Z := if 0 <? x then 1%Z else if x <? 0 then (-1)%Z else 0%Z.
  (** std::numeric_limits<double>::epsilon(), ldlt-allocator.hpp:160. *)
  Definition eps : car K := slit 1 (2 ^ 52).
  (** ldlt-allocator.hpp:147-178 [bunch_kaufman_compute_signature], from row k on. *)
  Fixpoint sig_loop (fuel n k : nat) (s : bk) : outcome (list Z) :=
    if Nat.ltb k n then
      match fuel with
      | O => Fuel
      | S f =>
        if (bk_piv s k <? 0)%Z then
          if Nat.leb n (k + 1) then UB else
          let ak := bk_mat s k k in
          let akp1 := bk_mat s (k + 1)%nat (k + 1)%nat in
          let akp1k := bk_sub s k in
          let tr := ak + akp1 in
          let det := ak * akp1 - akp1k * akp1k in
          do r <- sig_loop f n (k + 2) s;
          Ret (if sabs det <=? eps then 0%Z :: isign tr :: r
               else if 0 <? det then isign tr :: isign tr :: r
               else (-1)%Z :: 1%Z :: r)
        else
          do r <- sig_loop f n (k + 1) s;
          Ret (isign (bk_mat s k k) :: r)
      end
    else Ret [].
  (** ldlt-allocator.hpp:137-179. *)
  Definition bk_signature (s : bk) : outcome (list Z) := sig_loop (bk_n s) (bk_n s) 0 s.
  (** prox-solver.hxx:403-405: compute() on the KKT matrix, a list of rows, with the BunchKaufman
      alternative of the variant ldlt_.  [bk_compute] always returns (C76). *)
  Definition bk_fac (N : nat) (F : bk) (A : list (list (car K))) : bk :=
    match bk_compute N (fun i j => nth j (nth i A []) 0) with Ret s => s | _ => F end.
  (** prox-solver.hxx:406-407, ldlt-allocator.hpp:189-192 [ComputeSignatureVisitor]. *)
  Definition bk_sig (F : bk) : list Z := match bk_signature F with Ret l => l | _ => [] end.
  (** prox-solver.hxx:531-532, 538-540 [solveInPlace] of a vector given as a list; the vector as a function is
      tabulated again.  [bk_solve] returns after a successful factorisation (C53). *)
  Definition bk_solve_list (F : bk) (b : list (car K)) : list (car K) :=
    match bk_solve F (fun i => nth i b 0) with Ret x => map x (seq 0 (bk_n F)) | _ => b end.
End Bk.
Arguments bk : clear implicits.
