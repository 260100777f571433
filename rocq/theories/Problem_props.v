(** Properties C15-C16: layout of the constraints and packing of the multipliers. *)
From Coq Require Import List Arith Lia.
From Verif Require Import Scalar Cset_model Problem_model Problem_spec Problem_proofs.
Import ListNotations.

(** C15. Every entry of the flat dual vector belongs to exactly one constraint. *)
Theorem C15_segments_tile : forall dims p, built dims p ->
  forall k, k < ly_total p ->
  exists i, i < num_constraints p /\ belongs p k i /\ forall j, belongs p k j -> j = i.
Proof. exact lem_tiling. Qed.
Print Assumptions C15_segments_tile.

(** The segments have the dimensions of the constraints, start at 0, follow each other and end at
    the total dimension. *)
Theorem C15_segments_consecutive : forall dims p, built dims p ->
  num_constraints p = length dims /\
  (forall i, i < length dims -> get_dim p i = nth_error dims i) /\
  forall i s n, get_index p i = Some s -> get_dim p i = Some n ->
    s + n <= ly_total p /\ (i = 0 -> s = 0) /\
    (S i < num_constraints p -> get_index p (S i) = Some (s + n)) /\
    (S i = num_constraints p -> s + n = ly_total p).
Proof.
  intros dims p H. destruct (lem_layout _ _ H) as (Hn & _ & Hi & _). split; [exact Hn|]. split.
  - intros i Li. destruct (nth_error dims i) as [n|] eqn:E; [exact (proj1 (Hi i n E))|].
    apply nth_error_None in E. lia.
  - exact (lem_bounds dims p H).
Qed.
Print Assumptions C15_segments_consecutive.

Theorem C15_total : forall dims p, built dims p ->
  ly_total p = fold_right Nat.add 0 dims.
Proof. intros dims p H. exact (proj1 (proj2 (lem_layout _ _ H))). Qed.
Print Assumptions C15_total.

(** The list of views of a flat vector cuts it into one piece per constraint, in order. *)
Theorem C15_views_tile : forall A dims p (v : list A), built dims p -> length v = ly_total p ->
  exists parts, views p v = Some parts /\ concat parts = v /\ map (@length A) parts = dims.
Proof. intros A. exact lem_views. Qed.
Print Assumptions C15_views_tile.

Example C15_example : built [2; 0; 3] (add_constraint 3 (add_constraint 0 (mk_layout [2])))
  /\ add_constraint 3 (add_constraint 0 (mk_layout [2])) = mkLayout [2; 0; 3] [2; 0; 3] [0; 2; 2] 5
  /\ views (mk_layout [2; 0; 3]) [1; 2; 3; 4; 5] = Some [[1; 2]; []; [3; 4; 5]].
Proof. split; [apply (built_add [2; 0]), (built_add [2]), built_new|repeat split]. Qed.

(** C16. *)
Theorem C16_pack_roundtrip : forall A dims p (zero : A) lams,
  built dims p -> map (@length A) lams = dims ->
  exists flat, pack_lams zero p lams = Ret flat /\ flat = concat lams /\ length flat = ly_total p /\
    views p flat = Some lams /\
    forall i l, nth_error lams i = Some l -> get_segment p flat i = Some l.
Proof. intros A. exact lem_pack. Qed.
Print Assumptions C16_pack_roundtrip.

Theorem C16_count_mismatch_throws : forall A p (zero : A) lams,
  length lams <> num_constraints p -> pack_lams zero p lams = Throw ErrCount.
Proof. intros A. exact lem_pack_count. Qed.
Print Assumptions C16_count_mismatch_throws.

(** A multiplier of the wrong size is not diagnosed: it is undefined behaviour, never a wrong
    vector. *)
Theorem C16_returns_only_matching : forall A dims p (zero : A) lams flat,
  built dims p -> pack_lams zero p lams = Ret flat -> map (@length A) lams = dims.
Proof. intros A. exact lem_pack_sizes. Qed.
Print Assumptions C16_returns_only_matching.

Example C16_example : pack_lams 0 (mk_layout [2; 1]) [[7; 8]; [9]] = Ret [7; 8; 9]
  /\ pack_lams 0 (mk_layout [2; 1]) [[7]; [8; 9]] = UB /\ pack_lams 0 (mk_layout [2; 1]) [[7; 8]] = Throw ErrCount.
Proof. repeat split. Qed.
