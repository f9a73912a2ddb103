(** C67: 32-bit offsets address the right cell. *)
From Coq Require Import List ZArith Lia Bool.
From Verif Require Import Base Offsets.
Import ListNotations.
Open Scope Z_scope.

Lemma c_int_ok z : - 2 ^ 31 <= z < 2 ^ 31 -> c_int z = Ok z.
Proof. intros. unfold c_int. replace ((- 2 ^ 31 <=? z) && (z <? 2 ^ 31)) with true; auto. symmetry. apply andb_true_iff. rewrite Z.leb_le, Z.ltb_lt. lia. Qed.
Lemma in_buffer_ok x len : 0 <= x < len -> in_buffer x len = Ok x.
Proof. intros. unfold in_buffer. replace ((0 <=? x) && (x <? len)) with true; auto. symmetry. apply andb_true_iff. rewrite Z.leb_le, Z.ltb_lt. lia. Qed.
Lemma c_inc_ok n i : 0 <= i -> i + Z.of_nat n < 2 ^ 31 -> c_inc n i = Ok (i + Z.of_nat n).
Proof. intros Hi. induction n; intros H; cbn [c_inc]. { f_equal. lia. } rewrite IHn by lia. cbn [bind]. rewrite c_int_ok by lia. f_equal. lia. Qed.

(** Up to 2^31 - 1 result cells: all_pairs_knn writes result j of item i into cell i K + j of an array with exactly
    one cell per result (so different results go to different cells). *)
Theorem C67_knn_partial :
  forall item_count K i j, 0 < K -> 0 <= item_count -> item_count * K < 2 ^ 31 ->
  0 <= i < item_count -> Z.of_nat j < K ->
  knn_length item_count K = item_count * K /\ knn_cell item_count K i j = Ok (i * K + Z.of_nat j) /\ 0 <= i * K + Z.of_nat j < item_count * K.
Proof.
  intros n K i j HK Hn H Hi Hj.
  assert (B : 0 <= i * K + Z.of_nat j < n * K) by nia.
  assert (L : knn_length n K = n * K) by (unfold knn_length, c_umul; apply Z.mod_small; lia).
  split; auto. split; auto. unfold knn_cell. rewrite L.
  assert (E : to_int (c_umul K i) = i * K). { unfold to_int, c_umul. rewrite (Z.mod_small (K * i)) by nia. rewrite Z.mod_small by nia. lia. }
  rewrite E, c_inc_ok by nia. cbn [bind]. unfold view_cell. replace (i * K + Z.of_nat j <? 0) with false by (symmetry; apply Z.ltb_ge; lia).
  replace ((0 <=? i * K + Z.of_nat j) && (i * K + Z.of_nat j <? n * K)) with true; auto. symmetry. apply andb_true_iff. rewrite Z.leb_le, Z.ltb_lt. lia.
Qed.
Print Assumptions C67_knn_partial.
Example C67_knn_example : knn_cell 20000000 100 19999999 3 = Ok 1999999903. Proof. vm_compute. reflexivity. Qed.

Theorem C67_distinct_partial :
  forall item_count K i j i' j', 0 < K -> item_count * K < 2 ^ 31 ->
  0 <= i < item_count -> 0 <= i' < item_count -> Z.of_nat j < K -> Z.of_nat j' < K ->
  knn_cell item_count K i j = knn_cell item_count K i' j' -> i = i' /\ j = j'.
Proof.
  intros n K i j i' j' HK H Hi Hi' Hj Hj' E.
  destruct (C67_knn_partial n K i j) as [_ [E1 _]]; try lia. destruct (C67_knn_partial n K i' j') as [_ [E2 _]]; try lia.
  rewrite E1, E2 in E. injection E as E. assert (i = i') by nia. subst i'. split; auto. lia.
Qed.
Print Assumptions C67_distinct_partial.

(** Factor models: fewer than 2^31 result cells and fewer than 2^31 scores per batch of 100 queries. *)
Theorem C67_topk_partial :
  forall query_rows cols k batch row col i, 0 < k -> query_rows * k < 2 ^ 31 -> query_rows + 100 <= 2 ^ 31 -> 100 * cols < 2 ^ 31 ->
  0 <= batch -> batch * 100 < query_rows ->
  exists s e, batch_bounds query_rows batch = Ok (s, e) /\ s = batch * 100 /\ e <= query_rows /\
    (0 <= row < e - s -> 0 <= col < cols -> score_cell (e - s) cols row col = Ok (row * cols + col)) /\
    (0 <= row < e - s -> 0 <= i < k -> topk_cell query_rows k s row i = Ok ((s + row) * k + i)).
Proof.
  intros q cols k b row col i Hk H Hq0 Hc Hb Hq. unfold batch_bounds, batch_size.
  rewrite c_int_ok by nia. cbn [bind]. rewrite c_int_ok by nia. cbn [bind]. exists (b * 100), (Z.min (b * 100 + 100) q). split; [reflexivity|]. split; auto. split; [lia|]. split.
  - intros Hr Hcol. unfold score_cell. rewrite c_int_ok by nia. cbn [bind]. rewrite c_int_ok by nia. cbn [bind]. apply in_buffer_ok. nia.
  - intros Hr Hi. unfold topk_cell. rewrite c_int_ok by nia. cbn [bind]. rewrite c_int_ok by nia. cbn [bind]. rewrite in_buffer_ok by nia. f_equal. lia.
Qed.
Print Assumptions C67_topk_partial.
Example C67_topk_example : topk_cell 20000000 100 19999900 99 7 = Ok 1999999907 /\ score_cell 100 20000000 99 5 = Ok 1980000005.
Proof. vm_compute. auto. Qed.

(** Refuted beyond that, for sizes that fit in memory.  all_pairs_knn with 30 million items and K = 100 (72 GB): the
    results of item 25 million are written over those of item 12050327; with 50 million items those of item 10
    million are written outside the arrays.  Factor models: 30 million queries with k = 100 (24 GB of results), and
    a batch of 100 queries on 30 million items (12 GB of scores), overflow an int. *)
Theorem C67_refuted :
  (exists item_count K i j i' j', 0 < K /\ 0 <= i < item_count /\ 0 <= i' < item_count /\ Z.of_nat j < K /\ Z.of_nat j' < K /\ i <> i' /\
     24 * (item_count * K) < 2 ^ 37 /\ exists c, knn_cell item_count K i j = Ok c /\ knn_cell item_count K i' j' = Ok c) /\
  (exists item_count K i, 0 < K /\ 0 <= i < item_count /\ 24 * (item_count * K) < 2 ^ 37 /\ knn_cell item_count K i 0 = Raise UB) /\
  (exists query_rows k s, 0 < k /\ 0 <= s < query_rows /\ 8 * (query_rows * k) < 2 ^ 35 /\ topk_cell query_rows k s 0 0 = Raise UB) /\
  (exists cols row, 0 <= row < 100 /\ 4 * (100 * cols) < 2 ^ 34 /\ score_cell 100 cols row 0 = Raise UB).
Proof.
  split; [|split; [|split]].
  - exists 30000000, 100, 25000000, 0%nat, 12050327, 4%nat. split; [lia|]. split; [lia|]. split; [lia|]. split; [lia|]. split; [lia|]. split; [lia|]. split; [lia|]. exists 1205032704. vm_compute. auto.
  - exists 50000000, 100, 10000000. split; [lia|]. split; [lia|]. split; [lia|]. vm_compute. reflexivity.
  - exists 30000000, 100, 25000000. split; [lia|]. split; [lia|]. split; [lia|]. vm_compute. reflexivity.
  - exists 30000000, 72. split; [lia|]. split; [lia|]. vm_compute. reflexivity.
Qed.
Print Assumptions C67_refuted.
