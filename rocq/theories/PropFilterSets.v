(** C138: filters are sets of items. *)
From Coq Require Import List Arith Lia Bool ZArith Permutation Sorted.
From Verif Require Import Base Num Heap Sparse TopkModel TopkSpec TopkProofs TopkBatch
  RecommendModel RecommendProofs RecommendProofs2 RecommendBatch SimilarBatch.
Import ListNotations.

Section Filters.
Context {T : Type} `{Num T}.

Lemma np_index_cases n z : (idx_ok n z /\ np_index n z = Ok (wrap n z)) \/ (~ idx_ok n z /\ np_index n z = Raise IndexError).
Proof.
  destruct (Z_le_dec (- Z.of_nat n) z), (Z_lt_dec z (Z.of_nat n)); try (right; split; [|apply np_index_bad]; unfold idx_ok; lia).
  left. split; [|apply np_index_ok]; unfold idx_ok; lia.
Qed.
Lemma all_or_bad n l : (forall z, In z l -> idx_ok n z) \/ (exists z, In z l /\ ~ idx_ok n z).
Proof.
  induction l as [|a l IH]; [left; intros z []|]. destruct (np_index_cases n a) as [[A _]|[A _]].
  - destruct IH as [IH|[z [Hz B]]]; [left; intros z [<-|Hz]; auto|right; exists z; simpl; auto].
  - right. exists a. simpl. auto.
Qed.
Lemma memn_ext l l' j : (forall i, In i l <-> In i l') -> memn j l = memn j l'.
Proof.
  intros E. unfold memn. destruct (existsb (Nat.eqb j) l) eqn:Q; destruct (existsb (Nat.eqb j) l') eqn:Q'; auto; exfalso.
  - apply existsb_exists in Q. destruct Q as [x [Hx Ex]]. apply E in Hx. assert (existsb (Nat.eqb j) l' = true) by (apply existsb_exists; eauto). congruence.
  - apply existsb_exists in Q'. destruct Q' as [x [Hx Ex]]. apply E in Hx. assert (existsb (Nat.eqb j) l = true) by (apply existsb_exists; eauto). congruence.
Qed.

(** Overwriting looks at the set of positions only. *)
Lemma set_cols_same l l' (v : T) row : (forall z, In z l <-> In z l') -> set_cols l v row = set_cols l' v row.
Proof.
  intros E. destruct (all_or_bad (length row) l) as [A|[z [Hz B]]].
  - rewrite !set_cols_ok; auto; [|intros z Hz; apply A, E; auto]. f_equal. apply map_ext. intros j.
    rewrite (memn_ext (map (wrap (length row)) l) (map (wrap (length row)) l') j); auto. intros i. rewrite !in_map_iff.
    split; intros [x [Ex Hx]]; exists x; (split; [auto|apply E; auto]).
  - rewrite !set_cols_bad; auto; exists z; split; auto; apply E; auto.
Qed.
Lemma map_res_app {A B} (f : A -> res B) l l' : map_res f (l ++ l') = do r <- map_res f l; do r' <- map_res f l'; Ok (r ++ r').
Proof.
  induction l as [|a l IH]; cbn [app map_res bind].
  - destruct (map_res f l'); auto.
  - destruct (f a); auto. cbn [bind]. rewrite IH. destruct (map_res f l); auto. cbn [bind]. destruct (map_res f l'); auto.
Qed.
Lemma set_cols_app l l' (v : T) row : set_cols (l ++ l') v row = do r <- set_cols l v row; set_cols l' v r.
Proof.
  unfold set_cols. rewrite map_res_app. destruct (map_res (np_index (length row)) l) as [js|]; auto. cbn [bind].
  rewrite fold_upd_length. destruct (map_res (np_index (length row)) l'); auto. cbn [bind]. rewrite fold_left_app. auto.
Qed.
End Filters.

Section Topk.
Context {T : Type} `{Num T}.
Lemma topk_fi_same HP fmin items query k norms (fq : option (csr T)) l l' : (forall z, In z l <-> In z l') ->
  topk HP fmin items query k norms fq (Some l) = topk HP fmin items query k norms fq (Some l').
Proof.
  intros E. unfold topk. destruct (k <? 0)%Z; auto.
  assert (W : topk_all_writes HP fmin items query (Z.to_nat k) norms fq (Some l) = topk_all_writes HP fmin items query (Z.to_nat k) norms fq (Some l')); [|rewrite W; auto].
  unfold topk_all_writes. apply map_res_ext. intros se _. unfold topk_batch.
  destruct (map_res (score_row items norms) (slice (fst se) (snd se) query)) as [b|]; auto. cbn [bind].
  match goal with |- (do batch <- ?m; _) = _ => destruct m as [b2|] end; auto. cbn [bind].
  rewrite (map_res_ext (set_cols l fmin) (set_cols l' fmin)); auto. intros row _. apply set_cols_same. auto.
Qed.
Lemma topk_fq_same HP fmin items query k norms (M M' : csr T) fi : c_rows M' = c_rows M ->
  (forall g i, g < c_rows M -> In i (csr_row_indices M' g) <-> In i (csr_row_indices M g)) ->
  topk HP fmin items query k norms (Some M') fi = topk HP fmin items query k norms (Some M) fi.
Proof.
  intros ER E. unfold topk. destruct (k <? 0)%Z; auto.
  assert (W : topk_all_writes HP fmin items query (Z.to_nat k) norms (Some M') fi = topk_all_writes HP fmin items query (Z.to_nat k) norms (Some M) fi); [|rewrite W; auto].
  unfold topk_all_writes. apply map_res_ext. intros se _. unfold topk_batch.
  destruct (map_res (score_row items norms) (slice (fst se) (snd se) query)) as [b|]; auto. cbn [bind]. rewrite ER.
  match goal with |- (do batch <- map_res ?f _; _) = (do batch <- map_res ?h _; _) => rewrite (map_res_ext f h); auto end.
  intros p _. destruct (Nat.ltb_spec (fst se + fst p) (c_rows M)); auto. apply set_cols_same. intros z. rewrite !in_map_iff.
  split; intros [x [Ex Hx]]; exists x; (split; [auto|apply E; auto]).
Qed.
(** One query: filtering its liked items and then the list, or all of them as one list. *)
Lemma topk_fq_fi HP fmin items q k norms (M : csr T) fi : c_rows M = 1 ->
  topk HP fmin items [q] k norms (Some M) fi =
  topk HP fmin items [q] k norms None (Some (map Z.of_nat (csr_row_indices M 0) ++ match fi with None => [] | Some l => l end)).
Proof.
  intros R1. unfold topk. destruct (k <? 0)%Z; auto. set (l := match fi with None => [] | Some l => l end).
  match goal with |- (do ws <- ?A; _) = (do ws <- ?B; _) => assert (W : A = B); [|rewrite W; auto] end.
  unfold topk_all_writes. apply map_res_ext. intros se Hse. unfold batch_bounds, topk_batch_size in Hse.
  change (length [q]) with 1 in Hse. change (1 / 100 + (if 1 mod 100 =? 0 then 0 else 1)) with 1 in Hse. destruct Hse as [<-|[]]. cbn [fst snd].
  unfold topk_batch. change (slice (0 * 100) (Nat.min (0 * 100 + 100) 1) [q]) with [q]. cbn [map_res].
  destruct (score_row items norms q) as [row|]; auto. cbn [bind enum enum_from map_res fst snd]. change (enum [row]) with [(0, row)]. cbn [map_res fst snd]. rewrite R1.
  change (0 * 100 + 0 <? 1) with true. cbn iota. change (0 * 100 + 0) with 0. rewrite set_cols_app.
  destruct (set_cols (map Z.of_nat (csr_row_indices M 0)) fmin row) as [r|]; auto. cbn [bind].
  destruct fi as [l0|]; subst l; cbn [map_res bind].
  - destruct (set_cols l0 fmin r); auto.
  - reflexivity.
Qed.
End Topk.

(* ------------------------------------------------------------------ C138 *)
(** filter_items is a set: order and repetition do not matter to recommend, similar_items and
    similar_users - neither to what they return nor to whether they raise. *)
Theorem C138_filter_items : forall (T : Type) (NT : Num T) HP (fmin : T) m recalc u ui N fl rc fi fi',
  (forall z, In z (arr_list fi) <-> In z (arr_list fi')) ->
  recommend HP fmin m recalc u ui N fl (Some fi) rc None = recommend HP fmin m recalc u ui N fl (Some fi') rc None.
Proof.
  intros T NT HP fmin m recalc u ui N fl rc fi fi' E. unfold recommend. cbn [option_map].
  match goal with |- (do _ <- ?x; _) = _ => destruct x end; auto. cbn [bind].
  destruct (user_factor m recalc u ui rc); auto. cbn [bind]. rewrite (topk_fi_same HP fmin _ _ _ _ _ (arr_list fi) (arr_list fi')); auto.
Qed.
Print Assumptions C138_filter_items.

Theorem C138_similar : forall (T : Type) (NT : Num T) HP (fmin : T) factors norms id N fi fi',
  (forall z, In z (arr_list fi) <-> In z (arr_list fi')) ->
  similar HP fmin factors norms id N (Some fi) None = similar HP fmin factors norms id N (Some fi') None.
Proof.
  intros T NT HP fmin factors norms id N fi fi' E. unfold similar.
  match goal with |- (do _ <- ?x; _) = _ => destruct x end; auto. cbn [bind restrict_similar].
  destruct (gather factors (id_list id)); auto. cbn [bind]. unfold similarity_score. cbn [option_map].
  rewrite (topk_fi_same HP fmin _ _ _ _ _ (arr_list fi) (arr_list fi')); auto.
Qed.
Print Assumptions C138_similar.

(** The liked-item filter looks only at which columns are stored in each given row, not at
    their order, repetition or values. *)
Theorem C138_liked : forall (T : Type) (NT : Num T) HP (fmin : T) m recalc u M M' N fi, c_rows M' = c_rows M ->
  (forall g i, g < c_rows M -> In i (map fst (csr_row M' g)) <-> In i (map fst (csr_row M g))) ->
  recommend HP fmin m recalc u (Csr M') N true fi false None = recommend HP fmin m recalc u (Csr M) N true fi false None.
Proof.
  intros T NT HP fmin m recalc u M M' N fi ER E. unfold recommend. rewrite ER.
  match goal with |- (do _ <- ?x; _) = _ => destruct x end; auto. cbn [bind user_factor].
  destruct (gather (user_factors m) (id_list u)); auto. cbn [bind]. rewrite (topk_fq_same HP fmin _ _ _ _ M M'); auto.
Qed.
Print Assumptions C138_liked.

(** For one user, filter_already_liked_items is filter_items with the liked items added. *)
Theorem C138_liked_as_filter : forall (T : Type) (NT : Num T) HP (fmin : T) m recalc u M ui N fi, c_rows M = 1 ->
  recommend HP fmin m recalc (Scalar u) (Csr M) N true fi false None =
  recommend HP fmin m recalc (Scalar u) ui N false
    (Some (PyList (map Z.of_nat (map fst (csr_row M 0)) ++ match fi with None => [] | Some l => arr_list l end))) false None.
Proof.
  intros T NT HP fmin m recalc u M ui N fi R1. unfold recommend. rewrite R1. cbn [orb id_list length Nat.eqb bind user_factor].
  destruct (gather (user_factors m) [u]) as [Q|] eqn:G; auto. cbn [bind]. apply gather_single in G. destruct G as [q ->].
  cbn [option_map arr_list]. rewrite topk_fq_fi by auto. destruct fi as [l|]; auto.
Qed.
Print Assumptions C138_liked_as_filter.

Example C138_example :
  let m := {| user_factors := [[1; 2]; [3; 1]]; item_factors := [[1; 0]; [0; 1]; [1; 1]; [2; -1]] |}%Z in
  let M := csr_of_rows 4 [[(2, 1%Z); (0, 5%Z)]] in
  recommend simple_heap (-1000)%Z m no_recalc (Scalar 1) (Csr M) 2 true (Some (PyList [3; 3]%Z)) false None = Ok (OneRow [1; 0] [1; -1000])%Z /\
  recommend simple_heap (-1000)%Z m no_recalc (Scalar 1) NotCsr 2 false (Some (NdArray [3; 0; 2]%Z)) false None = Ok (OneRow [1; 0] [1; -1000])%Z /\
  recommend simple_heap (-1000)%Z m no_recalc (Scalar 1) NotCsr 2 false (Some (NdArray [3; 0; 7]%Z)) false None = Raise IndexError.
Proof. vm_compute. auto. Qed.
