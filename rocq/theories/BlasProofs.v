(** Ranking by any matrix of scores, and the rounding error of any summation. *)
From Coq Require Import List Arith Lia Bool ZArith Permutation Reals Lra Sorted.
From Verif Require Import Base Num Heap Sparse TopkModel TopkSpec TopkProofs TopkBatch RecommendModel RecommendProofs RecommendProofs2 RecommendProofs3
  RVec SimilarProofs SimilarRound BlasModel.
Import ListNotations.

(** Summing in the order of the factors is the model used elsewhere. *)
Definition gemm_in_order {T} `{Num T} (Q Y : list (list T)) : list (list T) := map (fun x => map (fun y => ndot x y) Y) Q.
Lemma score_rows_in_order {T} `{Num T} (items : list (list T)) (q : list (list T)) :
  map_res (score_row items None) q =
  (if forallb (fun x => forallb (fun y => length y =? length x) items) q then Ok (gemm_in_order q items) else Raise ValueError).
Proof.
  induction q as [|x q IH]; [reflexivity|]. cbn [map_res forallb gemm_in_order map]. unfold score_row at 1.
  destruct (forallb (fun y => length y =? length x) items); cbn [negb bind andb]; auto. rewrite IH.
  destruct (forallb _ q); cbn [bind]; auto.
Qed.
Lemma topk_blas_in_order {T} `{Num T} HP fmin items query k fq fi :
  topk_blas gemm_in_order HP fmin items query k fq fi = topk HP fmin items query k None fq fi.
Proof.
  unfold topk_blas, topk, topk_all_writes. destruct (k <? 0)%Z; auto. f_equal. apply map_res_ext. intros se _.
  unfold topk_batch_blas, topk_batch. rewrite score_rows_in_order. reflexivity.
Qed.
Lemma recommend_blas_in_order {T} `{Num T} HP fmin m recalc userid ui N fl fi :
  recommend_blas gemm_in_order HP fmin m userid ui N fl fi = recommend HP fmin m recalc userid ui N fl fi false None.
Proof.
  unfold recommend_blas, recommend. rewrite orb_false_r. unfold user_factor.
  destruct fl.
  - destruct ui as [|M]; cbn [bind]; auto. destruct (c_rows M =? length (id_list userid)); cbn [bind]; auto.
    destruct (gather (user_factors m) (id_list userid)); cbn [bind]; auto. rewrite topk_blas_in_order. auto.
  - cbn [bind]. destruct (gather (user_factors m) (id_list userid)); cbn [bind]; auto. rewrite topk_blas_in_order. auto.
Qed.

Local Open Scope R_scope.
(** * A matrix of scores is the inner products of unit vectors with its columns *)
Definition unit_row (n i : nat) : list R := map (fun j => if (j =? i)%nat then 1 else 0) (seq 0 n).
Lemma ndot_seq (g h : nat -> R) l : @ndot R Num_R (map g l) (map h l) = rsum (map (fun j => g j * h j) l).
Proof.
  unfold ndot, nsum. rewrite fold_left_rsum. cbn [nzero Num_R]. rewrite Rplus_0_l. f_equal.
  induction l as [|j l IH]; cbn [map combine]; auto. rewrite <- IH. reflexivity.
Qed.
Lemma rsum_pick (F : nat -> R) i : forall n s, (s <= i < s + n)%nat ->
  rsum (map (fun j => (if (j =? i)%nat then 1 else 0) * F j) (seq s n)) = F i.
Proof.
  induction n; intros s Hi; [lia|]. cbn [seq map rsum]. destruct (Nat.eqb_spec s i) as [->|NE].
  - assert (Z0 : rsum (map (fun j => (if (j =? i)%nat then 1 else 0) * F j) (seq (S i) n)) = 0).
    { assert (Z : forall l, (forall j, In j l -> j <> i) -> rsum (map (fun j => (if (j =? i)%nat then 1 else 0) * F j) l) = 0).
      { induction l as [|j l IH]; intros Hl; cbn [map rsum]; auto. rewrite IH by (intros; apply Hl; right; auto).
        destruct (Nat.eqb_spec j i); [exfalso; apply (Hl j); [left|]; auto|lra]. }
      apply Z. intros j Hj. apply in_seq in Hj. lia. }
    rewrite Z0. lra.
  - rewrite IHn by lia. lra.
Qed.

Section Trick.
Variable gemm : list (list R) -> list (list R) -> list (list R).
Hypothesis shape : forall Q Y, length (gemm Q Y) = length Q /\ forall i, (i < length Q)%nat -> length (nth i (gemm Q Y) []) = length Y.

(** Row [i] of the scores: the row of its batch. *)
Definition score_matrix (items query : list (list R)) (i : nat) : list R :=
  let b := (i / topk_batch_size)%nat in
  nth (i - b * topk_batch_size) (gemm (slice (b * topk_batch_size) (Nat.min (b * topk_batch_size + topk_batch_size) (length query)) query) items) [].
Definition score_cols (items query : list (list R)) : list (list R) :=
  map (fun j => map (fun i => nth j (score_matrix items query i) 0) (seq 0 (length query))) (seq 0 (length items)).
Definition units (n : nat) : list (list R) := map (unit_row n) (seq 0 n).

Lemma score_matrix_length items query i : (i < length query)%nat -> length (score_matrix items query i) = length items.
Proof.
  intros Hi. unfold score_matrix. set (b := (i / topk_batch_size)%nat).
  assert (B : (b * topk_batch_size <= i < b * topk_batch_size + topk_batch_size)%nat).
  { unfold b. pose proof (Nat.div_mod i topk_batch_size). pose proof (Nat.mod_upper_bound i topk_batch_size). unfold topk_batch_size in *. lia. }
  apply shape. rewrite slice_length by lia. lia.
Qed.
Lemma score_cols_dot items query i j : (i < length query)%nat -> (j < length items)%nat ->
  @ndot R Num_R (nth i (units (length query)) []) (nth j (score_cols items query) []) = nth j (score_matrix items query i) 0.
Proof.
  intros Hi Hj. unfold units, score_cols.
  rewrite (nth_indep _ [] (unit_row (length query) 0)) by (rewrite map_length, seq_length; auto). rewrite map_nth, seq_nth by auto.
  rewrite (nth_indep _ [] ((fun j => map (fun i => nth j (score_matrix items query i) 0) (seq 0 (length query))) 0%nat)) by (rewrite map_length, seq_length; auto).
  rewrite (map_nth (fun j => map (fun i => nth j (score_matrix items query i) 0) (seq 0 (length query)))), seq_nth by auto. cbn [Nat.add].
  unfold unit_row. rewrite ndot_seq. rewrite (rsum_pick (fun r => nth j (score_matrix items query r) 0)) by lia. auto.
Qed.

Lemma batch_bounds_in rows se : In se (batch_bounds topk_batch_size rows) ->
  exists b, se = (b * topk_batch_size, Nat.min (b * topk_batch_size + topk_batch_size) rows)%nat.
Proof. intros HI. apply in_map_iff in HI. destruct HI as (b & <- & _). eauto. Qed.

Lemma scored_rows items query b (s := (b * topk_batch_size)%nat) (e := Nat.min (b * topk_batch_size + topk_batch_size) (length query)) :
  map_res (@score_row R Num_R (score_cols items query) None) (slice s e (units (length query))) = Ok (gemm (slice s e query) items).
Proof.
  set (Z := fun i => score_matrix items query i).
  assert (SL : slice s e (units (length query)) = map (unit_row (length query)) (seq s (e - s))).
  { apply (nth_ext _ _ [] []). { rewrite slice_length, map_length, seq_length; auto. unfold units. rewrite map_length, seq_length. unfold e. lia. }
    intros i Hi. rewrite slice_length in Hi by (unfold units; rewrite map_length, seq_length; unfold e; lia).
    rewrite nth_slice by auto. unfold units.
    rewrite (nth_indep _ [] (unit_row (length query) 0)) by (rewrite map_length, seq_length; unfold e in *; lia). rewrite map_nth, seq_nth by (unfold e in *; lia).
    rewrite (nth_indep (map _ (seq s (e - s))) [] (unit_row (length query) 0)) by (rewrite map_length, seq_length; auto). rewrite map_nth, seq_nth by auto. auto. }
  rewrite SL, map_res_map_in.
  rewrite (map_res_map _ (fun i => Z i)).
  - f_equal. unfold Z. destruct (shape (slice s e query) items) as [L1 L2].
    apply (nth_ext _ _ [] []). { rewrite map_length, seq_length, L1, slice_length; auto. unfold e. lia. }
    intros i Hi. rewrite map_length, seq_length in Hi.
    rewrite (nth_indep (map _ _) [] (score_matrix items query 0)) by (rewrite map_length, seq_length; auto). rewrite (map_nth (fun i => score_matrix items query i)), seq_nth by auto.
    unfold score_matrix. assert (D : ((s + i) / topk_batch_size = b)%nat).
    { unfold s. rewrite Nat.add_comm, Nat.div_add by (unfold topk_batch_size; lia). rewrite Nat.div_small; auto. unfold e, s in Hi. lia. }
    rewrite D. replace (s + i - b * topk_batch_size)%nat with i by (unfold s; lia). reflexivity.
  - intros i Hi. apply in_seq in Hi. assert (IQ : (i < length query)%nat) by (unfold e in *; lia). unfold score_row.
    replace (forallb (fun y => length y =? length (unit_row (length query) i))%nat (score_cols items query)) with true.
    2:{ symmetry. apply forallb_forall. intros y Hy. apply Nat.eqb_eq. unfold score_cols in Hy. apply in_map_iff in Hy. destruct Hy as (j & <- & _).
        unfold unit_row. rewrite !map_length. auto. }
    cbn [negb]. f_equal. unfold Z. apply (nth_ext _ _ 0 0).
    { rewrite map_length. unfold score_cols. rewrite map_length, seq_length, score_matrix_length; auto. }
    intros j Hj. rewrite map_length in Hj. assert (JI : (j < length items)%nat) by (unfold score_cols in Hj; rewrite map_length, seq_length in Hj; auto).
    rewrite (nth_indep _ 0 ((fun y => @ndot R Num_R (unit_row (length query) i) y) [])) by (rewrite map_length; auto).
    rewrite (map_nth (fun y => @ndot R Num_R (unit_row (length query) i) y)).
    rewrite <- (score_cols_dot items query i j) by auto. f_equal. unfold units.
    rewrite (nth_indep _ [] (unit_row (length query) 0)) by (rewrite map_length, seq_length; auto). rewrite map_nth, seq_nth by auto. auto.
Qed.

Lemma topk_blas_scores HP fmin items query k fq fi :
  (forall x y, In x query -> In y items -> length y = length x) ->
  topk_blas gemm HP fmin items query k fq fi = @topk R Num_R HP fmin (score_cols items query) (units (length query)) k None fq fi.
Proof.
  intros W. unfold topk_blas, topk, topk_all_writes. destruct (k <? 0)%Z; auto.
  assert (LU : length (units (length query)) = length query) by (unfold units; rewrite map_length, seq_length; auto). rewrite LU.
  f_equal. apply map_res_ext. intros se Hse. destruct (batch_bounds_in _ _ Hse) as (b & ->). cbn [fst snd].
  unfold topk_batch_blas, topk_batch. rewrite scored_rows.
  match goal with |- context [forallb ?F ?q] => replace (forallb F q) with true end.
  2:{ symmetry. apply forallb_forall. intros x Hx. apply forallb_forall. intros y Hy. apply Nat.eqb_eq. apply W; auto.
      unfold slice in Hx. clear - Hx. apply (In_nth _ _ []) in Hx. destruct Hx as (n & Hn & <-). rewrite firstn_length in Hn.
      set (l := skipn (b * topk_batch_size) query) in *. set (c := (Nat.min (b * topk_batch_size + topk_batch_size) (length query) - b * topk_batch_size)%nat) in *.
      assert (E : nth n (firstn c l) [] = nth n l []).
      { rewrite <- (firstn_skipn c l) at 2. rewrite app_nth1; auto. rewrite firstn_length; auto. }
      rewrite E. assert (IL : In (nth n l []) l) by (apply nth_In; lia). unfold l in IL. rewrite <- (firstn_skipn (b * topk_batch_size) query). apply in_or_app. right. exact IL. }
  cbn [bind].
  assert (LI : length (score_cols items query) = length items) by (unfold score_cols; rewrite map_length, seq_length; auto). rewrite LI. reflexivity.
Qed.

(** The scores as a model: user [g] is the [g]-th user of the query. *)
Definition score_model (m : mf R) (user : list (list R)) : mf R :=
  {| user_factors := units (length user); item_factors := score_cols (item_factors m) user |}.

Lemma gather_units n : gather (units n) (map Z.of_nat (seq 0 n)) = Ok (units n).
Proof.
  unfold gather. rewrite map_res_map_in. rewrite (map_res_map _ (fun i => unit_row n i)).
  - reflexivity.
  - intros i Hi. apply in_seq in Hi. unfold np_index. assert (LU : length (units n) = n) by (unfold units; rewrite map_length, seq_length; auto). rewrite LU.
    replace ((0 <=? Z.of_nat i)%Z && (Z.of_nat i <? Z.of_nat n)%Z)%bool with true.
    2:{ symmetry. apply andb_true_iff. split; [apply Z.leb_le; lia|apply Z.ltb_lt; lia]. }
    cbn [bind]. rewrite Nat2Z.id. f_equal. unfold units. rewrite (nth_indep _ [] (unit_row n 0)) by (rewrite map_length, seq_length; lia). rewrite map_nth, seq_nth by lia. auto.
Qed.

Lemma recommend_blas_batch HP fmin (m : mf R) f recalc us ui N fl fi :
  (forall x, In x (user_factors m) -> length x = f) -> (forall y, In y (item_factors m) -> length y = f) ->
  (forall z, In z us -> (0 <= z < Z.of_nat (length (user_factors m)))%Z) ->
  recommend_blas gemm HP fmin m (Batch us) ui N fl fi =
  @recommend R Num_R HP fmin (score_model m (map (fun z => nth (Z.to_nat z) (user_factors m) []) us)) recalc (Batch (map Z.of_nat (seq 0 (length us)))) ui N fl fi false None.
Proof.
  intros WU WI Hus. set (user := map (fun z => nth (Z.to_nat z) (user_factors m) []) us).
  assert (G : gather (user_factors m) us = Ok user).
  { unfold gather. rewrite (map_res_map _ (fun z => nth (Z.to_nat z) (user_factors m) [])); auto. intros z Hz. specialize (Hus z Hz). unfold np_index.
    replace ((0 <=? z)%Z && (z <? Z.of_nat (length (user_factors m)))%Z)%bool with true; auto. symmetry. apply andb_true_iff. split; [apply Z.leb_le|apply Z.ltb_lt]; lia. }
  assert (LU : length user = length us) by (unfold user; apply map_length).
  unfold recommend_blas, recommend. rewrite orb_false_r. cbn [id_list]. rewrite map_length, seq_length.
  assert (W : forall x y, In x user -> In y (item_factors m) -> length y = length x).
  { intros x y Hx Hy. unfold user in Hx. apply in_map_iff in Hx. destruct Hx as (z & <- & Hz). rewrite (WI y Hy). symmetry. apply WU, nth_In. specialize (Hus z Hz). lia. }
  destruct fl.
  - destruct ui as [|M]; cbn [bind]; auto. destruct (c_rows M =? length us)%nat; cbn [bind]; auto.
    rewrite G. cbn [bind]. unfold user_factor. cbn [id_list]. unfold score_model at 1. cbn [user_factors]. rewrite LU, gather_units. cbn [bind]. rewrite topk_blas_scores by auto. rewrite LU.
    unfold score_model. cbn [item_factors]. reflexivity.
  - cbn [bind]. rewrite G. cbn [bind]. unfold user_factor. cbn [id_list]. unfold score_model at 1. cbn [user_factors]. rewrite LU, gather_units. cbn [bind]. rewrite topk_blas_scores by auto. rewrite LU.
    unfold score_model. cbn [item_factors]. reflexivity.
Qed.
End Trick.

(** * Rounding error of any summation *)
Section Error.
Variables (rnd : R -> R) (u : R).
Hypothesis RE : forall x, Rabs (rnd x - x) <= u * Rabs x.
Hypothesis U0 : 0 <= u.
Definition psum (l : list (R * R)) : R := rsum (map (fun q => fst q * snd q) l).
Definition pabs (l : list (R * R)) : R := rsum (map (fun q => Rabs (fst q * snd q)) l).
Definition fma_rnd (a b c : R) : R := rnd (a * b + c).

Lemma rsum_app a b : rsum (a ++ b) = rsum a + rsum b.
Proof. induction a; cbn [app rsum]; [lra|]. rewrite IHa. lra. Qed.
Lemma rsum_perm a b : Permutation a b -> rsum a = rsum b.
Proof. induction 1; cbn [rsum]; lra. Qed.
Lemma psum_abs l : Rabs (psum l) <= pabs l.
Proof. unfold psum, pabs. induction l; cbn [map rsum]; [rewrite Rabs_R0; lra|]. eapply Rle_trans; [apply Rabs_triang|]. lra. Qed.
Lemma pabs_nonneg l : 0 <= pabs l.
Proof. pose proof (psum_abs l). pose proof (Rabs_pos (psum l)). lra. Qed.

Lemma step_err x y e A n : Rabs (x - y) <= ((1 + u) ^ n - 1) * A -> Rabs y <= A -> e = rnd x ->
  Rabs (e - y) <= ((1 + u) ^ S n - 1) * A.
Proof.
  intros X Y ->. pose proof (RE x) as D. assert (XA : Rabs x <= (1 + u) ^ n * A).
  { replace x with ((x - y) + y) by ring. eapply Rle_trans; [apply Rabs_triang|]. lra. }
  replace (rnd x - y) with ((rnd x - x) + (x - y)) by ring. eapply Rle_trans; [apply Rabs_triang|]. cbn [pow].
  assert (u * Rabs x <= u * ((1 + u) ^ n * A)) by (apply Rmult_le_compat_l; auto). lra.
Qed.
Lemma pow1u_mono n m : (n <= m)%nat -> (1 + u) ^ n <= (1 + u) ^ m.
Proof. intros. apply Rle_pow; [lra|auto]. Qed.

Lemma summed_err l s : @summed R (Num_rnd rnd) fma_rnd l s -> (1 <= length l)%nat /\ Rabs (s - psum l) <= ((1 + u) ^ length l - 1) * pabs l.
Proof.
  induction 1 as [x y|x y l s HS [L E]|l l' s s' HS [L E] HS' [L' E']|l l' s P HS [L E]].
  - split; [cbn; lia|]. unfold psum, pabs. cbn [map rsum fst snd length]. cbn [nmul Num_rnd].
    apply (step_err (x * y) (x * y + 0) _ (Rabs (x * y) + 0) 0); auto.
    + replace (x * y - (x * y + 0)) with 0 by ring. rewrite Rabs_R0. cbn [pow]. pose proof (Rabs_pos (x * y)). lra.
    + rewrite !Rplus_0_r. lra.
  - split; [cbn; lia|]. unfold psum, pabs in *. cbn [map rsum fst snd length].
    apply (step_err (x * y + s)); auto.
    + replace (x * y + s - (x * y + rsum (map (fun q => fst q * snd q) l))) with (s - rsum (map (fun q => fst q * snd q) l)) by ring.
      eapply Rle_trans; [exact E|]. apply Rmult_le_compat_l. { pose proof (pow1u_mono 0 (length l)). cbn [pow] in *. pose proof (H (Nat.le_0_l _)). lra. }
      pose proof (Rabs_pos (x * y)). lra.
    + eapply Rle_trans; [apply Rabs_triang|]. pose proof (psum_abs l). unfold psum, pabs in *. lra.
  - rewrite app_length. split; [lia|]. unfold psum, pabs in *. rewrite !map_app, !rsum_app.
    set (n := Nat.max (length l) (length l')).
    eapply Rle_trans; [apply (step_err (s + s') _ _ (rsum (map (fun q => Rabs (fst q * snd q)) l) + rsum (map (fun q => Rabs (fst q * snd q)) l')) n); [| |reflexivity]|].
    + replace (s + s' - (rsum (map (fun q => fst q * snd q) l) + rsum (map (fun q => fst q * snd q) l')))
        with ((s - rsum (map (fun q => fst q * snd q) l)) + (s' - rsum (map (fun q => fst q * snd q) l'))) by ring.
      eapply Rle_trans; [apply Rabs_triang|]. rewrite Rmult_plus_distr_l. pose proof (pabs_nonneg l). pose proof (pabs_nonneg l'). unfold pabs in *.
      pose proof (pow1u_mono (length l) n (Nat.le_max_l _ _)). pose proof (pow1u_mono (length l') n (Nat.le_max_r _ _)).
      apply Rplus_le_compat; [eapply Rle_trans; [exact E|]|eapply Rle_trans; [exact E'|]]; apply Rmult_le_compat_r; lra.
    + eapply Rle_trans; [apply Rabs_triang|]. pose proof (psum_abs l). pose proof (psum_abs l'). unfold psum, pabs in *. lra.
    + apply Rmult_le_compat_r. { pose proof (pabs_nonneg l). pose proof (pabs_nonneg l'). unfold pabs in *. lra. }
      assert (NM : (S n <= length l + length l')%nat) by (unfold n; lia). pose proof (pow1u_mono _ _ NM). lra.
  - rewrite <- (Permutation_length P). split; auto. unfold psum, pabs in *.
    rewrite <- (rsum_perm _ _ (Permutation_map (fun q => fst q * snd q) P)), <- (rsum_perm _ _ (Permutation_map (fun q => Rabs (fst q * snd q)) P)). auto.
Qed.
End Error.

(** * Two rankings of nearly the same scores *)
Lemma rankings_close (s s' : nat -> R) cands n ids sc ids' sc' d :
  @TopN R Num_R s cands n ids sc -> @TopN R Num_R s' cands n ids' sc' -> (forall i, In i cands -> Rabs (s i - s' i) <= d) ->
  forall k, (k < n)%nat -> nth k sc' 0 >= nth k sc 0 - d.
Proof.
  intros T1 T2 D k Hk. rewrite (topn_scores _ _ _ _ _ T1), (topn_scores _ _ _ _ _ T2).
  pose proof (topn_length _ _ _ _ _ T1) as L1. pose proof (topn_length _ _ _ _ _ T2) as L2.
  rewrite (nth_indep (map s' ids') 0 (s' 0%nat)), (nth_indep (map s ids) 0 (s 0%nat)) by (rewrite map_length; lia). rewrite !map_nth.
  destruct (Rle_or_lt (s (nth k ids 0%nat) - d) (s' (nth k ids' 0%nat))) as [OK|BAD]; [lra|]. exfalso.
  assert (SS : forall (t : nat -> R) l, StronglySorted (fun i j => @nleb R Num_R (t j) (t i) = true) l -> forall p q, (p < q < length l)%nat -> t (nth q l 0%nat) <= t (nth p l 0%nat)).
  { intros t l. induction 1 as [|a0 l SL IH F]; intros p q Hpq; cbn [length] in *; [lia|]. destruct q; [lia|]. destruct p; cbn [nth].
    - rewrite Forall_forall in F. apply nleb_R. apply F, nth_In. lia.
    - apply IH. lia. }
  assert (IN : incl (firstn (S k) ids) (firstn k ids')).
  { intros i Hi. apply (In_nth _ _ 0%nat) in Hi. destruct Hi as (p & Hp & <-). rewrite firstn_length in Hp.
    assert (E : nth p (firstn (S k) ids) 0%nat = nth p ids 0%nat).
    { rewrite <- (firstn_skipn (S k) ids) at 2. rewrite app_nth1; auto. rewrite firstn_length; lia. }
    rewrite E. set (i := nth p ids 0%nat).
    assert (II : In i cands) by (apply (topn_incl _ _ _ _ _ T1), nth_In; lia).
    assert (HI : s (nth k ids 0%nat) <= s i).
    { destruct (Nat.eq_dec p k) as [->|NE]; [unfold i; lra|]. apply (SS s ids (topn_sorted _ _ _ _ _ T1)). lia. }
    assert (HI' : s' (nth k ids' 0%nat) < s' i). { pose proof (D i II) as DD. unfold Rabs in DD. destruct (Rcase_abs (s i - s' i)); lra. }
    destruct (in_dec Nat.eq_dec i ids') as [IY|IN].
    - apply (In_nth _ _ 0%nat) in IY. destruct IY as (q & Hq & Eq). assert (QK : (q < k)%nat).
      { destruct (Nat.lt_ge_cases q k); auto. exfalso. destruct (Nat.eq_dec q k) as [->|NE]; [rewrite Eq in HI'; lra|].
        pose proof (SS s' ids' (topn_sorted _ _ _ _ _ T2) k q ltac:(lia)) as X. rewrite Eq in X. lra. }
      rewrite <- Eq. rewrite <- (firstn_skipn k ids') at 1. rewrite app_nth1 by (rewrite firstn_length; lia). apply nth_In. rewrite firstn_length. lia.
    - exfalso. assert (X : @nleb R Num_R (s' i) (s' (nth k ids' 0%nat)) = true) by (apply (topn_best _ _ _ _ _ T2); auto; apply nth_In; lia).
      apply nleb_R in X. lra. }
  assert (ND : NoDup (firstn (S k) ids)).
  { pose proof (topn_nodup _ _ _ _ _ T1) as ND. rewrite <- (firstn_skipn (S k) ids) in ND. clear - ND. induction (firstn (S k) ids) as [|a0 l IH]; [constructor|]. cbn [app] in ND. inversion ND; subst.
    constructor; auto. intros X. apply H1. apply in_or_app. auto. }
  pose proof (NoDup_incl_length ND IN) as X. rewrite !firstn_length in X. lia.
Qed.
