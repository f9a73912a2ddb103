(** C157: the item itself in similar_items, with the roundings of floating point. *)
From Coq Require Import List Arith Lia Bool ZArith Reals Lra Sorted.
From Coq Require Import Floats.SpecFloat.
From Verif Require Import Base Num Heap Sparse TopkModel TopkSpec TopkProofs TopkBatch RecommendModel RecommendProofs RecommendProofs2 RecommendProofs3
  RVec SimilarProofs PropSimilar GnuHeap FloatModel SimilarRound SimilarRoundProofs PropFloat.
Import ListNotations.

(** Rounding error of a score of a model with [f] factors; [u] is 2^-24 for float32. *)
Definition score_error (f : nat) (u : R) : R := (INR (3 * f + 7) * u / (1 - INR (3 * f + 7) * u))%R.

(** The scores are the cosines up to that error; the best match is the item itself, or an item whose vector points
    in the same direction up to twice that error. *)
Theorem C157_close_partial : forall (rnd : R -> R) (u : R) (HP : std_heap) (fmin tiny : R) (factors : list (list R)) (f : nat) (id N : Z),
  (forall x y, x <= y -> rnd x <= rnd y)%R -> (forall x, Rabs (rnd x - x) <= u * Rabs x)%R -> (0 <= u)%R -> (INR (3 * f + 7) * u < 1)%R ->
  std_heap_ok HP -> (0 < tiny)%R -> (forall y, In y factors -> length y = f) ->
  (0 <= id < Z.of_nat (length factors))%Z -> (1 <= N)%Z ->
  let n := length factors in
  let q := nth (Z.to_nat id) factors [] in
  exists (score : nat -> R) ids scores,
    @similar R (Num_rnd rnd) HP fmin factors (@norms_of R (Num_rnd rnd) (norm_rnd rnd) tiny factors) (Scalar id) N None None =
      Ok (OneRow (map Z.of_nat (ids ++ repeat 0 (Z.to_nat N - n))) (scores ++ repeat 0%R (Z.to_nat N - n))) /\
    TopN score (seq 0 n) (Nat.min (Z.to_nat N) n) ids scores /\
    (forall j, j < n -> exists c, is_cosine q (nth j factors []) c /\ (Rabs (score j - c) <= score_error f u)%R /\ (Rabs (score j) <= 1 + score_error f u)%R) /\
    ((exists a, In a q /\ a <> 0%R) ->
       (Rabs (score (Z.to_nat id) - 1) <= score_error f u)%R /\
       forall i0 rest c, ids = i0 :: rest -> is_cosine q (nth i0 factors []) c -> (1 - 2 * score_error f u <= c)%R).
Proof.
  intros rnd u HP fmin tiny factors f id N MO RE U0 U1 HC Ht W Hid HN n q.
  assert (UR : (0 <= u < 1)%R). { split; auto. assert (1 <= INR (3 * f + 7))%R by (change 1%R with (INR 1); apply le_INR; lia). nra. }
  assert (RD : rounds rnd u) by (constructor; auto).
  destruct (similar_rnd rnd u RD UR HP fmin tiny factors f id N HC Ht W) as (ids & sc & E & TN); [unfold idx_ok; lia|lia|].
  fold n in TN, E. rewrite wrap_nonneg in TN by lia. fold q in TN.
  assert (LQ : length q = f) by (apply W, nth_In; lia).
  assert (ER : forall y, length y = f -> (Rabs (rscore rnd tiny q y - cosine q y) <= score_error f u)%R).
  { intros y Ly. eapply Rle_trans; [apply (rscore_err rnd u RD UR tiny q y f); auto|]. pose proof (h_le_bound u UR (3 * f + 7) U1) as X.
    unfold score_error. set (K := (INR (3 * f + 7) * u)%R) in *. replace (K / (1 - K))%R with (/ (1 - K) - 1)%R by (field; lra). lra. }
  assert (IC : forall x y c, is_cosine x y c -> c = cosine x y).
  { intros x y c [A B]. destruct (cosine_is_cosine x y) as [A' B']. destruct (Req_dec (spec_norm x * spec_norm y) 0) as [Z|Z]; [rewrite B, B'|rewrite A, A']; auto. }
  exists (fun j => rscore rnd tiny q (nth j factors [])), ids, sc. split; [|split; [exact TN|split]].
  - rewrite E. unfold pad. rewrite (topn_scores _ _ _ _ _ TN), map_length, (topn_length _ _ _ _ _ TN).
    replace (Z.to_nat N - Nat.min (Z.to_nat N) n) with (Z.to_nat N - n) by lia. auto.
  - intros j Hj. exists (cosine q (nth j factors [])). split; [apply cosine_is_cosine|]. assert (B := ER (nth j factors []) (W _ (nth_In _ _ Hj))). split; auto.
    pose proof (cosine_range q (nth j factors [])) as CR. assert (Rabs (cosine q (nth j factors [])) <= 1)%R by (apply Rabs_le; lra).
    replace (rscore rnd tiny q (nth j factors []))%R with ((rscore rnd tiny q (nth j factors []) - cosine q (nth j factors [])) + cosine q (nth j factors []))%R by ring.
    eapply Rle_trans; [apply Rabs_triang|]. lra.
  - intros (a & Ha & NZ). assert (NQ : rnorm q <> 0%R) by (intro X; apply NZ; eapply rnorm_zero; eauto).
    assert (SELF : cosine q (nth (Z.to_nat id) factors []) = 1%R) by (apply cosine_self; auto).
    assert (BS := ER q LQ). rewrite (cosine_self q NQ) in BS. split; [exact BS|].
    intros i0 rest c -> CC. apply IC in CC. subst c.
    assert (I0 : In i0 (seq 0 n)) by (apply (topn_incl _ _ _ _ _ TN); left; auto).
    assert (BI := ER (nth i0 factors []) (W _ (nth_In _ _ (proj2 (proj1 (in_seq n 0 i0) I0))))).
    assert (LE : (rscore rnd tiny q q <= rscore rnd tiny q (nth i0 factors []))%R).
    { change (rscore rnd tiny q q) with (rscore rnd tiny q (nth (Z.to_nat id) factors [])). apply nleb_R.
      destruct (in_dec Nat.eq_dec (Z.to_nat id) (i0 :: rest)) as [I|NI].
      - destruct I as [->|I]; [apply nleb_refl|]. pose proof (topn_sorted _ _ _ _ _ TN) as SS. inversion SS as [|? ? _ F]; subst. rewrite Forall_forall in F. apply F; auto.
      - apply (topn_best _ _ _ _ _ TN); [left; auto| |auto]. apply in_seq. unfold n. lia. }
    unfold Rabs in BS, BI. destruct (Rcase_abs (rscore rnd tiny q q - 1)), (Rcase_abs (rscore rnd tiny q (nth i0 factors []) - cosine q (nth i0 factors []))); lra.
Qed.
Print Assumptions C157_close_partial.

(** IEEE rounding to 24 bits meets the hypotheses, with a hundred factors the error is below 0.00002. *)
Example C157_example : let rnd := rnd_p 24 in let u := powerRZ 2 (-24) in
  (forall x y, x <= y -> rnd x <= rnd y)%R /\ (forall x, Rabs (rnd x - x) <= u * Rabs x)%R /\ (0 <= u)%R /\
  (INR (3 * 100 + 7) * u < 1)%R /\ (score_error 100 u < 1 / 50000)%R.
Proof.
  cbv zeta. split; [apply rnd_p_mono; lia|]. split; [apply (rnd_p_rel 24); lia|].
  assert (U : powerRZ 2 (-24) = (/ 16777216)%R) by (cbn [powerRZ]; f_equal; rewrite pow_IZR; reflexivity). rewrite U. split; [lra|].
  unfold score_error. assert (I : INR (3 * 100 + 7) = 307%R) by (rewrite INR_IZR_INZ; f_equal). rewrite I. split; [lra|].
  replace (307 * / 16777216 / (1 - 307 * / 16777216))%R with (307 / 16776909)%R by (field; lra). lra.
Qed.

(** The whole claim fails in float32: with the vectors (1,1) and (3,3) item 1 comes before item 0 in the answer for
    item 0, with a similarity above 1.  All products and sums are exact here, only roots and quotients are rounded. *)
Theorem C157_refuted : exists (factors : list (list f32)) (s0 s1 : f32),
  factors = [[fl 1; fl 1]; [fl 3; fl 3]] /\
  similar gnu_heap f32_min factors (norms_of norm_f32 tiny_f32 factors) (Scalar 0%Z) 2%Z None None = Ok (OneRow [1; 0]%Z [s1; s0]) /\
  nltb s0 s1 = true /\ nltb (fl 1) s1 = true /\ neqb s0 (fl 1) = true /\
  similar gnu_heap f32_min factors (norms_of norm_f32 tiny_f32 factors) (Scalar 0%Z) 1%Z None None = Ok (OneRow [1]%Z [s1]).
Proof.
  exists [[fl 1; fl 1]; [fl 3; fl 3]], (fl 1), (S754_finite false 8388609 (-23)). split; [reflexivity|].
  repeat apply conj; vm_compute; reflexivity.
Qed.
Print Assumptions C157_refuted.
(** The similarity of an item to itself need not be 1 either: (3,3), (1,6). *)
Theorem C157_self_refuted : exists s t : f32,
  similar gnu_heap f32_min [[fl 3; fl 3]] (norms_of norm_f32 tiny_f32 [[fl 3; fl 3]]) (Scalar 0%Z) 1%Z None None = Ok (OneRow [0]%Z [s]) /\ nltb (fl 1) s = true /\
  similar gnu_heap f32_min [[fl 1; fl 6]] (norms_of norm_f32 tiny_f32 [[fl 1; fl 6]]) (Scalar 0%Z) 1%Z None None = Ok (OneRow [0]%Z [t]) /\ nltb t (fl 1) = true.
Proof.
  exists (S754_finite false 8388609 (-23)), (S754_finite false 16777215 (-24)). repeat apply conj; vm_compute; reflexivity.
Qed.
Print Assumptions C157_self_refuted.
