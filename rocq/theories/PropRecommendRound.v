(** C158: recommend with the roundings of floating point. *)
From Coq Require Import List Arith Lia Bool ZArith Reals Lra Sorted.
From Verif Require Import Base Num Heap Sparse TopkModel TopkSpec TopkProofs TopkBatch RecommendModel RecommendProofs RecommendProofs2 RecommendProofs3
  RVec SimilarProofs PropSimilar PropTopk PropRecommend MetricsDouble SimilarRound SimilarRoundProofs.
Import ListNotations.

(** Relative rounding error of an inner product of [f] terms, with unit roundoff [u] (2^-24 for float32). *)
Definition dot_error (f : nat) (u : R) : R := (INR (f + 1) * u / (1 - INR (f + 1) * u))%R.

(** Every returned score is the inner product up to the rounding error, and an item that was left out is better
    than a returned one by at most twice the rounding error; likewise for two returned items in the wrong order.
    [B] bounds the lengths of the item vectors. *)
Theorem C158_recommend_rounded : forall (rnd : R -> R) (u B : R) (HP : std_heap) (fmin : R) (m : mf R) (f : nat) recalc (us : Z) ui (N : Z),
  (forall x, Rabs (rnd x - x) <= u * Rabs x)%R -> (0 <= u)%R -> (INR (f + 1) * u < 1)%R ->
  std_heap_ok HP -> (forall x, In x (user_factors m) -> length x = f) -> (forall y, In y (item_factors m) -> length y = f /\ (spec_norm y <= B)%R) ->
  (0 <= us < Z.of_nat (length (user_factors m)))%Z -> (1 <= N <= Z.of_nat (length (item_factors m)))%Z ->
  let x := nth (Z.to_nat us) (user_factors m) [] in
  let exact i := spec_dot x (nth i (item_factors m) []) in
  let E := (dot_error f u * (spec_norm x * B))%R in
  exists ids scores,
    @recommend R (Num_rnd rnd) HP fmin m recalc (Scalar us) ui N false None false None = Ok (OneRow (map Z.of_nat ids) scores) /\
    length ids = Z.to_nat N /\ NoDup ids /\ (forall i, In i ids -> i < length (item_factors m)) /\
    Forall2 (fun i s => Rabs (s - exact i) <= E)%R ids scores /\
    (forall i j, In i ids -> j < length (item_factors m) -> ~ In j ids -> (exact j <= exact i + 2 * E)%R) /\
    StronglySorted (fun i j => exact j <= exact i + 2 * E)%R ids.
Proof.
  intros rnd u B HP fmin m f recalc us ui N RE U0 U1 HC LU LI Hu HN x exact E.
  assert (UR : (0 <= u < 1)%R). { split; auto. assert (1 <= INR (f + 1))%R by (change 1%R with (INR 1); apply le_INR; lia). nra. }
  assert (LX : length x = f) by (apply LU, nth_In; lia).
  destruct (@C01_topn_exact R (Num_rnd rnd) (NumOrd_rnd rnd) HP fmin m f recalc us ui N HC LU (fun y Hy => proj1 (LI y Hy)) Hu HN) as (ids & sc & EQ & TN). fold x in TN.
  assert (DE : forall i, i < length (item_factors m) -> (Rabs (@ndot R (Num_rnd rnd) x (nth i (item_factors m) []) - exact i) <= E)%R).
  { intros i Hi. destruct (LI (nth i (item_factors m) []) (nth_In _ _ Hi)) as [LY NY]. unfold exact. rewrite spec_dot_rdot.
    eapply Rle_trans; [apply (dot_err_rel rnd u RE UR x _ f LX LY)|].
    unfold E, dot_error. rewrite !spec_norm_rnorm in *. pose proof (h_le_bound u UR (f + 1) U1) as HB. pose proof (hn_one u UR (f + 1)) as H1.
    set (K := (INR (f + 1) * u)%R) in *. replace (K / (1 - K))%R with (/ (1 - K) - 1)%R by (field; lra).
    pose proof (rnorm_pos x). pose proof (rnorm_pos (nth i (item_factors m) [])).
    apply Rmult_le_compat; [lra|apply Rmult_le_pos; lra|lra|apply Rmult_le_compat_l; lra]. }
  assert (CMP : forall i j, i < length (item_factors m) -> j < length (item_factors m) ->
    @nleb R (Num_rnd rnd) (@ndot R (Num_rnd rnd) x (nth j (item_factors m) [])) (@ndot R (Num_rnd rnd) x (nth i (item_factors m) [])) = true -> (exact j <= exact i + 2 * E)%R).
  { intros i j Hi Hj L. change (@nleb R Num_R (@ndot R (Num_rnd rnd) x (nth j (item_factors m) [])) (@ndot R (Num_rnd rnd) x (nth i (item_factors m) [])) = true) in L. apply nleb_R in L.
    pose proof (DE i Hi) as A. pose proof (DE j Hj) as C. unfold Rabs in A, C.
    destruct (Rcase_abs (@ndot R (Num_rnd rnd) x (nth i (item_factors m) []) - exact i)), (Rcase_abs (@ndot R (Num_rnd rnd) x (nth j (item_factors m) []) - exact j)); lra. }
  assert (IN : forall i, In i ids -> i < length (item_factors m)) by (intros i Hi; apply (topn_incl _ _ _ _ _ TN) in Hi; apply in_seq in Hi; lia).
  exists ids, sc. split; [exact EQ|]. split; [apply (topn_length _ _ _ _ _ TN)|]. split; [apply (topn_nodup _ _ _ _ _ TN)|]. split; [exact IN|]. split; [|split].
  - rewrite (topn_scores _ _ _ _ _ TN). clear - DE IN. induction ids as [|i ids IH]; cbn [map]; constructor; [apply DE, IN; left; auto|apply IH; intros j Hj; apply IN; right; auto].
  - intros i j Hi Hj NJ. apply CMP; auto. apply (topn_best _ _ _ _ _ TN); auto. apply in_seq. lia.
  - eapply ss_map_in; [|apply (topn_sorted _ _ _ _ _ TN)]. intros i j Hi Hj. apply CMP; auto.
Qed.
Print Assumptions C158_recommend_rounded.

(** In particular for rounding to the 24 bits of float32 (53 of float64 likewise). *)
Theorem C158_float32 : forall (B : R) (HP : std_heap) (fmin : R) (m : mf R) (f : nat) recalc (us : Z) ui (N : Z),
  let u := powerRZ 2 (-24) in
  (INR (f + 1) * u < 1)%R ->
  std_heap_ok HP -> (forall x, In x (user_factors m) -> length x = f) -> (forall y, In y (item_factors m) -> length y = f /\ (spec_norm y <= B)%R) ->
  (0 <= us < Z.of_nat (length (user_factors m)))%Z -> (1 <= N <= Z.of_nat (length (item_factors m)))%Z ->
  let x := nth (Z.to_nat us) (user_factors m) [] in
  let exact i := spec_dot x (nth i (item_factors m) []) in
  let E := (dot_error f u * (spec_norm x * B))%R in
  exists ids scores,
    @recommend R (Num_rnd (rnd_p 24)) HP fmin m recalc (Scalar us) ui N false None false None = Ok (OneRow (map Z.of_nat ids) scores) /\
    length ids = Z.to_nat N /\ NoDup ids /\ (forall i, In i ids -> i < length (item_factors m)) /\
    Forall2 (fun i s => Rabs (s - exact i) <= E)%R ids scores /\
    (forall i j, In i ids -> j < length (item_factors m) -> ~ In j ids -> (exact j <= exact i + 2 * E)%R).
Proof.
  intros B HP fmin m f recalc us ui N u U1 HC LU LI Hu HN x exact E.
  destruct (C158_recommend_rounded (rnd_p 24) u B HP fmin m f recalc us ui N) as (ids & sc & A1 & A2 & A3 & A4 & A5 & A6 & _); auto.
  { intros y. apply (rnd_p_rel 24); lia. }
  { apply powerRZ_le. lra. }
  exists ids, sc. auto 8.
Qed.
Print Assumptions C158_float32.

(** Rounding to 24 bits, three items, one of them hardly worse than the best. *)
Example C158_example : let m := {| user_factors := [[1; 1]]; item_factors := [[1; 2]; [3; 0]; [1 / 3; 8 / 3]] |}%R in
  let u := powerRZ 2 (-24) in
  (forall x, Rabs (rnd_p 24 x - x) <= u * Rabs x)%R /\ (0 <= u)%R /\ (INR (2 + 1) * u < 1)%R /\ (dot_error 2 u < 1 / 5000000)%R /\
  (forall x, In x (user_factors m) -> length x = 2) /\ (forall y, In y (item_factors m) -> length y = 2 /\ (spec_norm y <= 4)%R).
Proof.
  cbv zeta. split; [apply (rnd_p_rel 24); lia|].
  assert (U : powerRZ 2 (-24) = (/ 16777216)%R) by (cbn [powerRZ]; f_equal; rewrite pow_IZR; reflexivity). rewrite U. split; [lra|].
  assert (I3 : INR (2 + 1) = 3%R) by (cbn [INR Nat.add]; lra). unfold dot_error. rewrite I3. split; [lra|]. split.
  { replace (3 * / 16777216 / (1 - 3 * / 16777216))%R with (3 / 16777213)%R by (field; lra). lra. }
  split; [intros x [<-|[]]; reflexivity|].
  intros y Hy. assert (L : length y = 2 /\ (rsum (map (fun a => a * a) y) <= 4 * 4)%R) by (simpl in Hy; destruct Hy as [<-|[<-|[<-|[]]]]; split; try reflexivity; cbn [map rsum]; lra).
  destruct L as [L1 L2]. split; auto. unfold spec_norm. rewrite <- (sqrt_square 4) by lra. apply sqrt_le_1_alt; auto.
Qed.
