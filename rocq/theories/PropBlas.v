(** C160: recommend whatever the order in which the inner products are added up. *)
From Coq Require Import List Arith Lia Bool ZArith Permutation Reals Lra Sorted.
From Coq Require Import Floats.SpecFloat.
From Verif Require Import Base Num Heap GnuHeap Sparse TopkModel TopkSpec TopkProofs TopkBatch RecommendModel RecommendProofs RecommendProofs2 RecommendProofs3 RecommendBatch
  RVec SimilarProofs PropSimilar PropTopk PropRecommend FloatModel PropFloat MetricsDouble SimilarRound SimilarRoundProofs BlasModel BlasProofs.
Import ListNotations.

(** Relative error of adding up [f] rounded products, with unit roundoff [u]. *)
Definition sum_error (f : nat) (u : R) : R := ((1 + u) ^ f - 1)%R.

(** [ids] are [n] of the candidates, best first, up to an error [E] in each score. *)
Record nearly_best (exact : nat -> R) (E : R) (cands : list nat) (n : nat) (ids : list nat) (scores : list R) : Prop := {
  nb_length : length ids = n;
  nb_nodup : NoDup ids;
  nb_incl : forall i, In i ids -> In i cands;
  nb_scores : Forall2 (fun i s => Rabs (s - exact i) <= E)%R ids scores;
  nb_sorted : StronglySorted (fun i j => exact j <= exact i + 2 * E)%R ids;
  nb_best : forall i j, In i ids -> In j cands -> ~ In j ids -> (exact j <= exact i + 2 * E)%R
}.

(** Items that the filters take away from the [g]-th user of the query. *)
Definition filtered_out {T} (M : csr T) (fl : bool) (fi : option arr) (n g i : nat) : Prop :=
  (fl = true /\ exists v, In (i, v) (csr_row M g)) \/
  (exists a z, fi = Some a /\ In z (arr_list a) /\ (z = Z.of_nat i \/ z = Z.of_nat i - Z.of_nat n)%Z).

(** What the theorems assume of the call: rectangular factors, known users, likes and filters inside the model, and
    for every user at least N items left, with scores above the filler. *)
Record query_ok (fmin B u : R) (m : mf R) (f : nat) (us : list Z) (M : csr R) (N : Z) (fl : bool) (fi : option arr) (allowed : nat -> list nat) : Prop := {
  q_users : forall x, In x (user_factors m) -> length x = f;
  q_items : forall y, In y (item_factors m) -> length y = f /\ (spec_norm y <= B)%R;
  q_some : item_factors m <> [];
  q_ids : forall z, In z us -> (0 <= z < Z.of_nat (length (user_factors m)))%Z;
  q_N : (1 <= N)%Z;
  q_rows : fl = true -> c_rows M = length us;
  q_likes : fl = true -> forall g i v, g < length us -> In (i, v) (csr_row M g) -> i < length (item_factors m);
  q_filter : forall a z, fi = Some a -> In z (arr_list a) -> (- Z.of_nat (length (item_factors m)) <= z < Z.of_nat (length (item_factors m)))%Z;
  q_allowed : forall g i, g < length us -> In i (allowed g) <-> i < length (item_factors m) /\ ~ filtered_out M fl fi (length (item_factors m)) g i;
  q_nodup : forall g, g < length us -> NoDup (allowed g);
  q_enough : forall g, g < length us -> Z.to_nat N <= length (allowed g);
  q_high : forall g i, g < length us -> In i (allowed g) ->
    let x := nth (Z.to_nat (nth g us 0%Z)) (user_factors m) [] in
    (fmin + sum_error f u * (spec_norm x * B) < spec_dot x (nth i (item_factors m) []))%R
}.

Lemma choose_rows {A} (d : A) (P : nat -> A -> Prop) n : (forall g, g < n -> exists x, P g x) -> exists l, length l = n /\ forall g, g < n -> P g (nth g l d).
Proof.
  induction n; intros HP; [exists []; split; [auto|lia]|]. destruct IHn as (l & L & HL); [intros; apply HP; lia|]. destruct (HP n) as (x & Hx); [lia|].
  exists (l ++ [x]). split; [rewrite app_length; cbn; lia|]. intros g Hg. destruct (Nat.eq_dec g n) as [->|NE].
  - rewrite app_nth2, L, Nat.sub_diag by lia. auto.
  - rewrite app_nth1 by lia. apply HL. lia.
Qed.

Section Rows.
Variables (rnd : R -> R) (u B : R).
Hypothesis RE : (forall x, Rabs (rnd x - x) <= u * Rabs x)%R.
Hypothesis U0 : (0 <= u)%R.

Lemma entry_err x y f s : length x = f -> length y = f -> (spec_norm y <= B)%R ->
  (combine x y = [] /\ s = 0%R) \/ @summed R (Num_rnd rnd) (fma_rnd rnd) (combine x y) s -> (Rabs (s - spec_dot x y) <= sum_error f u * (spec_norm x * B))%R.
Proof.
  intros Lx Ly NB HS.
  assert (CS : (pabs (combine x y) <= rnorm x * rnorm y)%R) by apply (pabs_cs x y).
  rewrite spec_norm_rnorm in *. pose proof (rnorm_pos x). pose proof (rnorm_pos y).
  assert (P1 : (1 <= (1 + u) ^ f)%R) by (apply pow_R1_Rle; lra). unfold sum_error.
  assert (NN : (0 <= ((1 + u) ^ f - 1) * (rnorm x * B))%R) by (apply Rmult_le_pos; [lra|apply Rmult_le_pos; lra]).
  destruct HS as [[E ->]|HS].
  - unfold spec_dot. rewrite E. cbn [map rsum]. rewrite Rminus_0_r, Rabs_R0. exact NN.
  - destruct (summed_err rnd u RE U0 _ _ HS) as [_ SE]. rewrite combine_length, Lx, Ly, Nat.min_id in SE. eapply Rle_trans; [exact SE|].
    apply Rmult_le_compat_l; [lra|]. eapply Rle_trans; [exact CS|]. apply Rmult_le_compat_l; lra.
Qed.

Variables (gemm : list (list R) -> list (list R) -> list (list R)).
Hypothesis BL : @blas_ok R (Num_rnd rnd) (fma_rnd rnd) gemm.

Lemma blas_rows HP fmin m f us M N fl fi allowed : std_heap_ok HP -> us <> [] -> query_ok fmin B u m f us M N fl fi allowed ->
  exists I S, recommend_blas gemm HP fmin m (Batch us) (Csr M) N fl fi = Ok (ManyRows (map (map Z.of_nat) I) S) /\ length I = length us /\ length S = length us /\
    forall g, g < length us -> exists t, @TopN R Num_R t (allowed g) (Z.to_nat N) (nth g I []) (nth g S []) /\
      let x := nth (Z.to_nat (nth g us 0%Z)) (user_factors m) [] in
      forall i, i < length (item_factors m) -> (Rabs (t i - spec_dot x (nth i (item_factors m) [])) <= sum_error f u * (spec_norm x * B))%R.
Proof.
  intros HC NE Q. destruct Q as [QU QI QS QD QN QR QL QF QA QND QE QH].
  assert (SH : forall Q Y : list (list R), length (gemm Q Y) = length Q /\ forall i, i < length Q -> length (nth i (gemm Q Y) []) = length Y).
  { intros Q Y. destruct (BL Q Y) as [X1 X2]. split; auto. intros i Hi. apply X2; auto. }
  set (user := map (fun z => nth (Z.to_nat z) (user_factors m) []) us).
  assert (LU : length user = length us) by (unfold user; apply map_length).
  rewrite (recommend_blas_batch gemm SH HP fmin m f no_recalc us (Csr M) N fl fi QU (fun y Hy => proj1 (QI y Hy)) QD). fold user.
  set (m' := score_model gemm m user).
  set (t := fun g i => nth i (score_matrix gemm (item_factors m) user g) 0%R).
  assert (LUN : length (units (length user)) = length us) by (unfold units; rewrite map_length, seq_length; auto).
  assert (LSC : length (score_cols gemm (item_factors m) user) = length (item_factors m)) by (unfold score_cols; rewrite map_length, seq_length; auto).
  assert (ERR : forall g, g < length us -> let x := nth (Z.to_nat (nth g us 0%Z)) (user_factors m) [] in
    forall i, i < length (item_factors m) -> (Rabs (t g i - spec_dot x (nth i (item_factors m) [])) <= sum_error f u * (spec_norm x * B))%R).
  { intros g Hg x i Hi. unfold t, score_matrix. set (b := g / topk_batch_size).
    set (q := slice (b * topk_batch_size) (Nat.min (b * topk_batch_size + topk_batch_size) (length user)) user).
    assert (GB : b * topk_batch_size <= g < b * topk_batch_size + topk_batch_size).
    { unfold b. pose proof (Nat.div_mod g topk_batch_size). pose proof (Nat.mod_upper_bound g topk_batch_size). unfold topk_batch_size in *. lia. }
    assert (LQ : g - b * topk_batch_size < length q) by (unfold q; rewrite slice_length by lia; lia).
    destruct (BL q (item_factors m)) as [_ X]. destruct (X _ LQ) as [_ X2]. specialize (X2 i Hi). cbv zeta in X2.
    assert (EX : nth (g - b * topk_batch_size) q [] = x).
    { unfold q. rewrite nth_slice by lia. replace (b * topk_batch_size + (g - b * topk_batch_size)) with g by lia. unfold user, x.
      rewrite (nth_indep _ [] ((fun z => nth (Z.to_nat z) (user_factors m) []) 0%Z)) by (rewrite map_length; auto). rewrite (map_nth (fun z => nth (Z.to_nat z) (user_factors m) [])). auto. }
    rewrite EX in X2. destruct (QI (nth i (item_factors m) []) (nth_In _ _ Hi)) as [LY NY].
    apply entry_err; auto. unfold x. apply QU, nth_In. pose proof (QD (nth g us 0%Z) (nth_In _ _ Hg)). lia. }
  assert (MS : forall g i, g < length us -> i < length (item_factors m) -> @mf_score R Num_R m' (Z.of_nat g) i = t g i).
  { intros g i Hg Hi. unfold mf_score, m', score_model. cbn [user_factors item_factors]. rewrite Nat2Z.id. apply (score_cols_dot gemm); auto. rewrite LU; auto. }
  assert (ROW : forall g, g < length us -> exists p : list nat * list R,
    @recommend R Num_R HP fmin m' no_recalc (Scalar (Z.of_nat g)) (Csr (csr_take_row M g)) N fl fi false None = Ok (OneRow (map Z.of_nat (fst p)) (snd p)) /\
    @TopN R Num_R (t g) (allowed g) (Z.to_nat N) (fst p) (snd p)).
  { intros g Hg. set (excl := fun i => negb (existsb (Nat.eqb i) (allowed g))).
    assert (EX : forall i, excl i = false <-> In i (allowed g)).
    { intros i. unfold excl. rewrite negb_false_iff, existsb_exists. split; [intros (j & Hj & E); apply Nat.eqb_eq in E; subst; auto|intros Hi; exists i; split; [auto|apply Nat.eqb_refl]]. }
    assert (CK : call_ok m' (Z.of_nat g) N fl (Csr (csr_take_row M g)) fi).
    { unfold call_ok, m', score_model. cbn [user_factors item_factors]. rewrite LUN, LSC. split; [|split; [lia|split; [exact QN|split; [|split]]]].
      - exists (length user). split.
        + intros y Hy. unfold units in Hy. apply in_map_iff in Hy. destruct Hy as (i & <- & _). unfold unit_row. rewrite map_length, seq_length. auto.
        + intros y Hy. unfold score_cols in Hy. apply in_map_iff in Hy. destruct Hy as (i & <- & _). rewrite map_length, seq_length. auto.
      - intros X. apply QS. apply length_zero_iff_nil. rewrite <- LSC, X. auto.
      - intros F. exists (csr_take_row M g). split; auto. split; [reflexivity|]. intros i v HI. rewrite csr_take_row_row in HI. eapply QL; eauto.
      - exact QF. }
    destruct (@C03_filtered_never_outrank R Num_R NumOrd_R HP fmin m' no_recalc (Z.of_nat g) (Csr (csr_take_row M g)) N fl fi excl HC CK) as (good & bad & gs & EQ & TN & BB & BE).
    - unfold m', score_model. cbn [item_factors]. rewrite LSC. intros i Hi. destruct (excl i) eqn:EI.
      + split; auto. intros _. assert (NA : ~ In i (allowed g)) by (intros X; apply EX in X; congruence).
        assert (FO : ~ ~ filtered_out M fl fi (length (item_factors m)) g i) by (intros X; apply NA, QA; auto).
        (* filtered_out is decidable *)
        assert (D1 : (exists v, In (i, v) (csr_row M g)) \/ ~ exists v, In (i, v) (csr_row M g)).
        { destruct (in_dec Nat.eq_dec i (map fst (csr_row M g))) as [Y|Y].
          - left. apply in_map_iff in Y. destruct Y as ([j v] & <- & Y). eauto.
          - right. intros (v & Y'). apply Y. apply in_map_iff. exists (i, v). auto. }
        assert (D2 : (exists a z, fi = Some a /\ In z (arr_list a) /\ (z = Z.of_nat i \/ z = Z.of_nat i - Z.of_nat (length (item_factors m)))%Z) \/
                     ~ exists a z, fi = Some a /\ In z (arr_list a) /\ (z = Z.of_nat i \/ z = Z.of_nat i - Z.of_nat (length (item_factors m)))%Z).
        { destruct fi as [a0|]; [|right; intros (a0 & z & X & _); discriminate].
          destruct (in_dec Z.eq_dec (Z.of_nat i) (arr_list a0)) as [Y|Y]; [left; exists a0, (Z.of_nat i); auto|].
          destruct (in_dec Z.eq_dec (Z.of_nat i - Z.of_nat (length (item_factors m)))%Z (arr_list a0)) as [Y'|Y']; [left; exists a0, (Z.of_nat i - Z.of_nat (length (item_factors m)))%Z; auto|].
          right. intros (a1 & z & X & Hz & [->| ->]); inversion X; subst; auto. }
        destruct fl; [destruct D1 as [(v & Y)|Y]; [left; split; auto; exists (csr_take_row M g), v; rewrite csr_take_row_row; auto|]|]; (destruct D2 as [Z2|Z2]; [right; exact Z2|]);
          exfalso; apply FO; intros [[F (v & Y0)]|Y2]; first [discriminate|solve [apply Y; eauto]|solve [apply Z2; exact Y2]].
      + split; [discriminate|]. apply EX, QA in EI; auto. destruct EI as [_ NF]. intros [[F (M' & v & E & Y)]|Y]; exfalso; apply NF.
        * left. split; auto. inversion E; subst. rewrite csr_take_row_row in Y. eauto.
        * right. exact Y.
    - unfold m', score_model. cbn [item_factors]. rewrite LSC. intros i Hi. apply filter_In in Hi. destruct Hi as [Hi1 Hi2]. apply in_seq in Hi1. apply negb_true_iff, EX in Hi2.
      rewrite MS by lia. pose proof (QH g i Hg Hi2) as X. pose proof (ERR g Hg i ltac:(lia)) as Y. cbv zeta in X, Y.
      cbn [nltb Num_R]. unfold Rltb. destruct (Rlt_dec fmin (t g i)) as [|NL]; auto. exfalso. apply NL.
      set (e := (sum_error f u * _)%R) in *. set (d := spec_dot _ _) in *. unfold Rabs in Y. destruct (Rcase_abs (t g i - d)); lra.
    - assert (LM : length (item_factors m') = length (item_factors m)) by exact LSC. rewrite LM in TN, EQ, BE.
      set (al := filter (fun i => negb (excl i)) (seq 0 (length (item_factors m)))) in *.
      assert (ALL : forall i, In i al <-> In i (allowed g)).
      { intros i. unfold al. rewrite filter_In, negb_true_iff, EX, in_seq. split; [tauto|]. intros Hi. split; auto. apply QA in Hi; auto. lia. }
      assert (LA : length al = length (allowed g)).
      { apply Permutation_length, NoDup_Permutation; auto. unfold al. apply NoDup_filter, seq_NoDup. }
      assert (bad = []).
      { apply BE. fold al. rewrite LA. auto. }
      subst bad. rewrite Nat.min_l in TN by (rewrite LA; auto).
      assert (NI : Z.to_nat N - length (item_factors m) = 0).
      { assert (length al <= length (item_factors m)) by (unfold al; etransitivity; [apply filter_len_le|rewrite seq_length; auto]). rewrite LA in *. specialize (QE g Hg). lia. }
      rewrite NI in EQ. cbn [repeat length] in EQ. rewrite !app_nil_r in EQ. exists (good, gs). cbn [fst snd]. split; [exact EQ|].
      assert (GI : forall i, In i good -> i < length (item_factors m)) by (intros i Hi; apply (topn_incl _ _ _ _ _ TN), ALL, QA in Hi; tauto).
      constructor.
      + apply (topn_length _ _ _ _ _ TN).
      + rewrite (topn_scores _ _ _ _ _ TN). apply map_ext_in. intros i Hi. apply MS; auto.
      + apply (topn_nodup _ _ _ _ _ TN).
      + intros i Hi. apply ALL, (topn_incl _ _ _ _ _ TN); auto.
      + eapply ss_map_in; [|apply (topn_sorted _ _ _ _ _ TN)]. intros i j Hi Hj. cbv beta. rewrite !MS by auto. auto.
      + intros i j Hi Hj NJ. assert (JL : j < length (item_factors m)) by (apply QA in Hj; tauto). rewrite <- !MS by auto. apply (topn_best _ _ _ _ _ TN); auto. apply ALL; auto. }
  destruct (choose_rows ([], []) _ _ ROW) as (L & LL & HL).
  exists (map fst L), (map snd L). rewrite !map_length.
  assert (NL : forall g, g < length us -> nth g (map fst L) [] = fst (nth g L ([], [])) /\ nth g (map snd L) [] = snd (nth g L ([], []))).
  { intros g Hg. split; [apply (map_nth fst L (@nil nat, @nil R))|apply (map_nth snd L (@nil nat, @nil R))]. }
  split; [|split; [auto|split; [auto|]]].
  - apply (@C02_recommend_batch_is_scalar R Num_R NumOrd_R HP fmin m' no_recalc (map Z.of_nat (seq 0 (length us))) M N fl fi false None).
    + auto.
    + intros X. apply NE. apply length_zero_iff_nil. rewrite <- (seq_length (length us) 0), <- (map_length Z.of_nat), X. auto.
    + lia.
    + unfold m', score_model. cbn [item_factors]. intros X. apply QS. apply length_zero_iff_nil. rewrite <- LSC, X. auto.
    + apply no_recalc_rowwise.
    + rewrite !map_length, seq_length. split; [rewrite orb_false_r; auto|]. split; [auto|split; [auto|]]. intros g Hg. destruct (HL g Hg) as [X _]. destruct (NL g Hg) as [N1 N2].
      rewrite (nth_indep _ 0%Z (Z.of_nat 0)) by (rewrite map_length, seq_length; auto). rewrite map_nth, seq_nth by auto. cbn [Nat.add]. rewrite X. f_equal. f_equal; [|rewrite N2; auto].
      rewrite (nth_indep _ [] (map Z.of_nat [])) by (rewrite !map_length, LL; auto). rewrite (map_nth (map Z.of_nat)), N1. auto.
  - intros g Hg. exists (t g). destruct (HL g Hg) as [_ X]. destruct (NL g Hg) as [N1 N2]. rewrite N1, N2. split; auto. cbv zeta. apply ERR; auto.
Qed.
End Rows.

(** A single query is a batch of one. *)
Lemma scalar_is_batch1 {T} `{Num T} gemm HP fmin (m : mf T) z ui N fl fi I S :
  recommend_blas gemm HP fmin m (Batch [z]) ui N fl fi = Ok (ManyRows (map (map Z.of_nat) I) S) ->
  recommend_blas gemm HP fmin m (Scalar z) ui N fl fi = Ok (OneRow (map Z.of_nat (nth 0 I [])) (nth 0 S [])).
Proof.
  unfold recommend_blas. cbn [id_list]. destruct (if fl then _ else _) as [[]|]; cbn [bind]; [|discriminate].
  destruct (gather (user_factors m) [z]) as [us|]; cbn [bind]; [|discriminate].
  destruct (topk_blas _ _ _ _ _ _ _ _) as [[ids sc]|]; cbn [bind]; [|discriminate]. unfold finish. cbn [fst snd].
  intros X. inversion X as [[X1 X2]]. f_equal. f_equal. unfold remap in *. change (map Z.of_nat (nth 0 ids [])) with (map Z.of_nat (nth 0 ids (@nil nat))). rewrite <- (map_nth (map Z.of_nat) ids []), <- (map_nth (map Z.of_nat) I []). f_equal. exact X1.
Qed.

(** Every row of a batch answer, whatever BLAS does: only items that are not filtered, N of them, every score right up
    to the rounding error, and nothing left out that is better by more than twice the rounding error. *)
Theorem C160_any_summation : forall (rnd : R -> R) (u B : R) gemm (HP : std_heap) (fmin : R) (m : mf R) (f : nat) us M N fl fi allowed,
  (forall x, Rabs (rnd x - x) <= u * Rabs x)%R -> (0 <= u)%R -> @blas_ok R (Num_rnd rnd) (fun a b c => rnd (a * b + c)%R) gemm ->
  std_heap_ok HP -> us <> [] -> query_ok fmin B u m f us M N fl fi allowed ->
  exists I S, recommend_blas gemm HP fmin m (Batch us) (Csr M) N fl fi = Ok (ManyRows (map (map Z.of_nat) I) S) /\ length I = length us /\ length S = length us /\
    forall g, g < length us ->
      let x := nth (Z.to_nat (nth g us 0%Z)) (user_factors m) [] in
      nearly_best (fun i => spec_dot x (nth i (item_factors m) [])) (sum_error f u * (spec_norm x * B)) (allowed g) (Z.to_nat N) (nth g I []) (nth g S []).
Proof.
  intros rnd u B gemm HP fmin m f us M N fl fi allowed RE U0 BL HC NE Q.
  destruct (blas_rows rnd u B RE U0 gemm BL HP fmin m f us M N fl fi allowed HC NE Q) as (I & S & EQ & LI & LS & RW).
  exists I, S. split; [exact EQ|]. split; [auto|split; [auto|]]. intros g Hg x. destruct (RW g Hg) as (t & TN & ERR). fold x in ERR. cbv zeta in ERR.
  assert (AL : forall i, In i (allowed g) -> i < length (item_factors m)) by (intros i Hi; apply (q_allowed _ _ _ _ _ _ _ _ _ _ _ Q) in Hi; tauto).
  assert (IN : forall i, In i (nth g I []) -> In i (allowed g)) by (intros i Hi; apply (topn_incl _ _ _ _ _ TN); auto).
  set (E := (sum_error f u * (spec_norm x * B))%R) in *.
  assert (CMP : forall i j, i < length (item_factors m) -> j < length (item_factors m) -> @nleb R Num_R (t j) (t i) = true ->
    (spec_dot x (nth j (item_factors m) []) <= spec_dot x (nth i (item_factors m) []) + 2 * E)%R).
  { intros i j Hi Hj L. apply nleb_R in L. pose proof (ERR i Hi) as A. pose proof (ERR j Hj) as C. unfold Rabs in A, C.
    destruct (Rcase_abs (t i - _)), (Rcase_abs (t j - _)); lra. }
  constructor.
  - apply (topn_length _ _ _ _ _ TN).
  - apply (topn_nodup _ _ _ _ _ TN).
  - exact IN.
  - rewrite (topn_scores _ _ _ _ _ TN). clear - ERR IN AL. induction (nth g I []) as [|i l IH]; cbn [map]; constructor; [apply ERR, AL, IN; left; auto|apply IH; intros j Hj; apply IN; right; auto].
  - eapply ss_map_in; [|apply (topn_sorted _ _ _ _ _ TN)]. intros i j Hi Hj. apply CMP; auto.
  - intros i j Hi Hj NJ. apply CMP; auto. apply (topn_best _ _ _ _ _ TN); auto.
Qed.
Print Assumptions C160_any_summation.

(** A batch call and a single call (on another machine, or with another shape of the operands): the scores at every
    position of the two answers differ by at most twice the rounding error. *)
Theorem C160_batch_scalar_partial : forall (rnd : R -> R) (u B : R) gemm gemm' (HP : std_heap) (fmin : R) (m : mf R) (f : nat) us M N fl fi allowed,
  (forall x, Rabs (rnd x - x) <= u * Rabs x)%R -> (0 <= u)%R ->
  @blas_ok R (Num_rnd rnd) (fun a b c => rnd (a * b + c)%R) gemm -> @blas_ok R (Num_rnd rnd) (fun a b c => rnd (a * b + c)%R) gemm' ->
  std_heap_ok HP -> us <> [] -> query_ok fmin B u m f us M N fl fi allowed ->
  exists I S, recommend_blas gemm HP fmin m (Batch us) (Csr M) N fl fi = Ok (ManyRows I S) /\ length S = length us /\
    forall g, g < length us ->
      let x := nth (Z.to_nat (nth g us 0%Z)) (user_factors m) [] in
      exists ids sc, recommend_blas gemm' HP fmin m (Scalar (nth g us 0%Z)) (Csr (csr_take_row M g)) N fl fi = Ok (OneRow ids sc) /\ length sc = Z.to_nat N /\
        length (nth g S []) = Z.to_nat N /\
        forall k, k < Z.to_nat N -> (Rabs (nth k (nth g S []) 0 - nth k sc 0) <= 2 * (sum_error f u * (spec_norm x * B)))%R.
Proof.
  intros rnd u B gemm gemm' HP fmin m f us M N fl fi allowed RE U0 BL BL' HC NE Q.
  destruct (blas_rows rnd u B RE U0 gemm BL HP fmin m f us M N fl fi allowed HC NE Q) as (I & S & EQ & LI & LS & RW).
  exists (map (map Z.of_nat) I), S. split; [exact EQ|]. split; [auto|]. intros g Hg x. destruct (RW g Hg) as (t & TN & ERR). fold x in ERR. cbv zeta in ERR.
  set (z := nth g us 0%Z) in *. assert (ZI : In z us) by (apply nth_In; auto).
  assert (Q1 : query_ok fmin B u m f [z] (csr_take_row M g) N fl fi (fun _ => allowed g)).
  { destruct Q as [QU QI QS QD QN QR QL QF QA QND QE QH]. constructor; auto.
    - intros y [<-|[]]. auto.
    - intros F g' i v Hg' HI. cbn in Hg'. assert (g' = 0) by lia. subst g'. rewrite csr_take_row_row in HI. eapply QL; eauto.
    - intros g' i Hg'. cbn in Hg'. assert (g' = 0) by lia. subst g'. rewrite QA by auto. unfold filtered_out. rewrite csr_take_row_row. tauto.
    - intros g' i Hg' Hi. cbn in Hg'. assert (g' = 0) by lia. subst g'. cbn [nth]. apply QH; auto. }
  destruct (blas_rows rnd u B RE U0 gemm' BL' HP fmin m f [z] (csr_take_row M g) N fl fi (fun _ => allowed g) HC ltac:(discriminate) Q1) as (I' & S' & EQ' & LI' & LS' & RW').
  destruct (RW' 0 ltac:(cbn; lia)) as (t' & TN' & ERR'). cbn [nth] in ERR'. fold x in ERR'. cbv zeta in ERR'.
  exists (map Z.of_nat (nth 0 I' [])), (nth 0 S' []). split; [apply (scalar_is_batch1 gemm'); auto|].
  assert (L1 : length (nth g S []) = Z.to_nat N) by (rewrite (topn_scores _ _ _ _ _ TN), map_length; apply (topn_length _ _ _ _ _ TN)).
  assert (L2 : length (nth 0 S' []) = Z.to_nat N) by (rewrite (topn_scores _ _ _ _ _ TN'), map_length; apply (topn_length _ _ _ _ _ TN')).
  split; [auto|split; [auto|]]. intros k Hk.
  set (E := (sum_error f u * (spec_norm x * B))%R) in *.
  assert (D : forall i, In i (allowed g) -> (Rabs (t i - t' i) <= 2 * E)%R).
  { intros i Hi. assert (Li : i < length (item_factors m)) by (apply (q_allowed _ _ _ _ _ _ _ _ _ _ _ Q) in Hi; tauto).
    pose proof (ERR i Li) as A. pose proof (ERR' i Li) as C. replace (t i - t' i)%R with ((t i - spec_dot x (nth i (item_factors m) [])) - (t' i - spec_dot x (nth i (item_factors m) [])))%R by ring.
    unfold Rminus at 1. eapply Rle_trans; [apply Rabs_triang|]. rewrite Rabs_Ropp. lra. }
  pose proof (rankings_close _ _ _ _ _ _ _ _ _ TN TN' D k Hk) as X1.
  assert (D' : forall i, In i (allowed g) -> (Rabs (t' i - t i) <= 2 * E)%R) by (intros i Hi; rewrite Rabs_minus_sym; auto).
  pose proof (rankings_close _ _ _ _ _ _ _ _ _ TN' TN D' k Hk) as X2.
  unfold Rabs. destruct (Rcase_abs _); lra.
Qed.
Print Assumptions C160_batch_scalar_partial.

(** Two ways to add: from the left and from the right. *)
Definition dot_left {T} `{Num T} (x y : list T) : T :=
  match combine x y with [] => nzero | p :: l => fold_left (fun s q => nadd s (nmul (fst q) (snd q))) l (nmul (fst p) (snd p)) end.
Definition dot_right {T} `{Num T} (x y : list T) : T := dot_left (rev x) (rev y).
Lemma fold_summed {T} `{Num T} fma l : forall k s, summed fma k s -> summed fma (k ++ l) (fold_left (fun s q => nadd s (nmul (fst q) (snd q))) l s).
Proof.
  induction l as [|[a0 b0] l IH]; intros k s HS; cbn [fold_left]; [rewrite app_nil_r; auto|].
  replace (k ++ (a0, b0) :: l) with ((k ++ [(a0, b0)]) ++ l) by (rewrite <- app_assoc; auto). apply IH. apply sum_add; auto. apply sum_prod.
Qed.
Lemma dot_left_summed {T} `{Num T} fma (x y : list T) : (combine x y = [] /\ dot_left x y = nzero) \/ summed fma (combine x y) (dot_left x y).
Proof.
  unfold dot_left. destruct (combine x y) as [|[a0 b0] l]; [left; auto|]. right. apply (fold_summed fma l [(a0, b0)]). apply sum_prod.
Qed.
Lemma combine_rev {A B} (x : list A) (y : list B) : length x = length y -> combine (rev x) (rev y) = rev (combine x y).
Proof.
  revert y. induction x as [|a0 x IH]; intros [|b0 y] L; cbn in L; try lia; auto. cbn [rev combine]. rewrite <- IH by lia.
  assert (LR : length (rev x) = length (rev y)) by (rewrite !rev_length; lia). generalize dependent (rev y). generalize (rev x). clear.
  induction l as [|c l IH]; intros [|d k] LR; cbn in *; try lia; auto. rewrite IH by lia. auto.
Qed.
(** A library that adds from the left for a single query and from the right otherwise. *)
Definition gemm_two {T} `{Num T} (Q Y : list (list T)) : list (list T) :=
  map (fun x => map (fun y => if (length Q =? 1) || negb (length x =? length y) then dot_left x y else dot_right x y) Y) Q.
Lemma gemm_two_ok {T} `{Num T} fma : blas_ok fma gemm_two.
Proof.
  intros Q Y. unfold gemm_two. rewrite map_length. split; auto. intros i Hi.
  set (F := fun x => map (fun y => if (length Q =? 1) || negb (length x =? length y) then dot_left x y else dot_right x y) Y).
  rewrite (nth_indep _ [] (F [])) by (rewrite map_length; auto). rewrite (map_nth F). unfold F. rewrite map_length. split; auto. intros j Hj. cbv zeta.
  set (x := nth i Q []). set (G := fun y => if (length Q =? 1) || negb (length x =? length y) then dot_left x y else dot_right x y).
  rewrite (nth_indep _ nzero (G [])) by (rewrite map_length; auto). rewrite (map_nth G). unfold G. set (y := nth j Y []).
  destruct ((length Q =? 1) || negb (length x =? length y)) eqn:C; [apply dot_left_summed|].
  apply orb_false_iff in C. destruct C as [_ C]. apply negb_false_iff, Nat.eqb_eq in C. unfold dot_right.
  destruct (dot_left_summed fma (rev x) (rev y)) as [[E1 E2]|S1]; rewrite combine_rev in * by auto.
  - left. split; auto. apply length_zero_iff_nil. rewrite <- rev_length, E1. auto.
  - right. eapply sum_perm; [|exact S1]. apply Permutation_sym, Permutation_rev.
Qed.

(** The full claim, that a batch answers exactly what single queries answer, does not survive: with the user (1,1,1)
    and the items (1, 2^-24, 2^-24) and (1 + 2^-23, 0, 0) in float32, the single query recommends item 1 and the batch
    item 0 for the same user, although the library adds up the right products each time. *)
Definition p24 : f32 := S754_finite false 8388608 (-47).
Definition one_ulp : f32 := S754_finite false 8388609 (-23).
Theorem C160_refuted : exists (gemm : list (list f32) -> list (list f32) -> list (list f32)) (m : mf f32) ids sc I S,
  (forall fma, blas_ok fma gemm) /\
  recommend_blas gemm gnu_heap f32_min m (Scalar 0%Z) NotCsr 1 false None = Ok (OneRow ids sc) /\
  recommend_blas gemm gnu_heap f32_min m (Batch [0; 0]%Z) NotCsr 1 false None = Ok (ManyRows I S) /\
  ids = [1]%Z /\ I = [[0]; [0]]%Z.
Proof.
  exists gemm_two, {| user_factors := [[f32_one; f32_one; f32_one]]; item_factors := [[f32_one; p24; p24]; [one_ulp; S754_zero false; S754_zero false]] |},
    [1]%Z, [one_ulp], [[0]; [0]]%Z, [[one_ulp]; [one_ulp]].
  split; [intros fma; apply gemm_two_ok|]. repeat apply conj; vm_compute; reflexivity.
Qed.
Print Assumptions C160_refuted.

(** The hypotheses hold of a small model with a liked item and a filter, rounding to 24 bits. *)
Example C160_example : let m := {| user_factors := [[1; 1]; [0; 2]]; item_factors := [[1; 2]; [3; 0]; [1; 1]; [2; 1]] |}%R in
  let M := csr_of_rows 4 [[(0, 1%R)]; []] in
  (forall x, Rabs (rnd_p 24 x - x) <= powerRZ 2 (-24) * Rabs x)%R /\ @blas_ok R (Num_rnd (rnd_p 24)) (fun a b c => rnd_p 24 (a * b + c)%R) (@gemm_two R (Num_rnd (rnd_p 24))) /\
  (sum_error 2 (powerRZ 2 (-24)) < 1 / 8000000)%R /\
  query_ok (-1000)%R 4%R (powerRZ 2 (-24)) m 2 [0; 1]%Z M 2 true (Some (PyList [3]%Z)) (fun g => if g =? 0 then [1; 2] else [0; 1; 2]).
Proof.
  cbv zeta. split; [apply (rnd_p_rel 24); lia|]. split; [apply (@gemm_two_ok R (Num_rnd (rnd_p 24)))|].
  assert (U : powerRZ 2 (-24) = (/ 16777216)%R) by (cbn [powerRZ]; f_equal; rewrite pow_IZR; reflexivity).
  assert (SE : (0 <= sum_error 2 (powerRZ 2 (-24)) < 1 / 8000000)%R) by (unfold sum_error; rewrite U; cbn [pow]; lra).
  split; [apply SE|].
  assert (NB : forall y, (rsum (map (fun a => a * a) y) <= 16)%R -> (0 <= spec_norm y <= 4)%R).
  { intros y Hy. split; [apply sqrt_pos|]. unfold spec_norm. rewrite <- (sqrt_square 4) by lra. apply sqrt_le_1_alt. lra. }
  constructor; cbn [user_factors item_factors length].
  - intros x [<-|[<-|[]]]; reflexivity.
  - intros y Hy. cbn in Hy. destruct Hy as [<-|[<-|[<-|[<-|[]]]]]; (split; [reflexivity|apply NB; cbn [map rsum]; lra]).
  - discriminate.
  - intros z [<-|[<-|[]]]; lia.
  - lia.
  - reflexivity.
  - intros _ g i v Hg. destruct g as [|[|g]]; [| |lia]; vm_compute; [intros [E|[]]; inversion E; lia|tauto].
  - intros a0 z E. inversion E; subst. intros [<-|[]]. lia.
  - intros g i Hg. unfold filtered_out. cbn [arr_list].
    assert (F : forall P, (exists a0 z, Some (PyList [3%Z]) = Some a0 /\ In z (arr_list a0) /\ (z = Z.of_nat i \/ z = Z.of_nat i - Z.of_nat 4)%Z) <-> (i = 3 \/ i = 7) \/ (P /\ False)).
    { intros P. split; [intros (a0 & z & E & Hz & D); inversion E; subst; destruct Hz as [<-|[]]; left; lia|]. intros [D|[_ []]]. exists (PyList [3%Z]), 3%Z. split; auto. split; [left; auto|lia]. }
    rewrite (F True). destruct g as [|[|g]]; [| |lia].
    + cbn [Nat.eqb]. assert (G : (exists v, In (i, v) (csr_row (csr_of_rows 4 [[(0, 1%R)]; []]) 0)) <-> i = 0).
      { vm_compute. split; [intros (v & [E|[]]); inversion E; auto|intros ->; eexists; left; reflexivity]. }
      rewrite G. cbn [In]. lia.
    + cbn [Nat.eqb]. assert (G : (exists v, In (i, v) (csr_row (csr_of_rows 4 [[(0, 1%R)]; []]) 1)) <-> False).
      { vm_compute. split; [intros (v & [])|tauto]. }
      rewrite G. cbn [In]. lia.
  - intros g Hg. destruct (g =? 0); repeat constructor; cbn; lia.
  - intros g Hg. destruct (g =? 0); cbn; lia.
  - intros g i Hg Hi. cbv zeta.
    assert (SM : forall x, (rsum (map (fun a => a * a) x) <= 16)%R -> (sum_error 2 (powerRZ 2 (-24)) * (spec_norm x * 4) <= 1)%R).
    { intros x Hx. destruct (NB x Hx) as [N0 N4]. assert (sum_error 2 (powerRZ 2 (-24)) * (spec_norm x * 4) <= (1 / 8000000) * 16)%R by (apply Rmult_le_compat; lra). lra. }
    destruct g as [|[|g]]; [| |lia]; cbn [Nat.eqb] in Hi; cbn [nth Z.to_nat].
    + pose proof (SM [1; 1]%R ltac:(cbn [map rsum]; lra)). destruct Hi as [<-|[<-|[]]]; unfold spec_dot; cbn [nth combine map rsum fst snd]; lra.
    + pose proof (SM [0; 2]%R ltac:(cbn [map rsum]; lra)). change (Pos.to_nat 1) with 1. cbn [nth]. destruct Hi as [<-|[<-|[<-|[]]]]; unfold spec_dot; cbn [nth combine map rsum fst snd]; lra.
Qed.
