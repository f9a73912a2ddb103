(** What weighting does to the scale and the sign of the counts: properties C130 and C131 of properties.jsonl. *)
From Coq Require Import List Arith Lia Bool ZArith Permutation Reals Lra.
From Verif Require Import Base Num Heap Sparse TopkModel TopkSpec TopkProofs RVec RecommendModel KnnModel KnnProofs PropKnn WeightModel WeightProofs PropWeight
  AlsModel AlsSpec AlsProofs PosvImpl AlsProofs2 BprProofs PropAls PropAlsMono.
Import ListNotations.
Local Open Scope R_scope.

(* ------------------------------------------------------------------ C130 *)
(** [m'] holds the counts of [m] with those of item [i] multiplied by [f i]. *)
Definition item_scaled (f : nat -> R) (m m' : csr R) : Prop :=
  c_rows m' = c_rows m /\ c_cols m' = c_cols m /\
  forall u, (u < c_rows m)%nat -> csr_row m' u = map (fun p => (fst p, f (fst p) * snd p)) (csr_row m u).

Definition scale_rows_by (f : nat -> R) (X : coo R) : coo R := set_data (fun e => f (erow e) * eval_ e) X.

Lemma item_scaled_coo f m m' : item_scaled f m m' -> coo_T (coo_of_csr m') = scale_rows_by f (coo_T (coo_of_csr m)).
Proof.
  intros [R1 [C1 RW]]. unfold coo_T, coo_of_csr, scale_rows_by, set_data. cbn [o_rows o_cols o_entries]. rewrite R1, C1. f_equal.
  rewrite !map_map. unfold erow, ecol, eval_. cbn [fst snd].
  assert (G : forall l, (forall u, In u l -> (u < c_rows m)%nat) ->
    map (fun x : nat * nat * R => (snd (fst x), fst (fst x), snd x)) (flat_map (fun u => map (fun p => (u, fst p, snd p)) (csr_row m' u)) l) =
    map (fun x : nat * nat * R => (snd (fst x), fst (fst x), f (snd (fst x)) * snd x)) (flat_map (fun u => map (fun p => (u, fst p, snd p)) (csr_row m u)) l)).
  { induction l as [|u l IH]; intros B; auto. cbn [flat_map]. rewrite !map_app, IH by (intros; apply B; right; auto). f_equal.
    rewrite RW by (apply B; left; auto). rewrite !map_map. apply map_ext. intros [i v]. reflexivity. }
  apply G. intros u Hu. apply in_seq in Hu. lia.
Qed.
Lemma fdiv_scale c a b : c <> 0 -> fdiv (c * a) (c * b) = fdiv a b.
Proof.
  intros C. unfold fdiv. destruct (Req_EM_T b 0) as [->|N].
  - destruct (Req_EM_T (c * 0) 0) as [_|N]; auto. exfalso. apply N. ring.
  - destruct (Req_EM_T (c * b) 0) as [E|_]; [exfalso; apply Rmult_integral in E; tauto|]. f_equal. field. auto.
Qed.
Lemma filter_set_data {A} (f : nat * nat * R -> A) (X : coo R) r (g : A -> R) :
  map (fun e => g (eval_ e)) (filter (fun e => erow e =? r)%nat (o_entries (set_data f X))) =
  map (fun e => g (f e)) (filter (fun e => erow e =? r)%nat (o_entries X)).
Proof.
  unfold set_data. cbn [o_entries]. induction (o_entries X) as [|e l IH]; auto. cbn [map filter]. unfold erow at 1. cbn [fst].
  fold (erow e). destruct (erow e =? r)%nat; cbn [map]; rewrite IH; auto.
Qed.
Lemma scale_total f X r : row_total (fun x => x * x) (scale_rows_by f X) r = (f r * f r) * row_total (fun x => x * x) X r.
Proof.
  unfold row_total, scale_rows_by. rewrite (filter_set_data (fun e => f (erow e) * eval_ e) X r (fun x => x * x)).
  rewrite <- rsum_map_scale. apply rsum_map_ext. intros e He. apply filter_In in He. destruct He as [_ B]. apply Nat.eqb_eq in B. rewrite B. ring.
Qed.
Lemma normalize_scale f X : (forall r, 0 < f r) -> normalize (scale_rows_by f X) = normalize X.
Proof.
  intros P. unfold normalize. unfold scale_rows_by at 2. unfold set_data. cbn [o_rows o_cols o_entries]. f_equal.
  rewrite map_map. unfold erow, ecol, eval_. cbn [fst snd]. apply map_ext. intros [[r c] v]. cbn [fst snd]. f_equal.
  rewrite scale_total. pose proof (P r). rewrite sqrt_mult_alt by nra. rewrite sqrt_square by lra. apply fdiv_scale. lra.
Qed.
Lemma normalize_pos f X Y : (forall r, 0 < f r) -> Y = scale_rows_by f X -> normalize Y = normalize X.
Proof. intros P ->. apply normalize_scale; auto. Qed.

Lemma fsqrt_scale c v : 0 < c -> fsqrt (c * v) = option_map (Rmult (sqrt c)) (fsqrt v).
Proof.
  intros C. unfold fsqrt. destruct (Rlt_dec v 0) as [L|L].
  - destruct (Rlt_dec (c * v) 0) as [_|N]; auto. exfalso. apply N. nra.
  - destruct (Rlt_dec (c * v) 0) as [N|_]; [exfalso; nra|]. cbn. f_equal. apply sqrt_mult; lra.
Qed.
Lemma finite_scale f (X : coo (option R)) (Y : coo (option R)) : o_rows Y = o_rows X -> o_cols Y = o_cols X ->
  o_entries Y = map (fun e => (erow e, ecol e, option_map (Rmult (f (erow e))) (eval_ e))) (o_entries X) ->
  finite Y = option_map (scale_rows_by f) (finite X).
Proof.
  intros R1 C1 E1. unfold finite. rewrite E1, R1, C1.
  assert (G : forall l : list (nat * nat * option R),
    sequence (map eval_ (map (fun e => (erow e, ecol e, option_map (Rmult (f (erow e))) (eval_ e))) l)) =
    option_map (fun vs => map (fun p => f (erow (fst p)) * snd p) (combine l vs)) (sequence (map eval_ l)) /\
    forall vs, sequence (map eval_ l) = Some vs -> length vs = length l).
  { induction l as [|[[r c] o] l [I1 I2]]; [split; [reflexivity|intros vs E; inversion E; auto]|]. cbn [map sequence].
    unfold eval_ at 1 3 5, erow, ecol. cbn [fst snd]. destruct o as [v|]; cbn [option_map]; [|split; [reflexivity|discriminate]].
    unfold eval_, erow, ecol in I1. cbn [fst snd] in I1.
    unfold eval_, erow, ecol. cbn [fst snd]. rewrite I1. destruct (sequence (map (fun e : nat * nat * option R => snd e) l)) as [vs|] eqn:Q; cbn [option_map].
    - split; [cbn [combine map fst snd]; reflexivity|]. intros w E. inversion E. cbn [length]. f_equal. apply I2. exact Q.
    - split; [reflexivity|discriminate]. }
  destruct (G (o_entries X)) as [G1 G2]. rewrite G1. destruct (sequence (map eval_ (o_entries X))) as [vs|]; cbn [option_map]; auto.
  unfold scale_rows_by, set_data. cbn [o_rows o_cols o_entries]. f_equal. f_equal. specialize (G2 vs eq_refl). rewrite map_map. cbn [fst]. clear G1 G E1.
  revert vs G2. induction (o_entries X) as [|[[r c] o] l IH]; destruct vs as [|v vs]; cbn [length]; intros L; try discriminate; auto.
  cbn [map combine]. rewrite IH by lia. reflexivity.
Qed.

(** Multiplying the counts of an item by a positive number changes nothing in the cosine and the tf-idf model; the counts may
    even be negative (the root of a negative count is not a number, before as after). *)
Theorem C130_partial : forall HP K f counts counts', (forall i, 0 < f i) -> item_scaled f counts counts' ->
  cosine_fit HP K counts' = cosine_fit HP K counts /\ tfidf_fit HP K counts' = tfidf_fit HP K counts.
Proof.
  intros HP K f m m' P S. apply item_scaled_coo in S. unfold cosine_fit, tfidf_fit, cosine_weights, tfidf_weights. rewrite S.
  rewrite normalize_scale by auto. split; auto. set (X := coo_T (coo_of_csr m)).
  rewrite (finite_scale (fun r => sqrt (f r)) (tfidf_weight X) (tfidf_weight (scale_rows_by f X)) eq_refl eq_refl).
  - destruct (finite (tfidf_weight X)) as [W|]; cbn [option_map]; auto. rewrite normalize_scale by (intros; apply sqrt_lt_R0; auto). reflexivity.
  - unfold tfidf_weight, set_data, scale_rows_by, set_data. cbn [o_entries]. rewrite !map_map. apply map_ext. intros [[r c] v].
    unfold erow, ecol, eval_. cbn [fst snd]. f_equal. rewrite fsqrt_scale by auto.
    assert (Q : idf {| o_rows := o_rows X; o_cols := o_cols X; o_entries := map (fun e : nat * nat * R => (fst (fst e), snd (fst e), f (fst (fst e)) * snd e)) (o_entries X) |} c = idf X c).
    { unfold idf, col_count. cbn [o_rows o_entries]. f_equal. f_equal. f_equal. f_equal.
      induction (o_entries X) as [|e l IH]; auto. cbn [map filter]. unfold ecol at 1. cbn [fst snd]. fold (ecol e).
      destruct (ecol e =? c)%nat; cbn [length]; rewrite IH; auto. }
    rewrite Q. destruct (fsqrt v) as [w|]; cbn [option_map fmul]; auto. f_equal. ring.
Qed.
Print Assumptions C130_partial.

Definition one_count (v : R) : csr R := csr_of_rows 3 [[(1%nat, v)]].
Definition one_weight (v : R) : R := v * (6 / 5 + 1) / (6 / 5 * (1 - 3 / 4 + 3 / 4 * v / (v / 3)) + v) * (ln 3 - ln 2).
Lemma one_weights v : 0 < v -> bm25_weights (6 / 5) (3 / 4) (one_count v) =
  Some {| o_rows := 1; o_cols := 3; o_entries := [(0%nat, 1%nat, one_weight v)] |}.
Proof.
  intros P.
  assert (EX : coo_T (coo_of_csr (one_count v)) = {| o_rows := 3; o_cols := 1; o_entries := [(1%nat, 0%nat, v)] |}).
  { unfold coo_of_csr, one_count. cbn [csr_of_rows c_rows c_cols length seq flat_map]. rewrite csr_row_of_rows. reflexivity. }
  unfold bm25_weights. rewrite EX. unfold bm25_weight, set_data. cbn [o_rows o_cols o_entries map erow ecol eval_ fst snd].
  unfold length_norm, row_sums. cbn [o_rows o_entries seq map]. unfold row_total. cbn [o_entries filter erow ecol eval_ fst snd Nat.eqb map rsum nth].
  replace (0 + (v + 0 + (0 + 0))) with v by lra. replace (v + 0) with v by lra. replace (INR 3) with 3 by (simpl; lra).
  rewrite (fdiv_some v 3) by lra. rewrite (fdiv_some (3 / 4 * v) (v / 3)) by lra.
  unfold idf, col_count. cbn [o_rows o_entries filter ecol fst snd Nat.eqb length]. replace (INR 3) with 3 by (simpl; lra). replace (1 + INR 1) with 2 by (simpl; lra).
  assert (E : 3 / 4 * v / (v / 3) = 9 / 4) by (field; lra). rewrite fdiv_some by (rewrite E; lra). reflexivity.
Qed.
Lemma one_weight_at v : 0 < v -> one_weight v = v * (11 / 5) / (3 + v) * (ln 3 - ln 2).
Proof. intros P. unfold one_weight. replace (3 / 4 * v / (v / 3)) with (9 / 4) by (field; lra). f_equal. field. lra. Qed.
Lemma one_similarity HP K v S : std_heap_ok HP -> (0 < K)%nat -> 0 < v -> bm25_fit HP K (6 / 5) (3 / 4) (one_count v) = Some (Ok S) ->
  forall w, In (1%nat, w) (csr_row S 1) <-> w = one_weight v * one_weight v.
Proof.
  intros HC HK P E. unfold bm25_fit in E. rewrite one_weights in E by auto. cbn [fit_weighted o_rows o_cols o_entries] in E.
  set (W := coo_to_csr 1 3 [(0%nat, 1%nat, one_weight v)]) in *.
  destruct (C15_exact R Num_R NumOrd_R HP W K HC (coo_to_csr_wf _ _ _) HK Rplus_0_r) as [S' [E' [_ [_ [_ RW]]]]].
  rewrite E' in E. inversion E; subst S'. clear E.
  assert (RO : csr_row W 0 = [(1%nat, one_weight v + 0)] \/ csr_row W 0 = [(1%nat, one_weight v)]).
  { unfold W. rewrite coo_to_csr_row by lia. unfold coo_row. cbn. auto. }
  assert (SH : shares_user W 1 = [1%nat]).
  { unfold shares_user, csr_row_indices. change (c_rows W) with 1%nat. change (c_cols W) with 3%nat. cbn [seq existsb filter].
    destruct RO as [-> | ->]; reflexivity. }
  assert (CO : spec_cooc W 1 1 = one_weight v * one_weight v).
  { rewrite C15_gram. change (c_rows W) with 1%nat. cbn [seq map rsum]. unfold dense. destruct RO as [-> | ->]; cbn; ring. }
  destruct (RW 1%nat) as [ids [sc [TN [extra [EX [_ S2]]]]]]; [change (c_cols W) with 3%nat; lia|].
  rewrite SH in TN. cbn [length] in TN. replace (Nat.min K 1) with 1%nat in TN by lia.
  assert (I1 : In 1%nat ids).
  { pose proof (topn_incl _ _ _ _ _ TN) as I1. pose proof (topn_length _ _ _ _ _ TN) as L. destruct ids as [|j ids]; [discriminate|].
    specialize (I1 j (or_introl eq_refl)). destruct I1 as [<-|[]]. left; auto. }
  intros w. rewrite S2, CO. split; [intros [[_ ->]|[_ [X _]]]; [auto|discriminate]|]. intros ->. left. auto.
Qed.
(** The BM25 model at its defaults (K1 = 1.2, B = 0.75): doubling all counts changes the similarities. *)
Theorem C130_refuted : exists f counts counts', (forall i, 0 < f i) /\ item_scaled f counts counts' /\
  forall HP K, std_heap_ok HP -> (0 < K)%nat -> bm25_fit HP K (6 / 5) (3 / 4) counts' <> bm25_fit HP K (6 / 5) (3 / 4) counts.
Proof.
  exists (fun _ => 2), (one_count 1), (one_count 2). split; [intros; lra|]. split.
  - split; [reflexivity|]. split; [reflexivity|]. intros u Hu. simpl in Hu. replace u with 0%nat by lia.
    unfold one_count. rewrite !csr_row_of_rows. cbn. repeat f_equal. lra.
  - intros HP K HC HK E. assert (F : exists S, bm25_fit HP K (6 / 5) (3 / 4) (one_count 1) = Some (Ok S)).
    { unfold bm25_fit. rewrite one_weights by lra. cbn [fit_weighted o_rows o_cols o_entries].
      destruct (C15_exact R Num_R NumOrd_R HP (coo_to_csr 1 3 [(0%nat, 1%nat, one_weight 1)]) K HC (coo_to_csr_wf _ _ _) HK Rplus_0_r) as [S' [E' _]].
      exists S'. rewrite E'. auto. }
    destruct F as [S F]. assert (G := F). rewrite <- E in G.
    pose proof (proj2 (one_similarity HP K 1 S HC HK ltac:(lra) F _) eq_refl) as H1.
    apply (one_similarity HP K 2 S HC HK ltac:(lra) G) in H1. rewrite !one_weight_at in H1 by lra.
    assert (L : 0 < ln 3 - ln 2) by (pose proof (ln_increasing 2 3 ltac:(lra) ltac:(lra)); lra).
    set (l := ln 3 - ln 2) in *. assert (0 < l * l) by nra. nra.
Qed.
Print Assumptions C130_refuted.
(** Two users and two items of [ex_counts], the second item's counts tripled. *)
Example C130_example : item_scaled (fun i => if (i =? 1)%nat then 3 else 1) ex_counts (csr_of_rows 2 [[(0%nat, 3); (1%nat, 12)]; [(0%nat, 4); (1%nat, 9)]]).
Proof.
  split; [reflexivity|]. split; [reflexivity|]. intros u Hu. unfold ex_counts. rewrite !csr_row_of_rows. simpl in Hu.
  destruct u as [|[|u]]; [| |lia]; cbn; repeat f_equal; lra.
Qed.

(* ------------------------------------------------------------------ C131 *)
Lemma idf_sign X c : (0 < o_rows X)%nat ->
  ((spec_df X c + 1 < o_rows X)%nat -> 0 < spec_idf X c) /\ ((spec_df X c + 1 = o_rows X)%nat -> spec_idf X c = 0) /\
  ((o_rows X <= spec_df X c)%nat -> spec_idf X c < 0).
Proof.
  intros R0. rewrite <- idf_spec by auto. unfold idf. change (spec_df X c) with (col_count X c).
  replace (1 + INR (col_count X c)) with (INR (S (col_count X c))) by (rewrite S_INR; lra).
  assert (P : 0 < INR (o_rows X)) by (apply (lt_INR 0); auto).
  assert (Q : 0 < INR (S (col_count X c))) by (apply (lt_INR 0); lia).
  repeat split; intros L.
  - assert (ln (INR (S (col_count X c))) < ln (INR (o_rows X))); [|lra]. apply ln_increasing; auto. apply lt_INR. lia.
  - replace (S (col_count X c)) with (o_rows X) by lia. lra.
  - assert (ln (INR (o_rows X)) < ln (INR (S (col_count X c)))); [|lra]. apply ln_increasing; auto. apply lt_INR. lia.
Qed.
(** The weighting functions: [bm25_weight] with its parameters, [tfidf_weight]. *)
Inductive weighting : Type := Bm25 (K1 B : R) | Tfidf.
Definition weighting_ok (w : weighting) : Prop := match w with Bm25 K1 B => 0 <= K1 /\ 0 <= B <= 1 | Tfidf => True end.
Definition weigh (w : weighting) (X : coo R) : coo (option R) := match w with Bm25 K1 B => bm25_weight K1 B X | Tfidf => tfidf_weight X end.
(** All counts are positive, in range. *)
Definition positive_counts (X : coo R) : Prop := forall e, In e (o_entries X) -> (erow e < o_rows X)%nat /\ 0 < eval_ e.

(** The sign of the weight of a positive count: positive if at least two rows have no entry in the column, zero if exactly one
    has none, negative if every row has one. *)
Theorem C131_sign : forall w X k r c x, weighting_ok w -> positive_counts X -> nth_error (o_entries X) k = Some (r, c, x) ->
  exists v, nth_error (o_entries (weigh w X)) k = Some (r, c, Some v) /\
  ((spec_df X c + 1 < o_rows X)%nat -> 0 < v) /\ ((spec_df X c + 1 = o_rows X)%nat -> v = 0) /\
  ((o_rows X <= spec_df X c)%nat -> v < 0).
Proof.
  intros w X k r c x W P E. pose proof (P _ (nth_error_In _ _ E)) as [L X0]. unfold erow, eval_ in L, X0. cbn [fst snd] in L, X0.
  assert (G : exists a, 0 < a /\ nth_error (o_entries (weigh w X)) k = Some (r, c, Some (a * spec_idf X c))).
  { destruct w as [K1 B|]; cbn [weigh weighting_ok] in *.
    - destruct W as [HK HB]. destruct (C25_bm25 K1 B X HK HB P) as [_ [H _]]. specialize (H k r c x E).
      assert (TOT : 0 < rsum (map eval_ (o_entries X))).
      { apply rsum_pos_in with x; auto.
        - intros y Hy. apply in_map_iff in Hy. destruct Hy as [e [<- He]]. destruct (P e He). lra.
        - apply in_map_iff. exists (r, c, x). split; auto. eapply nth_error_In; eauto. }
      assert (AVG : 0 < spec_average X).
      { unfold spec_average, Rdiv. apply Rmult_lt_0_compat; auto. apply Rinv_0_lt_compat. apply (lt_INR 0). lia. }
      assert (LEN : 0 <= spec_total X r).
      { apply rsum_nonneg. intros y Hy. apply in_map_iff in Hy. destruct Hy as [e [<- He]]. apply filter_In in He. destruct (P e (proj1 He)). lra. }
      exists (x * (K1 + 1) / (K1 * (1 - B + B * spec_total X r / spec_average X) + x)). split; [|exact H].
      assert (0 <= B * spec_total X r / spec_average X).
      { unfold Rdiv. apply Rmult_le_pos; [apply Rmult_le_pos; lra|]. left. apply Rinv_0_lt_compat; auto. }
      assert (0 <= K1 * (1 - B + B * spec_total X r / spec_average X)) by (apply Rmult_le_pos; lra).
      unfold Rdiv at 1. apply Rmult_lt_0_compat; [apply Rmult_lt_0_compat; lra|apply Rinv_0_lt_compat; lra].
    - assert (P' : forall e, In e (o_entries X) -> (erow e < o_rows X)%nat /\ 0 <= eval_ e) by (intros e He; destruct (P e He); split; auto; lra).
      destruct (C25_tfidf X P') as [_ [H _]]. exists (sqrt x). split; [apply sqrt_lt_R0; auto|]. exact (H k r c x E). }
  destruct G as [a [A E2]]. exists (a * spec_idf X c). split; auto. destruct (idf_sign X c ltac:(lia)) as [S1 [S2 S3]].
  split; [|split]; intros Q.
  - specialize (S1 Q). nra.
  - rewrite (S2 Q). ring.
  - specialize (S3 Q). nra.
Qed.
Print Assumptions C131_sign.
(** Positive counts get positive weights where no column is full or nearly full. *)
Theorem C131_partial : forall w X k r c x, weighting_ok w -> positive_counts X -> nth_error (o_entries X) k = Some (r, c, x) ->
  (spec_df X c + 1 < o_rows X)%nat -> exists v, nth_error (o_entries (weigh w X)) k = Some (r, c, Some v) /\ 0 < v.
Proof. intros w X k r c x W P E L. destruct (C131_sign w X k r c x W P E) as [v [H [S _]]]. eauto. Qed.
Print Assumptions C131_partial.
(** A user (column [c], rows are items as in examples/lastfm.py) who has an entry for every item, or for all but one: the weights of all
    these entries are not positive, and alternating least squares given them returns zero factors - nothing was liked. *)
Theorem C131_als : forall w X c posv alpha reg n Y ids M X' k, weighting_ok w -> positive_counts X -> (o_rows X <= spec_df X c + 1)%nat ->
  posv_ok posv -> canonical M -> mat_ok n Y -> length Y = c_cols M -> 0 < reg -> 0 < alpha ->
  (forall i v, In (i, v) (csr_row M k) -> In (i, c, Some v) (o_entries (weigh w X))) ->
  recalculate_user posv alpha reg n (gram n Y) Y ids M = Ok X' -> (k < id_count ids)%nat ->
  nth k X' [] = repeat 0 n.
Proof.
  intros w X c posv alpha reg n Y ids M X' k W P F PO C MY LY R0 A0 HM E B.
  destruct (C36_recalculate_user _ _ _ _ _ _ _ _ PO C MY LY (Rlt_le _ _ R0) E) as [_ [_ H]]. destruct (H k B) as [_ U].
  symmetry. apply U; auto. split; [apply repeat_length|]. intros z Lz.
  assert (NP : forall i, preference (scale_row alpha (csr_row M k)) i = 0).
  { intros i. unfold preference. rewrite entry_scale. destruct (entry (csr_row M k) i) as [v|] eqn:EV; cbn [option_map]; auto.
    assert (IV : In (i, v) (csr_row M k)).
    { clear - EV. unfold entry in EV. induction (csr_row M k) as [|[j u] l IH]; simpl in *; [discriminate|].
      destruct (Nat.eqb_spec j i); simpl in *; [inversion EV; subst; auto|auto]. }
    apply HM in IV. apply In_nth_error in IV. destruct IV as [q Hq].
    assert (SP : map fst (o_entries (weigh w X)) = map fst (o_entries X)).
    { destruct w; cbn [weigh]; unfold bm25_weight, tfidf_weight, set_data; cbn [o_entries]; rewrite map_map; apply map_ext; intros [[a b] d]; reflexivity. }
    assert (HX : exists x, nth_error (o_entries X) q = Some (i, c, x)).
    { assert (Q : nth_error (map fst (o_entries X)) q = Some (i, c)) by (rewrite <- SP, nth_error_map, Hq; reflexivity).
      rewrite nth_error_map in Q. destruct (nth_error (o_entries X) q) as [[[a b] d]|]; [|discriminate]. cbn in Q. inversion Q. eauto. }
    destruct HX as [x HX]. destruct (C131_sign w X q i c x W P HX) as [v' [Hv [_ [S2 S3]]]]. rewrite Hv in Hq. inversion Hq; subst v'.
    assert (v <= 0). { destruct (Nat.eq_dec (spec_df X c + 1) (o_rows X)) as [Q|Q]; [rewrite (S2 Q); lra|specialize (S3 ltac:(lia)); lra]. }
    destruct (Rlt_dec 0 (alpha * v)) as [Q|Q]; auto. exfalso. nra. }
  unfold user_loss, row_error.
  assert (Z : rsum (map (fun i => confidence (scale_row alpha (csr_row M k)) i * sq (preference (scale_row alpha (csr_row M k)) i - rdot (repeat 0 n) (nth i Y []))) (seq 0 (length Y))) = 0).
  { apply rsum_zero. intros v Hv. apply in_map_iff in Hv. destruct Hv as [i [<- _]]. rewrite NP, rdot_repeat0. unfold sq. ring. }
  rewrite Z, rdot_repeat0.
  assert (0 <= rsum (map (fun i => confidence (scale_row alpha (csr_row M k)) i * sq (preference (scale_row alpha (csr_row M k)) i - rdot z (nth i Y []))) (seq 0 (length Y)))).
  { apply rsum_nonneg. intros v Hv. apply in_map_iff in Hv. destruct Hv as [i [<- _]]. apply Rmult_le_pos; [apply confidence_nonneg|]. apply Rle_0_sqr. }
  pose proof (rdot_nonneg z). nra.
Qed.
Print Assumptions C131_als.
(** Two items, one user who played both. *)
Definition ex_full : coo R := {| o_rows := 2; o_cols := 1; o_entries := [(0%nat, 0%nat, 5); (1%nat, 0%nat, 1)] |}.
Lemma ex_full_positive : positive_counts ex_full.
Proof. intros e [<-|[<-|[]]]; unfold erow, eval_; cbn; split; lra || lia. Qed.
Theorem C131_refuted : exists X, positive_counts X /\ forall w, weighting_ok w ->
  exists k r c x v, nth_error (o_entries X) k = Some (r, c, x) /\ 0 < x /\ nth_error (o_entries (weigh w X)) k = Some (r, c, Some v) /\ v < 0.
Proof.
  exists ex_full. split; [exact ex_full_positive|]. intros w W.
  destruct (C131_sign w ex_full 0 0 0 5 W ex_full_positive eq_refl) as [v [E [_ [_ S]]]].
  exists 0%nat, 0%nat, 0%nat, 5, v. split; [reflexivity|]. split; [lra|]. split; [exact E|]. apply S. reflexivity.
Qed.
Print Assumptions C131_refuted.
(** Three items of which the user played one. *)
Example C131_example : let X := {| o_rows := 3; o_cols := 1; o_entries := [(1%nat, 0%nat, 4)] |} in
  positive_counts X /\ weighting_ok (Bm25 (6 / 5) (3 / 4)) /\ weighting_ok (Bm25 100 (4 / 5)) /\ (spec_df X 0 + 1 < o_rows X)%nat.
Proof.
  intros X. split; [intros e [<-|[]]; unfold erow, eval_; cbn; split; lra || lia|]. cbn [weighting_ok]. split; [lra|]. split; [lra|]. unfold spec_df. cbn. lia.
Qed.
(** Alternating least squares for such a user: the user of [ex_full], weighted by tf-idf; item factors 1 and -1. *)
Example C131_als_example : let v x := sqrt x * (ln 2 - ln 3) in let M := mono_M [(0%nat, v 5); (1%nat, v 1)] in
  canonical M /\ (o_rows ex_full <= spec_df ex_full 0 + 1)%nat /\ mat_ok 1 mono_Y /\ length mono_Y = c_cols M /\
  (forall i w, In (i, w) (csr_row M 0) -> In (i, 0%nat, Some w) (o_entries (weigh Tfidf ex_full))) /\
  exists X', recalculate_user posv_elim 1 1 1 (gram 1 mono_Y) mono_Y (Scalar 0) M = Ok X'.
Proof.
  intros v M. split; [apply mono_canonical, row_ok_2|]. split; [unfold spec_df; cbn; lia|]. split; [exact mono_Y_ok|]. split; [reflexivity|]. split.
  - unfold M. rewrite mono_row. intros i w I. cbn [weigh]. unfold tfidf_weight, set_data. cbn [o_entries ex_full map]. unfold erow, ecol, eval_. cbn [fst snd].
    fold ex_full. assert (D : idf ex_full 0 = ln 2 - ln 3).
    { unfold idf, col_count. cbn [ex_full o_rows o_entries filter ecol fst snd Nat.eqb length]. f_equal; f_equal; simpl; lra. }
    rewrite D. unfold fsqrt. destruct (Rlt_dec 5 0); [lra|]. destruct (Rlt_dec 1 0); [lra|]. cbn [fmul].
    destruct I as [I|[I|[]]]; inversion I; subst; [left|right; left]; reflexivity.
  - destruct (mono_solve 1 1 [(0%nat, v 5); (1%nat, v 1)] _ _ (row_ok_2 _ _) Rlt_0_1 eq_refl eq_refl) as [x [E _]]. eauto.
Qed.
