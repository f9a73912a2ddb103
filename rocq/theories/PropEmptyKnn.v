(** C144: users and items without interactions and the item-item models. *)
From Coq Require Import List Arith Lia Bool ZArith Permutation Reals Lra.
From Verif Require Import Base Num Heap Sparse TopkModel TopkSpec TopkProofs RVec RecommendModel RecommendProofs KnnModel KnnProofs PropKnn WeightModel WeightProofs PropWeight GpuKnnProofs2.
From Verif Require Import PropEmpty PropStorage PropWeightScale.
Import ListNotations.
Local Open Scope nat_scope.

(* ------------------------------------------------------------------ the co-occurrence product *)
Lemma flat_map_nil {A B} (f : A -> list B) l : (forall x, In x l -> f x = []) -> flat_map f l = [].
Proof. induction l as [|x l IH]; simpl; intros E; auto. rewrite E by auto. simpl. auto. Qed.

Section Knn.
Context {T : Type} `{Num T}.
Variables (k j : nat) (M M' : csr T).
Hypothesis (W : csr_wf M) (HS : with_strangers k j M M').
Lemma strange_row u : c_rows M <= u -> u < c_rows M' -> csr_row M' u = [].
Proof. destruct HS as (ER & EC & ES). intros A B. rewrite ES by auto. destruct (Nat.ltb_spec u (c_rows M)); auto. lia. Qed.
Lemma known_row u : u < c_rows M -> csr_row M' u = csr_row M u.
Proof. destruct HS as (ER & EC & ES). intros A. rewrite ES by lia. destruct (Nat.ltb_spec u (c_rows M)); auto. lia. Qed.
Lemma transpose_row_more i : transpose_row M' i = transpose_row M i.
Proof.
  unfold transpose_row. destruct HS as (ER & _ & _). rewrite ER, seq_app, flat_map_app. simpl plus.
  rewrite (flat_map_nil _ (seq (c_rows M) k)), app_nil_r.
  - apply flat_map_ext_in. intros u Hu. apply in_seq in Hu. rewrite known_row by lia. auto.
  - intros u Hu. apply in_seq in Hu. rewrite strange_row by lia. auto.
Qed.
Lemma shares_more i : i < c_cols M -> shares_user M' i = shares_user M i.
Proof.
  intros Hi. unfold shares_user. destruct HS as (ER & EC & _). rewrite EC, seq_app, filter_app. simpl plus.
  assert (EX : forall l, existsb (fun u => memn i (csr_row_indices M' u) && memn l (csr_row_indices M' u)) (seq 0 (c_rows M')) =
               existsb (fun u => memn i (csr_row_indices M u) && memn l (csr_row_indices M u)) (seq 0 (c_rows M))).
  { intros l. rewrite ER, seq_app, existsb_app. simpl plus.
    assert (G : existsb (fun u => memn i (csr_row_indices M' u) && memn l (csr_row_indices M' u)) (seq (c_rows M) k) = false).
    { destruct (existsb _ _) eqn:E; auto. apply existsb_exists in E. destruct E as (u & Hu & E). apply in_seq in Hu.
      unfold csr_row_indices in E. rewrite strange_row in E by lia. discriminate. }
    rewrite G, orb_false_r. clear G. apply eq_true_iff_eq. rewrite !existsb_exists.
    split; intros (u & Hu & E); exists u; split; auto; apply in_seq in Hu; unfold csr_row_indices in *; rewrite known_row in * by lia; auto. }
  rewrite (filter_ext _ _ EX (seq 0 (c_cols M))). rewrite (filter_ext _ _ EX (seq (c_cols M) j)).
  match goal with |- _ ++ ?r = _ => assert (EN : r = []) end; [|rewrite EN, app_nil_r; auto].
  match goal with |- ?r = [] => destruct r as [|c l] eqn:E; auto end. exfalso.
  assert (Hc : In c (c :: l)) by (left; auto). rewrite <- E in Hc. apply filter_In in Hc. destruct Hc as [Hc Ec]. apply in_seq in Hc.
  apply existsb_exists in Ec. destruct Ec as (u & Hu & Ec). apply andb_true_iff in Ec. destruct Ec as [_ Ec]. unfold memn in Ec. apply existsb_exists in Ec.
  destruct Ec as (c' & Hc' & Ec). apply Nat.eqb_eq in Ec. subst c'. apply (csr_row_indices_lt M u) in Hc'; auto. lia.
Qed.
(** Strange users only: not a single step of the computation changes. *)
Lemma knn_more HP K : j = 0 -> all_pairs_knn HP M' K = all_pairs_knn HP M K.
Proof.
  intros J0. destruct HS as (ER & EC & _). rewrite J0, Nat.add_0_r in EC.
  assert (ET : forall i, csr_row (csr_transpose M') i = csr_row (csr_transpose M) i).
  { intros i. unfold csr_transpose. rewrite !csr_row_of_rows, EC. f_equal. apply map_ext. apply transpose_row_more. }
  assert (EA : forall i, knn_adds M' (csr_transpose M') i = knn_adds M (csr_transpose M) i).
  { intros i. unfold knn_adds. rewrite ET. apply flat_map_ext_in. intros [u v] Hp. cbn [fst snd].
    assert (Hu : u < c_rows M).
    { unfold csr_transpose in Hp. rewrite csr_row_of_rows in Hp. destruct (le_lt_dec (c_cols M) i).
      - rewrite nth_overflow in Hp by (rewrite map_length, seq_length; auto). destruct Hp.
      - rewrite (nth_indep _ [] (transpose_row M 0)) in Hp by (rewrite map_length, seq_length; auto). rewrite map_nth, seq_nth in Hp by auto.
        unfold transpose_row in Hp. apply in_flat_map in Hp. destruct Hp as (u' & Hu & Hp). apply in_map_iff in Hp. destruct Hp as (q & Eq & _). injection Eq as <- _. apply in_seq in Hu. lia. }
    rewrite known_row by auto. auto. }
  assert (EI : forall is_ a, knn_items HP M' (csr_transpose M') K is_ a = knn_items HP M (csr_transpose M) K is_ a).
  { induction is_ as [|i is_ IH]; intros a; cbn [knn_items]; auto. unfold knn_item. rewrite EA. destruct (acc_adds _ a); cbn [bind]; auto.
    destruct (acc_foreach _) as [[ps a']|]; cbn [bind]; auto. destruct (topk_feed HP K ps []); cbn [bind]; auto. rewrite IH. auto. }
  assert (EN : c_rows (csr_transpose M') = c_rows (csr_transpose M)) by (unfold csr_transpose; cbn [c_rows csr_of_rows]; rewrite !map_length, !seq_length; auto).
  unfold all_pairs_knn, knn_thread. rewrite EN, EI. auto.
Qed.
End Knn.

Local Open Scope R_scope.
Lemma cooc_more k j (M M' : csr R) a b : with_strangers k j M M' -> spec_cooc M' a b = spec_cooc M a b.
Proof.
  intros HS. rewrite !C15_gram. pose proof HS as (ER & _ & _). rewrite ER, seq_app, map_app, rsum_app. simpl plus.
  replace (rsum (map (fun u => dense M' u a * dense M' u b) (seq (c_rows M) k))) with 0.
  - rewrite Rplus_0_r. apply rsum_map_ext. intros u Hu. apply in_seq in Hu. unfold dense. rewrite (known_row k j M M') by (auto; lia). auto.
  - symmetry. assert (G : forall l, (forall u, In u l -> (c_rows M <= u < c_rows M')%nat) -> rsum (map (fun u => dense M' u a * dense M' u b) l) = 0).
    { induction l as [|u l IH]; intros B; cbn [map rsum]; auto. rewrite IH by (intros; apply B; right; auto). destruct (B u (or_introl eq_refl)).
      unfold dense. rewrite (strange_row k j M M') by auto. simpl. lra. }
    apply G. intros u Hu. apply in_seq in Hu. lia.
Qed.

(* ------------------------------------------------------------------ the weights *)
Lemma entries_more {T} k j (M M' : csr T) : with_strangers k j M M' ->
  coo_of_csr M' = {| o_rows := c_rows M + k; o_cols := c_cols M + j; o_entries := o_entries (coo_of_csr M) |}.
Proof.
  intros HS. pose proof HS as (ER & EC & _). unfold coo_of_csr. cbn [o_entries]. rewrite EC. rewrite ER. f_equal.
  rewrite seq_app, flat_map_app. simpl plus. rewrite (flat_map_nil _ (seq (c_rows M) k)), app_nil_r.
  - apply flat_map_ext_in. intros u Hu. apply in_seq in Hu. rewrite (known_row k j M M') by (auto; lia). auto.
  - intros u Hu. apply in_seq in Hu. rewrite (strange_row k j M M') by (auto; lia). auto.
Qed.
(** [X] with another shape. *)
Definition reshape {T} (r c : nat) (X : coo T) : coo T := {| o_rows := r; o_cols := c; o_entries := o_entries X |}.
Lemma finite_reshape r c X : finite (reshape r c X) = option_map (reshape r c) (finite X).
Proof. unfold finite, reshape. cbn [o_entries o_rows o_cols]. destruct (sequence _); reflexivity. Qed.
Lemma csr_reshape rows cols k j (E : list (nat * nat * R)) : (forall e, In e E -> erow e < rows /\ ecol e < cols)%nat ->
  with_strangers k j (coo_to_csr rows cols E) (coo_to_csr (rows + k) (cols + j) E).
Proof.
  intros B. unfold with_strangers, coo_to_csr. cbn [csr_of_rows c_rows c_cols]. rewrite !map_length, !seq_length. split; auto. split; auto.
  assert (EQ : forall u, (u < rows + k)%nat -> coo_row (cols + j) E u = if (u <? rows)%nat then coo_row cols E u else []).
  { intros u Hu. assert (Z : forall c l, (rows <= u \/ cols <= c)%nat -> (forall e, In e l -> In e E) -> filter (fun e => (fst (fst e) =? u) && (snd (fst e) =? c))%nat l = []).
    { intros c l HC. induction l as [|e l IH]; intros HL; cbn [filter]; auto. destruct (B e (HL e (or_introl eq_refl))) as [B1 B2]. unfold erow, ecol in B1, B2.
      destruct (Nat.eqb_spec (fst (fst e)) u), (Nat.eqb_spec (snd (fst e)) c); cbn [andb]; try (apply IH; intros; apply HL; right; auto). lia. }
    unfold coo_row. destruct (Nat.ltb_spec u rows) as [L|L].
    - rewrite seq_app, flat_map_app. simpl plus. rewrite (flat_map_nil _ (seq cols j)), app_nil_r; auto. intros c Hc. apply in_seq in Hc.
      rewrite Z by (auto; lia). auto.
    - apply flat_map_nil. intros c _. rewrite Z by auto. auto. }
  intros u Hu. rewrite !csr_row_of_rows. rewrite (nth_indep _ [] (coo_row (cols + j) E 0)) by (rewrite map_length, seq_length; auto). rewrite map_nth, seq_nth by auto. simpl plus.
  rewrite EQ by auto. destruct (Nat.ltb_spec u rows); auto. rewrite (nth_indep _ [] (coo_row cols E 0)) by (rewrite map_length, seq_length; auto). rewrite map_nth, seq_nth by auto. auto.
Qed.
Lemma finite_pos X Y : finite X = Some Y -> o_rows Y = o_rows X /\ o_cols Y = o_cols X /\ map fst (o_entries Y) = map fst (o_entries X).
Proof.
  unfold finite. destruct (sequence (map eval_ (o_entries X))) as [vs|] eqn:E; [|discriminate]. intros F. injection F as <-. cbn [o_rows o_cols o_entries].
  split; auto. split; auto. assert (L : length vs = length (o_entries X)).
  { rewrite <- (map_length eval_). revert vs E. generalize (map eval_ (o_entries X)) as l. induction l as [|[a|] l IH]; intros vs E; simpl in E; try discriminate.
    - injection E as <-. auto.
    - destruct (sequence l); [|discriminate]. injection E as <-. simpl. f_equal. auto. }
  clear E. revert vs L. induction (o_entries X) as [|e l IH]; intros [|v vs] L; simpl in *; try discriminate; auto. f_equal. apply IH. lia.
Qed.
Lemma coo_T_more k j (M M' : csr R) : with_strangers k j M M' ->
  coo_T (coo_of_csr M') = reshape (c_cols M + j) (c_rows M + k) (coo_T (coo_of_csr M)).
Proof. intros HS. rewrite (entries_more k j M M' HS). reflexivity. Qed.
Lemma in_range (M : csr R) : csr_wf M -> forall e, In e (o_entries (coo_of_csr M)) -> (erow e < c_rows M /\ ecol e < c_cols M)%nat.
Proof.
  intros W e He. unfold coo_of_csr in He. cbn [o_entries] in He. apply in_flat_map in He. destruct He as (u & Hu & He). apply in_map_iff in He.
  destruct He as (p & <- & Hp). apply in_seq in Hu. cbn. split; [lia|]. apply (csr_row_indices_lt M u); auto. apply in_map; auto.
Qed.
(** Weights [Wt] that have the entries of the counts, in another shape. *)
Lemma weights_strangers (M : csr R) k j Wt : csr_wf M -> o_rows Wt = c_cols M -> o_cols Wt = c_rows M ->
  map fst (o_entries Wt) = map fst (o_entries (coo_T (coo_of_csr M))) ->
  with_strangers k j (coo_to_csr (o_rows (coo_T Wt)) (o_cols (coo_T Wt)) (o_entries (coo_T Wt)))
    (coo_to_csr (o_rows (coo_T (reshape (c_cols M + j) (c_rows M + k) Wt))) (o_cols (coo_T (reshape (c_cols M + j) (c_rows M + k) Wt))) (o_entries (coo_T (reshape (c_cols M + j) (c_rows M + k) Wt)))).
Proof.
  intros W E1 E2 E3. unfold coo_T, reshape. cbn [o_rows o_cols o_entries]. rewrite E1, E2. apply csr_reshape.
  intros e He. apply in_map_iff in He. destruct He as (x & <- & Hx). unfold erow, ecol. cbn [fst snd].
  assert (HF : In (fst x) (map fst (o_entries (coo_T (coo_of_csr M))))) by (rewrite <- E3; apply in_map; auto).
  apply in_map_iff in HF. destruct HF as (y & Ey & Hy). unfold coo_T in Hy. cbn [o_entries] in Hy. apply in_map_iff in Hy. destruct Hy as (z & <- & Hz).
  apply (in_range M W) in Hz. cbn [fst] in Ey. rewrite <- Ey. cbn [fst snd]. exact Hz.
Qed.

(* ------------------------------------------------------------------ C144 *)
(** Users without interactions: every item-item model is exactly the same. *)
Theorem C144_users_partial : forall HP K k (M M' : csr R) K1 B, csr_wf M -> with_strangers k 0 M M' ->
  all_pairs_knn HP M' K = all_pairs_knn HP M K /\
  cosine_fit HP K M' = cosine_fit HP K M /\ tfidf_fit HP K M' = tfidf_fit HP K M /\ bm25_fit HP K K1 B M' = bm25_fit HP K K1 B M.
Proof.
  intros HP K k M M' K1 B W HS. split; [apply (knn_more k 0); auto|].
  assert (FW : forall Wt, o_rows Wt = c_cols M -> o_cols Wt = c_rows M -> map fst (o_entries Wt) = map fst (o_entries (coo_T (coo_of_csr M))) ->
    fit_weighted HP K (Some (coo_T (reshape (c_cols M + 0) (c_rows M + k) Wt))) = fit_weighted HP K (Some (coo_T Wt))).
  { intros Wt E1 E2 E3. unfold fit_weighted. f_equal. apply (knn_more k 0); auto. apply weights_strangers; auto. }
  assert (NS : forall f : coo R -> coo (option R), (forall X, f (reshape (o_rows X) (c_rows M + k) X) = reshape (o_rows X) (c_rows M + k) (f X)) ->
    f (coo_T (coo_of_csr M')) = reshape (c_cols M + 0) (c_rows M + k) (f (coo_T (coo_of_csr M)))).
  { intros f Hf. rewrite (coo_T_more k 0 M M' HS). rewrite Nat.add_0_r. exact (Hf (coo_T (coo_of_csr M))). }
  split; [|split].
  - unfold cosine_fit, cosine_weights. rewrite NS by reflexivity. rewrite finite_reshape.
    destruct (finite (normalize (coo_T (coo_of_csr M)))) as [Wt|] eqn:E; cbn [option_map]; auto. destruct (finite_pos _ _ E) as (A1 & A2 & A3).
    apply FW; auto. rewrite A3. cbn [normalize set_data o_entries]. rewrite map_map. apply map_ext. intros [[a b] c]; auto.
  - unfold tfidf_fit, tfidf_weights. rewrite NS by reflexivity. rewrite finite_reshape.
    destruct (finite (tfidf_weight (coo_T (coo_of_csr M)))) as [Wt|] eqn:E; cbn [option_map]; auto. destruct (finite_pos _ _ E) as (A1 & A2 & A3).
    change (normalize (reshape (c_cols M + 0) (c_rows M + k) Wt)) with (reshape (c_cols M + 0) (c_rows M + k) (normalize Wt)). rewrite finite_reshape.
    destruct (finite (normalize Wt)) as [V|] eqn:E'; cbn [option_map]; auto. destruct (finite_pos _ _ E') as (B1 & B2 & B3).
    apply FW; [rewrite B1; exact A1|rewrite B2; exact A2|]. rewrite B3. cbn [normalize set_data o_entries]. rewrite map_map.
    transitivity (map fst (o_entries Wt)); [apply map_ext; intros [[a b] c]; auto|]. rewrite A3. cbn [tfidf_weight set_data o_entries]. rewrite map_map. apply map_ext. intros [[a b] c]; auto.
  - unfold bm25_fit, bm25_weights. rewrite NS by reflexivity. rewrite finite_reshape.
    destruct (finite (bm25_weight K1 B (coo_T (coo_of_csr M)))) as [Wt|] eqn:E; cbn [option_map]; auto. destruct (finite_pos _ _ E) as (A1 & A2 & A3).
    apply FW; auto. rewrite A3. cbn [bm25_weight set_data o_entries]. rewrite map_map. apply map_ext. intros [[a b] c]; auto.
Qed.
Print Assumptions C144_users_partial.

(** Items without interactions, plain item-item model and cosine model: the similarities
    of the other items are the same.  With [K] smaller than the number of neighbours ties
    may be broken differently (the heap sees the same neighbours, but the theorem does
    not say in which order). *)
Definition same_neighbours (W : csr R) (S S' : csr R) : Prop :=
  forall i, (i < c_cols W)%nat ->
    ((0 < i)%nat -> Permutation (map snd (csr_row S' i)) (map snd (csr_row S i)) /\
      forall l v v', In (l, v) (csr_row S i) -> In (l, v') (csr_row S' i) -> v' = v) /\
    ((forall a b, In a (shares_user W i) -> In b (shares_user W i) -> spec_cooc W i a = spec_cooc W i b -> a = b) ->
     forall l v, v <> 0 -> In (l, v) (csr_row S' i) <-> In (l, v) (csr_row S i)).
Lemma knn_items_more HP HP' K k j (M M' : csr R) : std_heap_ok HP -> std_heap_ok HP' -> (0 < K)%nat -> csr_wf M -> csr_wf M' -> with_strangers k j M M' ->
  exists S S', all_pairs_knn HP M K = Ok S /\ all_pairs_knn HP' M' K = Ok S' /\ c_rows S' = (c_rows S + j)%nat /\ c_cols S' = (c_cols S + j)%nat /\ same_neighbours M S S'.
Proof.
  intros HC HC' HK W W' HS.
  destruct (C15_exact R Num_R NumOrd_R HP M K HC W HK Rplus_0_r) as (S0 & E & R1 & R2 & _ & RR).
  destruct (C15_exact R Num_R NumOrd_R HP' M' K HC' W' HK Rplus_0_r) as (S0' & E' & R1' & R2' & _ & RR').
  pose proof HS as (_ & EC & _). exists S0, S0'. split; [auto|]. split; [auto|]. split; [lia|]. split; [lia|].
  intros i Hi. destruct (RR i Hi) as (ids & sc & TN & ex & EX & SR & IR). destruct (RR' i ltac:(lia)) as (ids' & sc' & TN' & ex' & EX' & SR' & IR').
  assert (CE : forall l, spec_cooc M' i l = spec_cooc M i l) by (intros; apply (cooc_more k j); auto).
  rewrite (shares_more k j M M' W HS i Hi) in TN'. apply (TopN_ext _ (spec_cooc M i)) in TN'; [|intros; apply CE].
  assert (SC : sc' = sc).
  { apply (topn_scores_unique (spec_cooc M i) (shares_user M i) (Nat.min K (length (shares_user M i))) ids' ids sc' sc); auto.
    intros a b A B. simpl in A, B. unfold Rltb in A, B. destruct (Rlt_dec a b); [discriminate|]. destruct (Rlt_dec b a); [discriminate|]. lra. }
  pose proof (topn_scores _ _ _ _ _ TN) as T1. pose proof (topn_scores _ _ _ _ _ TN') as T1'.
  pose proof (topn_nodup _ _ _ _ _ TN) as ND. pose proof (topn_nodup _ _ _ _ _ TN') as ND'.
  split.
  - intros Hi0. assert (X0 : ex = false) by (destruct ex; auto; specialize (EX eq_refl); lia). assert (X0' : ex' = false) by (destruct ex'; auto; specialize (EX' eq_refl); lia).
    rewrite X0 in IR. rewrite X0' in IR'.
    assert (PR : forall row l, Sorted.StronglySorted lt (map fst row) -> NoDup l ->
      (forall a v, In (a, v) row <-> In a l /\ v = spec_cooc M i a) -> Permutation row (map (fun a => (a, spec_cooc M i a)) l)).
    { intros row l SS NDl IFF. apply NoDup_Permutation.
      - apply (NoDup_map_inv fst). clear IFF. induction SS as [|a r SS IH F]; constructor; auto. intros X. rewrite Forall_forall in F. specialize (F a X). lia.
      - apply FinFun.Injective_map_NoDup; auto. intros a b Q. congruence.
      - intros [a v]. rewrite IFF, in_map_iff. split; [intros [A ->]; exists a; auto|intros (a' & Q & A); injection Q as -> <-; auto]. }
    assert (P1 := PR (csr_row S0 i) ids SR ND). assert (P2 := PR (csr_row S0' i) ids' SR' ND'). clear PR.
    assert (Q1 : forall a v, In (a, v) (csr_row S0 i) <-> In a ids /\ v = spec_cooc M i a).
    { intros a v. rewrite IR. split; [intros [A|[A _]]; [auto|discriminate]|auto]. }
    assert (Q2 : forall a v, In (a, v) (csr_row S0' i) <-> In a ids' /\ v = spec_cooc M i a).
    { intros a v. rewrite IR', CE. split; [intros [A|[A _]]; [auto|discriminate]|auto]. }
    split.
    + apply P1 in Q1. apply P2 in Q2. apply (Permutation_map snd) in Q1. apply (Permutation_map snd) in Q2. rewrite map_map in Q1, Q2. cbn [snd] in Q1, Q2.
      assert (TT : map (fun a => spec_cooc M i a) ids' = map (fun a => spec_cooc M i a) ids) by exact (eq_trans (eq_sym T1') (eq_trans SC T1)).
      rewrite TT in Q2. solve [exact (Permutation_trans Q1 (Permutation_sym Q2)) | exact (Permutation_trans Q2 (Permutation_sym Q1))].
    + intros l v v' A A'. apply Q1 in A. apply Q2 in A'. destruct A as [_ ->]. destruct A' as [_ ->]. auto.
  - intros INJ. assert (EI : ids' = ids).
    { apply (inj_map_eq (spec_cooc M i)); [congruence|]. intros x y Hx Hy. apply INJ; [apply (topn_incl _ _ _ _ _ TN' x Hx)|apply (topn_incl _ _ _ _ _ TN y Hy)]. }
    subst ids'. intros l v V0. rewrite IR, IR', CE. change (@nzero R Num_R) with 0.
    split; (intros [A|(_ & _ & _ & A)]; [left; auto|congruence]).
Qed.
Theorem C144_items_partial : forall HP HP' K k j (M M' : csr R), std_heap_ok HP -> std_heap_ok HP' -> (0 < K)%nat -> csr_wf M -> csr_wf M' -> with_strangers k j M M' ->
  (exists S S', all_pairs_knn HP M K = Ok S /\ all_pairs_knn HP' M' K = Ok S' /\ c_rows S' = (c_rows S + j)%nat /\ c_cols S' = (c_cols S + j)%nat /\ same_neighbours M S S') /\
  match cosine_weights M, cosine_weights M' with
  | Some Wt, Some Wt' => o_entries Wt' = o_entries Wt /\
      exists S S', cosine_fit HP K M = Some (Ok S) /\ cosine_fit HP' K M' = Some (Ok S') /\
        same_neighbours (coo_to_csr (c_rows M) (c_cols M) (o_entries Wt)) S S'
  | None, None => True
  | _, _ => False
  end.
Proof.
  intros HP HP' K k j M M' HC HC' HK W W' HS. split; [apply (knn_items_more HP HP' K k j); auto|].
  unfold cosine_fit. assert (EW : cosine_weights M' = option_map (fun Wt => reshape (c_rows M + k) (c_cols M + j) Wt) (cosine_weights M)).
  { unfold cosine_weights. rewrite (coo_T_more k j M M' HS).
    change (normalize (reshape (c_cols M + j) (c_rows M + k) (coo_T (coo_of_csr M)))) with (reshape (c_cols M + j) (c_rows M + k) (normalize (coo_T (coo_of_csr M)))).
    rewrite finite_reshape. destruct (finite _); reflexivity. }
  rewrite EW. destruct (cosine_weights M) as [Wt|] eqn:EC; cbn [option_map]; auto.
  split; [reflexivity|]. unfold cosine_weights in EC. destruct (finite (normalize (coo_T (coo_of_csr M)))) as [V|] eqn:E; [|discriminate]. cbn [option_map] in EC. injection EC as <-.
  destruct (finite_pos _ _ E) as (A1 & A2 & A3). cbn [fit_weighted].
  assert (A4 : map fst (o_entries V) = map fst (o_entries (coo_T (coo_of_csr M)))).
  { rewrite A3. cbn [normalize set_data o_entries]. rewrite map_map. apply map_ext. intros [[a b] c]; auto. }
  pose proof (weights_strangers M k j V W A1 A2 A4) as WS.
  destruct (knn_items_more HP HP' K k j _ _ HC HC' HK (coo_to_csr_wf _ _ _) (coo_to_csr_wf _ _ _) WS) as (S0 & S0' & E0 & E0' & _ & _ & SN).
  exists S0, S0'. split; [f_equal; exact E0|]. split; [f_equal; exact E0'|]. cbn [coo_T o_rows o_cols o_entries] in SN. rewrite A1, A2 in SN. exact SN.
Qed.
Print Assumptions C144_items_partial.

(** Items without interactions do change what the TF-IDF and the BM25 model say about
    the other items, because the weights depend on the number of items.  TF-IDF: two
    users, the first with both items, the second with the first item only; a third item
    nobody has turns the finite similarities into NaN.  BM25 at its defaults: one user
    with one of two items, of similarity 0 to itself; a third item makes it positive. *)
Definition c144_M : csr R := csr_of_rows 2 [[(0%nat, 1); (1%nat, 1)]; [(0%nat, 1)]].
Definition c144_M' : csr R := csr_of_rows 3 [[(0%nat, 1); (1%nat, 1)]; [(0%nat, 1)]].
Lemma c144_strangers : csr_wf c144_M /\ csr_wf c144_M' /\ with_strangers 0 1 c144_M c144_M'.
Proof.
  split; [|split]; [| |split; [reflexivity|split; [reflexivity|intros u Hu; do 2 (destruct u as [|u]; [reflexivity|]); vm_compute in Hu; lia]]];
  apply csr_of_rows_wf; intros r p Hr Hp; simpl in Hr; repeat (destruct Hr as [<-|Hr]; [simpl in Hp; repeat (destruct Hp as [<-|Hp]; [simpl; lia|]); contradiction|]); contradiction.
Qed.
Lemma c144_entries n : tfidf_weight (coo_T (coo_of_csr (csr_of_rows n [[(0%nat, 1); (1%nat, 1)]; [(0%nat, 1)]]))) =
  {| o_rows := n; o_cols := 2; o_entries := [(0%nat, 0%nat, Some (1 * (ln (INR n) - ln 3))); (1%nat, 0%nat, Some (1 * (ln (INR n) - ln 3))); (0%nat, 1%nat, Some (1 * (ln (INR n) - ln 2)))] |}.
Proof.
  assert (EX : coo_T (coo_of_csr (csr_of_rows n [[(0%nat, 1); (1%nat, 1)]; [(0%nat, 1)]])) = {| o_rows := n; o_cols := 2; o_entries := [(0%nat, 0%nat, 1); (1%nat, 0%nat, 1); (0%nat, 1%nat, 1)] |}).
  { unfold coo_of_csr. cbn [csr_of_rows c_rows c_cols length seq flat_map]. fold (csr_of_rows n [[(0%nat, 1); (1%nat, 1)]; [(0%nat, 1)]]). rewrite !csr_row_of_rows. reflexivity. }
  rewrite EX. unfold tfidf_weight, set_data. cbn [o_rows o_cols o_entries map erow ecol eval_ fst snd].
  unfold idf, col_count. cbn [o_rows o_entries filter ecol fst snd Nat.eqb length]. unfold fsqrt. destruct (Rlt_dec 1 0); [lra|]. rewrite sqrt_1. cbn [fmul].
  replace (1 + INR 2) with 3 by (simpl; lra). replace (1 + INR 1) with 2 by (simpl; lra). reflexivity.
Qed.
Theorem C144_tfidf_refuted : exists (M M' : csr R), csr_wf M /\ csr_wf M' /\ with_strangers 0 1 M M' /\
  (forall HP K, std_heap_ok HP -> (0 < K)%nat -> exists S, tfidf_fit HP K M = Some (Ok S)) /\ forall HP K, tfidf_fit HP K M' = None.
Proof.
  exists c144_M, c144_M'. destruct c144_strangers as (W & W' & HS). split; [auto|]. split; [auto|]. split; [auto|].
  assert (L : ln 2 < ln 3) by (apply ln_increasing; lra). split.
  - assert (X : exists Wt, tfidf_weights c144_M = Some Wt).
    { unfold tfidf_weights, c144_M. rewrite c144_entries. unfold finite at 1. cbn [o_entries map eval_ snd sequence o_rows o_cols combine fst].
      unfold normalize, set_data, row_total. cbn [o_rows o_cols o_entries map erow ecol eval_ fst snd filter Nat.eqb rsum].
      replace (INR 2) with 2 by (simpl; lra).
      assert (P : forall x, 0 < x -> 0 < sqrt x) by (intros; apply sqrt_lt_R0; auto).
      unfold finite. cbn [o_entries map eval_ snd].
      rewrite !fdiv_some by (apply Rgt_not_eq, P; nra). eexists. reflexivity. }
    destruct X as [Wt EW]. intros HP K HC HK. unfold tfidf_fit. rewrite EW. cbn [fit_weighted].
    destruct (C15_exact R Num_R NumOrd_R HP (coo_to_csr (o_rows Wt) (o_cols Wt) (o_entries Wt)) K HC (coo_to_csr_wf _ _ _) HK Rplus_0_r) as [S' [E' _]]. exists S'. rewrite E'. auto.
  - intros HP K. unfold tfidf_fit. assert (X : tfidf_weights c144_M' = None); [|rewrite X; auto].
    unfold tfidf_weights, c144_M'. rewrite c144_entries. unfold finite at 1. cbn [o_entries map eval_ snd sequence o_rows o_cols combine fst].
    unfold normalize, set_data, row_total. cbn [o_rows o_cols o_entries map erow ecol eval_ fst snd filter Nat.eqb rsum].
    replace (INR 3) with 3 by (simpl; lra). replace (ln 3 - ln 3) with 0 by lra.
    assert (Z : sqrt (1 * 0 * (1 * 0) + 0) = 0) by (replace (1 * 0 * (1 * 0) + 0) with 0 by ring; apply sqrt_0). rewrite Z.
    unfold finite. cbn [o_entries map eval_ snd]. assert (N : fdiv (1 * 0) 0 = None) by (unfold fdiv; destruct (Req_EM_T 0 0); [auto|lra]). rewrite N.
    match goal with |- context [fdiv (1 * 0) ?x] => destruct (fdiv (1 * 0) x) end; reflexivity.
Qed.
Print Assumptions C144_tfidf_refuted.

Lemma two_weights : bm25_weights (6 / 5) (3 / 4) (csr_of_rows 2 [[(1%nat, 1)]]) = Some {| o_rows := 1; o_cols := 2; o_entries := [(0%nat, 1%nat, 0)] |}.
Proof.
  assert (EX : coo_T (coo_of_csr (csr_of_rows 2 [[(1%nat, 1)]])) = {| o_rows := 2; o_cols := 1; o_entries := [(1%nat, 0%nat, 1)] |}).
  { unfold coo_of_csr. cbn [csr_of_rows c_rows c_cols length seq flat_map]. fold (csr_of_rows 2 [[(1%nat, 1)]]). rewrite csr_row_of_rows. reflexivity. }
  unfold bm25_weights. rewrite EX. unfold bm25_weight, set_data. cbn [o_rows o_cols o_entries map erow ecol eval_ fst snd].
  unfold length_norm, row_sums. cbn [o_rows o_entries seq map]. unfold row_total. cbn [o_entries filter erow ecol eval_ fst snd Nat.eqb map rsum nth].
  replace (0 + (1 + 0 + 0)) with 1 by lra. replace (1 + 0) with 1 by lra. replace (INR 2) with 2 by (simpl; lra).
  rewrite (fdiv_some 1 2) by lra. rewrite (fdiv_some (3 / 4 * 1) (1 / 2)) by lra.
  unfold idf, col_count. cbn [o_rows o_entries filter ecol fst snd Nat.eqb length]. replace (INR 2) with 2 by (simpl; lra). replace (1 + INR 1) with 2 by (simpl; lra).
  replace (ln 2 - ln 2) with 0 by lra. rewrite fdiv_some by lra. unfold finite. cbn. rewrite Rmult_0_r. reflexivity.
Qed.
Theorem C144_bm25_refuted : exists (M M' : csr R), csr_wf M /\ csr_wf M' /\ with_strangers 0 1 M M' /\
  forall HP K, std_heap_ok HP -> (0 < K)%nat -> exists S S', bm25_fit HP K (6 / 5) (3 / 4) M = Some (Ok S) /\ bm25_fit HP K (6 / 5) (3 / 4) M' = Some (Ok S') /\
    (forall w, In (1%nat, w) (csr_row S 1) -> w = 0) /\ exists w, In (1%nat, w) (csr_row S' 1) /\ 0 < w.
Proof.
  exists (csr_of_rows 2 [[(1%nat, 1)]]), (one_count 1).
  split; [|split]; [| |split].
  1, 2: unfold one_count; apply csr_of_rows_wf; intros r p [<-|[]] [<-|[]]; simpl; lia.
  - split; [reflexivity|]. split; [reflexivity|]. intros u Hu. destruct u as [|u]; [reflexivity|vm_compute in Hu; lia].
  - intros HP K HC HK.
    destruct (C15_exact R Num_R NumOrd_R HP (coo_to_csr 1 2 [(0%nat, 1%nat, 0)]) K HC (coo_to_csr_wf _ _ _) HK Rplus_0_r) as [S [E [_ [_ [_ RW]]]]].
    destruct (C15_exact R Num_R NumOrd_R HP (coo_to_csr 1 3 [(0%nat, 1%nat, one_weight 1)]) K HC (coo_to_csr_wf _ _ _) HK Rplus_0_r) as [S' [E' _]].
    assert (F' : bm25_fit HP K (6 / 5) (3 / 4) (one_count 1) = Some (Ok S')).
    { unfold bm25_fit. rewrite one_weights by lra. cbn [fit_weighted o_rows o_cols o_entries]. rewrite E'. auto. }
    exists S, S'. split; [unfold bm25_fit; rewrite two_weights; cbn [fit_weighted o_rows o_cols o_entries]; rewrite E; auto|]. split; [exact F'|]. split.
    + destruct (RW 1%nat) as [ids [sc [_ [extra [_ [_ S2]]]]]]; [simpl; lia|]. intros w Hw. apply S2 in Hw. destruct Hw as [[_ ->]|[_ [X _]]]; [|discriminate].
      rewrite C15_gram. change (c_rows (coo_to_csr 1 2 [(0%nat, 1%nat, 0)])) with 1%nat. cbn [seq map rsum].
      assert (RO : csr_row (coo_to_csr 1 2 [(0%nat, 1%nat, 0)]) 0 = [(1%nat, 0 + 0)] \/ csr_row (coo_to_csr 1 2 [(0%nat, 1%nat, 0)]) 0 = [(1%nat, 0)]).
      { rewrite coo_to_csr_row by lia. unfold coo_row. cbn. auto. }
      unfold dense. destruct RO as [-> | ->]; cbn; ring.
    + exists (one_weight 1 * one_weight 1). split; [apply (one_similarity HP K 1 S' HC HK ltac:(lra) F'); auto|].
      rewrite one_weight_at by lra. assert (L : 0 < ln 3 - ln 2) by (pose proof (ln_increasing 2 3 ltac:(lra) ltac:(lra)); lra).
      apply Rmult_lt_0_compat; nra.
Qed.
Print Assumptions C144_bm25_refuted.
(** Three users and three items; two more users and one more item. *)
Example C144_example : with_strangers 2 1 (csr_of_rows 3 [[(0%nat, 3); (1%nat, 1)]; [(1%nat, 2); (2%nat, 1)]; [(0%nat, 1); (2%nat, 5)]])
  (csr_of_rows 4 [[(0%nat, 3); (1%nat, 1)]; [(1%nat, 2); (2%nat, 1)]; [(0%nat, 1); (2%nat, 5)]; []; []]).
Proof.
  split; [reflexivity|]. split; [reflexivity|]. intros u Hu. do 5 (destruct u as [|u]; [reflexivity|]). vm_compute in Hu. lia.
Qed.
