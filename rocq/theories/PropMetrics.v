(** C26-C31: ranking metrics.  The textbook definitions are at the head of MetricsProofs2.v. *)
From Coq Require Import List Arith Lia Bool ZArith Reals Lra Psatz Permutation.
From Verif Require Import Base Num Heap Sparse TopkModel TopkSpec TopkBatch RecommendModel RecommendProofs RecommendBatch
  RVec KnnAcc KnnProofs MetricsModel MetricsProofs MetricsProofs2 PropTopk.
Import ListNotations.
Local Open Scope R_scope.

(** The users with a stored test entry, and the set of items a user has there. *)
Definition test_users {T} (test : csr T) : list nat :=
  filter (fun u => negb (length (csr_row test u) =? 0)%nat) (seq 0 (c_rows test)).
Definition test_items {T} (test : csr T) (u : nat) : list nat := nodup Nat.eq_dec (map fst (csr_row test u)).
(** The model answers every request for some of the test users with the lists [r]. *)
Definition answers {T} (test : csr T) (r : nat -> list Z) (rec : list nat -> res (list (list Z))) : Prop :=
  forall b, incl b (test_users test) -> b <> [] -> rec b = Ok (map r b).

Lemma test_users_eq {T} (test : csr T) : to_generate test = test_users test. Proof. reflexivity. Qed.
Lemma test_items_eq {T} (test : csr T) u : likes_of test u = test_items test u. Proof. reflexivity. Qed.
Lemma test_items_nodup {T} (test : csr T) u : NoDup (test_items test u). Proof. apply NoDup_nodup. Qed.
Lemma test_items_lt {T} (test : csr T) u i : csr_wf test -> In i (test_items test u) -> (i < c_cols test)%nat.
Proof. intros W H. apply nodup_In in H. eapply csr_row_indices_lt; eauto. Qed.
Lemma test_items_pos {T} (test : csr T) u : In u (test_users test) -> (0 < length (test_items test u))%nat.
Proof.
  intros H. rewrite <- test_users_eq in H. apply to_generate_in in H. destruct H as [_ H]. apply likes_length in H.
  rewrite <- test_items_eq. destruct (likes_of test u); [tauto|simpl; lia].
Qed.

(* ------------------------------------------------------------------ *)
(** C26. *)
Theorem C26_metrics :
  forall (T : Type) (test : csr T) (r : nat -> list Z) rec (K : nat),
  (1 <= K)%nat -> csr_wf test -> test_users test <> [] -> answers test r rec ->
  (forall u, In u (test_users test) -> (length (test_items test u) < c_cols test)%nat /\ (K <= length (r u))%nat) ->
  exists m, ranking_metrics_at_k rec test K = Ok m /\
    precision m = rsum (map (fun u => spec_hits K (test_items test u) (r u)) (test_users test)) /
                  rsum (map (fun u => INR (Nat.min K (length (test_items test u)))) (test_users test)) /\
    map_ m = mean (fun u => spec_ap K (test_items test u) (r u)) (test_users test) /\
    ndcg m = mean (fun u => spec_ndcg K (test_items test u) (r u)) (test_users test) /\
    ((forall u, In u (test_users test) -> valid_ranking (c_cols test) (firstn K (r u))) ->
     auc m = mean (fun u => spec_auc (c_cols test) (test_items test u) (firstn K (r u))) (test_users test)).
Proof.
  intros T test r rec K HK W NE A H. eexists. split.
  { unfold ranking_metrics_at_k. apply metrics_ok with (r := r); auto.
    unfold metrics_batch_size. lia. }
  cbn [precision map_ ndcg auc]. change (to_generate test) with (test_users test). change (likes_of test) with (test_items test).
  split; [|split; [|split]].
  - f_equal. apply rsum_map_ext. intros u Hu. symmetry. apply hits_spec. apply H; auto.
  - unfold mean. f_equal. apply rsum_map_ext. intros u Hu. symmetry. apply ap_spec. apply H; auto.
  - unfold mean. f_equal. apply rsum_map_ext. intros u Hu. symmetry. apply ndcg_spec; [apply H; auto|].
    pose proof (test_items_pos test u Hu). change (likes_of test u) with (test_items test u). lia.
  - intros V. unfold mean. f_equal. apply rsum_map_ext. intros u Hu. apply auc_spec.
    + apply test_items_nodup.
    + intros i. apply test_items_lt; auto.
    + apply V; auto.
Qed.
Print Assumptions C26_metrics.

(** The four single-metric functions return the components. *)
Theorem C26_wrappers :
  forall (T : Type) (test : csr T) rec (K : nat) m,
  ranking_metrics_at_k rec test K = Ok m ->
  precision_at_k rec test K = Ok (precision m) /\ mean_average_precision_at_k rec test K = Ok (map_ m) /\
  ndcg_at_k rec test K = Ok (ndcg m) /\ auc_at_k rec test K = Ok (auc m).
Proof.
  intros T test rec K m E. unfold precision_at_k, mean_average_precision_at_k, ndcg_at_k, auc_at_k.
  rewrite E. cbn [bind]. auto.
Qed.
Print Assumptions C26_wrappers.

(** One user, test items {0, 2} of 4, ranking 0, 1, 2. *)
Definition ex_test : csr Z := csr_of_rows 4 [[(0%nat, 1%Z); (2%nat, 1%Z)]; []].
Definition ex_rank (u : nat) : list Z := [0; 1; 2]%Z.
Example C26_example :
  csr_wf ex_test /\ test_users ex_test = [0%nat] /\ test_items ex_test 0 = [0; 2]%nat /\
  (length (test_items ex_test 0) < c_cols ex_test)%nat /\
  valid_ranking 4 (firstn 3 (ex_rank 0)) /\
  answers ex_test ex_rank (fun b => Ok (map ex_rank b)) /\
  spec_hits 3 [0; 2]%nat (ex_rank 0) = 2 /\
  spec_ap 3 [0; 2]%nat (ex_rank 0) = (1 + 2 / 3) / 2 /\
  spec_auc 4 [0; 2]%nat (ex_rank 0) = 3 / 4.
Proof.
  split; [|repeat split].
  - apply csr_of_rows_wf. intros r p [<-|[<-|[]]] Hp; simpl in Hp; intuition; subst; simpl; lia.
  - vm_compute. lia.
  - repeat constructor; simpl; intuition; lia.
  - simpl in H. intuition; lia.
  - simpl in H. intuition; lia.
  - unfold spec_hits, relevant_at. simpl. unfold b2r. lra.
  - unfold spec_ap, spec_prec, spec_hits, relevant_at. simpl. unfold b2r. field.
  - unfold spec_auc, negatives, pair_value. simpl. field.
Qed.

(* ------------------------------------------------------------------ *)
(** C27. *)
Lemma nhits_bound items likes l : NoDup likes -> valid_ranking items l -> (nhits likes l <= length likes)%nat.
Proof.
  intros NL [ND V]. unfold nhits. rewrite <- (map_length Z.of_nat likes). apply NoDup_incl_length; [apply NoDup_filter; auto|].
  intros z Hz. apply filter_In in Hz. destruct Hz as [_ Hz]. apply isrel_in in Hz. destruct Hz as [p [Hp ->]]. apply in_map; auto.
Qed.
Lemma nhits_min items likes K ids : NoDup likes -> valid_ranking items (firstn K ids) ->
  (nhits likes (firstn K ids) <= Nat.min K (length likes))%nat.
Proof.
  intros NL V. pose proof (nhits_bound items likes _ NL V). pose proof (hits_miss likes (firstn K ids)).
  rewrite firstn_length in *. lia.
Qed.
Lemma ap_rec_bound likes l : forall k h, (h <= k)%nat -> 0 <= ap_rec likes k h l <= INR (nhits likes l).
Proof.
  induction l as [|z l IH]; intros k h L; unfold nhits; cbn [filter ap_rec length]; [simpl; lra|].
  destruct (isrel likes z); cbn [length].
  - destruct (IH (S k) (S h)) as [A B]; [lia|]. fold (nhits likes l). rewrite !S_INR.
    assert (L' := L). apply le_INR in L'. pose proof (pos_INR h).
    assert (0 <= (INR h + 1) / (INR k + 1) <= 1).
    { split; [apply Rmult_le_pos; [lra|left; apply Rinv_0_lt_compat; lra]|].
      apply (Rmult_le_reg_r (INR k + 1)); [lra|]. unfold Rdiv. rewrite Rmult_assoc, Rinv_l by lra. lra. }
    fold (nhits likes l) in B. lra.
  - apply IH. lia.
Qed.
Lemma dcg_rec_bound likes l : forall k k', (k' <= k)%nat ->
  0 <= dcg_rec likes k l <= rsum (map cg (seq k' (nhits likes l))).
Proof.
  induction l as [|z l IH]; intros k k' L; unfold nhits; cbn [filter dcg_rec length]; [simpl; lra|].
  destruct (isrel likes z); cbn [length seq map rsum].
  - destruct (IH (S k) (S k')) as [A B]; [lia|]. fold (nhits likes l) in *. pose proof (cg_pos k). pose proof (cg_decr k' k L). lra.
  - destruct (IH (S k) k') as [A B]; [lia|]. fold (nhits likes l) in *. lra.
Qed.
Lemma cg_seq_mono m n : (m <= n)%nat -> rsum (map cg (seq 0 m)) <= rsum (map cg (seq 0 n)).
Proof.
  intros L. replace n with (m + (n - m))%nat by lia. rewrite seq_app, map_app, rsum_app.
  assert (0 <= rsum (map cg (seq (0 + m) (n - m)))); [|lra]. apply rsum_nonneg. intros x Hx. apply in_map_iff in Hx.
  destruct Hx as [i [<- _]]. left. apply cg_pos.
Qed.
Lemma div_unit a b : 0 < b -> 0 <= a <= b -> 0 <= a / b <= 1.
Proof.
  intros Hb [A B]. split; [apply Rmult_le_pos; [lra|left; apply Rinv_0_lt_compat; lra]|].
  apply (Rmult_le_reg_r b); [lra|]. unfold Rdiv. rewrite Rmult_assoc, Rinv_l by lra. lra.
Qed.
Lemma mean_unit f us : us <> [] -> (forall u, In u us -> 0 <= f u <= 1) -> 0 <= mean f us <= 1.
Proof.
  intros NE B. apply div_unit.
  - apply (lt_INR 0). destruct us; [tauto|simpl; lia].
  - split.
    + apply rsum_nonneg. intros x Hx. apply in_map_iff in Hx. destruct Hx as [u [<- Hu]]. apply B; auto.
    + rewrite <- (Rmult_1_r (INR (length us))), <- rsum_map_const. apply rsum_le. intros u Hu. apply B; auto.
Qed.
Lemma pair_value_unit ids p n : 0 <= pair_value ids p n <= 1.
Proof.
  unfold pair_value. destruct (position _ ids) as [a|], (position _ ids) as [b|]; try lra. destruct (a <? b)%nat; lra.
Qed.
Lemma sum_unit {A} (f : A -> R) l : (forall x, In x l -> 0 <= f x <= 1) -> 0 <= rsum (map f l) <= INR (length l).
Proof.
  intros B. split.
  - apply rsum_nonneg. intros x Hx. apply in_map_iff in Hx. destruct Hx as [u [<- Hu]]. apply B; auto.
  - rewrite <- (Rmult_1_r (INR (length l))), <- rsum_map_const. apply rsum_le. intros u Hu. apply B; auto.
Qed.
Lemma pairs_pos items likes : NoDup likes -> (forall i, In i likes -> (i < items)%nat) -> (0 < length likes < items)%nat ->
  0 < INR (length likes) /\ 0 < INR (length (negatives items likes)).
Proof.
  intros NL B L. pose proof (negatives_length items likes NL B). split; apply (lt_INR 0); lia.
Qed.
Lemma auc_unit items likes ids : NoDup likes -> (forall i, In i likes -> (i < items)%nat) -> (0 < length likes < items)%nat ->
  0 <= spec_auc items likes ids <= 1.
Proof.
  intros NL B L. destruct (pairs_pos items likes NL B L) as [A C]. apply div_unit; [apply Rmult_lt_0_compat; auto|].
  assert (X : forall p, 0 <= rsum (map (pair_value ids p) (negatives items likes)) <= INR (length (negatives items likes))).
  { intros p. apply sum_unit. intros n _. apply pair_value_unit. }
  split.
  - apply rsum_nonneg. intros x Hx. apply in_map_iff in Hx. destruct Hx as [p [<- _]]. apply X.
  - rewrite <- rsum_map_const. apply rsum_le. intros p _. apply X.
Qed.

Definition in_unit (x : R) : Prop := 0 <= x <= 1.

(** Strongest true part: rankings of distinct existing items.  Missing: recommenders
    that return an item twice, see the refutation. *)
Theorem C27_unit_interval_partial :
  forall (T : Type) (test : csr T) (r : nat -> list Z) rec (K : nat),
  (1 <= K)%nat -> csr_wf test -> test_users test <> [] -> answers test r rec ->
  (forall u, In u (test_users test) -> (length (test_items test u) < c_cols test)%nat /\ (K <= length (r u))%nat /\
     valid_ranking (c_cols test) (firstn K (r u))) ->
  exists m, ranking_metrics_at_k rec test K = Ok m /\
    in_unit (precision m) /\ in_unit (map_ m) /\ in_unit (ndcg m) /\ in_unit (auc m).
Proof.
  intros T test r rec K HK W NE A H.
  destruct (C26_metrics T test r rec K HK W NE A) as [m [E [E1 [E2 [E3 E4]]]]].
  { intros u Hu. destruct (H u Hu) as [? [? ?]]. auto. }
  exists m. split; auto. rewrite E1, E2, E3, E4 by (intros u Hu; apply H; auto). clear E E1 E2 E3 E4 m.
  assert (MP : forall u, In u (test_users test) -> 0 < INR (Nat.min K (length (test_items test u)))).
  { intros u Hu. apply (lt_INR 0). pose proof (test_items_pos test u Hu). lia. }
  assert (HM : forall u, In u (test_users test) -> INR (nhits (test_items test u) (firstn K (r u))) <= INR (Nat.min K (length (test_items test u)))).
  { intros u Hu. apply le_INR. eapply nhits_min; [apply test_items_nodup|]. apply H; auto. }
  unfold in_unit. split; [|split; [|split]].
  - apply div_unit.
    + clear -MP NE. destruct (test_users test) as [|u us]; [tauto|]. cbn [map rsum].
      assert (0 < INR (Nat.min K (length (test_items test u)))) by (apply MP; left; auto).
      assert (0 <= rsum (map (fun u0 => INR (Nat.min K (length (test_items test u0)))) us)); [|lra].
      apply rsum_nonneg. intros x Hx. apply in_map_iff in Hx. destruct Hx as [u' [<- _]]. apply pos_INR.
    + rewrite (rsum_map_ext _ (fun u => INR (nhits (test_items test u) (firstn K (r u))))).
      2:{ intros u Hu. apply hits_spec. apply H; auto. }
      split; [|apply rsum_le; auto]. apply rsum_nonneg. intros x Hx. apply in_map_iff in Hx. destruct Hx as [u' [<- _]]. apply pos_INR.
  - apply mean_unit; auto. intros u Hu. rewrite ap_spec by (apply H; auto). apply div_unit; [apply MP; auto|].
    pose proof (ap_rec_bound (test_items test u) (firstn K (r u)) 0 0 (le_n 0)). specialize (HM u Hu). lra.
  - apply mean_unit; auto. intros u Hu. pose proof (test_items_pos test u Hu) as PI.
    unfold spec_ndcg. change discount with cg. pose proof (cg_sum_pos (Nat.min K (length (test_items test u)) - 1)) as CP.
    unfold cg_sum in CP. replace (S (Nat.min K (length (test_items test u)) - 1)) with (Nat.min K (length (test_items test u))) in CP by lia.
    apply div_unit; auto. destruct (H u Hu) as [_ [LK V]].
    replace (rsum (map (fun i => b2r (relevant_at (test_items test u) (r u) i) * cg i) (seq 0 K)))
      with (dcg_rec (test_items test u) 0 (firstn K (r u))).
    + destruct (dcg_rec_bound (test_items test u) (firstn K (r u)) 0 0 (le_n 0)) as [B1 B2]. split; auto.
      eapply Rle_trans; [exact B2|]. apply cg_seq_mono. eapply nhits_min; [apply test_items_nodup|exact V].
    + rewrite dcg_rec_sum, firstn_length, Nat.min_l by auto. apply rsum_map_ext. intros i Hi. apply in_seq in Hi.
      rewrite relevant_at_isrel by lia. rewrite firstn_firstn_nth by lia. reflexivity.
  - apply mean_unit; auto. intros u Hu. apply auc_unit.
    + apply test_items_nodup.
    + intros i. apply test_items_lt; auto.
    + pose proof (test_items_pos test u Hu). destruct (H u Hu). lia.
Qed.
Print Assumptions C27_unit_interval_partial.

(** The lists a factor model returns are such rankings when K is at most the number
    of items, whatever is filtered. *)
Theorem C27_factor_model_partial :
  forall (V T : Type) (HV : Num V) (HO : NumOrd V) (HP : std_heap) (fmin : V) (m : mf V) (f : nat) recalc
    (train : csr V) (test : csr T) (K : nat),
  std_heap_ok HP -> rowwise recalc ->
  (forall x, In x (user_factors m) -> length x = f) -> (forall y, In y (item_factors m) -> length y = f) ->
  (1 <= K <= length (item_factors m))%nat ->
  csr_wf train -> c_cols train = length (item_factors m) ->
  csr_wf test -> c_cols test = length (item_factors m) -> c_rows test = length (user_factors m) ->
  test_users test <> [] ->
  (forall u, In u (test_users test) -> (length (test_items test u) < c_cols test)%nat) ->
  exists res, ranking_metrics_at_k (mf_recommend HP fmin m recalc train K) test K = Ok res /\
    in_unit (precision res) /\ in_unit (map_ res) /\ in_unit (ndcg res) /\ in_unit (auc res).
Proof.
  intros V T HV HO HP fmin m f recalc train test K HC RW Wu Wi HK Wtr Ctr Wte Cte Rte NE LT.
  assert (NEI : item_factors m <> []) by (destruct (item_factors m); simpl in *; [lia|discriminate]).
  assert (ONE : forall u, (u < length (user_factors m))%nat -> exists p : list nat * list V,
     recommend HP fmin m recalc (Scalar (Z.of_nat u)) (Csr (csr_take_row train u)) (Z.of_nat K) true None false None =
       Ok (OneRow (map Z.of_nat (fst p)) (snd p)) /\ length (fst p) = K /\ NoDup (fst p) /\ incl (fst p) (seq 0 (length (item_factors m)))).
  { intros u Hu. destruct (recommend_scalar HP HC fmin m f recalc (Z.of_nat u) (Csr (csr_take_row train u)) (Z.of_nat K) true None) as [ids [sc [E TN]]]; auto.
    - split; auto.
    - unfold idx_ok; lia.
    - lia.
    - intros _. eexists. split; [reflexivity|]. split; [reflexivity|]. intros g i Hg Hi. rewrite <- Ctr.
      assert (g = 0)%nat by lia. subst g.
      unfold csr_row_indices in Hi. rewrite csr_take_row_row in Hi. eapply csr_row_indices_lt; eauto.
    - intros a z X; discriminate.
    - exists (pad (Z.to_nat (Z.of_nat K)) 0%nat ids, pad (Z.to_nat (Z.of_nat K)) nzero sc). cbn [fst snd]. split; auto.
      rewrite Nat2Z.id in *. rewrite Nat.min_l in TN by lia. pose proof (topn_length _ _ _ _ _ TN) as L.
      assert (P : pad K 0%nat ids = ids) by (unfold pad; rewrite L, Nat.sub_diag; apply app_nil_r). rewrite P.
      split; auto. split; [apply (topn_nodup _ _ _ _ _ TN)|apply (topn_incl _ _ _ _ _ TN)]. }
  assert (CH : exists r : nat -> list Z * list V, forall u, (u < length (user_factors m))%nat ->
     recommend HP fmin m recalc (Scalar (Z.of_nat u)) (Csr (csr_take_row train u)) (Z.of_nat K) true None false None =
       Ok (OneRow (fst (r u)) (snd (r u))) /\ length (fst (r u)) = K /\ valid_ranking (length (item_factors m)) (fst (r u))).
  { exists (fun u => match recommend HP fmin m recalc (Scalar (Z.of_nat u)) (Csr (csr_take_row train u)) (Z.of_nat K) true None false None with
                     | Ok (OneRow i s) => (i, s) | _ => ([], []) end).
    intros u Hu. destruct (ONE u Hu) as [p [E [L [ND IN]]]]. rewrite E. cbn [fst snd]. split; auto. split; [rewrite map_length; auto|].
    split; [apply FinFun.Injective_map_NoDup; [intros x y; lia|auto]|].
    intros z Hz. apply in_map_iff in Hz. destruct Hz as [i [<- Hi]]. apply IN in Hi. apply in_seq in Hi. lia. }
  destruct CH as [r CH].
  apply (C27_unit_interval_partial T test (fun u => fst (r u))); auto; [lia| |].
  - intros b Hb NB. unfold mf_recommend.
    assert (UB : forall u, In u b -> (u < length (user_factors m))%nat).
    { intros u Hu. apply Hb in Hu. apply filter_In in Hu. destruct Hu as [Hu _]. apply in_seq in Hu. lia. }
    assert (E : recommend HP fmin m recalc (Batch (map Z.of_nat b)) (Csr (csr_of_rows (c_cols train) (map (csr_row train) b)))
       (Z.of_nat K) true None false None = Ok (ManyRows (map (fun u => fst (r u)) b) (map (fun u => snd (r u)) b))).
    { apply C02_recommend_batch_is_scalar; auto; [destruct b; [tauto|discriminate]|lia|].
      split; [intros _; simpl; rewrite !map_length; auto|]. rewrite !map_length. split; auto. split; auto.
      intros g Hg. destruct (CH (nth g b 0%nat)) as [E _]; [apply UB, nth_In; auto|].
      change 0%Z with (Z.of_nat 0). rewrite map_nth.
      rewrite (nth_indep (map (fun u => fst (r u)) b) [] (fst (r 0%nat))) by (rewrite map_length; auto).
      rewrite (nth_indep (map (fun u => snd (r u)) b) [] (snd (r 0%nat))) by (rewrite map_length; auto).
      rewrite (map_nth (fun u => fst (r u))), (map_nth (fun u => snd (r u))). rewrite <- E. f_equal. f_equal.
      unfold csr_take_row. cbn [c_cols csr_of_rows]. f_equal. f_equal. rewrite csr_row_of_rows.
      rewrite (nth_indep _ [] (csr_row train 0)) by (rewrite map_length; auto). apply map_nth. }
    rewrite E. reflexivity.
  - intros u Hu. split; auto. assert (UB : (u < length (user_factors m))%nat).
    { apply filter_In in Hu. destruct Hu as [Hu _]. apply in_seq in Hu. lia. }
    destruct (CH u UB) as [_ [L VR]]. split; [lia|]. rewrite firstn_all2 by lia. rewrite Cte. auto.
Qed.
Print Assumptions C27_factor_model_partial.

Lemma map_repeat {A B} (g : A -> B) x n : map g (repeat x n) = repeat (g x) n.
Proof. induction n; simpl; congruence. Qed.

(** A factor model with two items and K = 10: the padding repeats item 0. *)
Definition small_mf : mf Z := {| user_factors := [[1]]%Z; item_factors := [[2]; [1]]%Z |}.
Definition small_train : csr Z := csr_of_rows 2 [[]].
Definition small_test : csr Z := csr_of_rows 2 [[(0%nat, 1%Z)]].
Theorem C27_unit_interval_refuted :
  exists (m : mf Z) (train test : csr Z) (K : nat) res,
    (1 <= K)%nat /\ csr_wf train /\ csr_wf test /\ test_users test <> [] /\
    (forall u, In u (test_users test) -> (length (test_items test u) < c_cols test)%nat) /\
    ranking_metrics_at_k (mf_recommend simple_heap (-1000)%Z m no_recalc train K) test K = Ok res /\
    precision res = 9 /\ 1 < map_ res.
Proof.
  set (ids := [0; 1; 0; 0; 0; 0; 0; 0; 0; 0]%Z).
  exists small_mf, small_train, small_test, 10%nat.
  assert (W1 : csr_wf small_train) by (apply csr_of_rows_wf; intros r p [<-|[]] []).
  assert (W2 : csr_wf small_test) by (apply csr_of_rows_wf; intros r p [<-|[]] [<-|[]]; simpl; lia).
  assert (TU : test_users small_test = [0%nat]) by reflexivity.
  assert (A : forall n, mf_recommend simple_heap (-1000)%Z small_mf no_recalc small_train 10 (repeat 0%nat (S n)) = Ok (repeat ids (S n))).
  { intros n. unfold mf_recommend.
    assert (E : recommend simple_heap (-1000)%Z small_mf no_recalc (Batch (map Z.of_nat (repeat 0%nat (S n))))
       (Csr (csr_of_rows (c_cols small_train) (map (csr_row small_train) (repeat 0%nat (S n))))) (Z.of_nat 10) true None false None
        = Ok (ManyRows (repeat ids (S n)) (repeat [2; 1; 0; 0; 0; 0; 0; 0; 0; 0]%Z (S n)))).
    { apply (C02_recommend_batch_is_scalar Z Num_Z NumOrd_Z); [apply simple_heap_ok|discriminate|lia|discriminate|apply no_recalc_rowwise|].
      rewrite !repeat_length, map_length, repeat_length. split; [intros _; simpl; rewrite map_length, repeat_length; auto|].
      split; auto. split; auto. intros g Hg. rewrite map_repeat. rewrite !nth_repeat_lt by auto.
      unfold csr_take_row. rewrite csr_row_of_rows. rewrite map_repeat, nth_repeat_lt by auto. vm_compute. reflexivity. }
    rewrite E. reflexivity. }
  destruct (C26_metrics Z small_test (fun _ => ids) (mf_recommend simple_heap (-1000)%Z small_mf no_recalc small_train 10) 10)
    as [res [E [E1 [E2 _]]]]; auto; [lia|rewrite TU; discriminate| | |].
  - intros b Hb NB. rewrite TU in Hb. assert (X : b = repeat 0%nat (length b)).
    { clear -Hb. induction b as [|x b IH]; auto. simpl. rewrite <- IH by (intros y Hy; apply Hb; right; auto).
      f_equal. destruct (Hb x (or_introl eq_refl)) as [|[]]; auto. }
    destruct b as [|x b]; [tauto|]. rewrite X. cbn [length]. rewrite A, map_repeat. reflexivity.
  - rewrite TU. intros u [<-|[]]. vm_compute. lia.
  - exists res. split; [lia|]. split; auto. split; auto. split; [rewrite TU; discriminate|].
    split; [rewrite TU; intros u [<-|[]]; vm_compute; lia|]. split; auto.
    rewrite E1, E2, TU. unfold mean. cbn [map length]. rewrite hits_spec, ap_spec by (simpl; lia).
    change (test_items small_test 0) with [0%nat].
    replace (nhits [0%nat] (firstn 10 ids)) with 9%nat by reflexivity.
    unfold u_ap. cbn [length Nat.min]. unfold ids. simpl. lra.
Qed.
Print Assumptions C27_unit_interval_refuted.

(* ------------------------------------------------------------------ *)
(** C28. *)
Lemma ap_rec_app likes l l' : forall k h, ap_rec likes k h (l ++ l') =
  ap_rec likes k h l + ap_rec likes (k + length l) (h + nhits likes l) l'.
Proof.
  induction l as [|z l IH]; intros k h; [unfold nhits; simpl; rewrite !Nat.add_0_r; lra|].
  unfold nhits. cbn [app ap_rec filter]. destruct (isrel likes z); rewrite IH; unfold nhits; cbn [length];
    replace (S k + length l)%nat with (k + S (length l))%nat by lia.
  - replace (S h + length (filter (isrel likes) l))%nat with (h + S (length (filter (isrel likes) l)))%nat by lia. lra.
  - lra.
Qed.
Lemma dcg_rec_app likes l l' : forall k, dcg_rec likes k (l ++ l') = dcg_rec likes k l + dcg_rec likes (k + length l) l'.
Proof.
  induction l as [|z l IH]; intros k; [simpl; rewrite Nat.add_0_r; lra|]. cbn [app dcg_rec length]. rewrite IH.
  replace (S k + length l)%nat with (k + S (length l))%nat by lia. lra.
Qed.
Lemma all_hits likes l : forall k, (forall z, In z l -> isrel likes z = true) ->
  ap_rec likes k k l = INR (length l) /\ dcg_rec likes k l = rsum (map cg (seq k (length l))) /\
  nhits likes l = length l /\ forall h, auc_rec likes h l = 0%nat.
Proof.
  induction l as [|z l IH]; intros k A; [repeat split; reflexivity|].
  destruct (IH (S k)) as [I1 [I2 [I3 I4]]]; [intros; apply A; right; auto|].
  unfold nhits in *. cbn [ap_rec dcg_rec auc_rec filter]. rewrite (A z) by (left; auto). cbn [length].
  rewrite I1, I2, I3, !S_INR. split; [|split; [|split]]; auto.
  pose proof (pos_INR k). field. lra.
Qed.
Lemma no_hits likes l : forall k h, (forall z, In z l -> isrel likes z = false) ->
  ap_rec likes k h l = 0 /\ dcg_rec likes k l = 0 /\ nhits likes l = 0%nat /\ nmiss likes l = length l /\ auc_rec likes h l = (h * length l)%nat.
Proof.
  induction l as [|z l IH]; intros k h A; [repeat split; auto|].
  destruct (IH (S k) h) as [I1 [I2 [I3 [I4 I5]]]]; [intros; apply A; right; auto|].
  unfold nhits, nmiss in *. cbn [ap_rec dcg_rec auc_rec filter]. rewrite (A z) by (left; auto). cbn [length negb].
  rewrite I1, I2, I3, I4, I5. repeat split; auto; try lra. lia.
Qed.
Lemma nhits_zero likes l : nhits likes l = 0%nat -> forall z, In z l -> isrel likes z = false.
Proof.
  intros E z Hz. destruct (isrel likes z) eqn:R; auto. exfalso. unfold nhits in E.
  assert (In z (filter (isrel likes) l)) by (apply filter_In; auto). destruct (filter (isrel likes) l); [auto|discriminate].
Qed.

Lemma mean_const c f us : us <> [] -> (forall u, In u us -> f u = c) -> mean f us = c.
Proof.
  intros NE E. unfold mean. rewrite (rsum_map_ext f (fun _ => c)) by auto. rewrite rsum_map_const. field.
  apply not_0_INR. destruct us; [tauto|discriminate].
Qed.

(** The ranking puts test items first: as many as fit into K.  When all of them fit,
    the AUC is 1 as well. *)
Theorem C28_perfect :
  forall (T : Type) (test : csr T) (r : nat -> list Z) rec (K : nat),
  (1 <= K)%nat -> csr_wf test -> test_users test <> [] -> answers test r rec ->
  (forall u, In u (test_users test) -> (length (test_items test u) < c_cols test)%nat /\ (K <= length (r u))%nat /\
     valid_ranking (c_cols test) (firstn K (r u)) /\
     forall i, (i < Nat.min K (length (test_items test u)))%nat -> exists p, In p (test_items test u) /\ nth i (r u) (-1)%Z = Z.of_nat p) ->
  exists m, ranking_metrics_at_k rec test K = Ok m /\ precision m = 1 /\ map_ m = 1 /\ ndcg m = 1 /\
    ((forall u, In u (test_users test) -> (length (test_items test u) <= K)%nat) -> auc m = 1).
Proof.
  intros T test r rec K HK W NE A H.
  assert (KEY : forall u, In u (test_users test) -> exists l1 l2, firstn K (r u) = l1 ++ l2 /\
     length l1 = Nat.min K (length (test_items test u)) /\
     (forall z, In z l1 -> isrel (test_items test u) z = true) /\ (forall z, In z l2 -> isrel (test_items test u) z = false)).
  { intros u Hu. destruct (H u Hu) as [H1 [H2 [H3 H4]]]. set (mm := Nat.min K (length (test_items test u))) in *.
    exists (firstn mm (firstn K (r u))), (skipn mm (firstn K (r u))).
    assert (L1 : length (firstn mm (firstn K (r u))) = mm) by (rewrite !firstn_length; unfold mm; lia).
    assert (A1 : forall z, In z (firstn mm (firstn K (r u))) -> isrel (test_items test u) z = true).
    { intros z Hz. apply (In_nth _ _ (-1)%Z) in Hz. destruct Hz as [i [Hi <-]]. rewrite L1 in Hi.
      rewrite !firstn_firstn_nth by (unfold mm in *; lia). destruct (H4 i Hi) as [p [Hp ->]]. apply isrel_in. exists p; auto. }
    split; [symmetry; apply firstn_skipn|]. split; auto. split; auto.
    apply nhits_zero. pose proof (nhits_min _ _ K (r u) (test_items_nodup test u) H3) as B. fold mm in B.
    rewrite <- (firstn_skipn mm (firstn K (r u))) in B. rewrite nhits_app in B.
    destruct (all_hits _ _ 0 A1) as [_ [_ [E _]]]. rewrite E, L1 in B. lia. }
  assert (MP : forall u, In u (test_users test) -> 0 < INR (Nat.min K (length (test_items test u)))).
  { intros u Hu. apply (lt_INR 0). pose proof (test_items_pos test u Hu). lia. }
  destruct (C26_metrics T test r rec K HK W NE A) as [m [E [E1 [E2 [E3 E4]]]]].
  { intros u Hu. destruct (H u Hu) as [? [? ?]]. auto. }
  exists m. split; auto. rewrite E1, E2, E3. split; [|split; [|split]].
  - rewrite (rsum_map_ext (fun u => spec_hits K (test_items test u) (r u)) (fun u => INR (Nat.min K (length (test_items test u))))).
    + field. intros Z. clear -MP NE Z. destruct (test_users test) as [|u us]; [tauto|]. cbn [map rsum] in Z.
      assert (0 < INR (Nat.min K (length (test_items test u)))) by (apply MP; left; auto).
      assert (0 <= rsum (map (fun u0 => INR (Nat.min K (length (test_items test u0)))) us)); [|lra].
      apply rsum_nonneg. intros x Hx. apply in_map_iff in Hx. destruct Hx as [u' [<- _]]. apply pos_INR.
    + intros u Hu. rewrite hits_spec by (apply H; auto). destruct (KEY u Hu) as [l1 [l2 [-> [L [X1 X2]]]]].
      rewrite nhits_app. destruct (all_hits _ _ 0 X1) as [_ [_ [-> _]]]. destruct (no_hits _ _ 0 0 X2) as [_ [_ [-> _]]].
      rewrite Nat.add_0_r, L. auto.
  - apply mean_const; auto. intros u Hu. rewrite ap_spec by (apply H; auto). unfold u_ap.
    destruct (KEY u Hu) as [l1 [l2 [-> [L [X1 X2]]]]]. rewrite ap_rec_app.
    destruct (all_hits _ _ 0 X1) as [-> _]. destruct (no_hits _ _ (0 + length l1) (0 + nhits (test_items test u) l1) X2) as [-> _].
    rewrite L. specialize (MP u Hu). field. lra.
  - apply mean_const; auto. intros u Hu. pose proof (test_items_pos test u Hu) as PI.
    rewrite ndcg_spec by (try apply H; auto; lia). unfold u_ndcg.
    destruct (KEY u Hu) as [l1 [l2 [-> [L [X1 X2]]]]]. rewrite dcg_rec_app.
    destruct (all_hits _ _ 0 X1) as [_ [-> _]]. destruct (no_hits _ _ (0 + length l1) 0 X2) as [_ [-> _]].
    pose proof (cg_sum_pos (Nat.min K (length (test_items test u)) - 1)) as CP. unfold cg_sum in *.
    replace (S (Nat.min K (length (test_items test u)) - 1)) with (Nat.min K (length (test_items test u))) in * by lia.
    rewrite L. field. lra.
  - intros LK. rewrite E4 by (intros u Hu; apply H; auto). apply mean_const; auto. intros u Hu.
    assert (BL : forall i, In i (test_items test u) -> (i < c_cols test)%nat) by (intros i; apply test_items_lt; auto).
    destruct (H u Hu) as [H1 [H2 [H3 _]]]. rewrite <- auc_spec by (auto; apply test_items_nodup). unfold u_auc.
    destruct (KEY u Hu) as [l1 [l2 [-> [L [X1 X2]]]]]. rewrite nhits_app, nmiss_app, auc_rec_app.
    pose proof (hits_miss (test_items test u) l1) as HM.
    destruct (all_hits _ _ 0 X1) as [_ [_ [A3 A4]]]. rewrite A4, A3.
    destruct (no_hits _ _ 0 (0 + length l1) X2) as [_ [_ [-> [-> ->]]]].
    assert (nmiss (test_items test u) l1 = 0)%nat as -> by lia.
    specialize (LK u Hu). rewrite Nat.min_r in L by lia. rewrite L. rewrite !Nat.add_0_l, Nat.add_0_r. rewrite mult_INR.
    assert (0 < INR (length (test_items test u))) by (apply (lt_INR 0); apply test_items_pos; auto).
    assert (INR (length (test_items test u)) < INR (c_cols test)) by (apply lt_INR; auto). field. lra.
Qed.
Print Assumptions C28_perfect.

(** No recommendation is a test item of its user. *)
Theorem C28_worthless :
  forall (T : Type) (test : csr T) (r : nat -> list Z) rec (K : nat),
  (1 <= K)%nat -> csr_wf test -> test_users test <> [] -> answers test r rec ->
  (forall u, In u (test_users test) -> (length (test_items test u) < c_cols test)%nat /\ (K <= length (r u))%nat /\
     forall p, In p (test_items test u) -> ~ In (Z.of_nat p) (firstn K (r u))) ->
  exists m, ranking_metrics_at_k rec test K = Ok m /\ precision m = 0 /\ map_ m = 0 /\ ndcg m = 0.
Proof.
  intros T test r rec K HK W NE A H.
  assert (KEY : forall u, In u (test_users test) -> forall z, In z (firstn K (r u)) -> isrel (test_items test u) z = false).
  { intros u Hu z Hz. destruct (isrel (test_items test u) z) eqn:R; auto. apply isrel_in in R. destruct R as [p [Hp ->]].
    exfalso. apply (proj2 (proj2 (H u Hu)) p); auto. }
  destruct (C26_metrics T test r rec K HK W NE A) as [m [E [E1 [E2 [E3 _]]]]].
  { intros u Hu. destruct (H u Hu) as [? [? ?]]. auto. }
  exists m. split; auto. rewrite E1, E2, E3. split; [|split].
  - rewrite (rsum_map_ext (fun u => spec_hits K (test_items test u) (r u)) (fun _ => 0)).
    + rewrite rsum_map_const. unfold Rdiv. ring.
    + intros u Hu. rewrite hits_spec by (apply H; auto). destruct (no_hits _ _ 0 0 (KEY u Hu)) as [_ [_ [-> _]]]. auto.
  - apply mean_const; auto. intros u Hu. rewrite ap_spec by (apply H; auto). unfold u_ap.
    destruct (no_hits _ _ 0 0 (KEY u Hu)) as [-> _]. unfold Rdiv. ring.
  - apply mean_const; auto. intros u Hu. pose proof (test_items_pos test u Hu) as PI.
    rewrite ndcg_spec by (try apply H; auto; lia). unfold u_ndcg.
    destruct (no_hits _ _ 0 0 (KEY u Hu)) as [_ [-> _]]. unfold Rdiv. ring.
Qed.
Print Assumptions C28_worthless.

Example C28_example :
  valid_ranking 4 (firstn 3 [2; 0; 3]%Z) /\
  (forall i, (i < Nat.min 3 (length (test_items ex_test 0)))%nat ->
     exists p, In p (test_items ex_test 0) /\ nth i [2; 0; 3]%Z (-1)%Z = Z.of_nat p) /\
  (forall p, In p (test_items ex_test 0) -> ~ In (Z.of_nat p) (firstn 2 [1; 3]%Z)).
Proof.
  repeat split.
  - repeat constructor; simpl; intuition; lia.
  - simpl in H. intuition; lia.
  - simpl in H. intuition; lia.
  - intros i Hi. assert (i = 0 \/ i = 1)%nat as [-> | ->] by (vm_compute in Hi; lia).
    + exists 2%nat. vm_compute. auto.
    + exists 0%nat. vm_compute. auto.
  - intros p Hp. vm_compute in Hp. simpl. intuition; subst; simpl in *; lia.
Qed.

(* ------------------------------------------------------------------ *)
(** C29: fraction of (test item, other item) pairs that a complete ranking orders right. *)
Definition before (full : list Z) (p n : nat) : bool :=
  match position (Z.of_nat p) full, position (Z.of_nat n) full with Some a, Some b => (a <? b)%nat | _, _ => false end.
Definition exact_auc (items : nat) (likes : list nat) (full : list Z) : R :=
  rsum (map (fun p => rsum (map (fun n => b2r (before full p n)) (negatives items likes))) likes)
  / (INR (length likes) * INR (length (negatives items likes))).

Lemma exact_is_spec items likes full : (forall i, In i likes -> (i < items)%nat) ->
  (forall i, (i < items)%nat -> In (Z.of_nat i) full) -> exact_auc items likes full = spec_auc items likes full.
Proof.
  intros BL C. unfold exact_auc, spec_auc. f_equal. apply rsum_map_ext. intros p Hp. apply rsum_map_ext. intros n Hn.
  unfold before, pair_value. apply filter_In in Hn. destruct Hn as [Hn _]. apply in_seq in Hn.
  destruct (position (Z.of_nat p) full) eqn:P; [|apply position_in in P; exfalso; apply P, C, BL; auto].
  destruct (position (Z.of_nat n) full) eqn:Q; [|apply position_in in Q; exfalso; apply Q, C; lia].
  reflexivity.
Qed.

Theorem C29_auc_completion :
  forall (T : Type) (test : csr T) (r : nat -> list Z) (tail : nat -> list Z) rec (K : nat),
  (1 <= K)%nat -> csr_wf test -> test_users test <> [] -> answers test r rec ->
  (forall u, In u (test_users test) -> (length (test_items test u) < c_cols test)%nat /\ (K <= length (r u))%nat /\
     Permutation (firstn K (r u) ++ tail u) (map Z.of_nat (seq 0 (c_cols test)))) ->
  exists m, ranking_metrics_at_k rec test K = Ok m /\
    auc m = mean (fun u => (exact_auc (c_cols test) (test_items test u) (firstn K (r u) ++ tail u) +
                            exact_auc (c_cols test) (test_items test u) (firstn K (r u) ++ rev (tail u))) / 2) (test_users test).
Proof.
  intros T test r tail rec K HK W NE A H.
  assert (VF : forall l, Permutation l (map Z.of_nat (seq 0 (c_cols test))) -> valid_ranking (c_cols test) l).
  { intros l P. split.
    - apply (Permutation_NoDup (Permutation_sym P)). apply FinFun.Injective_map_NoDup; [intros x y; lia|apply seq_NoDup].
    - intros z Hz. apply (Permutation_in _ P) in Hz. apply in_map_iff in Hz. destruct Hz as [i [<- Hi]]. apply in_seq in Hi. lia. }
  assert (V : forall u, In u (test_users test) -> valid_ranking (c_cols test) (firstn K (r u))).
  { intros u Hu. destruct (H u Hu) as [_ [_ P]]. apply VF in P. destruct P as [ND B]. split.
    - clear -ND. revert ND. generalize (firstn K (r u)). intros l. induction l; intros ND; [constructor|]. simpl in ND.
      inversion ND as [|? ? N1 N2]; subst. constructor; auto. intros X. apply N1, in_or_app; auto.
    - intros z Hz. apply B, in_or_app; auto. }
  destruct (C26_metrics T test r rec K HK W NE A) as [m [E [_ [_ [_ E4]]]]].
  { intros u Hu. destruct (H u Hu) as [? [? ?]]. auto. }
  exists m. split; auto. rewrite E4 by auto. unfold mean. f_equal. apply rsum_map_ext. intros u Hu.
  destruct (H u Hu) as [H1 [H2 P]]. set (l := firstn K (r u)) in *. set (likes := test_items test u) in *.
  assert (P' : Permutation (l ++ rev (tail u)) (map Z.of_nat (seq 0 (c_cols test)))).
  { rewrite <- P. apply Permutation_app_head. symmetry. apply Permutation_rev. }
  assert (BL : forall i, In i likes -> (i < c_cols test)%nat) by (intros i; apply test_items_lt; auto).
  assert (NL : NoDup likes) by apply test_items_nodup.
  assert (CMP : forall full, Permutation full (map Z.of_nat (seq 0 (c_cols test))) -> forall i, (i < c_cols test)%nat -> In (Z.of_nat i) full).
  { intros full Q i Hi. apply (Permutation_in _ (Permutation_sym Q)). apply in_map, in_seq. lia. }
  rewrite !exact_is_spec by (auto; apply CMP; auto).
  unfold spec_auc. rewrite !pairs_total by (auto; apply V; auto).
  assert (FULL : forall full, Permutation full (map Z.of_nat (seq 0 (c_cols test))) ->
      nhits likes full = length likes /\ (length likes + nmiss likes full = c_cols test)%nat).
  { intros full Q. assert (X : nhits likes full = length likes).
    { apply Nat.le_antisymm; [apply (nhits_bound (c_cols test)); auto|]. unfold nhits. rewrite <- (map_length Z.of_nat likes).
      apply NoDup_incl_length; [apply FinFun.Injective_map_NoDup; [intros x y; lia|auto]|].
      intros z Hz. apply filter_In. apply in_map_iff in Hz. destruct Hz as [i [<- Hi]]. split; [apply (CMP full Q); auto|].
      apply isrel_in. exists i; auto. }
    split; auto. pose proof (hits_miss likes full) as HM. rewrite X in HM. rewrite HM, (Permutation_length Q), map_length, seq_length. auto. }
  destruct (FULL _ P) as [F1 F2]. destruct (FULL _ P') as [G1 G2]. rewrite F1, G1.
  assert (IM : forall full, (length likes + nmiss likes full = c_cols test)%nat -> INR (c_cols test) = INR (length likes) + INR (nmiss likes full)).
  { intros full Q. rewrite <- Q, plus_INR. auto. }
  pose proof (IM _ F2) as J1. pose proof (IM _ G2) as J2.
  rewrite !auc_rec_app. rewrite (auc_rec_shift likes (0 + nhits likes l) (tail u)), (auc_rec_shift likes (0 + nhits likes l) (rev (tail u))).
  pose proof (auc_rec_rev likes (tail u)) as RV.
  rewrite !nhits_app, !nmiss_app in *.
  assert (RH : nhits likes (rev (tail u)) = nhits likes (tail u)) by lia.
  assert (RM : nmiss likes (rev (tail u)) = nmiss likes (tail u)) by lia.
  rewrite RM in *. rewrite plus_INR in J1, J2. rewrite !plus_INR, !mult_INR, !Nat.add_0_l.
  assert (RV' : INR (auc_rec likes 0 (tail u)) + INR (auc_rec likes 0 (rev (tail u))) = INR (nhits likes (tail u)) * INR (nmiss likes (tail u))).
  { rewrite <- plus_INR, <- mult_INR. f_equal. auto. }
  assert (F1' : INR (length likes) = INR (nhits likes l) + INR (nhits likes (tail u))) by (rewrite <- plus_INR; f_equal; auto).
  destruct (pairs_pos (c_cols test) likes NL BL) as [B1 B2]; [split; auto; apply test_items_pos; auto|].
  set (D := INR (length likes) * INR (length (negatives (c_cols test) likes))) in *.
  assert (0 < D) by (apply Rmult_lt_0_compat; auto). clearbody D.
  set (a0 := INR (auc_rec likes 0 l)) in *. set (h := INR (nhits likes l)) in *. set (ht := INR (nhits likes (tail u))) in *.
  set (mt := INR (nmiss likes (tail u))) in *. set (ml := INR (nmiss likes l)) in *.
  set (x := INR (auc_rec likes 0 (tail u))) in *. set (y := INR (auc_rec likes 0 (rev (tail u)))) in *.
  set (n := INR (length likes)) in *. set (c := INR (c_cols test)) in *. clearbody a0 h ht mt ml x y n c.
  replace y with (ht * mt - x) by lra. replace c with (n + (ml + mt)) by lra. rewrite F1'. field. lra.
Qed.
Print Assumptions C29_auc_completion.

Example C29_example :
  Permutation (firstn 3 (ex_rank 0) ++ [3]%Z) (map Z.of_nat (seq 0 (c_cols ex_test))) /\
  exact_auc 4 [0; 2]%nat (ex_rank 0 ++ [3]%Z) = 3 / 4 /\
  (** a shorter list, whose tail matters *)
  exact_auc 4 [0; 2]%nat ([0]%Z ++ [1; 2; 3]%Z) = 3 / 4 /\ exact_auc 4 [0; 2]%nat ([0]%Z ++ [2; 3; 1]%Z) = 1.
Proof.
  split; [simpl; auto|]. unfold exact_auc, negatives, before. simpl. unfold b2r. repeat split; field.
Qed.

(* ------------------------------------------------------------------ *)
(** C30. *)
Lemma fold_res_app {A B} (g : B -> A -> res B) l l' s : fold_res g (l ++ l') s = do s' <- fold_res g l s; fold_res g l' s'.
Proof. revert s. induction l as [|a l IH]; intros s; cbn [app fold_res bind]; auto. destruct (g s a); cbn [bind]; auto. Qed.

Definition one_user {T} (K : nat) (test : csr T) (r : nat -> list Z) (t : totals) (u : nat) : res totals :=
  user_step K (c_cols test) (likes_of test u) (r u) t.
Lemma batch_loop_any {T} bs K (test : csr T) r rec : (0 < bs)%nat ->
  forall fuel us t, (length us <= fuel)%nat -> (forall b, incl b us -> b <> [] -> rec b = Ok (map r b)) ->
  batch_loop fuel bs K test rec us t = fold_res (one_user K test r) us t.
Proof.
  intros HB. induction fuel as [|fuel IH]; intros us t L RW.
  - destruct us; [reflexivity|simpl in L; lia].
  - destruct us as [|u us']; [reflexivity|]. set (us := u :: us') in *.
    assert (I1 : incl (firstn bs us) us) by (intros x Hx; rewrite <- (firstn_skipn bs us); apply in_or_app; auto).
    assert (I2 : incl (skipn bs us) us) by (intros x Hx; rewrite <- (firstn_skipn bs us); apply in_or_app; auto).
    assert (E1 : forall b t, incl b us -> b <> [] -> batch_step K test rec b t = fold_res (one_user K test r) b t).
    { intros b t0 Hb NB. unfold batch_step. rewrite RW by auto. cbn [bind]. rewrite map_length, Nat.ltb_irrefl.
      clear. revert t0. induction b as [|x b IHb]; intros t0; auto. cbn [map combine fold_res fst snd].
      change (user_step K (c_cols test) (likes_of test x) (r x) t0) with (one_user K test r t0 x).
      destruct (one_user K test r t0 x); cbn [bind]; auto. }
    assert (STEP : batch_loop (S fuel) bs K test rec us t =
       (do t <- batch_step K test rec (firstn bs us) t; batch_loop fuel bs K test rec (skipn bs us) t)) by reflexivity.
    rewrite STEP, E1; [|auto|destruct bs; [lia|discriminate]].
    replace (fold_res (one_user K test r) us t) with (fold_res (one_user K test r) (firstn bs us ++ skipn bs us) t) by (rewrite firstn_skipn; auto). rewrite fold_res_app.
    destruct (fold_res (one_user K test r) (firstn bs us) t); cbn [bind]; auto. apply IH.
    + rewrite skipn_length. assert (length us = S (length us')) by reflexivity. lia.
    + intros b Hb NB. apply RW; auto. intros x Hx. apply I2, Hb; auto.
Qed.

(** Any batch size gives the result of evaluating users one at a time: the same
    numbers or the same exception. *)
Theorem C30_batching :
  forall (T : Type) (test : csr T) (r : nat -> list Z) rec (K bs : nat),
  (0 < bs)%nat -> answers test r rec ->
  ranking_metrics_with bs rec test K = ranking_metrics_with 1 rec test K /\
  ranking_metrics_at_k rec test K = ranking_metrics_with 1 rec test K.
Proof.
  intros T test r rec K bs HB A. 
  assert (X : forall b, (0 < b)%nat -> ranking_metrics_with b rec test K = ranking_metrics_with 1 rec test K).
  { intros b Hb. unfold ranking_metrics_with. rewrite !(batch_loop_any _ K test r rec); auto; lia. }
  split; apply X; auto. unfold metrics_batch_size. lia.
Qed.
Print Assumptions C30_batching.

(** Users without test items, and the values stored in the test matrix, do not matter. *)
Theorem C30_empty_users :
  forall (T : Type) (cols n : nat) (rows : list (list (nat * T))) (r : nat -> list Z) rec (K bs : nat),
  (0 < bs)%nat -> answers (csr_of_rows cols rows) r rec ->
  ranking_metrics_with bs rec (csr_of_rows cols (rows ++ repeat [] n)) K = ranking_metrics_with bs rec (csr_of_rows cols rows) K.
Proof.
  intros T cols n rows r rec K bs HB A.
  assert (RW : forall u, csr_row (csr_of_rows cols (rows ++ repeat [] n)) u = csr_row (csr_of_rows cols rows) u).
  { intros u. rewrite !csr_row_of_rows. destruct (Nat.lt_ge_cases u (length rows)) as [L|L].
    - apply app_nth1; auto.
    - rewrite app_nth2, (nth_overflow rows) by lia. destruct (nth_in_or_default (u - length rows) (repeat (@nil (nat * T)) n) []) as [X|X]; auto.
      apply repeat_spec in X. auto. }
  assert (TU : test_users (csr_of_rows cols (rows ++ repeat [] n)) = test_users (csr_of_rows cols rows)).
  { unfold test_users. cbn [c_rows csr_of_rows]. rewrite app_length, seq_app, filter_app.
    rewrite (filter_ext _ (fun u => negb (length (csr_row (csr_of_rows cols rows) u) =? 0)%nat)) by (intros u; rewrite RW; auto).
    rewrite <- (app_nil_r (filter _ (seq 0 (length rows)))) at 2. f_equal.
    assert (Z : forall u, In u (seq (0 + length rows) (length (repeat (@nil (nat * T)) n))) ->
       negb (length (csr_row (csr_of_rows cols (rows ++ repeat [] n)) u) =? 0)%nat = false).
    { intros u Hu. apply in_seq in Hu. rewrite RW, csr_row_of_rows, nth_overflow by lia. auto. }
    revert Z. generalize (seq (0 + length rows) (length (repeat (@nil (nat * T)) n))). intros l. induction l as [|x l IH]; auto.
    intros Z. simpl. rewrite (Z x) by (left; auto). apply IH. intros; apply Z; right; auto. }
  unfold ranking_metrics_with. rewrite !test_users_eq, TU.
  rewrite !(batch_loop_any bs K _ r rec HB) by auto.
  assert (F : forall us t, fold_res (one_user K (csr_of_rows cols (rows ++ repeat [] n)) r) us t = fold_res (one_user K (csr_of_rows cols rows) r) us t).
  { intros us. induction us as [|u us IH]; intros t; auto. cbn [fold_res]. unfold one_user at 1 3, likes_of, csr_row_indices.
    rewrite RW. cbn [c_cols csr_of_rows]. destruct (user_step _ _ _ _ _); cbn [bind]; auto. }
  rewrite F. reflexivity.
Qed.
Print Assumptions C30_empty_users.

Example C30_example : answers ex_test ex_rank (fun b => Ok (map ex_rank b)) /\ test_users ex_test = [0%nat] /\
  c_rows ex_test = 2%nat.
Proof. repeat split. Qed.

(* ------------------------------------------------------------------ *)
(** C31. *)
(** Without test users, or when a user has every item in the test set, the division fails. *)
Theorem C31_no_users_refuted :
  exists test : csr Z, csr_wf test /\ (0 < c_rows test)%nat /\ (0 < c_cols test)%nat /\ test_users test = [] /\
  forall rec K, ranking_metrics_at_k rec test K = Raise ZeroDivisionError.
Proof.
  exists (csr_of_rows 3 [[]; []]). split; [apply csr_of_rows_wf; intros r p [<-|[<-|[]]] []|].
  repeat split; try (simpl; lia). intros rec K.
  unfold ranking_metrics_at_k, ranking_metrics_with. replace (to_generate _) with (@nil nat) by reflexivity.
  cbn [length batch_loop bind t_relevant t_pr_div totals_zero]. rewrite cy_div_zero. reflexivity.
Qed.
Print Assumptions C31_no_users_refuted.

Theorem C31_all_items_refuted :
  forall (T : Type) (test : csr T) (r : nat -> list Z) rec (K u : nat),
  (1 <= K)%nat -> csr_wf test -> test_users test <> [] -> answers test r rec ->
  (forall u, In u (test_users test) -> (K <= length (r u))%nat) ->
  In u (test_users test) -> length (test_items test u) = c_cols test ->
  ranking_metrics_at_k rec test K = Raise ZeroDivisionError.
Proof.
  intros T test r rec K u HK W NE A L Hu E. unfold ranking_metrics_at_k, ranking_metrics_with.
  rewrite (batch_loop_any _ K test r rec) by (auto; unfold metrics_batch_size; lia). rewrite test_users_eq.
  assert (X : forall us t, incl us (test_users test) -> In u us -> fold_res (one_user K test r) us t = Raise ZeroDivisionError).
  { intros us. induction us as [|x us IH]; intros t I [].
    - subst x. cbn [fold_res]. unfold one_user. rewrite user_step_zero; auto.
      intros Z. pose proof (test_items_pos test u Hu) as P. rewrite <- test_items_eq, Z in P. simpl in P. lia.
    - cbn [fold_res]. destruct (one_user K test r t x) eqn:O; cbn [bind].
      + apply IH; auto. intros y Hy. apply I; right; auto.
      + f_equal. unfold one_user in O.
        assert (Hx : In x (test_users test)) by (apply I; left; auto).
        assert (P : likes_of test x <> []).
        { intros Z. pose proof (test_items_pos test x Hx) as P. rewrite <- test_items_eq, Z in P. simpl in P. lia. }
        destruct (Nat.lt_ge_cases (length (likes_of test x)) (c_cols test)) as [LT|GE].
        * rewrite user_step_ok in O; auto. discriminate.
        * rewrite user_step_zero in O; auto; [congruence|]. apply Nat.le_antisymm; auto.
          rewrite <- (seq_length (c_cols test) 0). apply NoDup_incl_length; [apply test_items_nodup|].
          intros i Hi. apply in_seq. pose proof (test_items_lt test x i W Hi). lia. }
  rewrite X by (auto; apply incl_refl). reflexivity.
Qed.
Print Assumptions C31_all_items_refuted.

(** Otherwise numbers are returned. *)
Theorem C31_returns_partial :
  forall (T : Type) (test : csr T) (r : nat -> list Z) rec (K : nat),
  (1 <= K)%nat -> csr_wf test -> answers test r rec ->
  (forall u, In u (test_users test) -> (K <= length (r u))%nat) ->
  ((exists m, ranking_metrics_at_k rec test K = Ok m) <->
   test_users test <> [] /\ forall u, In u (test_users test) -> (length (test_items test u) < c_cols test)%nat).
Proof.
  intros T test r rec K HK W A L. split.
  - intros [m E]. assert (NE : test_users test <> []).
    { intros Z. unfold ranking_metrics_at_k, ranking_metrics_with in E. rewrite test_users_eq, Z in E.
      cbn [length batch_loop bind t_relevant t_pr_div totals_zero] in E. rewrite cy_div_zero in E. discriminate. }
    split; auto. intros u Hu. destruct (Nat.lt_ge_cases (length (test_items test u)) (c_cols test)) as [LT|GE]; auto.
    rewrite (C31_all_items_refuted T test r rec K u) in E; auto; [discriminate|].
    apply Nat.le_antisymm; auto. rewrite <- (seq_length (c_cols test) 0). apply NoDup_incl_length; [apply test_items_nodup|].
    intros i Hi. apply in_seq. pose proof (test_items_lt test u i W Hi). lia.
  - intros [NE B]. destruct (C26_metrics T test r rec K HK W NE A) as [m [E _]]; auto. exists m; auto.
Qed.
Print Assumptions C31_returns_partial.

Example C31_example :
  let test := csr_of_rows 2 [[(0%nat, 1%Z); (1%nat, 1%Z)]] in
  csr_wf test /\ test_users test = [0%nat] /\ length (test_items test 0) = c_cols test /\
  answers test (fun _ => [0; 1]%Z) (fun b => Ok (map (fun _ => [0; 1]%Z) b)).
Proof.
  cbv zeta. split; [apply csr_of_rows_wf; intros r p [<-|[]] [<-|[<-|[]]]; simpl; lia|]. repeat split.
Qed.
