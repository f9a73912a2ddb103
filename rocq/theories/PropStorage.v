(** How the interactions are stored: order within rows (C96), explicit zeros (C97),
    repeated entries (C98), the numbering of users and items (C99), and the item-item
    models (C100). *)
From Coq Require Import List Arith Lia Bool ZArith QArith Reals Lra Permutation Sorted.
From Verif Require Import Base Num Heap RVec Sparse TopkModel TopkSpec TopkBatch RecommendModel RecommendProofs MetricsModel KnnModel WeightModel
  AlsSpec AlsModel AlsProofs AlsProofs2 AlsLoss PosvImpl BprModel BprProofs LmfModel LmfProofs MetricsProofs MetricsProofs2 RecommendProofs2 GpuKnnProofs2 KnnProofs PropAls PropKnn PropMetrics Relabel StorageProofs.
Import ListNotations.
Local Open Scope nat_scope.

(* ------------------------------------------------------------------ C96 *)
(** ALS training, all four solvers, any external solver routine: the same factors, and
    failure in the same cases. *)
Theorem C96_als : forall posv solve eps n o alpha reg k (M M' : csr R) X Y,
  csr_wf M -> csr_wf M' -> reordered M M' -> length X = c_rows M -> length Y = c_cols M ->
  forall r, als_fit (als_solver posv solve eps n o) alpha reg k M' X Y = Ok r <->
            als_fit (als_solver posv solve eps n o) alpha reg k M X Y = Ok r.
Proof.
  intros posv solve eps n o alpha reg k M M' X Y W W' HR LX LY r.
  pose proof (fit_renamed posv solve eps n o alpha reg k _ _ M M' X X Y Y W W' (proj1 (reordered_same M M') HR) (renaming_id _) (renaming_id _) LX LY
    (proj2 (renamed_id X X) eq_refl) (proj2 (renamed_id Y Y) eq_refl)) as H.
  destruct (als_fit _ alpha reg k M X Y) as [[X1 Y1]|], (als_fit _ alpha reg k M' X Y) as [[X1' Y1']|]; simpl in H; try contradiction; [|split; discriminate].
  destruct H as [H1 H2]. apply renamed_id in H1. apply renamed_id in H2. simpl in *. subst. tauto.
Qed.
Print Assumptions C96_als.

(** Folding in users or items. *)
Theorem C96_recalculate : forall posv alpha reg n YtY Y ids (M M' : csr R),
  csr_wf M -> csr_wf M' -> reordered M M' -> c_cols M = length Y -> c_rows M = id_count ids ->
  recalculate_user posv alpha reg n YtY Y ids M' = recalculate_user posv alpha reg n YtY Y ids M /\
  recalculate_item posv alpha reg n YtY Y ids M' = recalculate_item posv alpha reg n YtY Y ids M.
Proof.
  intros posv alpha reg n YtY Y ids M M' W W' HR LY LU. pose proof HR as (ER & EC & EP).
  assert (E : recalculate_item posv alpha reg n YtY Y ids M' = recalculate_item posv alpha reg n YtY Y ids M).
  { unfold recalculate_item, least_squares_c. apply map_res_ext. intros u Hu. apply in_seq in Hu.
    pose proof (alpha_wf alpha M W) as WA. pose proof (alpha_wf alpha M' W') as WA'. rewrite apply_alpha_scale in *. rewrite apply_alpha_scale in *.
    rewrite !raw_entries_ok by (auto; simpl; lia). cbn [bind].
    apply (ls_row_same (fun i => i)); [apply renaming_id|apply renamed_id; auto| |].
    - intros e He. rewrite <- LY. change (c_cols M) with (c_cols (csr_scale alpha M)). eapply row_in_range; eauto.
    - rewrite map_pair_id, !scale_rows. unfold scale_row. apply Permutation_map, EP. lia. }
  split; [|exact E]. unfold recalculate_user. rewrite ER. destruct (negb _); auto.
Qed.
Print Assumptions C96_recalculate.

(** The training loss, in any order of the parallel reduction. *)
Theorem C96_loss : forall n (M M' : csr R) X Y uo uo' io io' reg,
  csr_wf M -> csr_tight M -> csr_wf M' -> csr_tight M' -> reordered M M' -> length X = c_rows M -> length Y = c_cols M ->
  Permutation uo (seq 0 (c_rows M)) -> Permutation uo' (seq 0 (c_rows M)) -> Permutation io (seq 0 (c_cols M)) -> Permutation io' (seq 0 (c_cols M)) ->
  calculate_loss INR n uo' io' M' X Y reg = calculate_loss INR n uo io M X Y reg.
Proof.
  intros n M M' X Y uo uo' io io' reg W TM W' TM' HR LX LY. intros.
  apply (loss_renamed n (fun i => i) (fun i => i)); auto using renaming_id; [apply reordered_same; auto|apply renamed_id; auto|apply renamed_id; auto].
Qed.
Print Assumptions C96_loss.

(** BPR (which sorts when it verifies negative samples) and LMF (which always sorts):
    the same run for the same random numbers and schedule. *)
Theorem C96_bpr : forall {T} `{Num T} (o : bpr_opts (T := T)) (M M' : csr T) rx ry inputs,
  b_verify o = true -> csr_wf M -> csr_tight M -> csr_wf M' -> csr_tight M' -> reordered M M' ->
  (forall u, u < c_rows M -> NoDup (csr_row_indices M u)) -> bpr_fit o M' rx ry inputs = bpr_fit o M rx ry inputs.
Proof. intros T HT o M M' rx ry inputs V W TM W' TM' HR ND. unfold bpr_fit. rewrite (bpr_matrix_reordered o M M') by auto. auto. Qed.
Print Assumptions C96_bpr.
Theorem C96_lmf : forall {T} `{Num T} (o : lmf_opts (T := T)) f (M M' : csr T) X0 Y0 rx ry inputs,
  csr_wf M -> csr_tight M -> csr_wf M' -> csr_tight M' -> reordered M M' ->
  (forall u, u < c_rows M -> NoDup (csr_row_indices M u)) -> lmf_fit o f M' X0 Y0 rx ry inputs = lmf_fit o f M X0 Y0 rx ry inputs.
Proof.
  intros T HT o f M M' X0 Y0 rx ry inputs W TM W' TM' HR ND. unfold lmf_fit.
  rewrite (lmf_matrix_reordered M M') by auto. rewrite (transpose_reordered M M') by auto. auto.
Qed.
Print Assumptions C96_lmf.

(** Recommendations: the filter of already liked items, with and without a list of
    items, with and without recalculation. *)
Theorem C96_recommend : forall {T} `{Num T} HP fmin m recalc userid (M M' : csr T) N liked fi rc its,
  reordered M M' -> (rc = true -> recalc userid M' = recalc userid M) ->
  recommend HP fmin m recalc userid (Csr M') N liked fi rc its = recommend HP fmin m recalc userid (Csr M) N liked fi rc its.
Proof. intros. apply recommend_reordered; auto. Qed.
Print Assumptions C96_recommend.

(** Metrics: only the sets of stored test items matter. *)
Theorem C96_metrics : forall T T' (M : csr T) (M' : csr T') rec K, same_likes M M' ->
  ranking_metrics_at_k rec M' K = ranking_metrics_at_k rec M K.
Proof. intros. apply metrics_likes; auto. Qed.
Print Assumptions C96_metrics.

(** The weights: entry for entry the same, in the new order. *)
Theorem C96_weights : forall (M M' : csr R) k1 b, csr_wf M -> reordered M M' ->
  Permutation (o_entries (normalize (coo_of_csr M'))) (o_entries (normalize (coo_of_csr M))) /\
  Permutation (o_entries (tfidf_weight (coo_of_csr M'))) (o_entries (tfidf_weight (coo_of_csr M))) /\
  Permutation (o_entries (bm25_weight k1 b (coo_of_csr M'))) (o_entries (bm25_weight k1 b (coo_of_csr M))).
Proof.
  intros M M' k1 b W HR. apply reordered_same in HR. pose proof (coo_of_csr_range M W) as B.
  pose proof (coo_of_csr_renamed _ _ M M' (renaming_id _) HR) as H.
  assert (D : forall T (X X' : coo T), coo_renamed (fun i => i) (fun i => i) X X' -> Permutation (o_entries X') (o_entries X)).
  { intros T X X' (_ & _ & P). etransitivity; [exact P|]. apply Permutation_refl'.
    transitivity (map (fun e => e) (o_entries X)); [apply map_ext; intros [[a c] v]; reflexivity|apply map_id]. }
  split; [|split]; apply D.
  - apply normalize_renamed; auto using renaming_id.
  - apply tfidf_renamed; auto using renaming_id.
  - apply bm25_renamed; auto using renaming_id.
Qed.
Print Assumptions C96_weights.

(** Two storages of one matrix. *)
Definition st_M : csr R := csr_of_rows 3 [[(0, 1%R); (2, 2%R)]; [(1, 3%R)]].
Definition st_M' : csr R := csr_of_rows 3 [[(2, 2%R); (0, 1%R)]; [(1, 3%R)]].
Lemma st_wf : csr_wf st_M /\ csr_tight st_M.
Proof.
  apply BprProofs.csr_of_rows_wf. intros r p Hr Hp. simpl in Hr.
  repeat (destruct Hr as [<-|Hr]; [simpl in Hp; repeat (destruct Hp as [<-|Hp]; [simpl; lia|]); tauto|]). tauto.
Qed.
Lemma st_wf' : csr_wf st_M' /\ csr_tight st_M'.
Proof.
  apply BprProofs.csr_of_rows_wf. intros r p Hr Hp. simpl in Hr.
  repeat (destruct Hr as [<-|Hr]; [simpl in Hp; repeat (destruct Hp as [<-|Hp]; [simpl; lia|]); tauto|]). tauto.
Qed.
Lemma st_reordered : reordered st_M st_M'.
Proof.
  split; [auto|]. split; [auto|]. intros [|[|u]] Hu; simpl in Hu; try lia.
  - unfold st_M, st_M'. rewrite !csr_row_of_rows. simpl. constructor.
  - unfold st_M, st_M'. rewrite !csr_row_of_rows. simpl. auto.
Qed.
Lemma st_canonical : canonical st_M.
Proof.
  split; [apply st_wf|]. intros [|[|u]] Hu; simpl in Hu; try lia; unfold csr_row_indices, st_M; rewrite csr_row_of_rows; simpl; repeat constructor; simpl; intuition lia.
Qed.
Example C96_example : csr_wf st_M /\ csr_tight st_M /\ csr_wf st_M' /\ csr_tight st_M' /\ reordered st_M st_M' /\ c_indices st_M' <> c_indices st_M /\
  (forall u, u < c_rows st_M -> NoDup (csr_row_indices st_M u)) /\
  exists r, als_fit (als_solver posv_elim solve_sym 0%R 1 {| use_cg := false; use_native := true; o_cg_steps := 3 |}) 2%R (1/10)%R 5 st_M' [[1%R]; [2%R]] [[1%R]; [3%R]; [1%R]] = Ok r.
Proof.
  split; [apply st_wf|]. split; [apply st_wf|]. split; [apply st_wf'|]. split; [apply st_wf'|]. split; [apply st_reordered|]. split; [discriminate|].
  split; [apply st_canonical|].
  destruct (C38_total posv_elim solve_sym 0%R 1 {| use_cg := false; use_native := true; o_cg_steps := 3 |} 2%R (1/10)%R st_M [[1%R]; [2%R]] [[1%R]; [3%R]; [1%R]] 5) as [r E]; auto.
  - apply posv_elim_ok. - apply solve_sym_ok. - apply st_canonical.
  - intros y Hy. simpl in Hy. repeat (destruct Hy as [<-|Hy]; [reflexivity|]). tauto.
  - intros y Hy. simpl in Hy. repeat (destruct Hy as [<-|Hy]; [reflexivity|]). tauto.
  - lra.
  - exists r. apply C96_als with (M := st_M); auto; try apply st_wf; try apply st_wf'; apply st_reordered.
Qed.

(* ------------------------------------------------------------------ C99 *)
(** Numbering users and items differently renumbers the factors and changes nothing
    else. *)
Theorem C99_als : forall posv solve eps n o alpha reg k p q (M M' : csr R) X X' Y Y',
  csr_wf M -> csr_wf M' -> same_entries p q M M' -> renaming (c_rows M) p -> renaming (c_cols M) q ->
  length X = c_rows M -> length Y = c_cols M -> renamed p X X' -> renamed q Y Y' ->
  match als_fit (als_solver posv solve eps n o) alpha reg k M X Y, als_fit (als_solver posv solve eps n o) alpha reg k M' X' Y' with
  | Ok (U, V), Ok (U', V') => renamed p U U' /\ renamed q V V'
  | Raise _, Raise _ => True
  | _, _ => False
  end.
Proof.
  intros posv solve eps n o alpha reg k p q M M' X X' Y Y' W W' HM Hp Hq LX LY HX HY.
  pose proof (fit_renamed posv solve eps n o alpha reg k p q M M' X X' Y Y' W W' HM Hp Hq LX LY HX HY) as H.
  destruct (als_fit _ alpha reg k M X Y) as [[U V]|], (als_fit _ alpha reg k M' X' Y') as [[U' V']|]; simpl in H; auto.
Qed.
Print Assumptions C99_als.
Theorem C99_loss : forall n p q (M M' : csr R) X X' Y Y' uo uo' io io' reg,
  csr_wf M -> csr_tight M -> csr_wf M' -> csr_tight M' -> same_entries p q M M' -> renaming (c_rows M) p -> renaming (c_cols M) q ->
  length X = c_rows M -> length Y = c_cols M -> renamed p X X' -> renamed q Y Y' ->
  Permutation uo (seq 0 (c_rows M)) -> Permutation uo' (seq 0 (c_rows M)) -> Permutation io (seq 0 (c_cols M)) -> Permutation io' (seq 0 (c_cols M)) ->
  calculate_loss INR n uo' io' M' X' Y' reg = calculate_loss INR n uo io M X Y reg.
Proof. exact loss_renamed. Qed.
Print Assumptions C99_loss.
(** Predicted scores are therefore those of the renamed pair. *)
Theorem C99_scores : forall p q (U U' V V' : list (list R)) u i, renamed p U U' -> renamed q V V' -> u < length U -> i < length V ->
  ndot (nth (p u) U' []) (nth (q i) V' []) = ndot (nth u U []) (nth i V []).
Proof. intros. rewrite (renamed_nth p U U'), (renamed_nth q V V') by auto. auto. Qed.
Print Assumptions C99_scores.
Theorem C99_weights : forall p q (M M' : csr R) k1 b, csr_wf M -> same_entries p q M M' -> renaming (c_rows M) p -> renaming (c_cols M) q ->
  coo_renamed p q (normalize (coo_of_csr M)) (normalize (coo_of_csr M')) /\
  coo_renamed p q (tfidf_weight (coo_of_csr M)) (tfidf_weight (coo_of_csr M')) /\
  coo_renamed p q (bm25_weight k1 b (coo_of_csr M)) (bm25_weight k1 b (coo_of_csr M')).
Proof.
  intros p q M M' k1 b W HM Hp Hq. pose proof (coo_of_csr_range M W) as B. pose proof (coo_of_csr_renamed p q M M' Hp HM) as H.
  split; [|split]; [apply normalize_renamed|apply tfidf_renamed|apply bm25_renamed]; auto.
Qed.
Print Assumptions C99_weights.

(** Exchanging the two users and rotating the three items. *)
Definition st_R : csr R := csr_of_rows 3 [[(2, 3%R)]; [(1, 1%R); (0, 2%R)]].
Definition st_p (u : nat) : nat := 1 - u.
Definition st_q (i : nat) : nat := if i =? 2 then 0 else S i.
Example C99_example : csr_wf st_R /\ csr_tight st_R /\ same_entries st_p st_q st_M st_R /\ renaming (c_rows st_M) st_p /\ renaming (c_cols st_M) st_q /\
  renamed st_p [[1%R]; [2%R]] [[2%R]; [1%R]] /\ renamed st_q [[1%R]; [3%R]; [5%R]] [[5%R]; [1%R]; [3%R]].
Proof.
  assert (W : csr_wf st_R /\ csr_tight st_R).
  { apply BprProofs.csr_of_rows_wf. intros r p Hr Hp. simpl in Hr.
    repeat (destruct Hr as [<-|Hr]; [simpl in Hp; repeat (destruct Hp as [<-|Hp]; [simpl; lia|]); tauto|]). tauto. }
  split; [apply W|]. split; [apply W|]. split; [|split; [|split; [|split]]].
  - split; [auto|]. split; [auto|]. intros [|[|u]] Hu; simpl in Hu; try lia; unfold st_M, st_R; rewrite !csr_row_of_rows; simpl; auto.
  - change (c_rows st_M) with 2. split; unfold st_p; intros; lia.
  - change (c_cols st_M) with 3. split; unfold st_q.
    + intros i Hi. destruct (Nat.eqb_spec i 2); lia.
    + intros i j Hi Hj. destruct (Nat.eqb_spec i 2), (Nat.eqb_spec j 2); lia.
  - split; auto. intros [|[|u]] Hu; simpl in *; auto; lia.
  - split; auto. intros [|[|[|u]]] Hu; simpl in *; auto; lia.
Qed.

(* ------------------------------------------------------------------ C97, C98 *)
(** The matrix a csr stands for: the value of a cell is the sum of its stored entries,
    0 when there are none. *)
Definition same_matrix (M M' : csr R) : Prop :=
  c_rows M' = c_rows M /\ c_cols M' = c_cols M /\ forall u i, u < c_rows M -> dense M' u i = dense M u i.
(** [M] without its explicit zeros. *)
Definition drop_zeros {T} `{Num T} (M : csr T) : csr T :=
  csr_of_rows (c_cols M) (map (filter (fun e => negb (neqb (snd e) nzero))) (csr_to_rows M)).

Lemma posv1 posv a b : posv_ok posv -> (0 < a)%R -> posv [[a]] [b] = Some [(b / a)%R].
Proof.
  intros PO Ha. destruct (PO 1 [[a]] [b]) as [H _].
  - split; auto. intros r [<-|[]]. auto.
  - intros i j Hi Hj. replace i with 0 by lia. replace j with 0 by lia. auto.
  - auto.
  - destruct H as (x & E & L & S).
    + intros x Lx (v & Hv & Nv). destruct x as [|x [|y x']]; simpl in Lx; try lia. destruct Hv as [<-|[]].
      pose proof (Rsqr_pos_lt _ Nv) as Q. unfold Rsqr in Q. simpl. pose proof (Rmult_lt_0_compat _ _ Ha Q). lra.
    + rewrite E. destruct x as [|x [|y x']]; simpl in L; try lia. simpl in S. injection S as S. f_equal. f_equal.
      apply (Rmult_eq_reg_l a); [|lra]. replace (a * (b / a))%R with b by (field; lra). lra.
Qed.
Ltac rlt := unfold Rltb; repeat match goal with |- context [Rlt_dec ?a ?b] => destruct (Rlt_dec a b); try lra end.

(** The user with an explicit zero gets other factors than without it. *)
Definition ez_M : csr R := csr_of_rows 2 [[(0, 0%R); (1, 2%R)]].
Definition ez_D : csr R := csr_of_rows 2 [[(1, 2%R)]].
Lemma ez_drop : drop_zeros ez_M = ez_D.
Proof.
  unfold drop_zeros, ez_M, ez_D. rewrite csr_to_rows_of_rows. simpl. unfold neqb. simpl. unfold Rltb.
  destruct (Rlt_dec 0 0); [lra|]. destruct (Rlt_dec 2 0); [lra|]. destruct (Rlt_dec 0 2); [|lra]. reflexivity.
Qed.
Lemma ez_same : same_matrix ez_M ez_D.
Proof.
  split; [auto|]. split; [auto|]. intros [|u] i Hu; simpl in Hu; try lia. unfold dense, ez_M, ez_D. rewrite !csr_row_of_rows. cbn [nth filter].
  cbn [fst]. destruct (0 =? i); destruct (1 =? i); simpl; lra.
Qed.
Theorem C97_als_refuted : exists (M : csr R) X Y n reg, canonical M /\ same_matrix M (drop_zeros M) /\ (0 < reg)%R /\
  forall posv, posv_ok posv -> least_squares posv n (drop_zeros M) X Y reg <> least_squares posv n M X Y reg.
Proof.
  exists ez_M, [[0%R]], [[1%R]; [1%R]], 1, 1%R. rewrite ez_drop. split; [|split; [apply ez_same|split; [lra|]]].
  - split.
    + apply csr_of_rows_wf. intros r p [<-|[]] Hp. simpl in Hp. repeat (destruct Hp as [<-|Hp]; [simpl; lia|]). tauto.
    + intros [|u] Hu; simpl in Hu; try lia. unfold csr_row_indices, ez_M. rewrite csr_row_of_rows. simpl. repeat constructor; simpl; intuition lia.
  - intros posv PO.
    assert (E1 : least_squares posv 1 ez_M [[0%R]] [[1%R]; [1%R]] 1%R = Ok [[(2/3)%R]]).
    { unfold least_squares, least_squares_c. cbn [length seq map_res].
      assert (ER : raw_entries ez_M 0 = Ok [(0, 0%R); (1, 2%R)]) by reflexivity. rewrite ER. cbn [bind ls_row].
      assert (ES : system (add_diag 1%R (gram 1 [[1%R]; [1%R]])) 1 [[1%R]; [1%R]] [(0, 0%R); (1, 2%R)] = Ok ([[3%R]], [2%R])).
      { unfold system, add_entry, conf_abs, gram, add_diag, enum, zeros, raw_row. simpl. unfold nsum. simpl. unfold Rltb.
        destruct (Rlt_dec 0 0); [lra|]. destruct (Rlt_dec 0 2); [|lra]. f_equal. f_equal; repeat (f_equal; try lra). }
      rewrite ES. cbn [bind]. rewrite (posv1 posv 3 2 PO) by lra. reflexivity. }
    assert (E2 : least_squares posv 1 ez_D [[0%R]] [[1%R]; [1%R]] 1%R = Ok [[(2/4)%R]]).
    { unfold least_squares, least_squares_c. cbn [length seq map_res].
      assert (ER : raw_entries ez_D 0 = Ok [(1, 2%R)]) by reflexivity. rewrite ER. cbn [bind ls_row].
      assert (ES : system (add_diag 1%R (gram 1 [[1%R]; [1%R]])) 1 [[1%R]; [1%R]] [(1, 2%R)] = Ok ([[4%R]], [2%R])).
      { unfold system, add_entry, conf_abs, gram, add_diag, enum, zeros, raw_row. simpl. unfold nsum. simpl. unfold Rltb.
        destruct (Rlt_dec 0 2); [|lra]. f_equal. f_equal; repeat (f_equal; try lra). }
      rewrite ES. cbn [bind]. rewrite (posv1 posv 4 2 PO) by lra. reflexivity. }
    rewrite E1, E2. intros X. injection X as X. lra.
Qed.
Print Assumptions C97_als_refuted.

(** What an explicit zero does mean to ALS: the cell is left out of the loss, instead of
    being a zero with confidence 1 like the cells that are not stored. *)
Theorem C97_als_partial : forall (Y : list (list R)) reg row i x, row_ok (length Y) ((i, 0%R) :: row) ->
  user_loss Y reg ((i, 0%R) :: row) x = (user_loss Y reg row x - sq (rdot x (nth i Y [])))%R.
Proof.
  intros Y reg row i x [ND B]. inversion ND as [|? ? NI ND']; subst. unfold user_loss, row_error.
  assert (Bi : i < length Y) by (apply (B (i, 0%R)); left; auto).
  set (g := fun j => (confidence row j * sq (preference row j - rdot x (nth j Y [])))%R).
  set (f := fun j => (confidence ((i, 0%R) :: row) j * sq (preference ((i, 0%R) :: row) j - rdot x (nth j Y [])))%R).
  assert (EF : forall j, f j = (g j - (if (j =? i)%nat then 1 else 0) * sq (rdot x (nth j Y [])))%R).
  { intros j. unfold f, g, confidence, preference, entry. cbn [find fst]. rewrite (Nat.eqb_sym i j). destruct (Nat.eqb_spec j i) as [->|N].
    - pose proof (proj2 (entry_none row i) NI) as EN. unfold entry in EN. rewrite EN. cbn [option_map snd]. rewrite Rabs_R0. unfold sq. ring.
    - unfold sq. ring. }
  rewrite (rsum_map_ext f (fun j => (g j - (if (j =? i)%nat then 1 else 0) * sq (rdot x (nth j Y [])))%R)) by (intros; apply EF).
  rewrite rsum_map_sub, rsum_delta by auto. ring.
Qed.
Print Assumptions C97_als_partial.
Example C97_als_example : row_ok 2 [(0, 0%R); (1, 2%R)].
Proof. split; [repeat constructor; simpl; intuition lia|]. intros p Hp. simpl in Hp. repeat (destruct Hp as [<-|Hp]; [simpl; lia|]). tauto. Qed.

(** tfidf: the explicit zero of another user changes the weight of an entry. *)
Theorem C97_tfidf_refuted : exists (M : csr R) v v', csr_wf M /\ same_matrix M (drop_zeros M) /\
  In (0, 0, v) (o_entries (tfidf_weight (coo_of_csr M))) /\ In (0, 0, v') (o_entries (tfidf_weight (coo_of_csr (drop_zeros M)))) /\ v <> v' /\
  length (csr_row M 0) = 1.
Proof.
  set (M := csr_of_rows 1 [[(0, 1%R)]; [(0, 0%R)]]).
  assert (ED : drop_zeros M = csr_of_rows 1 [[(0, 1%R)]; []]).
  { unfold drop_zeros, M. rewrite csr_to_rows_of_rows. simpl. unfold neqb. simpl. unfold Rltb.
    destruct (Rlt_dec 0 0); [lra|]. destruct (Rlt_dec 1 0); [lra|]. destruct (Rlt_dec 0 1); [|lra]. reflexivity. }
  exists M, (fmul (fsqrt 1%R) (Some (idf (coo_of_csr M) 0))), (fmul (fsqrt 1%R) (Some (idf (coo_of_csr (drop_zeros M)) 0))).
  split. { apply csr_of_rows_wf. intros r p Hr Hp. simpl in Hr. repeat (destruct Hr as [<-|Hr]; [simpl in Hp; repeat (destruct Hp as [<-|Hp]; [simpl; lia|]); tauto|]). tauto. }
  split. { rewrite ED. split; [auto|]. split; [auto|]. intros [|[|u]] i Hu; simpl in Hu; try lia; unfold dense, M; rewrite !csr_row_of_rows; cbn [nth filter fst]; destruct (0 =? i); simpl; lra. }
  split; [left; reflexivity|]. split; [rewrite ED; left; reflexivity|]. split; [|reflexivity].
  rewrite ED. unfold fsqrt. destruct (Rlt_dec 1 0); [lra|]. simpl. intros X. injection X as X. unfold idf in X. simpl in X. rewrite sqrt_1 in X.
  assert (L : (ln (1 + 1) < ln (1 + (1 + 1)))%R) by (apply ln_increasing; lra). lra.
Qed.
Print Assumptions C97_tfidf_refuted.

(** Metrics: an explicit zero in the test matrix counts as a liked item. *)
Theorem C97_metrics_refuted : exists (M : csr R) rec K m, csr_wf M /\ same_matrix M (drop_zeros M) /\ 1 <= K /\
  ranking_metrics_at_k rec M K = Ok m /\ precision m = 1%R /\ ranking_metrics_at_k rec (drop_zeros M) K = Raise ZeroDivisionError.
Proof.
  set (M := csr_of_rows 2 [[(0, 0%R)]]).
  assert (W : csr_wf M) by (apply csr_of_rows_wf; intros r p [<-|[]] [<-|[]]; simpl; lia).
  assert (ED : drop_zeros M = csr_of_rows 2 [[]]).
  { unfold drop_zeros, M. rewrite csr_to_rows_of_rows. simpl. unfold neqb. simpl. unfold Rltb. destruct (Rlt_dec 0 0); [lra|]. reflexivity. }
  destruct (C26_metrics R M (fun _ => [0%Z]) (fun b => Ok (map (fun _ => [0%Z]) b)) 1) as (m & E & EP & _); auto.
  - discriminate.
  - intros b Hb NB. reflexivity.
  - intros u [<-|[]]. split; [vm_compute; lia|simpl; lia].
  - exists M, (fun b => Ok (map (fun _ => [0%Z]) b)), 1, m. split; auto. split.
    { rewrite ED. split; [auto|]. split; [auto|]. intros [|u] i Hu; simpl in Hu; try lia. unfold dense, M. rewrite !csr_row_of_rows. cbn [nth filter fst]. destruct (0 =? i); simpl; lra. }
    split; [lia|]. split; [exact E|]. split.
    + rewrite EP. change (test_users M) with [0]. cbn [map]. change (test_items M 0) with [0]. unfold spec_hits. simpl. field.
    + rewrite ED. unfold ranking_metrics_at_k, ranking_metrics_with. simpl. unfold cy_div. destruct (Req_EM_T 0 0); [reflexivity|lra].
Qed.
Print Assumptions C97_metrics_refuted.

(** recommend: the item stored with a zero is filtered as already liked, but not when
    the same items are passed as a list. *)
Theorem C97_recommend_refuted : exists (m : mf Z) (M : csr Z), csr_wf M /\ drop_zeros M = csr_of_rows 2 [[]] /\
  recommend simple_heap (-1000)%Z m no_recalc (Scalar 0%Z) (Csr M) 1%Z true None false None = Ok (OneRow [1]%Z [1]%Z) /\
  recommend simple_heap (-1000)%Z m no_recalc (Scalar 0%Z) (Csr M) 1%Z true None false (Some (PyList [0; 1]%Z)) = Ok (OneRow [0]%Z [2]%Z) /\
  recommend simple_heap (-1000)%Z m no_recalc (Scalar 0%Z) (Csr (drop_zeros M)) 1%Z true None false None = Ok (OneRow [0]%Z [2]%Z).
Proof.
  exists {| user_factors := [[1]]%Z; item_factors := [[2]; [1]]%Z |}, (csr_of_rows 2 [[(0, 0%Z)]]).
  split; [apply csr_of_rows_wf; intros r p [<-|[]] [<-|[]]; simpl; lia|]. repeat split; vm_compute; reflexivity.
Qed.
Print Assumptions C97_recommend_refuted.

(** BPR: an item stored only with a zero starts training like any liked item. *)
Theorem C97_bpr_refuted : exists (M : csr Z) f rx ry i j, csr_wf M /\ drop_zeros M = csr_of_rows 2 [[(1, 1%Z)]] /\
  bpr_init f M rx ry (CY i j) <> bpr_init f (drop_zeros M) rx ry (CY i j).
Proof.
  exists (csr_of_rows 2 [[(0, 0%Z); (1, 1%Z)]]), 1, (fun _ _ => 5%Z), (fun _ _ => 7%Z), 0, 0.
  split; [|split; [vm_compute; reflexivity|vm_compute; discriminate]].
  apply csr_of_rows_wf; intros r p [<-|[]] Hp. simpl in Hp. repeat (destruct Hp as [<-|Hp]; [simpl; lia|]). tauto.
Qed.
Print Assumptions C97_bpr_refuted.

(** Cosine and bm25 normalisation: row totals do not see explicit zeros, so the
    other entries get the same values. *)
Definition coo_drop (X : coo R) : coo R :=
  {| o_rows := o_rows X; o_cols := o_cols X; o_entries := filter (fun e => negb (neqb (eval_ e) 0%R)) (o_entries X) |}.
Lemma row_total_drop w X r : w 0%R = 0%R -> row_total w (coo_drop X) r = row_total w X r.
Proof.
  intros W0. unfold row_total, coo_drop. cbn [o_entries]. induction (o_entries X) as [|e l IH]; simpl; auto.
  destruct (neqb (eval_ e) 0%R) eqn:E; cbn [negb filter].
  - assert (EV : eval_ e = 0%R). { unfold neqb in E. simpl in E. unfold Rltb in E. destruct (Rlt_dec (eval_ e) 0); [discriminate|]. destruct (Rlt_dec 0 (eval_ e)); [discriminate|]. lra. }
    rewrite IH. destruct (erow e =? r); auto. cbn [map rsum]. rewrite EV, W0. lra.
  - destruct (erow e =? r); cbn [map rsum]; rewrite IH; auto.
Qed.
Theorem C97_normalize_partial : forall (X : coo R) e v, In e (o_entries X) -> eval_ e <> 0%R ->
  (In (erow e, ecol e, v) (o_entries (normalize (coo_drop X))) <->
   exists e', In e' (o_entries X) /\ eval_ e' <> 0%R /\ erow e' = erow e /\ ecol e' = ecol e /\ v = fdiv (eval_ e') (sqrt (row_total (fun x => x * x)%R X (erow e)))).
Proof.
  intros X e v He Ne. unfold normalize. cbn [set_data o_entries]. split.
  - intros Hin. apply in_map_iff in Hin. destruct Hin as (e' & E & He'). injection E as E1 E2 E3. cbn [coo_drop o_entries] in He'.
    apply filter_In in He'. destruct He' as [He' Nz]. exists e'. rewrite row_total_drop in E3 by ring. rewrite E1 in E3. repeat split; auto.
    intros Z0. rewrite Z0 in Nz. unfold neqb in Nz. simpl in Nz. unfold Rltb in Nz. destruct (Rlt_dec 0 0); [lra|discriminate].
  - intros (e' & He' & Nz & E1 & E2 & ->). apply in_map_iff. exists e'. split.
    + rewrite row_total_drop by ring. rewrite E1, E2. auto.
    + cbn [coo_drop o_entries]. apply filter_In. split; auto. unfold neqb. simpl. unfold Rltb. destruct (Rlt_dec (eval_ e') 0); auto. destruct (Rlt_dec 0 (eval_ e')); auto. lra.
Qed.
Print Assumptions C97_normalize_partial.
Example C97_normalize_example : let X := {| o_rows := 1; o_cols := 2; o_entries := [(0, 0, 3%R); (0, 1, 0%R)] |} in
  In (0, 0, 3%R) (o_entries X) /\ eval_ (0, 0, 3%R) <> 0%R /\ length (o_entries (coo_drop X)) = 1.
Proof.
  split; [left; auto|]. split; [simpl; lra|]. unfold coo_drop, neqb. simpl. unfold Rltb. destruct (Rlt_dec 3 0); [lra|]. destruct (Rlt_dec 0 3); [|lra].
  destruct (Rlt_dec 0 0); [lra|]. reflexivity.
Qed.

(* ------------------------------------------------------------------ C98 *)
(** Two entries for one cell are not the same to ALS as one entry with their sum. *)
Theorem C98_als_refuted : exists (M M' : csr R) X Y n reg, csr_wf M /\ csr_wf M' /\ same_matrix M M' /\ (0 < reg)%R /\
  forall posv, posv_ok posv -> least_squares posv n M' X Y reg <> least_squares posv n M X Y reg.
Proof.
  set (M := csr_of_rows 1 [[(0, 1%R); (0, 1%R)]]). set (M' := csr_of_rows 1 [[(0, 2%R)]]).
  exists M, M', [[0%R]], [[1%R]], 1, 1%R.
  split. { apply csr_of_rows_wf; intros r p [<-|[]] Hp. simpl in Hp. repeat (destruct Hp as [<-|Hp]; [simpl; lia|]). tauto. }
  split. { apply csr_of_rows_wf; intros r p [<-|[]] Hp. simpl in Hp. repeat (destruct Hp as [<-|Hp]; [simpl; lia|]). tauto. }
  split. { split; [auto|]. split; [auto|]. intros [|u] i Hu; simpl in Hu; try lia. unfold dense, M, M'. rewrite !csr_row_of_rows. cbn [nth filter fst]. destruct (0 =? i); simpl; lra. }
  split; [lra|]. intros posv PO.
  assert (E1 : least_squares posv 1 M [[0%R]] [[1%R]] 1%R = Ok [[(2/2)%R]]).
  { unfold least_squares, least_squares_c. cbn [length seq map_res].
    assert (ER : raw_entries M 0 = Ok [(0, 1%R); (0, 1%R)]) by reflexivity. rewrite ER. cbn [bind ls_row].
    assert (ES : system (add_diag 1%R (gram 1 [[1%R]])) 1 [[1%R]] [(0, 1%R); (0, 1%R)] = Ok ([[2%R]], [2%R])).
    { unfold system, add_entry, conf_abs, gram, add_diag, enum, zeros, raw_row. simpl. unfold nsum. simpl. unfold Rltb.
      destruct (Rlt_dec 0 1); [|lra]. f_equal. f_equal; repeat (f_equal; try lra). }
    rewrite ES. cbn [bind]. rewrite (posv1 posv 2 2 PO) by lra. reflexivity. }
  assert (E2 : least_squares posv 1 M' [[0%R]] [[1%R]] 1%R = Ok [[(2/3)%R]]).
  { unfold least_squares, least_squares_c. cbn [length seq map_res].
    assert (ER : raw_entries M' 0 = Ok [(0, 2%R)]) by reflexivity. rewrite ER. cbn [bind ls_row].
    assert (ES : system (add_diag 1%R (gram 1 [[1%R]])) 1 [[1%R]] [(0, 2%R)] = Ok ([[3%R]], [2%R])).
    { unfold system, add_entry, conf_abs, gram, add_diag, enum, zeros, raw_row. simpl. unfold nsum. simpl. unfold Rltb.
      destruct (Rlt_dec 0 2); [|lra]. f_equal. f_equal; repeat (f_equal; try lra). }
    rewrite ES. cbn [bind]. rewrite (posv1 posv 3 2 PO) by lra. reflexivity. }
  rewrite E1, E2. intros X. injection X as X. lra.
Qed.
Print Assumptions C98_als_refuted.

(** Nor to cosine normalisation. *)
Theorem C98_normalize_refuted : exists (M M' : csr R) (v v' : option R), csr_wf M /\ csr_wf M' /\ same_matrix M M' /\
  o_entries (normalize (coo_of_csr M)) = [(0, 0, v); (0, 0, v)] /\ o_entries (normalize (coo_of_csr M')) = [(0, 0, v')] /\
  exists a b, v = Some a /\ v' = Some b /\ (a + a)%R <> b.
Proof.
  set (M := csr_of_rows 1 [[(0, 1%R); (0, 1%R)]]). set (M' := csr_of_rows 1 [[(0, 2%R)]]).
  exists M, M', (fdiv 1 (sqrt (row_total (fun x => x * x)%R (coo_of_csr M) 0))), (fdiv 2 (sqrt (row_total (fun x => x * x)%R (coo_of_csr M') 0))).
  split. { apply csr_of_rows_wf; intros r p [<-|[]] Hp. simpl in Hp. repeat (destruct Hp as [<-|Hp]; [simpl; lia|]). tauto. }
  split. { apply csr_of_rows_wf; intros r p [<-|[]] Hp. simpl in Hp. repeat (destruct Hp as [<-|Hp]; [simpl; lia|]). tauto. }
  split. { split; [auto|]. split; [auto|]. intros [|u] i Hu; simpl in Hu; try lia. unfold dense, M, M'. rewrite !csr_row_of_rows. cbn [nth filter fst]. destruct (0 =? i); simpl; lra. }
  split; [reflexivity|]. split; [reflexivity|].
  assert (E1 : row_total (fun x => x * x)%R (coo_of_csr M) 0 = 2%R) by (unfold row_total; simpl; lra).
  assert (E2 : row_total (fun x => x * x)%R (coo_of_csr M') 0 = (2 * 2)%R) by (unfold row_total; simpl; lra).
  rewrite E1, E2. rewrite sqrt_square by lra. pose proof (sqrt_lt_R0 2 ltac:(lra)) as P. pose proof (sqrt_sqrt 2 ltac:(lra)) as Q.
  unfold fdiv. destruct (Req_EM_T (sqrt 2) 0); [lra|]. destruct (Req_EM_T 2 0); [lra|].
  exists (1 / sqrt 2)%R, (2 / 2)%R. split; auto. split; auto. intros X.
  assert (Y : (sqrt 2 * (1 / sqrt 2) = 1)%R) by (field; lra). assert (Z0 : (sqrt 2 * (2 / 2) = 2)%R) by (rewrite <- X; lra).
  assert (Z1 : sqrt 2 = 2%R) by lra. rewrite Z1 in Q. lra.
Qed.
Print Assumptions C98_normalize_refuted.

(** What does see the sum: the co-occurrences behind all item-item similarities, and the
    row totals used by bm25; the metrics and the filter of liked items ignore repeats. *)
Theorem C98_cooccurrence_partial : forall (M M' : csr R) i j, same_matrix M M' -> spec_cooc M' i j = spec_cooc M i j.
Proof.
  intros M M' i j (ER & _ & E). rewrite !C15_gram, ER. apply rsum_map_ext. intros u Hu. apply in_seq in Hu. rewrite !E by lia. auto.
Qed.
Print Assumptions C98_cooccurrence_partial.
Theorem C98_metrics_partial : forall T T' (M : csr T) (M' : csr T') rec K, same_likes M M' ->
  ranking_metrics_at_k rec M' K = ranking_metrics_at_k rec M K.
Proof. exact C96_metrics. Qed.
Print Assumptions C98_metrics_partial.
Theorem C98_filter_partial : forall {T} `{Num T} HP fmin m recalc userid (M M' : csr T) N fi, same_likes M M' ->
  recommend HP fmin m recalc userid (Csr M') N true fi false None = recommend HP fmin m recalc userid (Csr M) N true fi false None.
Proof.
  intros T HT HP fmin m recalc userid M M' N fi HL. unfold recommend. assert (ER : c_rows M' = c_rows M) by apply HL. rewrite ER. cbn [orb].
  destruct (_ =? _); cbn [bind]; auto. change (user_factor m recalc userid (Csr M') false) with (user_factor m recalc userid (Csr M) false).
  destruct (user_factor m recalc userid (Csr M) false) as [f|]; cbn [bind]; auto. cbv iota.
  rewrite (topk_likes HP fmin _ _ _ None M M' _ HL). auto.
Qed.
Print Assumptions C98_filter_partial.
Example C98_example : same_matrix (csr_of_rows 1 [[(0, 1%R); (0, 1%R)]]) (csr_of_rows 1 [[(0, 2%R)]]) /\
  same_likes (csr_of_rows 1 [[(0, 1%R); (0, 1%R)]]) (csr_of_rows 1 [[(0, 2%R)]]).
Proof.
  split; (split; [auto|]; split; [auto|]).
  - intros [|u] i Hu; simpl in Hu; try lia. unfold dense. rewrite !csr_row_of_rows. cbn [nth filter fst]. destruct (0 =? i); simpl; lra.
  - intros [|u] Hu i; simpl in Hu; try lia. unfold csr_row_indices. rewrite !csr_row_of_rows. simpl. tauto.
Qed.

(* ------------------------------------------------------------------ C100 *)
(** With ties the neighbours kept depend on the order in which the interactions are stored. *)
Theorem C100_refuted : exists (M M' : csr Z) K S S', csr_wf M /\ csr_wf M' /\ reordered M M' /\ 0 < K /\
  all_pairs_knn simple_heap M K = Ok S /\ all_pairs_knn simple_heap M' K = Ok S' /\
  csr_row_indices S 0 = [1; 2] /\ csr_row_indices S' 0 = [0; 1].
Proof.
  set (M := csr_of_rows 3 [[(0, 1%Z); (1, 1%Z); (2, 1%Z)]]). set (M' := csr_of_rows 3 [[(2, 1%Z); (1, 1%Z); (0, 1%Z)]]).
  exists M, M', 2. eexists. eexists.
  split. { apply csr_of_rows_wf; intros r p [<-|[]] Hp. simpl in Hp. repeat (destruct Hp as [<-|Hp]; [simpl; lia|]). tauto. }
  split. { apply csr_of_rows_wf; intros r p [<-|[]] Hp. simpl in Hp. repeat (destruct Hp as [<-|Hp]; [simpl; lia|]). tauto. }
  split. { split; [auto|]. split; [auto|]. intros [|u] Hu; simpl in Hu; try lia. apply Permutation_sym. exact (Permutation_rev [(0, 1%Z); (1, 1%Z); (2, 1%Z)]). }
  split; [lia|]. split; [vm_compute; reflexivity|]. split; [vm_compute; reflexivity|]. split; vm_compute; reflexivity.
Qed.
Print Assumptions C100_refuted.

Lemma memn_likes {T T'} (M : csr T) (M' : csr T') u i : same_likes M M' -> u < c_rows M ->
  memn i (csr_row_indices M' u) = memn i (csr_row_indices M u).
Proof.
  intros (_ & _ & E) Hu. specialize (E u Hu i). destruct (memn i (csr_row_indices M' u)) eqn:A, (memn i (csr_row_indices M u)) eqn:B; auto.
  - apply memn_spec, E, memn_spec in A. congruence.
  - apply memn_spec, E, memn_spec in B. congruence.
Qed.
Lemma shares_likes {T T'} (M : csr T) (M' : csr T') i : same_likes M M' -> shares_user M' i = shares_user M i.
Proof.
  intros HL. pose proof HL as (ER & EC & _). unfold shares_user. rewrite ER, EC. apply filter_ext. intros j.
  assert (E : forall l, incl l (seq 0 (c_rows M)) ->
    existsb (fun u => memn i (csr_row_indices M' u) && memn j (csr_row_indices M' u)) l = existsb (fun u => memn i (csr_row_indices M u) && memn j (csr_row_indices M u)) l).
  { induction l as [|u l IH]; intros IL; simpl; auto. assert (u < c_rows M) by (specialize (IL u (or_introl eq_refl)); apply in_seq in IL; lia).
    rewrite !(memn_likes M M' u _ HL) by auto. f_equal. apply IH. intros x Hx. apply IL. right; auto. }
  apply E, incl_refl.
Qed.
Lemma filter_perm_ids n ids : NoDup ids -> (forall i, In i ids -> i < n) -> Permutation (filter (fun c => memn c ids) (seq 0 n)) ids.
Proof.
  intros ND B. apply NoDup_Permutation; [apply NoDup_filter, seq_NoDup|auto|]. intros x. rewrite filter_In, in_seq, memn_spec. split; [tauto|].
  intros Hx. specialize (B x Hx). split; [lia|auto].
Qed.
Lemma inj_map_eq (f : nat -> R) l : forall l', map f l = map f l' -> (forall x y, In x l -> In y l' -> f x = f y -> x = y) -> l = l'.
Proof.
  induction l as [|a l IH]; intros [|b l'] E J; simpl in E; try discriminate; auto. injection E as E1 E2. f_equal.
  - apply J; simpl; auto.
  - apply IH; auto. intros; apply J; simpl; auto.
Qed.
Lemma pads_eq HP HP' (M M' : csr R) K : std_heap_ok HP -> std_heap_ok HP' -> csr_wf M -> csr_wf M' -> 0 < K -> same_likes M M' -> pads HP' M' K = pads HP M K.
Proof.
  intros HC HC' W W' HK HL. pose proof HL as (_ & EC & _). unfold pads. f_equal.
  unfold n_items. rewrite EC. apply flat_map_ext_in. intros i Hi. apply in_seq in Hi. f_equal.
  destruct (kept_spec HP HC M W K HK i ltac:(unfold n_items; lia)) as [_ [ids [sc [TN P]]]].
  destruct (kept_spec HP' HC' M' W' K HK i ltac:(unfold n_items; lia)) as [_ [ids' [sc' [TN' P']]]].
  rewrite (Permutation_length P), (Permutation_length P'), !map_length, (topn_length _ _ _ _ _ TN), (topn_length _ _ _ _ _ TN').
  change (neighbours M' i) with (shares_user M' i). change (neighbours M i) with (shares_user M i). rewrite (shares_likes M M' i HL). auto.
Qed.

(** Whatever the storage (any order, a cell split into several entries, any heap): each
    item but the first keeps neighbours with the same similarities, a neighbour kept by
    both has the same similarity, and an item whose similarities are all different keeps
    exactly the same row. *)
Theorem C100_partial : forall HP HP' (M M' : csr R) K, std_heap_ok HP -> std_heap_ok HP' -> csr_wf M -> csr_wf M' -> 0 < K ->
  same_matrix M M' -> same_likes M M' ->
  exists S S', all_pairs_knn HP M K = Ok S /\ all_pairs_knn HP' M' K = Ok S' /\ c_rows S' = c_rows S /\ c_cols S' = c_cols S /\
  forall i, i < c_cols M ->
    (0 < i -> Permutation (map snd (csr_row S' i)) (map snd (csr_row S i)) /\
              forall j v v', In (j, v) (csr_row S i) -> In (j, v') (csr_row S' i) -> v' = v) /\
    ((forall j j', In j (shares_user M i) -> In j' (shares_user M i) -> spec_cooc M i j = spec_cooc M i j' -> j = j') ->
     csr_row S' i = csr_row S i).
Proof.
  intros HP HP' M M' K HC HC' W W' HK HM HL.
  assert (AZ : forall x : R, nadd x nzero = x) by (intros; simpl; lra).
  destruct (knn_rows HP HC M W K HK AZ) as [S0 [E [R1 [R2 [_ RR]]]]].
  destruct (knn_rows HP' HC' M' W' K HK AZ) as [S0' [E' [R1' [R2' [_ RR']]]]].
  pose proof HL as (ER & EC & _). unfold n_items in *.
  exists S0, S0'. split; [auto|]. split; [auto|]. split; [congruence|]. split; [congruence|].
  intros i Hi. destruct (RR i Hi) as [ids [sc [TN EQ]]]. destruct (RR' i ltac:(lia)) as [ids' [sc' [TN' EQ']]].
  assert (CE : forall j, cooc M' i j = cooc M i j) by (intros j; exact (C98_cooccurrence_partial M M' i j HM)).
  assert (NE : neighbours M' i = neighbours M i) by exact (shares_likes M M' i HL).
  rewrite NE in TN'. apply (TopN_ext _ (cooc M i)) in TN'; [|intros; apply CE].
  assert (SC : sc' = sc).
  { apply (topn_scores_unique (cooc M i) (neighbours M i) (Nat.min K (length (neighbours M i))) ids' ids sc' sc); auto.
    intros a b A B. simpl in A, B. unfold Rltb in A, B. destruct (Rlt_dec a b); [discriminate|]. destruct (Rlt_dec b a); [discriminate|]. lra. }
  pose proof (topn_scores _ _ _ _ _ TN) as T1. pose proof (topn_scores _ _ _ _ _ TN') as T1'.
  assert (BD : forall j, In j (neighbours M i) -> j < c_cols M) by (intros j Hj; unfold neighbours in Hj; apply filter_In in Hj; destruct Hj as [Hj _]; apply in_seq in Hj; unfold n_items in Hj; lia).
  rewrite EC in EQ'. split.
  - intros Hi0.
    assert (NS : forall c, spurious HP M K i c = false) by (intros c; unfold spurious; destruct i; [lia|]; auto).
    assert (NS' : forall c, spurious HP' M' K i c = false) by (intros c; unfold spurious; destruct i; [lia|]; auto).
    erewrite filter_ext in EQ; [|intros c; rewrite NS, orb_false_r; reflexivity].
    erewrite filter_ext in EQ'; [|intros c; rewrite NS', orb_false_r; reflexivity].
    assert (V : map snd (csr_row S0 i) = map (cooc M i) (filter (fun c => memn c ids) (seq 0 (c_cols M)))).
    { rewrite EQ, map_map. apply map_ext_in. intros c Hc. apply filter_In in Hc. destruct Hc as [_ B]. cbn [snd]. rewrite B. auto. }
    assert (V' : map snd (csr_row S0' i) = map (cooc M i) (filter (fun c => memn c ids') (seq 0 (c_cols M)))).
    { rewrite EQ', map_map. apply map_ext_in. intros c Hc. apply filter_In in Hc. destruct Hc as [_ B]. cbn [snd]. rewrite B. apply CE. }
    split.
    + rewrite V, V'. transitivity (map (cooc M i) ids').
      * apply Permutation_map, filter_perm_ids; [apply (topn_nodup _ _ _ _ _ TN')|]. intros j Hj. apply BD, (topn_incl _ _ _ _ _ TN'); auto.
      * rewrite <- T1', SC, T1. apply Permutation_map, Permutation_sym, filter_perm_ids; [apply (topn_nodup _ _ _ _ _ TN)|]. intros j Hj. apply BD, (topn_incl _ _ _ _ _ TN); auto.
    + intros j v v' Hj Hj'. rewrite EQ in Hj. rewrite EQ' in Hj'. apply in_map_iff in Hj. apply in_map_iff in Hj'.
      destruct Hj as (c & Ec & Hc). destruct Hj' as (c' & Ec' & Hc'). injection Ec as -> <-. injection Ec' as -> <-.
      apply filter_In in Hc. apply filter_In in Hc'. rewrite (proj2 Hc), (proj2 Hc'). apply CE.
  - intros INJ. assert (EI : ids' = ids).
    { apply (inj_map_eq (cooc M i)); [congruence|]. intros x y Hx Hy. apply INJ; [apply (topn_incl _ _ _ _ _ TN' x Hx)|apply (topn_incl _ _ _ _ _ TN y Hy)]. }
    subst ids'. rewrite EQ, EQ'. erewrite filter_ext; [apply map_ext; intros c; rewrite CE; reflexivity|].
    intros c. unfold spurious. rewrite (pads_eq HP HP' M M' K HC HC' W W' HK HL). auto.
Qed.
Print Assumptions C100_partial.

(** In particular for the same entries in another order. *)
Lemma reordered_matrix (M M' : csr R) : reordered M M' -> same_matrix M M'.
Proof.
  intros (ER & EC & P). split; [auto|]. split; [auto|]. intros u i Hu. unfold dense. apply rsum_perm, Permutation_map, perm_filter, P, Hu.
Qed.
Corollary C100_reordered_partial : forall HP (M M' : csr R) K, std_heap_ok HP -> csr_wf M -> csr_wf M' -> 0 < K -> reordered M M' ->
  (forall i j j', i < c_cols M -> In j (shares_user M i) -> In j' (shares_user M i) -> spec_cooc M i j = spec_cooc M i j' -> j = j') ->
  exists S S', all_pairs_knn HP M K = Ok S /\ all_pairs_knn HP M' K = Ok S' /\ c_rows S' = c_rows S /\ c_cols S' = c_cols S /\
  forall i, i < c_cols M -> csr_row S' i = csr_row S i.
Proof.
  intros HP M M' K HC W W' HK HR INJ.
  destruct (C100_partial HP HP M M' K HC HC W W' HK (reordered_matrix M M' HR) (reordered_likes M M' HR)) as (S0 & S0' & E & E' & A & B & H).
  exists S0, S0'. repeat (split; [auto|]). intros i Hi. apply H; auto. intros j j' Hj Hj'. apply INJ; auto.
Qed.
Print Assumptions C100_reordered_partial.
Example C100_example : let M := csr_of_rows 2 [[(0, 1%R); (1, 2%R)]] in let M' := csr_of_rows 2 [[(1, 2%R); (0, 1%R)]] in
  csr_wf M /\ csr_wf M' /\ reordered M M' /\
  (forall i j j', i < c_cols M -> In j (shares_user M i) -> In j' (shares_user M i) -> spec_cooc M i j = spec_cooc M i j' -> j = j').
Proof.
  intros M M'.
  split. { apply csr_of_rows_wf; intros r p [<-|[]] Hp. simpl in Hp. repeat (destruct Hp as [<-|Hp]; [simpl; lia|]). tauto. }
  split. { apply csr_of_rows_wf; intros r p [<-|[]] Hp. simpl in Hp. repeat (destruct Hp as [<-|Hp]; [simpl; lia|]). tauto. }
  split. { split; [auto|]. split; [auto|]. intros [|u] Hu; simpl in Hu; try lia. apply perm_swap. }
  intros i j j' Hi Hj Hj' E. unfold shares_user in *. apply filter_In in Hj. apply filter_In in Hj'. destruct Hj as [Hj _]. destruct Hj' as [Hj' _].
  apply in_seq in Hj. apply in_seq in Hj'. change (c_cols M) with 2 in *. rewrite !C15_gram in E. change (c_rows M) with 1 in E. cbn [seq map rsum] in E.
  unfold dense, M in E. rewrite !csr_row_of_rows in E. cbn [nth filter fst] in E.
  destruct i as [|[|i]], j as [|[|j]], j' as [|[|j']]; try lia; simpl in E; lra.
Qed.
