(** What else looks at the stored entries: the metrics, the filter of liked items, the
    weights, the sorted copy used by BPR and LMF. *)
From Coq Require Import List Arith Lia Bool ZArith Reals Lra Permutation Sorted.
From Verif Require Import Base Num Heap RVec Sparse TopkModel TopkBatch RecommendModel RecommendProofs MetricsModel KnnModel WeightModel
  AlsModel AlsProofs AlsProofs2 AlsLoss BprModel BprProofs BprProofs2 LmfModel Relabel.
Import ListNotations.

(* ------------------------------------------------------------------ the arrays from the rows *)
Lemma slice_split {A} (l : list A) a b : a <= b -> slice 0 b l = slice 0 a l ++ slice a b l.
Proof.
  intros Hab. unfold slice. simpl skipn. rewrite !Nat.sub_0_r. replace b with (a + (b - a)) at 1 by lia. apply firstn_add.
Qed.
Lemma combine_app {A B} (a a' : list A) (b b' : list B) : length a = length b -> combine (a ++ a') (b ++ b') = combine a b ++ combine a' b'.
Proof. revert b. induction a; intros [|b0 b] L; simpl in *; try discriminate; auto. f_equal. apply IHa. lia. Qed.
Lemma rows_concat {T} (M : csr T) : csr_wf M -> nth 0 (c_indptr M) 0 = 0 -> forall k, k <= c_rows M ->
  concat (map (csr_row M) (seq 0 k)) = combine (slice 0 (nth k (c_indptr M) 0) (c_indices M)) (slice 0 (nth k (c_indptr M) 0) (c_data M)).
Proof.
  intros W Z0. induction k as [|k IH]; intros Hk; [rewrite Z0; reflexivity|].
  rewrite seq_S, map_app, concat_app, IH by lia. simpl. rewrite app_nil_r. unfold csr_row.
  pose proof (wf_indptr_mono _ W k (S k) ltac:(lia) Hk) as HM. pose proof (wf_indptr_mono _ W (S k) (c_rows M) Hk ltac:(lia)) as HL.
  pose proof (wf_indptr_last _ W). pose proof (wf_data_len _ W).
  rewrite (slice_split (c_indices M) _ _ HM), (slice_split (c_data M) _ _ HM), combine_app; auto.
  rewrite !BprProofs.slice_length by lia. auto.
Qed.
Lemma combine_inj {A B} (a a' : list A) (b b' : list B) : length a = length b -> length a' = length b' -> combine a b = combine a' b' -> a = a' /\ b = b'.
Proof.
  revert b a' b'. induction a as [|x a IH]; intros [|y b] [|x' a'] [|y' b'] L L' E; simpl in *; try discriminate; auto.
  injection E as -> -> E. destruct (IH b a' b') as [-> ->]; auto.
Qed.
Lemma csr_ext {T} (M M' : csr T) : csr_wf M -> csr_tight M -> csr_wf M' -> csr_tight M' ->
  c_rows M' = c_rows M -> c_cols M' = c_cols M -> (forall u, u < c_rows M -> csr_row M' u = csr_row M u) -> M' = M.
Proof.
  intros W [Z0 TL] W' [Z0' TL'] ER EC E.
  assert (G : forall k, k <= c_rows M -> nth k (c_indptr M') 0 = nth k (c_indptr M) 0).
  { induction k as [|k IH]; intros Hk; [congruence|]. specialize (IH ltac:(lia)).
    pose proof (csr_row_length M k W ltac:(lia)) as L1. pose proof (csr_row_length M' k W' ltac:(lia)) as L2.
    rewrite E in L2 by lia. pose proof (wf_indptr_mono _ W k (S k) ltac:(lia) Hk). pose proof (wf_indptr_mono _ W' k (S k) ltac:(lia) ltac:(lia)). lia. }
  assert (EI : c_indptr M' = c_indptr M).
  { apply (list_ext _ _ 0). { rewrite (wf_indptr_len _ W), (wf_indptr_len _ W'). lia. }
    intros i Hi. apply G. rewrite (wf_indptr_len _ W') in Hi. lia. }
  pose proof (rows_concat M W Z0 (c_rows M) (le_n _)) as C1. pose proof (rows_concat M' W' Z0' (c_rows M') (le_n _)) as C2.
  rewrite TL in C1. rewrite TL' in C2. unfold slice in C1, C2. simpl skipn in C1, C2. rewrite !Nat.sub_0_r in C1, C2.
  rewrite firstn_all in C1, C2. rewrite <- (wf_data_len _ W), firstn_all in C1. rewrite <- (wf_data_len _ W'), firstn_all in C2.
  rewrite ER in C2. rewrite (map_ext_in (csr_row M') (csr_row M)) in C2 by (intros u Hu; apply in_seq in Hu; apply E; lia).
  rewrite C1 in C2. destruct (combine_inj _ _ _ _ (eq_sym (wf_data_len _ W)) (eq_sym (wf_data_len _ W')) C2) as [E1 E2].
  destruct M, M'. simpl in *. congruence.
Qed.
Lemma sorted_unique {T} (l l' : list (nat * T)) : StronglySorted (fun x y => fst x <= fst y) l -> StronglySorted (fun x y => fst x <= fst y) l' ->
  NoDup (map fst l) -> Permutation l' l -> l' = l.
Proof.
  intros S1. revert l'. induction S1 as [|a l S1 IH F]; intros l' S2 ND P.
  { apply Permutation_sym, Permutation_nil in P. auto. }
  destruct l' as [|b l']. { apply Permutation_nil in P. discriminate. }
  inversion S2; subst. inversion ND; subst. rewrite Forall_forall in *.
  assert (b = a).
  { assert (Hb : In b (a :: l)) by (apply (Permutation_in _ P); left; auto).
    assert (Ha : In a (b :: l')) by (apply (Permutation_in _ (Permutation_sym P)); left; auto).
    destruct Hb as [|Hb]; auto. destruct Ha as [|Ha]; auto.
    specialize (F b Hb). match goal with X : forall x, In x l' -> _ |- _ => specialize (X a Ha) end.
    exfalso. match goal with X : ~ In _ _ |- _ => apply X end. replace (fst a) with (fst b) by lia. apply in_map; auto. }
  subst b. f_equal. apply IH; auto. eapply Permutation_cons_inv; eauto.
Qed.
Lemma row_sorted_strong {T} (r : list (nat * T)) : row_sorted r = true -> StronglySorted (fun x y => fst x <= fst y) r.
Proof.
  intros E. apply Sorted_StronglySorted. { intros x y z; lia. }
  induction r as [|a r IH]; constructor.
  - apply IH. unfold row_sorted in *. destruct r as [|b r]; auto. cbn [tl] in *. cbn [combine forallb] in E. apply andb_true_iff in E. apply E.
  - unfold row_sorted in E. destruct r as [|b r]; constructor. cbn [tl combine forallb fst snd] in E. apply andb_true_iff in E.
    destruct E as [E _]. apply Nat.leb_le in E. auto.
Qed.
Lemma map_pair_id {T} (l : list (nat * T)) : map (fun e => (fst e, snd e)) l = l.
Proof. rewrite <- (map_id l) at 2. apply map_ext. intros [a b]; auto. Qed.

(** Two matrices with the same entries, stored in different orders within the rows. *)
Definition reordered {T} (M M' : csr T) : Prop :=
  c_rows M' = c_rows M /\ c_cols M' = c_cols M /\ forall u, u < c_rows M -> Permutation (csr_row M' u) (csr_row M u).
Lemma reordered_same {T} (M M' : csr T) : reordered M M' <-> same_entries (fun i => i) (fun i => i) M M'.
Proof.
  unfold reordered, same_entries. split; intros (A & B & C); repeat split; auto; intros u Hu; specialize (C u Hu); rewrite map_pair_id in *; auto.
Qed.
Lemma sorted_copy_eq {T} (S S' : csr T) M M' : csr_wf S -> csr_tight S -> csr_wf S' -> csr_tight S' ->
  has_sorted_indices S = true -> has_sorted_indices S' = true -> reordered M M' -> reordered M S -> reordered M' S' ->
  (forall u, u < c_rows M -> NoDup (csr_row_indices M u)) -> S' = S.
Proof.
  intros W1 T1 W2 T2 H1 H2 (E1 & E2 & E3) (F1 & F2 & F3) (G1 & G2 & G3) ND. apply csr_ext; auto; try congruence.
  intros u Hu. rewrite F1 in Hu. unfold has_sorted_indices in *. rewrite forallb_forall in H1, H2.
  assert (N1 : row_sorted (csr_row S u) = true) by (apply H1; unfold csr_to_rows; apply in_map, in_seq; lia).
  assert (N2 : row_sorted (csr_row S' u) = true) by (apply H2; unfold csr_to_rows; apply in_map, in_seq; lia).
  apply sorted_unique; auto using row_sorted_strong.
  - eapply Permutation_NoDup; [|apply (ND u Hu)]. unfold csr_row_indices. apply Permutation_map, Permutation_sym; auto.
  - etransitivity; [apply G3; lia|]. etransitivity; [apply E3; lia|]. apply Permutation_sym; auto.
Qed.
Lemma sorted_copy {T} (M : csr T) : csr_wf M -> csr_tight M ->
  let S := if has_sorted_indices M then M else sort_indices M in
  csr_wf S /\ csr_tight S /\ has_sorted_indices S = true /\ reordered M S.
Proof.
  intros W TM. destruct (has_sorted_indices M) eqn:E.
  - repeat split; auto; apply W || apply TM.
  - destruct (sort_indices_spec M W) as (A & B & C & D & F & G). repeat split; auto; apply A || apply B.
Qed.
Lemma lmf_matrix_reordered {T} (M M' : csr T) : csr_wf M -> csr_tight M -> csr_wf M' -> csr_tight M' -> reordered M M' ->
  (forall u, u < c_rows M -> NoDup (csr_row_indices M u)) -> lmf_matrix M' = lmf_matrix M.
Proof.
  intros W TM W' TM' HR ND. destruct (sorted_copy M W TM) as (A1 & A2 & A3 & A4). destruct (sorted_copy M' W' TM') as (B1 & B2 & B3 & B4).
  exact (sorted_copy_eq _ _ M M' A1 A2 B1 B2 A3 B3 HR A4 B4 ND).
Qed.
Lemma bpr_matrix_reordered {T} (o : bpr_opts (T := T)) (M M' : csr T) : b_verify o = true ->
  csr_wf M -> csr_tight M -> csr_wf M' -> csr_tight M' -> reordered M M' ->
  (forall u, u < c_rows M -> NoDup (csr_row_indices M u)) -> bpr_matrix o M' = bpr_matrix o M.
Proof.
  intros V W TM W' TM' HR ND. pose proof (lmf_matrix_reordered M M' W TM W' TM' HR ND) as E. unfold lmf_matrix in E. unfold bpr_matrix.
  rewrite V. simpl. destruct (has_sorted_indices M), (has_sorted_indices M'); auto.
Qed.
(** The transposed matrix lists users in increasing order, so it does not even depend on
    the order. *)
Lemma transpose_reordered {T} (M M' : csr T) : csr_wf M -> reordered M M' ->
  (forall u, u < c_rows M -> NoDup (csr_row_indices M u)) -> transpose M' = transpose M.
Proof.
  intros W (E1 & E2 & E3) ND. unfold transpose. rewrite E1, E2. f_equal. apply map_ext. intros j. apply KnnProofs.flat_map_ext_in.
  intros u Hu. apply in_seq in Hu. specialize (E3 u ltac:(lia)). specialize (ND u ltac:(lia)). f_equal.
  assert (Q : forall l : list (nat * T), NoDup (map fst l) -> length (filter (fun p => fst p =? j) l) <= 1).
  { induction l as [|a l IH]; simpl; intros N; [lia|]. inversion N; subst. destruct (Nat.eqb_spec (fst a) j); [|auto].
    simpl. replace (filter (fun p => fst p =? j) l) with (@nil (nat * T)); [simpl; lia|].
    symmetry. clear IH N. induction l as [|b l IHl]; simpl; auto. destruct (Nat.eqb_spec (fst b) j).
    - exfalso. match goal with X : ~ In _ _ |- _ => apply X end. left. congruence.
    - apply IHl; [intros X; match goal with Y : ~ In _ _ |- _ => apply Y end; right; auto|inversion H2; auto]. }
  specialize (Q _ ND). pose proof (perm_filter (fun p => fst p =? j) _ _ E3) as P.
  destruct (filter (fun p => fst p =? j) (csr_row M u)) as [|a [|b l]]; simpl in Q; try lia.
  - apply Permutation_sym, Permutation_nil in P. auto.
  - apply Permutation_sym, Permutation_length_1_inv in P. auto.
Qed.

(* ------------------------------------------------------------------ metrics *)
(** The same items stored in every row, whatever the order, the values and the repeats. *)
Definition same_likes {T T'} (M : csr T) (M' : csr T') : Prop :=
  c_rows M' = c_rows M /\ c_cols M' = c_cols M /\
  forall u, u < c_rows M -> forall i, In i (csr_row_indices M' u) <-> In i (csr_row_indices M u).
Lemma reordered_likes {T} (M M' : csr T) : reordered M M' -> same_likes M M'.
Proof. intros (A & B & C). repeat split; auto; intros Hi; apply (perm_in_row M M' u i (C u H)); auto. Qed.

Section Metrics.
Context {T T' : Type}.
Variables (M : csr T) (M' : csr T').
Hypothesis HL : same_likes M M'.

Lemma likes_perm u : u < c_rows M -> Permutation (likes_of M' u) (likes_of M u).
Proof.
  intros Hu. apply NoDup_Permutation; try apply NoDup_nodup. intros i. unfold likes_of. rewrite !nodup_In. apply HL; auto.
Qed.
Lemma user_step_likes K items l l' : Permutation l' l -> forall ids t, user_step K items l' ids t = user_step K items l ids t.
Proof.
  intros P ids t. unfold user_step. rewrite (Permutation_length P). destruct (length ids <? K); auto.
  assert (E : forall z, memz z (map Z.of_nat l') = memz z (map Z.of_nat l)).
  { intros z. unfold memz. apply eq_true_iff_eq. rewrite !existsb_exists. split; intros (x & Hx & Ex); exists x; split; auto;
    [eapply Permutation_in; [apply Permutation_map, P|auto]|eapply Permutation_in; [apply Permutation_map, Permutation_sym, P|auto]]. }
  assert (F : forall idcg ps s, fold_res (inner_step l' idcg) ps s = fold_res (inner_step l idcg) ps s).
  { intros idcg. induction ps as [|p ps IH]; intros s; cbn [fold_res]; auto.
    assert (ES : inner_step l' idcg s p = inner_step l idcg s p) by (unfold inner_step; rewrite E; auto).
    rewrite ES. destruct (inner_step l idcg s p); cbn [bind]; auto. }
  rewrite F. auto.
Qed.
Lemma to_generate_likes : to_generate M' = to_generate M.
Proof.
  unfold to_generate. destruct HL as (E & _ & HI). rewrite E. apply filter_ext_in. intros u Hu. apply in_seq in Hu. f_equal.
  specialize (HI u ltac:(lia)). unfold csr_row_indices in HI.
  destruct (csr_row M u) as [|a l], (csr_row M' u) as [|a' l']; auto; exfalso.
  - apply (HI (fst a')). left; auto.
  - apply (HI (fst a)). left; auto.
Qed.
Lemma batch_loop_likes K rec bs fuel : forall users t, (forall u, In u users -> u < c_rows M) ->
  batch_loop fuel bs K M' rec users t = batch_loop fuel bs K M rec users t.
Proof.
  induction fuel as [|fuel IH]; intros users t B; destruct users as [|u us]; cbn [batch_loop]; auto.
  assert (ES : batch_step K M' rec (firstn bs (u :: us)) t = batch_step K M rec (firstn bs (u :: us)) t).
  { unfold batch_step. destruct (rec (firstn bs (u :: us))) as [ids|e]; cbn [bind]; auto. destruct (_ <? _); auto.
    destruct HL as (_ & EC & _). rewrite EC.
    assert (Q : forall ps, (forall p, In p ps -> fst p < c_rows M) -> forall t,
      fold_res (fun t p => user_step K (c_cols M) (likes_of M' (fst p)) (snd p) t) ps t =
      fold_res (fun t p => user_step K (c_cols M) (likes_of M (fst p)) (snd p) t) ps t).
    { induction ps as [|p ps IHp]; intros Bp t0; cbn [fold_res]; auto.
      rewrite (user_step_likes K (c_cols M) (likes_of M (fst p))) by (apply likes_perm, Bp; left; auto).
      destruct (user_step _ _ _ _ _); cbn [bind]; auto. apply IHp. intros; apply Bp; right; auto. }
    apply Q. intros [v x] Hp. apply in_combine_l in Hp. apply B. rewrite <- (firstn_skipn bs (u :: us)). apply in_or_app; auto. }
  rewrite ES. destruct (batch_step K M rec (firstn bs (u :: us)) t); cbn [bind]; auto. apply IH. intros v Hv. apply B.
  rewrite <- (firstn_skipn bs (u :: us)). apply in_or_app; auto.
Qed.
Lemma metrics_likes bs rec K : ranking_metrics_with bs rec M' K = ranking_metrics_with bs rec M K.
Proof.
  unfold ranking_metrics_with. rewrite to_generate_likes, batch_loop_likes; auto.
  intros u Hu. apply filter_In in Hu. destruct Hu as [Hu _]. apply in_seq in Hu. lia.
Qed.
End Metrics.

(* ------------------------------------------------------------------ filtering liked items *)
Section Filter.
Context {T : Type} `{Num T}.
Lemma set_cols_set l l' (v : T) row : (forall z, In z l' <-> In z l) -> set_cols l' v row = set_cols l v row.
Proof.
  intros E. assert (D : (forall z, In z l -> idx_ok (length row) z) \/ (exists z, In z l /\ ~ idx_ok (length row) z)).
  { clear E. induction l as [|a l IH]; [left; intros z []|]. destruct IH as [IH|(z & Hz & Bz)]; [|right; exists z; split; auto; right; auto].
    unfold idx_ok in *. destruct (Z_le_dec (- Z.of_nat (length row)) a), (Z_lt_dec a (Z.of_nat (length row)));
      try (right; exists a; split; [left; auto|lia]). left. intros z [->|Hz]; auto. }
  destruct D as [D|(z & Hz & Bz)].
  - rewrite !set_cols_ok by (auto; intros z Hz; apply D, E; auto). f_equal. apply map_ext. intros j.
    assert (EM : memn j (map (wrap (length row)) l') = memn j (map (wrap (length row)) l)); [|rewrite EM; auto].
    unfold memn. apply eq_true_iff_eq. rewrite !existsb_exists. split; intros (x & Hx & Ex); exists x; split; auto;
      apply in_map_iff in Hx; destruct Hx as (z & <- & Hz); apply in_map, E; auto.
  - rewrite !set_cols_bad; auto; exists z; split; auto. apply E; auto.
Qed.
Lemma topk_likes HP fmin items query k norms (M M' : csr T) fi : same_likes M M' ->
  topk HP fmin items query k norms (Some M') fi = topk HP fmin items query k norms (Some M) fi.
Proof.
  intros (ER & EC & E). unfold topk. destruct (k <? 0)%Z; auto.
  assert (Q : topk_all_writes HP fmin items query (Z.to_nat k) norms (Some M') fi = topk_all_writes HP fmin items query (Z.to_nat k) norms (Some M) fi).
  { unfold topk_all_writes. apply map_res_ext. intros [s e] _. cbn [fst snd]. unfold topk_batch.
    destruct (map_res (score_row items norms) (slice s e query)) as [b|x]; cbn [bind]; auto. rewrite ER.
    erewrite (map_res_ext _ _ (enum b)); [reflexivity|]. intros [i row] _. cbn [fst snd]. destruct (Nat.ltb_spec (s + i) (c_rows M)); auto.
    apply set_cols_set. intros z. split; intros Hz; apply in_map_iff in Hz; destruct Hz as (j & <- & Hj); apply in_map, E; auto. }
  rewrite Q. auto.
Qed.
Lemma mapped_row c (f : list (nat * T) -> list (nat * T)) (M : csr T) u : u < c_rows M ->
  csr_row (csr_of_rows c (map f (csr_to_rows M))) u = f (csr_row M u).
Proof.
  intros Hu. rewrite csr_row_of_rows. unfold csr_to_rows. rewrite map_map.
  rewrite (nth_indep _ [] (f (csr_row M 0))) by (rewrite map_length, seq_length; auto).
  rewrite (map_nth (fun x => f (csr_row M x))), seq_nth by auto. auto.
Qed.
Lemma filter_sparse_likes its (M M' : csr T) : reordered M M' ->
  same_likes (filter_items_from_sparse_matrix its M) (filter_items_from_sparse_matrix its M').
Proof.
  intros (ER & EC & E). unfold filter_items_from_sparse_matrix, same_likes.
  assert (L : forall m : csr T, length (csr_to_rows m) = c_rows m) by (intros; unfold csr_to_rows; rewrite map_length, seq_length; auto).
  cbn [c_rows c_cols csr_of_rows]. rewrite !map_length, !L. split; auto. split; auto. intros u Hu i.
  unfold csr_row_indices. rewrite !mapped_row by lia.
  split; apply Permutation_in, Permutation_map, perm_filter, Permutation_map; [|apply Permutation_sym]; apply E; auto.
Qed.
Lemma recommend_reordered HP fmin m recalc userid (M M' : csr T) N liked fi rc its :
  reordered M M' -> (rc = true -> recalc userid M' = recalc userid M) ->
  recommend HP fmin m recalc userid (Csr M') N liked fi rc its = recommend HP fmin m recalc userid (Csr M) N liked fi rc its.
Proof.
  intros HR HC. unfold recommend. assert (ER : c_rows M' = c_rows M) by apply HR. rewrite ER.
  destruct (if liked || rc then _ else _); cbn [bind]; auto.
  assert (EU : user_factor m recalc userid (Csr M') rc = user_factor m recalc userid (Csr M) rc).
  { unfold user_factor. destruct rc; auto. }
  rewrite EU. destruct (user_factor m recalc userid (Csr M) rc) as [us|x]; cbn [bind]; auto.
  destruct its as [its|]; cbn [bind].
  - destruct (restrict_items m fi its) as [[l f]|x]; cbn [bind fst snd]; auto. destruct liked; auto.
    rewrite (topk_likes HP fmin f us _ None _ _ _ (filter_sparse_likes l M M' HR)). auto.
  - destruct liked; auto. rewrite (topk_likes HP fmin _ us _ None _ _ _ (reordered_likes M M' HR)). auto.
Qed.
End Filter.

(* ------------------------------------------------------------------ weights *)
Definition coo_renamed {T} (p q : nat -> nat) (X X' : coo T) : Prop :=
  o_rows X' = o_rows X /\ o_cols X' = o_cols X /\
  Permutation (o_entries X') (map (fun e => (p (erow e), q (ecol e), eval_ e)) (o_entries X)).
Definition coo_in_range {T} (X : coo T) : Prop := forall e, In e (o_entries X) -> erow e < o_rows X /\ ecol e < o_cols X.

Lemma coo_of_csr_renamed {T} p q (M M' : csr T) : renaming (c_rows M) p -> same_entries p q M M' -> coo_renamed p q (coo_of_csr M) (coo_of_csr M').
Proof.
  intros Hp (ER & EC & E). repeat split; auto. cbn [coo_of_csr o_entries]. rewrite ER.
  etransitivity; [apply flat_map_perm, Permutation_sym, (renaming_perm _ _ Hp)|].
  rewrite KnnProofs.flat_map_map_in, KnnProofs.map_flat_map. apply flat_map_pointwise. intros u Hu. apply in_seq in Hu.
  rewrite map_map. etransitivity; [apply Permutation_map, E; lia|]. rewrite map_map. apply Permutation_refl'. auto.
Qed.
Lemma coo_of_csr_range {T} (M : csr T) : csr_wf M -> coo_in_range (coo_of_csr M).
Proof.
  intros W e He. cbn [coo_of_csr o_entries o_rows o_cols] in *. apply in_flat_map in He. destruct He as (u & Hu & He).
  apply in_map_iff in He. destruct He as (a & <- & Ha). apply in_seq in Hu. cbn. split; [lia|].
  apply (csr_row_indices_lt M u); auto. unfold csr_row_indices. apply in_map; auto.
Qed.
Lemma coo_T_renamed {T} p q (X X' : coo T) : coo_renamed p q X X' -> coo_renamed q p (coo_T X) (coo_T X').
Proof.
  intros (A & B & C). repeat split; auto. cbn [coo_T o_entries]. etransitivity; [apply Permutation_map, C|]. rewrite !map_map.
  apply Permutation_refl'. auto.
Qed.
Lemma coo_T_range {T} (X : coo T) : coo_in_range X -> coo_in_range (coo_T X).
Proof. intros B e He. cbn in He. apply in_map_iff in He. destruct He as (a & <- & Ha). destruct (B a Ha). split; auto. Qed.
Lemma set_data_renamed {A B} p q (f f' : nat * nat * A -> B) X X' : coo_renamed p q X X' ->
  (forall e, In e (o_entries X) -> f' (p (erow e), q (ecol e), eval_ e) = f e) -> coo_renamed p q (set_data f X) (set_data f' X').
Proof.
  intros (E1 & E2 & E3) E. repeat split; auto. cbn [set_data o_entries]. etransitivity; [apply Permutation_map, E3|]. rewrite !map_map.
  apply Permutation_refl'. apply map_ext_in. intros e He. cbn. rewrite E; auto.
Qed.

Section Weights.
Variables p q : nat -> nat.
Variables X X' : coo R.
Hypothesis Hp : renaming (o_rows X) p.
Hypothesis Hq : renaming (o_cols X) q.
Hypothesis HX : coo_renamed p q X X'.
Hypothesis B : coo_in_range X.

Lemma row_total_renamed w r : r < o_rows X -> row_total w X' (p r) = row_total w X r.
Proof.
  intros Hr. unfold row_total. destruct HX as (_ & _ & P). etransitivity; [apply rsum_perm, Permutation_map, perm_filter, P|].
  rewrite filter_map_comm, map_map. cbn. f_equal. f_equal. apply filter_ext_in. intros e He. destruct (B e He) as [Be _].
  unfold erow in *. simpl. destruct (Nat.eqb_spec (fst (fst e)) r) as [->|N]; [apply Nat.eqb_refl|]. apply Nat.eqb_neq. intros C. apply N, (proj2 Hp); auto.
Qed.
Lemma col_count_renamed c : c < o_cols X -> col_count X' (q c) = col_count X c.
Proof.
  intros Hc. unfold col_count. destruct HX as (_ & _ & P). etransitivity; [apply Permutation_length, perm_filter, P|].
  rewrite filter_map_comm, map_length. f_equal. apply filter_ext_in. intros e He. destruct (B e He) as [_ Be].
  unfold ecol in *. simpl. destruct (Nat.eqb_spec (snd (fst e)) c) as [->|N]; [apply Nat.eqb_refl|]. apply Nat.eqb_neq. intros C. apply N, (proj2 Hq); auto.
Qed.
Lemma idf_renamed c : c < o_cols X -> idf X' (q c) = idf X c.
Proof. intros Hc. unfold idf. rewrite col_count_renamed by auto. destruct HX as (-> & _). auto. Qed.
Lemma row_sums_nth r : r < o_rows X -> nth r (row_sums X) 0%R = row_total (fun x => x) X r.
Proof.
  intros Hr. unfold row_sums. rewrite (nth_indep _ 0%R (row_total (fun x => x) X 0)) by (rewrite map_length, seq_length; auto).
  rewrite map_nth, seq_nth by auto. auto.
Qed.
End Weights.
Lemma length_norm_renamed p q X X' b r : renaming (o_rows X) p -> coo_renamed p q X X' -> coo_in_range X -> r < o_rows X ->
  length_norm b X' (p r) = length_norm b X r.
Proof.
  intros Hp HX B Hr. unfold length_norm. assert (ER : o_rows X' = o_rows X) by apply HX. rewrite ER.
  assert (ES : rsum (row_sums X') = rsum (row_sums X)).
  { unfold row_sums. rewrite ER. etransitivity; [apply rsum_perm, Permutation_map, Permutation_sym, (renaming_perm _ _ Hp)|].
    rewrite map_map. f_equal. apply map_ext_in. intros u Hu. apply in_seq in Hu. eapply row_total_renamed; eauto. lia. }
  rewrite ES. rewrite (row_sums_nth X' (p r)) by (rewrite ER; apply Hp; auto). rewrite row_sums_nth by auto.
  rewrite (row_total_renamed p q X X') by auto. auto.
Qed.
Lemma normalize_renamed p q X X' : renaming (o_rows X) p -> coo_renamed p q X X' -> coo_in_range X -> coo_renamed p q (normalize X) (normalize X').
Proof.
  intros Hp HX B. apply set_data_renamed; auto. intros e He. cbn. rewrite (row_total_renamed p q X X'); auto. apply B, He.
Qed.
Lemma tfidf_renamed p q X X' : renaming (o_cols X) q -> coo_renamed p q X X' -> coo_in_range X -> coo_renamed p q (tfidf_weight X) (tfidf_weight X').
Proof.
  intros Hq HX B. apply set_data_renamed; auto. intros e He. pose proof (idf_renamed p q X X' Hq HX B (ecol e) (proj2 (B e He))) as EI.
  unfold ecol, eval_ in *. cbn [fst snd]. rewrite EI. auto.
Qed.
Lemma bm25_renamed p q k1 b X X' : renaming (o_rows X) p -> renaming (o_cols X) q -> coo_renamed p q X X' -> coo_in_range X ->
  coo_renamed p q (bm25_weight k1 b X) (bm25_weight k1 b X').
Proof.
  intros Hp Hq HX B. apply set_data_renamed; auto. intros e He. destruct (B e He) as [B1 B2].
  pose proof (idf_renamed p q X X' Hq HX B (ecol e) B2) as EI. pose proof (length_norm_renamed p q X X' b (erow e) Hp HX B B1) as EL.
  unfold ecol, eval_, erow in *. cbn [fst snd]. rewrite EI, EL. auto.
Qed.

(* ------------------------------------------------------------------ the loss *)
Definition or_else {A} (d : A) (r : res A) : A := match r with Ok a => a | Raise _ => d end.
Lemma map_res_all {A B} (f : A -> res B) d l : (forall a, In a l -> exists b, f a = Ok b) -> map_res f l = Ok (map (fun a => or_else d (f a)) l).
Proof.
  induction l as [|a l IH]; intros E; simpl; auto. destruct (E a) as [b Eb]; [left; auto|]. rewrite Eb. cbn [bind or_else].
  rewrite IH by (intros; apply E; right; auto). auto.
Qed.
Lemma loss_user_total (Y : list (list R)) YtY row x : (forall e, In e row -> fst e < length Y) -> exists r, loss_user YtY Y row x = Ok r.
Proof.
  intros B. unfold loss_user. erewrite (fold_res_pure _ (fun (s : list R * R * R) (a : list R * R) =>
    (axpy (nadd (if nltb nzero (snd a) then nmul (nopp (nadd none_ none_)) (snd a) else nzero)
          (nmul (nsub (conf_abs (snd a)) none_) (ndot (fst a) x))) (fst a) (fst (fst s)),
     nadd (snd (fst s)) (conf_abs (snd a)), nadd (snd s) (conf_abs (snd a)))) (fun e => (nth (fst e) Y [], snd e))).
  - cbn [bind]. destruct (fold_left _ _ _) as [[r t] l]. eauto.
  - intros [[r t] l] e He. rewrite raw_row_ok by auto. reflexivity.
Qed.
Lemma sum_renamed {A} n p (f f' : nat -> A) (g : A -> R) o o' : renaming n p -> Permutation o (seq 0 n) -> Permutation o' (seq 0 n) ->
  (forall u, u < n -> f' (p u) = f u) -> nsum (map g (map f' o')) = nsum (map g (map f o)).
Proof.
  intros Hp P P' E. rewrite !nsum_rsum, !map_map.
  transitivity (rsum (map (fun u => g (f' u)) (map p (seq 0 n)))).
  - apply rsum_perm, Permutation_map. etransitivity; [exact P'|]. apply Permutation_sym, renaming_perm; auto.
  - rewrite map_map. transitivity (rsum (map (fun u => g (f u)) (seq 0 n))).
    + f_equal. apply map_ext_in. intros u Hu. apply in_seq in Hu. rewrite E; auto; lia.
    + apply rsum_perm, Permutation_map, Permutation_sym; auto.
Qed.
Lemma loss_renamed n p q (M M' : csr R) X X' Y Y' uo uo' io io' reg :
  csr_wf M -> csr_tight M -> csr_wf M' -> csr_tight M' -> same_entries p q M M' -> renaming (c_rows M) p -> renaming (c_cols M) q ->
  length X = c_rows M -> length Y = c_cols M -> renamed p X X' -> renamed q Y Y' ->
  Permutation uo (seq 0 (c_rows M)) -> Permutation uo' (seq 0 (c_rows M)) -> Permutation io (seq 0 (c_cols M)) -> Permutation io' (seq 0 (c_cols M)) ->
  calculate_loss INR n uo' io' M' X' Y' reg = calculate_loss INR n uo io M X Y reg.
Proof.
  intros W TM W' TM' HM Hp Hq LX LY HX HY PU PU' PI PI'. pose proof HM as (ER & EC & EP). unfold calculate_loss.
  rewrite <- LY in Hq. rewrite (gram_same q Y Y' Hq HY). rewrite LY in Hq.
  set (f := fun u => do row <- raw_entries M u; do x <- raw_row X u; loss_user (gram n Y) Y row x).
  set (f' := fun u => do row <- raw_entries M' u; do x <- raw_row X' u; loss_user (gram n Y) Y' row x).
  assert (EF : forall u, u < c_rows M -> f' (p u) = f u).
  { intros u Hu. unfold f, f'. pose proof (proj1 Hp u Hu). rewrite !raw_entries_ok by (auto; lia). cbn [bind].
    rewrite !raw_row_ok by (try (destruct HX; congruence || lia)). rewrite (renamed_nth p X X') by (auto; lia). cbn [bind].
    apply (loss_user_same q); [rewrite LY; auto|auto| |apply EP; auto]. intros e He. rewrite LY. eapply row_in_range; eauto. }
  assert (OKF : forall u, u < c_rows M -> exists r, f u = Ok r).
  { intros u Hu. unfold f. rewrite raw_entries_ok, raw_row_ok by (auto; lia). cbn [bind]. apply loss_user_total.
    intros e He. rewrite LY. eapply row_in_range; eauto. }
  assert (OKF' : forall u, u < c_rows M -> exists r, f' u = Ok r).
  { intros u Hu. destruct (renaming_onto _ _ Hp u Hu) as (v & Hv & <-). rewrite EF by auto. auto. }
  assert (IU : forall u, In u uo -> u < c_rows M) by (intros u Hu; apply (Permutation_in _ PU), in_seq in Hu; lia).
  assert (IU' : forall u, In u uo' -> u < c_rows M) by (intros u Hu; apply (Permutation_in _ PU'), in_seq in Hu; lia).
  assert (II : forall u, In u io -> u < c_cols M) by (intros u Hu; apply (Permutation_in _ PI), in_seq in Hu; lia).
  assert (II' : forall u, In u io' -> u < c_cols M) by (intros u Hu; apply (Permutation_in _ PI'), in_seq in Hu; lia).
  rewrite (map_res_all f (0, 0, 0)%R) by auto. rewrite (map_res_all f' (0, 0, 0)%R) by auto. cbn [bind].
  set (g := fun i => do y <- raw_row Y i; Ok (ndot y y)). set (g' := fun i => do y <- raw_row Y' i; Ok (ndot y y)).
  assert (EG : forall i, i < c_cols M -> g' (q i) = g i).
  { intros i Hi. unfold g, g'. pose proof (proj1 Hq i Hi). rewrite !raw_row_ok by (try (destruct HY; congruence || lia)).
    rewrite (renamed_nth q Y Y') by (auto; lia). auto. }
  assert (OKG : forall i, i < c_cols M -> exists r, g i = Ok r).
  { intros i Hi. unfold g. rewrite raw_row_ok by lia. cbn [bind]. eauto. }
  assert (OKG' : forall i, i < c_cols M -> exists r, g' i = Ok r).
  { intros i Hi. destruct (renaming_onto _ _ Hq i Hi) as (v & Hv & <-). rewrite EG by auto. auto. }
  rewrite (map_res_all g 0%R) by auto. rewrite (map_res_all g' 0%R) by auto. cbn [bind].
  assert (FE : forall u, u < c_rows M -> or_else (0, 0, 0)%R (f' (p u)) = or_else (0, 0, 0)%R (f u)) by (intros; rewrite EF; auto).
  assert (GE : forall u, u < c_cols M -> or_else 0%R (g' (q u)) = or_else 0%R (g u)) by (intros; rewrite EG; auto).
  rewrite !(sum_renamed (c_rows M) p (fun a => or_else (0, 0, 0)%R (f a)) (fun a => or_else (0, 0, 0)%R (f' a)) _ uo uo' Hp PU PU' FE).
  assert (NI : nsum (map (fun a => or_else 0%R (g' a)) io') = nsum (map (fun a => or_else 0%R (g a)) io)).
  { pose proof (sum_renamed (c_cols M) q (fun a => or_else 0%R (g a)) (fun a => or_else 0%R (g' a)) (fun x => x) io io' Hq PI PI' GE) as E. rewrite !map_id in E. exact E. }
  rewrite NI, ER, EC.
  assert (NN : INR (nth (c_rows M) (c_indptr M') 0) = INR (nth (c_rows M) (c_indptr M) 0)).
  { rewrite <- ER at 1. rewrite <- !nnz_sum by (auto; apply TM || apply TM'). rewrite ER.
    transitivity (rsum (map (fun u => INR (length (csr_row M' u))) (map p (seq 0 (c_rows M))))).
    - apply rsum_perm, Permutation_map, Permutation_sym, renaming_perm; auto.
    - rewrite map_map. f_equal. apply map_ext_in. intros u Hu. apply in_seq in Hu. rewrite (Permutation_length (EP u ltac:(lia))), map_length. auto. }
  rewrite NN. auto.
Qed.
