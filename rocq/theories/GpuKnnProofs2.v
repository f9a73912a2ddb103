(** Lemmas about the GPU queries. *)
From Coq Require Import List Arith Lia Bool ZArith Permutation Sorted.
From Verif Require Import Base Num Heap Sparse TopkModel TopkSpec TopkProofs RecommendModel RecommendProofs RecommendProofs2 GpuKnn GpuKnnProofs.
Import ListNotations.

(** Out of memory or a plan; never a write outside the pool (32-bit factors). *)
Lemma plan_total pool rows k items : fits rows k items -> (0 <= pool <= four_gib)%Z ->
  plan pool 4 rows k items = Raise RuntimeError \/ exists b, plan pool 4 rows k items = Ok b.
Proof.
  intros (F1 & F2 & F3 & F4 & F5) HP. unfold plan. rewrite batch_rows_eq by nia. cbn [bind].
  set (B := Z.max (Z.min (avail pool rows k / (4 * items)) rows) 1) in *.
  set (out := align (size_t (rows * k * 4))).
  destruct (pool <? out)%Z; [left; auto|]. destruct (pool <? out + out)%Z; [left; auto|].
  destruct (pool <? out + out + align (size_t (4 * B * items)))%Z eqn:E3; [left; auto|]. right. exists B.
  apply Z.ltb_ge in E3.
  assert (AV : (0 <= avail pool rows k < 2 ^ 64)%Z) by (unfold avail, size_t; apply Z.mod_pos_bound; lia).
  assert (L4 : (0 <= 4 * B * items < 2 ^ 64)%Z).
  { destruct (Z_le_gt_dec B 1). { assert (B = 1%Z) by (unfold B in *; lia). rewrite H. lia. }
    assert (B <= avail pool rows k / (4 * items))%Z by (unfold B in *; lia).
    pose proof (Z.mul_div_le (avail pool rows k) (4 * items) ltac:(lia)). nia. }
  rewrite size_t_small in E3 by lia. pose proof (align_ge (4 * B * items) ltac:(lia)).
  replace ((pool <? out + out + 4 * (B * items))%Z) with false by (symmetry; apply Z.ltb_ge; lia). reflexivity.
Qed.
(** Enough memory. *)
Lemma plan_enough pool rows k items : (0 < rows)%Z -> (0 < k)%Z -> (0 < items)%Z -> (pool <= four_gib)%Z ->
  (32 * (rows * k) + 4 * items + 768 <= pool)%Z ->
  (32 <= rows * k \/ 4 * (rows * items) + 8 * (rows * k) + 768 <= pool)%Z ->
  fits rows k items /\ exists b, plan pool 4 rows k items = Ok b.
Proof.
  intros H1 H2 H3 HP HM HS. unfold four_gib in HP. assert (F : fits rows k items) by (unfold fits; nia). split; auto.
  destruct F as (F1 & F2 & F3 & F4 & F5).
  unfold plan. rewrite batch_rows_eq by nia. cbn [bind].
  set (B := Z.max (Z.min (avail pool rows k / (4 * items)) rows) 1) in *.
  set (out := align (size_t (rows * k * 4))).
  assert (AE : avail pool rows k = (pool - 32 * (rows * k))%Z) by (unfold avail, four_gib; rewrite Z.min_l by lia; apply size_t_small; nia).
  assert (OB : (0 <= out < rows * k * 4 + 256)%Z).
  { unfold out. rewrite size_t_small by nia. pose proof (align_ge (rows * k * 4) ltac:(nia)). lia. }
  assert (BB : (4 * (B * items) <= Z.max (Z.min (pool - 32 * (rows * k)) (4 * (rows * items))) (4 * items) /\ 1 <= B)%Z).
  { split; [|unfold B; lia]. pose proof (Z.mul_div_le (avail pool rows k) (4 * items) ltac:(lia)). rewrite AE in *.
    assert (0 <= (pool - 32 * (rows * k)) / (4 * items))%Z by (apply Z.div_pos; lia). unfold B. rewrite AE. nia. }
  assert (L4 : (0 <= 4 * B * items < 2 ^ 64)%Z) by nia.
  pose proof (align_ge (4 * B * items) ltac:(lia)) as AL. rewrite (size_t_small (4 * B * items)) by lia.
  assert (TOT : (out + out + align (4 * B * items) <= pool)%Z) by nia.
  exists B. replace ((pool <? out)%Z) with false by (symmetry; apply Z.ltb_ge; lia).
  replace ((pool <? out + out)%Z) with false by (symmetry; apply Z.ltb_ge; lia).
  replace ((pool <? out + out + align (4 * B * items))%Z) with false by (symmetry; apply Z.ltb_ge; lia).
  replace ((pool <? out + out + 4 * (B * items))%Z) with false by (symmetry; apply Z.ltb_ge; lia). reflexivity.
Qed.

Section Proofs.
Context {T : Type} {NT : Num T}.

Lemma nth_map_lt {A B} (f : A -> B) l i d d' : i < length l -> nth i (map f l) d = f (nth i l d').
Proof. intros H. rewrite (nth_indep _ d (f d')) by (rewrite map_length; auto). apply map_nth. Qed.
Lemma gemm_row_nth items norms (q : list T) c : norms_ok items norms -> c < length items ->
  nth c (gemm_row items norms q) nzero = base_score items norms q c.
Proof.
  intros HN HC. unfold gemm_row, base_score. destruct norms as [ns|].
  - specialize (HN ns eq_refl). rewrite (nth_map_lt _ _ _ _ (nzero, nzero)) by (rewrite combine_length, map_length; lia).
    rewrite combine_nth by (rewrite map_length; lia). cbn [fst snd]. f_equal. apply nth_map_lt; auto.
  - apply nth_map_lt; auto.
Qed.

(** The answer of a query, or out of memory. *)
Lemma knn_rows sel fdist junk pool (items query : gmatrix T) k norms fq fi :
  select_k_ok sel -> norms_ok (g_rows items) norms -> filters_ok (length (g_rows items)) fi fq -> (0 < k <= Z.of_nat (length (g_rows items)))%Z ->
  g_cols query = g_cols items -> g_size query = 4%Z -> g_size items = 4%Z ->
  fits (Z.of_nat (length (g_rows query))) k (Z.of_nat (length (g_rows items))) -> (0 <= pool <= four_gib)%Z ->
  (knn_topk sel fdist junk pool items query k norms fq fi = Raise RuntimeError /\
     plan pool 4 (Z.of_nat (length (g_rows query))) k (Z.of_nat (length (g_rows items))) = Raise RuntimeError) \/
  exists idss scs, knn_topk sel fdist junk pool items query k norms fq fi = Ok (map (map Z.of_nat) idss, scs) /\
    length idss = length (g_rows query) /\ length scs = length (g_rows query) /\
    forall g, g < length (g_rows query) ->
      TopN (fun c => if hidden fi fq g c then fdist else base_score (g_rows items) norms (nth g (g_rows query) []) c)
           (seq 0 (length (g_rows items))) (Z.to_nat k) (nth g idss []) (nth g scs []).
Proof.
  intros HS HN HF HK HC HQ HI HFit HP. destruct (plan_total _ _ _ _ HFit HP) as [E|[b E]].
  - left. split; auto. unfold knn_topk.
    replace ((k <? 0)%Z) with false by (symmetry; apply Z.ltb_ge; lia). replace ((k =? 0)%Z) with false by (symmetry; apply Z.eqb_neq; lia).
    rewrite HC, Nat.eqb_refl, HQ, HI. cbn [Z.eqb Pos.eqb negb]. unfold topk_impl. rewrite Z2Nat.id by lia. rewrite E. reflexivity.
  - right. set (best := map (fun u => sel (user_row fdist (g_rows items) norms fi fq u (nth u (g_rows query) [])) (Z.to_nat k)) (seq 0 (length (g_rows query)))).
    exists (map (map fst) best), (map (map snd) best). split; [|split; [|split]].
    + rewrite (knn_topk_ok sel fdist junk pool items query k norms fq fi b); auto. fold best. f_equal. f_equal. rewrite map_map. apply map_ext. intros l. rewrite map_map. reflexivity.
    + unfold best. rewrite !map_length, seq_length. auto.
    + unfold best. rewrite !map_length, seq_length. auto.
    + intros g Hg. assert (LB : length best = length (g_rows query)) by (unfold best; rewrite map_length, seq_length; auto).
      change (@nil nat) with (map fst (@nil (nat * T))). change (@nil T) with (map snd (@nil (nat * T))). rewrite !map_nth.
      unfold best. rewrite nth_map_seq by auto. change (map snd (@nil (nat * T))) with (@nil T).
      set (row := user_row fdist (g_rows items) norms fi fq g (nth g (g_rows query) [])).
      assert (LR : length row = length (g_rows items)) by (apply user_row_length; auto).
      pose proof (HS row (Z.to_nat k)) as TN. rewrite LR in TN. specialize (TN ltac:(lia)).
      eapply TopN_ext; [|exact TN]. intros i Hi. apply in_seq in Hi. unfold row. rewrite user_row_nth by (auto; lia). rewrite gemm_row_nth by (auto; lia). reflexivity.
Qed.

(* ------------------------------------------------------------ ids *)
Lemma wrap32_small z : (0 <= z < 2 ^ 31)%Z -> wrap32 z = z.
Proof. intros H. unfold wrap32. rewrite Z.mod_small by lia. lia. Qed.
Definition gpick (m : gmatrix T) (zs : list Z) : gmatrix T :=
  {| g_size := g_size m; g_cols := g_cols m; g_rows := map (fun z => nth (Z.to_nat z) (g_rows m) []) zs |}.
Lemma map_wrap32 zs : (forall z, In z zs -> (0 <= z < 2 ^ 31)%Z) -> map wrap32 zs = zs.
Proof. intros H. rewrite <- (map_id zs) at 2. apply map_ext_in. intros z Hz. apply wrap32_small; auto. Qed.
Lemma gpu_getitem_ok (m : gmatrix T) idx : (Z.of_nat (length (g_rows m)) <= 2 ^ 31)%Z -> id_list idx <> [] ->
  (forall z, In z (id_list idx) -> (0 <= z < Z.of_nat (length (g_rows m)))%Z) -> gpu_getitem m idx = Ok (gpick m (id_list idx)).
Proof.
  intros HL HNE HR. unfold gpu_getitem. destruct idx as [z|zs]; cbn [id_list] in *.
  - specialize (HR z (or_introl eq_refl)). replace ((0 <=? z)%Z) with true by (symmetry; apply Z.leb_le; lia). replace ((z <? Z.of_nat (length (g_rows m)))%Z) with true by (symmetry; apply Z.ltb_lt; lia). reflexivity.
  - rewrite map_wrap32 by (intros z Hz; specialize (HR z Hz); lia).
    replace (existsb _ zs) with false. { destruct zs; [congruence|reflexivity]. }
    symmetry. apply not_true_iff_false. intros X. apply existsb_exists in X. destruct X as [z [Hz X]]. specialize (HR z Hz). apply orb_true_iff in X. rewrite Z.ltb_lt, Z.leb_le in X. lia.
Qed.
Lemma gpu_getitem_bad (m : gmatrix T) zs : (exists z, In z zs /\ ~ (0 <= z < Z.of_nat (length (g_rows m)))%Z) ->
  (forall z, In z zs -> (- 2 ^ 31 <= z < 2 ^ 31)%Z) -> gpu_getitem m (Batch zs) = Raise IndexError.
Proof.
  intros [z [Hz HB]] HR. unfold gpu_getitem.
  replace (existsb _ (map wrap32 zs)) with true; auto. symmetry. apply existsb_exists. exists z. split.
  - apply in_map_iff. exists z. split; auto. specialize (HR z Hz). unfold wrap32. rewrite Z.mod_small by lia. lia.
  - apply orb_true_iff. rewrite Z.ltb_lt, Z.leb_le. lia.
Qed.
Lemma np_take_nat its (l : list nat) : (forall i, In i l -> i < length its) -> np_take its (map Z.of_nat l) = Ok (map (fun i => nth i its 0%Z) l).
Proof.
  unfold np_take. induction l as [|i l IH]; intros H; cbn [map map_res]; auto.
  rewrite np_index_ok by (unfold idx_ok; specialize (H i (or_introl eq_refl)); lia). cbn [bind]. rewrite wrap_nat. rewrite IH by (intros; apply H; simpl; auto). reflexivity.
Qed.
Lemma gremap_nat its (ls : list (list nat)) : (forall l i, In l ls -> In i l -> i < length its) ->
  gremap (Some its) (map (map Z.of_nat) ls) = Ok (map (map (fun i => nth i its 0%Z)) ls).
Proof.
  unfold gremap. induction ls as [|l ls IH]; intros H; cbn [map map_res]; auto.
  rewrite np_take_nat by (intros i Hi; apply (H l); simpl; auto). cbn [bind]. rewrite IH by (intros l' i Hl Hi; apply (H l'); simpl; auto). reflexivity.
Qed.

(** Filtered cells of the coordinate list of a csr matrix. *)
Lemma coo_of_in (M : csr T) r c : In (r, c) (coo_of M) <-> r < c_rows M /\ In c (csr_row_indices M r).
Proof.
  unfold coo_of, csr_row_indices. rewrite in_flat_map. split.
  - intros [r' [Hr Hp]]. apply in_seq in Hr. apply in_map_iff in Hp. destruct Hp as [[c' v] [E Hp]]. cbn in E. injection E as <- <-. split; [lia|]. apply in_map_iff. exists (c', v). auto.
  - intros [Hr Hp]. apply in_map_iff in Hp. destruct Hp as [[c' v] [<- Hp]]. exists r. split; [apply in_seq; lia|]. apply in_map_iff. exists (c', v). auto.
Qed.
Definition coo_opt (M : csr T) : option (list (nat * nat)) := match coo_of M with [] => None | coo => Some coo end.
Lemma coo_opt_hidden fi (M : csr T) g c : g < c_rows M -> hidden fi (coo_opt M) g c = match fi with None => false | Some ids => memz (Z.of_nat c) ids end || memn c (csr_row_indices M g).
Proof.
  intros Hg. unfold hidden. f_equal. unfold coo_opt.
  assert (E : existsb (fun p => (fst p =? g) && (snd p =? c)) (coo_of M) = memn c (csr_row_indices M g)).
  { apply eq_true_iff_eq. rewrite existsb_exists, memn_spec. split.
    - intros [[r c'] [Hin E]]. cbn in E. apply andb_true_iff in E. rewrite !Nat.eqb_eq in E. destruct E as [-> ->]. apply coo_of_in in Hin. tauto.
    - intros Hin. exists (g, c). split; [apply coo_of_in; auto|]. cbn. rewrite !Nat.eqb_refl. auto. }
  destruct (coo_of M); [cbn in E|]; auto.
Qed.
Lemma coo_opt_ok n fi (M : csr T) : (forall ids z, fi = Some ids -> In z ids -> (0 <= z < Z.of_nat n)%Z) ->
  (forall g c, g < c_rows M -> In c (csr_row_indices M g) -> c < n) -> filters_ok n fi (coo_opt M).
Proof.
  intros H1 H2. split; auto. intros coo [r c] HE Hin. cbn. unfold coo_opt in HE. assert (In (r, c) (coo_of M)) by (destruct (coo_of M); [discriminate|injection HE as <-; auto]).
  apply coo_of_in in H. apply (H2 r); tauto.
Qed.
End Proofs.

(** The scores of the best are determined. *)
Section Unique.
Context {T : Type} `{NumOrd T}.
Lemma nth_firstn_lt {A} (l : list A) d : forall k i, i < k -> nth i (firstn k l) d = nth i l d.
Proof. induction l as [|a l IH]; intros [|k] i Hi; cbn [firstn]; auto; [lia|]. destruct i; cbn; auto. apply IH. lia. Qed.
Lemma nth_skipn_add {A} (l : list A) d : forall k i, nth i (skipn k l) d = nth (k + i) l d.
Proof. induction l as [|a l IH]; intros [|k] i; cbn [skipn]; auto. destruct i; auto. apply IH. Qed.
Lemma topn_scores_le (score : nat -> T) cands n ids ids' sc sc' i : TopN score cands n ids sc -> TopN score cands n ids' sc' -> i < n ->
  nltb (score (nth i ids 0)) (score (nth i ids' 0)) = false.
Proof.
  intros A B Hi. destruct (nltb (score (nth i ids 0)) (score (nth i ids' 0))) eqn:E; auto. exfalso.
  pose proof (topn_length _ _ _ _ _ A) as LA. pose proof (topn_length _ _ _ _ _ B) as LB.
  (* the first i+1 of ids' are all better than the i-th of ids *)
  assert (BET : forall j, In j (firstn (S i) ids') -> nltb (score (nth i ids 0)) (score j) = true).
  { intros j Hj. destruct (In_nth _ _ 0 Hj) as [p [Hp Ep]]. rewrite firstn_length in Hp. rewrite nth_firstn_lt in Ep by lia. subst j.
    destruct (Nat.eq_dec p i) as [->|NP]; auto. eapply nltb_nleb_trans; [exact E|].
    apply (ssorted_nth _ ids' 0 p i (topn_sorted _ _ _ _ _ B)); lia. }
  assert (IN : incl (firstn (S i) ids') (firstn i ids)).
  { intros j Hj. specialize (BET j Hj).
    assert (Hj' : In j ids') by (rewrite <- (firstn_skipn (S i) ids'); apply in_or_app; auto).
    destruct (in_dec Nat.eq_dec j (firstn i ids)) as [Y|NY]; auto. exfalso.
    assert (L : nleb (score j) (score (nth i ids 0)) = true).
    { destruct (in_dec Nat.eq_dec j ids) as [Y|NJ].
      - rewrite <- (firstn_skipn i ids) in Y. apply in_app_or in Y. destruct Y as [Y|Y]; [contradiction|].
        destruct (In_nth _ _ 0 Y) as [p [Hp Ep]]. rewrite skipn_length in Hp. rewrite nth_skipn_add in Ep. subst j.
        destruct p as [|p]; [rewrite Nat.add_0_r; apply nleb_refl|]. apply (ssorted_nth _ ids 0 i (i + S p) (topn_sorted _ _ _ _ _ A)); lia.
      - apply (topn_best _ _ _ _ _ A); auto. { apply nth_In. lia. } apply (topn_incl _ _ _ _ _ B); auto. }
    apply nleb_nltb_false in L. congruence. }
  assert (ND : NoDup (firstn (S i) ids')).
  { pose proof (topn_nodup _ _ _ _ _ B) as N. clear -N. revert N. generalize (S i). intros k. revert k. induction ids' as [|a l IH]; intros [|k] N; cbn [firstn]; try constructor; inversion N; subst.
    - intros X. apply H1. rewrite <- (firstn_skipn k l). apply in_or_app; auto.
    - apply IH; auto. }
  pose proof (NoDup_incl_length ND IN) as LL. rewrite !firstn_length in LL. lia.
Qed.
Lemma topn_scores_unique (score : nat -> T) cands n ids ids' sc sc' : (forall a b : T, nltb a b = false -> nltb b a = false -> a = b) ->
  TopN score cands n ids sc -> TopN score cands n ids' sc' -> sc = sc'.
Proof.
  intros AS A B. rewrite (topn_scores _ _ _ _ _ A), (topn_scores _ _ _ _ _ B).
  pose proof (topn_length _ _ _ _ _ A) as LA. pose proof (topn_length _ _ _ _ _ B) as LB.
  apply (nth_ext _ _ (score 0) (score 0)); rewrite ?map_length; [lia|]. intros i Hi. rewrite !map_nth. apply AS.
  - eapply topn_scores_le; [exact A|exact B|lia].
  - eapply topn_scores_le; [exact B|exact A|lia].
Qed.
End Unique.
