(** C154: how many cells a Faiss model looks into. *)
From Coq Require Import String List Arith Lia Bool ZArith QArith Permutation Sorted Reals Lra Psatz.
From Verif Require Import Base Num Heap Sparse TopkModel TopkSpec TopkProofs RecommendModel RecommendProofs KnnModel RVec SimilarProofs PropSimilar AnnModel AnnProofs AnnCalls AnnIvf PropAnn PropAnn2 PropAnn3 PropAnnSound.
Import ListNotations.
Local Open Scope list_scope.
Local Open Scope nat_scope.

(** quantizer.search lists every cell once. *)
Definition near_ok (near : list (list R) -> list R -> list nat) : Prop := forall cells q, Permutation (near cells q) (seq 0 (length cells)).
(** Clustering gives the number of centroids asked for. *)
Definition kmeans_ok (kmeans : nat -> list (list R) -> list (list R)) : Prop := forall k rows, k <= length rows -> length (kmeans k rows) = k.

Section Search.
Variable E : ann_env R.
Variable near : list (list R) -> list R -> list nat.
Hypothesis NEAR : near_ok near.

Lemma near_nodup cells q : NoDup (near cells q).
Proof. eapply Permutation_NoDup; [symmetry; apply NEAR|apply seq_NoDup]. Qed.
Lemma flat_nodup (f : nat -> list nat) (g : nat -> nat) l : NoDup l -> (forall c, NoDup (f c)) -> (forall c i, In i (f c) -> g i = c) -> NoDup (flat_map f l).
Proof.
  intros ND NF G. induction ND as [|c l Hc ND IH]; [constructor|]. cbn [flat_map].
  assert (DJ : forall i, In i (f c) -> ~ In i (flat_map f l)).
  { intros i Hi Hj. apply in_flat_map in Hj. destruct Hj as (c' & Hc' & Hi'). apply G in Hi, Hi'. subst. contradiction. }
  revert DJ. generalize (NF c). generalize (f c). intros fc. induction fc as [|i fc IHf]; intros N1 DJ; [exact IH|].
  inversion N1; subst. cbn [app]. constructor.
  - rewrite in_app_iff. intros [X|X]; [contradiction|]. apply (DJ i); [left|]; auto.
  - apply IHf; auto. intros j Hj. apply DJ. right; auto.
Qed.
Lemma probed_nodup x q : NoDup (probed near x q).
Proof.
  unfold probed. apply (flat_nodup _ (fun i => cell_of near x (nth i (iv_data x) []))).
  - apply NoDup_firstn, near_nodup.
  - intros c. apply NoDup_filter, seq_NoDup.
  - intros c i Hi. apply filter_In in Hi. destruct Hi as [_ Hi]. apply Nat.eqb_eq. auto.
Qed.
Lemma probed_incl x q : incl (probed near x q) (seq 0 (length (iv_data x))).
Proof. intros i Hi. apply in_flat_map in Hi. destruct Hi as (c & _ & Hi). apply filter_In in Hi. tauto. Qed.
Lemma probed_all x q : iv_cells x <> [] -> length (iv_cells x) <= iv_nprobe x -> incl (seq 0 (length (iv_data x))) (probed near x q).
Proof.
  intros NE LE i Hi. unfold probed. rewrite firstn_all2 by (rewrite (Permutation_length (NEAR _ _)), seq_length; auto).
  apply in_flat_map. exists (cell_of near x (nth i (iv_data x) [])). split.
  - apply (Permutation_in _ (Permutation_sym (NEAR (iv_cells x) q))). unfold cell_of.
    pose proof (NEAR (iv_cells x) (nth i (iv_data x) [])) as P. destruct (near (iv_cells x) (nth i (iv_data x) [])) as [|c l].
    + apply Permutation_length in P. rewrite seq_length in P. destruct (iv_cells x); [congruence|discriminate].
    + apply (Permutation_in _ P). left. auto.
  - apply filter_In. split; auto. apply Nat.eqb_refl.
Qed.
Lemma probed_mono x x' q : iv_cells x = iv_cells x' -> iv_data x = iv_data x' -> iv_nprobe x <= iv_nprobe x' -> incl (probed near x q) (probed near x' q).
Proof.
  intros E1 E2 LE i Hi. unfold probed in *. apply in_flat_map in Hi. destruct Hi as (c & Hc & Hi). apply in_flat_map. exists c. split.
  - rewrite <- E1. replace (iv_nprobe x') with (iv_nprobe x + (iv_nprobe x' - iv_nprobe x)) by lia.
    assert (FA : forall a b (l : list nat), incl (firstn a l) (firstn (a + b) l)).
    { induction a as [|k IH]; intros b l y Hy; [destruct Hy|]. destruct l as [|h l]; [destruct Hy|]. cbn [Nat.add firstn] in *. destruct Hy as [->|Hy]; [left; auto|right; apply IH; auto]. }
    apply FA. auto.
  - unfold cell_rows, cell_of in *. rewrite <- E1, <- E2. auto.
Qed.
(** The answer is the exact one among the rows in the cells looked at. *)
Lemma search_best x q c : exists ids,
  ivf_search E near x q c = map (fun i => (Z.of_nat i, spec_dot q (nth i (iv_data x) []))) ids ++ repeat ((-1)%Z, ae_fmin32 E) (c - length ids) /\
  Best (fun i j => spec_dot q (nth j (iv_data x) []) <= spec_dot q (nth i (iv_data x) []))%R (probed near x q) (Nat.min c (length (probed near x q))) ids.
Proof.
  set (s := fun i => spec_dot q (nth i (iv_data x) [])). set (l := probed near x q).
  assert (SD : forall i, ndot q (nth i (iv_data x) []) = s i) by (intros i; unfold s; rewrite spec_dot_rdot; apply ndot_rdot).
  exists (firstn c (sort_by (fun i j => nltb (ndot q (nth i (iv_data x) [])) (ndot q (nth j (iv_data x) []))) l)). unfold ivf_search. cbv zeta. fold l.
  set (cmp := fun i j => nltb (ndot q (nth i (iv_data x) [])) (ndot q (nth j (iv_data x) []))).
  split; [f_equal; apply map_ext; intros i; f_equal; apply SD|].
  assert (SP : Permutation (sort_by cmp l) l) by apply sort_by_perm.
  assert (SS : StronglySorted (fun i j => (s j <= s i)%R) (sort_by cmp l)).
  { assert (LT : forall a b, cmp a b = true <-> (s a < s b)%R). { intros a b. unfold cmp. rewrite !SD. cbn [nltb Num_R]. unfold Rltb. destruct (Rlt_dec (s a) (s b)); split; auto; try discriminate; contradiction. }
    assert (HS : StronglySorted (fun a b => cmp a b = false) (sort_by cmp l)).
    { apply sort_by_sorted. split.
      - intros a. destruct (cmp a a) eqn:C; auto. apply LT in C. lra.
      - intros a b d H1 H2. apply LT in H1, H2. apply LT. lra.
      - intros a b d H1. apply LT in H1. rewrite !LT. destruct (Rlt_dec (s a) (s b)); [auto|right; lra]. }
    eapply ss_weaken; [|exact HS]. intros a b _ _ C. cbv beta in C. destruct (Rlt_dec (s a) (s b)) as [X|X]; [apply LT in X; congruence|lra]. }
  assert (LL : length (sort_by cmp l) = length l) by (apply Permutation_length; auto).
  assert (FS : StronglySorted (fun i j => (s j <= s i)%R) (firstn c (sort_by cmp l) ++ skipn c (sort_by cmp l))) by (rewrite firstn_skipn; auto).
  apply ss_app_inv in FS. destruct FS as [F1 F2]. split.
  - rewrite firstn_length, LL. auto.
  - apply NoDup_firstn. eapply Permutation_NoDup; [symmetry; exact SP|apply probed_nodup].
  - intros i Hi. eapply Permutation_in; [exact SP|]. apply in_firstn in Hi. auto.
  - auto.
  - intros i j Hi Hj Hn. apply F2; auto. assert (K : In j (firstn c (sort_by cmp l) ++ skipn c (sort_by cmp l))) by (rewrite firstn_skipn; eapply Permutation_in; [symmetry; exact SP|auto]).
    apply in_app_or in K. tauto.
Qed.
End Search.

(** An index with given cells, over any rows. *)
Definition ivf_builders (E : ann_env R) near (f nlist nprobe : nat) (cells : list (list R)) : builders R := {|
  b_angular := fun _ _ _ => []; b_cosine := fun _ _ _ => [];
  b_inner := fun rows => ivf_search E near {| iv_gpu := false; iv_dim := f; iv_nlist := nlist; iv_cells := cells; iv_data := rows; iv_nprobe := nprobe |} |}.
Lemma ivf_honest E near f nlist nprobe cells : near_ok near -> honest_inner (ae_fmin32 E) (ivf_builders E near f nlist nprobe cells).
Proof.
  intros NO rows q c. cbn [b_inner ivf_builders].
  destruct (search_best E near NO {| iv_gpu := false; iv_dim := f; iv_nlist := nlist; iv_cells := cells; iv_data := rows; iv_nprobe := nprobe |} q c) as (ids & EH & HB). cbn [iv_data] in *.
  exists ids. split; auto. destruct HB as [L ND I S _]. split; auto. split; [intros i Hi; apply I in Hi; apply probed_incl in Hi; exact Hi|]. split; auto. lia.
Qed.
Lemma ivf_exact E near f nlist nprobe cells : near_ok near -> cells <> [] -> length cells <= nprobe -> inner_index (ae_fmin32 E) (ivf_builders E near f nlist nprobe cells).
Proof.
  intros NO NE LE rows q c. cbn [b_inner ivf_builders]. set (x := {| iv_gpu := false; iv_dim := f; iv_nlist := nlist; iv_cells := cells; iv_data := rows; iv_nprobe := nprobe |}).
  destruct (search_best E near NO x q c) as (ids & EH & HB). cbn [iv_data x] in *.
  assert (P : Permutation (probed near x q) (seq 0 (length rows))).
  { apply NoDup_Permutation; [apply probed_nodup; auto|apply seq_NoDup|]. intros i. split; [apply (probed_incl near x q)|apply (probed_all near NO x q); auto]. }
  assert (LP : length (probed near x q) = length rows) by (rewrite (Permutation_length P), seq_length; auto). rewrite LP in HB.
  exists ids. split.
  - rewrite EH. rewrite (best_length _ _ _ _ HB). f_equal. f_equal. lia.
  - destruct HB as [L ND I S B]. split; auto.
    + intros i Hi. eapply Permutation_in; [exact P|auto].
    + intros i j Hi Hj. apply B; auto. eapply Permutation_in; [symmetry; exact P|auto].
Qed.

(** The wrapper built by fit on the CPU: one set of nlist cells serves its indices. *)
Lemma cpu_fit E kmeans near o f items ix : kmeans_ok kmeans -> fo_gpu o = false -> 0 < fo_nlist o ->
  faiss_fit_calls E kmeans o f items = Ok ix ->
  exists cells, length cells = fo_nlist o /\
    faiss_fit E (ivf_builders E near f (fo_nlist o) (fo_nprobe o) cells) false items (fo_sim o) (fo_rec o) = Ok (faiss_wrapper E near o ix).
Proof.
  intros KO G NP. unfold faiss_fit_calls, ivf_of. rewrite G.
  assert (TR : forall rows q, ivf_train kmeans [] (fo_nlist o) rows = Ok q -> length q = fo_nlist o).
  { intros rows q. unfold ivf_train. cbn [length]. destruct (Nat.eqb_spec 0 (fo_nlist o)); [lia|].
    destruct (Nat.ltb_spec (length rows) (fo_nlist o)); [discriminate|]. intros X. injection X as <-. apply KO. lia. }
  assert (TS : forall rows c, length c = fo_nlist o -> ivf_train kmeans c (fo_nlist o) rows = Ok c).
  { intros rows c L. unfold ivf_train. rewrite L, Nat.eqb_refl. auto. }
  unfold faiss_fit, faiss_wrapper. destruct (fo_rec o) eqn:R1.
  - destruct (ivf_train kmeans [] (fo_nlist o) items) as [c|] eqn:T1; [|discriminate]. cbn [bind]. pose proof (TR _ _ T1) as L.
    destruct (fo_sim o) eqn:S1; [rewrite (TS _ c L)|]; cbn [bind]; intros X; injection X as <-; exists c; (split; [exact L|]); rewrite G; reflexivity.
  - cbn [bind]. destruct (fo_sim o) eqn:S1.
    + destruct (ivf_train kmeans [] (fo_nlist o) (unit_rows E items)) as [c|] eqn:T1; [|discriminate]. cbn [bind]. intros X; injection X as <-. exists c. split; [apply (TR _ _ T1)|]. rewrite G. reflexivity.
    + cbn [bind]. intros X; injection X as <-. exists (repeat [] (fo_nlist o)). split; [apply repeat_length|]. rewrite G. reflexivity.
Qed.

(** C154: a Faiss model on the CPU with nprobe >= nlist recommends exactly the N best items that are neither liked nor filtered. *)
Theorem C154_recommend : forall (E : ann_env R) kmeans near (I : inner R) o f m ix u ui N liked fi,
  near_ok near -> kmeans_ok kmeans -> fo_gpu o = false -> fo_rec o = true -> 0 < fo_nlist o <= fo_nprobe o ->
  faiss_fit_calls E kmeans o f (item_factors m) = Ok ix ->
  (0 <= u < Z.of_nat (length (user_factors m)))%Z -> plain_filter fi -> ~ In (-1)%Z (filter_ids fi) -> row_given liked ui ->
  let cands := filter (allowed fi liked ui) (seq 0 (length (item_factors m))) in
  exists ids scores, ann_recommend E I (faiss_wrapper E near o ix) m (Scalar u) ui N liked fi false None =
      (m, Ok (OneRow (map Z.of_nat ids ++ repeat (-1)%Z (N - length cands)) (scores ++ repeat (ae_fmin32 E) (N - length cands)))) /\
    TopN (fun i => spec_dot (nth (Z.to_nat u) (user_factors m) []) (nth i (item_factors m) [])) cands (Nat.min N (length cands)) ids scores.
Proof.
  intros E kmeans near I o f m ix u ui N liked fi NO KO G RC NP FC HU PF NM RG cands.
  destruct (cpu_fit E kmeans near o f _ ix KO G ltac:(lia) FC) as (cells & LC & FF). rewrite RC in FF.
  apply (C55_faiss_partial (ivf_builders E near f (fo_nlist o) (fo_nprobe o) cells) E I m (fo_sim o)); auto.
  apply ivf_exact; auto; [|lia]. intros ->. cbn in LC. lia.
Qed.
(** ... and its similar_items are the exact ones. *)
Theorem C154_similar : forall (E : ann_env R) kmeans near (I : inner R) o f m ix z iu N fi cs,
  real_env E -> near_ok near -> kmeans_ok kmeans -> fo_gpu o = false -> fo_sim o = true -> 0 < fo_nlist o <= fo_nprobe o ->
  faiss_fit_calls E kmeans o f (item_factors m) = Ok ix ->
  (0 <= z < Z.of_nat (length (item_factors m)))%Z -> nonzero m (Z.to_nat z) = true -> ~ In (-1)%Z (filter_ids fi) -> cosines m z cs ->
  let cands := filter (unfiltered fi) (seq 0 (length (item_factors m))) in
  exists ids scores, snd (ann_similar_items E I (faiss_wrapper E near o ix) m (Scalar z) N false iu fi None) =
      Ok (OneRow (map Z.of_nat ids ++ repeat (-1)%Z (N - length cands)) (scores ++ repeat (ae_fmin32 E) (N - length cands))) /\
    TopN cs cands (Nat.min N (length cands)) ids scores.
Proof.
  intros E kmeans near I o f m ix z iu N fi cs RE NO KO G SM NP FC HZ NZ NM CS cands.
  destruct (cpu_fit E kmeans near o f _ ix KO G ltac:(lia) FC) as (cells & LC & FF). rewrite SM in FF.
  apply (C56_faiss_partial (ivf_builders E near f (fo_nlist o) (fo_nprobe o) cells) E I m (fo_rec o)); auto.
  apply ivf_exact; auto; [|lia]. intros ->. cbn in LC. lia.
Qed.
(** With any nprobe the recommendations are genuine (the hypotheses of C155 hold). *)
Theorem C154_any_nprobe : forall (E : ann_env R) kmeans near (I : inner R) o f m ix u ui N liked fi,
  near_ok near -> kmeans_ok kmeans -> fo_gpu o = false -> fo_rec o = true -> 0 < fo_nlist o ->
  faiss_fit_calls E kmeans o f (item_factors m) = Ok ix ->
  (0 <= u < Z.of_nat (length (user_factors m)))%Z -> plain_filter fi -> row_given liked ui ->
  exists ids scores k, ann_recommend E I (faiss_wrapper E near o ix) m (Scalar u) ui N liked fi false None =
      (m, Ok (OneRow (map Z.of_nat ids ++ repeat (-1)%Z k) (scores ++ repeat (ae_fmin32 E) k))) /\
    genuine (fun i => spec_dot (nth (Z.to_nat u) (user_factors m) []) (nth i (item_factors m) [])) (allowed fi liked ui) (length (item_factors m)) N ids scores /\
    length ids + k <= N /\ (~ In (-1)%Z (filter_ids fi) -> length ids + k = N).
Proof.
  intros E kmeans near I o f m ix u ui N liked fi NO KO G RC NP FC HU PF RG.
  destruct (cpu_fit E kmeans near o f _ ix KO G NP FC) as (cells & LC & FF). rewrite RC in FF.
  apply (C155_faiss_recommend (ivf_builders E near f (fo_nlist o) (fo_nprobe o) cells) E I m (fo_sim o)); auto. apply ivf_honest. auto.
Qed.

(* ------------------------------------------------- more cells, better answers *)
Lemma ss_nth (s : nat -> R) ids : StronglySorted (fun i j => s j <= s i)%R ids -> forall i j, i <= j -> j < length ids -> (s (nth j ids 0%nat) <= s (nth i ids 0%nat))%R.
Proof.
  induction 1 as [|x l S IH F]; intros i j LE LT; [simpl in LT; lia|]. destruct i, j; cbn [nth length] in *; try lra; try lia.
  - rewrite Forall_forall in F. apply F. apply nth_In. lia.
  - apply IH; lia.
Qed.
(** The k-th best of more candidates is at least as good. *)
Lemma best_mono (s : nat -> R) c c' n n' ids ids' : Best (fun i j => s j <= s i)%R c n ids -> Best (fun i j => s j <= s i)%R c' n' ids' -> incl c c' ->
  forall k, k < n -> k < n' -> (s (nth k ids 0%nat) <= s (nth k ids' 0%nat))%R.
Proof.
  intros [L ND I S B] [L' ND' I' S' B'] HI k Hk Hk'. subst n n'. destruct (Rle_dec (s (nth k ids 0%nat)) (s (nth k ids' 0%nat))) as [X|X]; auto. exfalso. apply Rnot_le_lt in X.
  assert (INC : incl (firstn (k + 1) ids) (firstn k ids')).
  { intros y Hy. apply (In_nth _ _ 0) in Hy. destruct Hy as (a & La & <-). rewrite firstn_length in La.
    assert (NA : nth a (firstn (k + 1) ids) 0 = nth a ids 0%nat). { rewrite <- (firstn_skipn (k + 1) ids) at 2. rewrite app_nth1; auto. rewrite firstn_length. lia. }
    rewrite NA. assert (GE : (s (nth k ids 0%nat) <= s (nth a ids 0%nat))%R) by (apply ss_nth; auto; lia).
    assert (M : In (nth a ids 0%nat) ids'). { destruct (in_dec Nat.eq_dec (nth a ids 0%nat) ids') as [Y|Y]; auto. exfalso.
      assert (B1 : (s (nth a ids 0%nat) <= s (nth k ids' 0%nat))%R) by (apply B'; [apply nth_In; auto|apply HI, I, nth_In; lia|auto]). lra. }
    apply (In_nth _ _ 0) in M. destruct M as (b & Lb & EB). rewrite <- EB.
    destruct (Nat.lt_ge_cases b k) as [Y|Y].
    - replace (nth b ids' 0%nat) with (nth b (firstn k ids') 0%nat); [apply nth_In; rewrite firstn_length; lia|]. rewrite <- (firstn_skipn k ids') at 2. rewrite app_nth1; auto. rewrite firstn_length. lia.
    - exfalso. assert (B1 : (s (nth b ids' 0%nat) <= s (nth k ids' 0%nat))%R) by (apply ss_nth; auto). rewrite EB in B1. lra. }
  apply NoDup_incl_length in INC; [|apply NoDup_firstn; auto]. rewrite !firstn_length in INC. lia.
Qed.
(** The recommendations without filters are the exact ones among the items of the cells looked at. *)
Lemma recommend_plain E near (I : inner R) o m x sim u N : near_ok near -> fo_gpu o = false -> fo_rec o = true ->
  (0 <= u < Z.of_nat (length (user_factors m)))%Z -> iv_data x = item_factors m ->
  let user := nth (Z.to_nat u) (user_factors m) [] in
  exists ids, ann_recommend E I (faiss_wrapper E near o (sim, Some x)) m (Scalar u) NotCsr N false None false None =
      (m, Ok (OneRow (map Z.of_nat ids ++ repeat (-1)%Z (N - length ids)) (map (fun i => spec_dot user (nth i (item_factors m) [])) ids ++ repeat (ae_fmin32 E) (N - length ids)))) /\
    Best (fun i j => spec_dot user (nth j (item_factors m) []) <= spec_dot user (nth i (item_factors m) []))%R (probed near x user) (Nat.min N (length (probed near x user))) ids.
Proof.
  intros NO G RC HU ED user. destruct (query_user_scalar I m u NotCsr HU) as (v & EV & RV). fold user in RV.
  destruct (search_best E near NO x user N) as (ids & EH & HB). rewrite ED in EH, HB. exists ids. split; auto.
  unfold ann_recommend, faiss_wrapper. cbn [check_csr_arg orb a_lib a_approx_rec]. unfold faiss_recommend_direct. cbn [a_approx_rec a_use_gpu a_rec snd]. rewrite RC. cbn [negb].
  rewrite EV. cbn [bind rec_filter truthy]. rewrite G. cbn [andb]. rewrite RV. cbn [map bind to_out nth]. rewrite EH, !map_app, !map_map, !map_pads. reflexivity.
Qed.
(** Two CPU models that differ in nprobe only: with the larger one the k-th recommendation is never worse, and there are at
    least as many. *)
Theorem C154_monotone : forall (E : ann_env R) kmeans near (I : inner R) o o' f m ix ix' u N,
  near_ok near -> kmeans_ok kmeans -> fo_gpu o = false -> fo_gpu o' = false -> fo_rec o = true -> fo_rec o' = true -> fo_nlist o = fo_nlist o' -> 0 < fo_nlist o ->
  fo_nprobe o <= fo_nprobe o' ->
  faiss_fit_calls E kmeans o f (item_factors m) = Ok ix -> faiss_fit_calls E kmeans o' f (item_factors m) = Ok ix' ->
  (0 <= u < Z.of_nat (length (user_factors m)))%Z ->
  exists ids scores k ids' scores' k',
    ann_recommend E I (faiss_wrapper E near o ix) m (Scalar u) NotCsr N false None false None = (m, Ok (OneRow (map Z.of_nat ids ++ repeat (-1)%Z k) (scores ++ repeat (ae_fmin32 E) k))) /\
    ann_recommend E I (faiss_wrapper E near o' ix') m (Scalar u) NotCsr N false None false None = (m, Ok (OneRow (map Z.of_nat ids' ++ repeat (-1)%Z k') (scores' ++ repeat (ae_fmin32 E) k'))) /\
    length ids = length scores /\ length ids' = length scores' /\ length ids <= length ids' /\
    forall i, i < length ids -> (nth i scores 0 <= nth i scores' 0)%R.
Proof.
  intros E kmeans near I o o' f m ix ix' u N NO KO G G' RC RC' EL NP LE F F' HU.
  assert (RX : forall o ix, fo_gpu o = false -> fo_rec o = true -> faiss_fit_calls E kmeans o f (item_factors m) = Ok ix ->
    exists c sim, ivf_train kmeans [] (fo_nlist o) (item_factors m) = Ok c /\
      ix = (sim, Some {| iv_gpu := false; iv_dim := f; iv_nlist := fo_nlist o; iv_cells := c; iv_data := item_factors m; iv_nprobe := fo_nprobe o |})).
  { clear. intros o ix G RC. unfold faiss_fit_calls, ivf_of. rewrite G, RC. destruct (ivf_train kmeans [] (fo_nlist o) (item_factors m)) as [c|] eqn:T1; [|discriminate]. cbn [bind].
    destruct (fo_sim o); [destruct (ivf_train kmeans c (fo_nlist o) (unit_rows E (item_factors m))); [|discriminate]|]; cbn [bind]; intros X; injection X as <-; exists c; eexists; split; reflexivity. }
  destruct (RX o ix G RC F) as (c & sim & T1 & ->). destruct (RX o' ix' G' RC' F') as (c' & sim' & T2 & ->). rewrite <- EL in T2. rewrite T1 in T2. injection T2 as <-. clear RX F F'.
  set (x := {| iv_gpu := false; iv_dim := f; iv_nlist := fo_nlist o; iv_cells := c; iv_data := item_factors m; iv_nprobe := fo_nprobe o |}).
  set (x' := {| iv_gpu := false; iv_dim := f; iv_nlist := fo_nlist o'; iv_cells := c; iv_data := item_factors m; iv_nprobe := fo_nprobe o' |}).
  destruct (recommend_plain E near I o m x sim u N NO G RC HU eq_refl) as (ids & R1 & B1). destruct (recommend_plain E near I o' m x' sim' u N NO G' RC' HU eq_refl) as (ids' & R2 & B2).
  set (user := nth (Z.to_nat u) (user_factors m) []) in *. set (s := fun i => spec_dot user (nth i (item_factors m) [])) in *.
  assert (MI : incl (probed near x user) (probed near x' user)) by (apply probed_mono; auto).
  assert (ML : length (probed near x user) <= length (probed near x' user)) by (apply NoDup_incl_length; auto; apply probed_nodup; auto).
  exists ids, (map s ids), (N - length ids), ids', (map s ids'), (N - length ids'). rewrite !map_length. repeat split; auto.
  - rewrite (best_length _ _ _ _ B1), (best_length _ _ _ _ B2). lia.
  - intros i Hi. assert (Hi' : i < length ids') by (rewrite (best_length _ _ _ _ B1) in Hi; rewrite (best_length _ _ _ _ B2); lia).
    rewrite (nth_indep _ _ (s 0)) by (rewrite map_length; auto). rewrite (nth_indep (map s ids') _ (s 0)) by (rewrite map_length; auto). rewrite !map_nth.
    rewrite (best_length _ _ _ _ B1) in Hi. rewrite (best_length _ _ _ _ B2) in Hi'.
    apply (best_mono s _ _ _ _ _ _ B1 B2 MI); auto.
Qed.

(* ------------------------------------------------------------------ example *)
(** Two cells; a query looks first into the cell of its sign. *)
Definition near0 (cells : list (list R)) (q : list R) : list nat := if Rlt_dec (nth 0 q 0%R) 0 then rev (seq 0 (length cells)) else seq 0 (length cells).
Lemma near0_ok : near_ok near0.
Proof. intros cells q. unfold near0. destruct (Rlt_dec _ _); [symmetry; apply Permutation_rev|reflexivity]. Qed.
Definition kmeans0 (k : nat) (rows : list (list R)) : list (list R) := firstn k rows.
Lemma kmeans0_ok : kmeans_ok kmeans0.
Proof. intros k rows L. unfold kmeans0. rewrite firstn_length. lia. Qed.
Definition ivf_opts (nprobe : nat) : faiss_opts := {| fo_sim := true; fo_rec := true; fo_nlist := 2; fo_nprobe := nprobe; fo_gpu := false |}.
Definition ivf_mf : mf R := {| user_factors := [[1; 3]%R]; item_factors := [[1; 0]; [-1; 0]; [-1; 2]]%R |}.
(** The hypotheses are met, and with nprobe below nlist the best item can be missed. *)
Example C154_example : near_ok near0 /\ kmeans_ok kmeans0 /\
  (exists ix, faiss_fit_calls real_env0 kmeans0 (ivf_opts 2) 2 (item_factors ivf_mf) = Ok ix) /\
  (exists sim x, faiss_fit_calls real_env0 kmeans0 (ivf_opts 1) 2 (item_factors ivf_mf) = Ok (sim, Some x) /\ probed near0 x [1; 3]%R = [0] /\
     (spec_dot [1; 3] (nth 0 (item_factors ivf_mf) []) < spec_dot [1; 3] (nth 2 (item_factors ivf_mf) []))%R).
Proof.
  split; [apply near0_ok|]. split; [apply kmeans0_ok|]. split; [eexists; reflexivity|].
  eexists _, _. split; [reflexivity|]. split.
  - unfold probed, cell_rows, cell_of, near0. cbn.
    repeat match goal with |- context [Rlt_dec ?a ?b] => destruct (Rlt_dec a b); try lra; cbn end. reflexivity.
  - unfold spec_dot. cbn. lra.
Qed.

Print Assumptions C154_recommend.
Print Assumptions C154_similar.
Print Assumptions C154_any_nprobe.
Print Assumptions C154_monotone.
