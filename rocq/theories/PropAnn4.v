(** C104 and C109: explicit item lists and later changes of the wrapped model. *)
From Coq Require Import String List Arith Lia Bool ZArith QArith Permutation Sorted Reals Lra.
From Verif Require Import Base Num Heap Sparse TopkModel TopkSpec TopkProofs RecommendModel RecommendProofs KnnModel RVec SimilarProofs PropSimilar
  AnnModel AnnProofs PropAnn PropAnn2 PropAnn3.
Import ListNotations.
Local Open Scope list_scope.
Local Open Scope nat_scope.

(* ----------------------------------------------------------------- C104 *)
(** An approximate index cannot answer a query restricted to [items]: the call fails (it
    is not answered as if the argument had not been given) and changes nothing. *)
Theorem C104_items_refused : forall T (NT : Num T) (E : ann_env T) (I : inner T) A m id N its,
  (a_approx_rec A = true -> forall ui liked fi recalc,
     exists e, ann_recommend E I A m id ui N liked fi recalc (Some its) = (m, Raise e) /\
       (e = NotImplementedError \/ e = ValueError) /\ (liked || recalc = false \/ (exists M, ui = Csr M) -> e = NotImplementedError)) /\
  (a_approx_sim A = true -> forall recalc iu fi,
     ann_similar_items E I A m id N recalc iu fi (Some its) = (m, Raise NotImplementedError)).
Proof.
  intros T NT E I A m id N its. split.
  - intros HA ui liked fi recalc. unfold ann_recommend. rewrite HA. unfold check_csr_arg.
    destruct (liked || recalc).
    + destruct ui as [|M].
      * exists ValueError. split; auto. split; auto. intros [D|[M D]]; discriminate D.
      * exists NotImplementedError. auto.
    + exists NotImplementedError. auto.
  - intros HA recalc iu fi. unfold ann_similar_items. rewrite HA. cbn [negb]. destruct (a_lib A); auto.
Qed.
Print Assumptions C104_items_refused.
(** With the approximation off the list reaches the wrapped model (Faiss recommend
    always fails then: C74). *)
Theorem C104_items_passed_on : forall T (NT : Num T) (E : ann_env T) (I : inner T) A m id N its,
  (a_approx_rec A = false -> a_lib A <> Faiss -> forall M liked fi recalc,
     ann_recommend E I A m id (Csr M) N liked fi recalc (Some its) = (m, i_recommend I m id (Csr M) (Z.of_nat N) liked fi recalc (Some its))) /\
  (a_approx_sim A = false -> forall recalc iu fi,
     ann_similar_items E I A m id N recalc iu fi (Some its) = (m, i_similar I m id (Z.of_nat N) recalc iu fi (Some its))).
Proof.
  intros T NT E I A m id N its. split.
  - intros HA HL M liked fi recalc. apply C74_partial; auto. intros _. eauto.
  - intros HA recalc iu fi. apply C74_partial; auto.
Qed.
Print Assumptions C104_items_passed_on.
Example C104_example : forall L,
  snd (ann_recommend q_env (no_inner cpu_attrs) (q_A L) q_m (Scalar 0%Z) (Csr (csr_of_rows 2 [[(0, 1%Q)]])) 1 true None false (Some (PyList [1%Z]))) = Raise NotImplementedError /\
  a_approx_rec (q_A L) = true /\ a_approx_sim (q_A L) = true /\
  snd (ann_recommend q_env (no_inner cpu_attrs) (q_A L) q_m (Scalar 0%Z) (Csr (csr_of_rows 2 [[(0, 1%Q)]])) 1 true None false None) <> Raise NotImplementedError.
Proof. intros L. destruct L; repeat split; discriminate. Qed.

(* ----------------------------------------------------------------- C109 *)
Lemma batch_st_same {T} (f : nat -> Z -> mf T -> mf T * res (list Z * list T)) m m' : (forall g z, fst (f g z m) = m) -> (forall g z, fst (f g z m') = m') ->
  (forall g z, snd (f g z m) = snd (f g z m')) -> forall ids, fst (batch_st f ids m) = m /\ fst (batch_st f ids m') = m' /\ snd (batch_st f ids m) = snd (batch_st f ids m').
Proof.
  intros F F' S. induction ids as [|[g z] ids IH]; cbn [batch_st]; auto.
  pose proof (F g z) as A. pose proof (F' g z) as B. pose proof (S g z) as C.
  destruct (f g z m) as [m1 r1], (f g z m') as [m2 r2]. cbn [fst snd] in A, B, C. subst m1 m2 r2.
  destruct r1 as [x|e]; cbn [fst snd]; auto. destruct IH as (I1 & I2 & I3).
  destruct (batch_st f ids m) as [m1 r1], (batch_st f ids m') as [m2 r2]. cbn [fst snd] in *. subst. auto.
Qed.
Lemma query_user_same {T} `{Num T} (I : inner T) m m' id ui rc : user_factors m = user_factors m' -> query_user I m id ui rc = query_user I m' id ui rc.
Proof. intros E. unfold query_user. rewrite E. auto. Qed.
Lemma query_user_rows {T} `{Num T} (I : inner T) m m' id ui rc v : user_factors m = user_factors m' -> query_user I m id ui rc = Ok v -> nd_rows m v = nd_rows m' v.
Proof.
  intros E Q. assert (IR : forall v, index_rows (i_gpu I) UserRow (user_factors m) id = Ok v -> nd_rows m v = nd_rows m' v).
  { clear v Q. intros v Q. unfold index_rows in Q. destruct id as [z|zs].
    - destruct (np_index (length (user_factors m)) z); [|discriminate Q]. cbn [bind] in Q. injection Q as <-. destruct (i_gpu I); cbn; congruence.
    - destruct (gather (user_factors m) zs); [|discriminate Q]. cbn [bind] in Q. injection Q as <-. auto. }
  unfold query_user in Q. destruct (i_has I "+_user_factor").
  - destruct rc; [|auto]. destruct ui as [|M]; [discriminate Q|]. destruct (i_recalc_user I id M); [|discriminate Q]. cbn [bind] in Q. injection Q as <-. auto.
  - destruct rc; [discriminate Q|auto].
Qed.
Lemma angular_same {T} `{Num T} (E : ann_env T) (I : inner T) A m m' u ui N liked fi rc : user_factors m = user_factors m' ->
  snd (angular_recommend1 E I A m u ui N liked fi rc) = snd (angular_recommend1 E I A m' u ui N liked fi rc).
Proof.
  intros EU. unfold angular_recommend1. cbn [snd]. rewrite (query_user_same I m m') by auto.
  destruct (query_user I m' (Scalar u) ui rc) as [v|] eqn:Q; auto. cbn [bind].
  rewrite (query_user_rows I m m' (Scalar u) ui rc v EU) by (rewrite (query_user_same I m m') by auto; auto). auto.
Qed.
Lemma faiss_same {T} `{Num T} (I : inner T) A m m' id ui N liked fi rc its : user_factors m = user_factors m' -> a_use_gpu A = false ->
  snd (faiss_recommend_direct I A m id ui N liked fi rc its) = snd (faiss_recommend_direct I A m' id ui N liked fi rc its) /\
  fst (faiss_recommend_direct I A m id ui N liked fi rc its) = m /\ fst (faiss_recommend_direct I A m' id ui N liked fi rc its) = m'.
Proof.
  intros EU G. unfold faiss_recommend_direct. rewrite G. destruct (a_approx_rec A); cbn [negb fst snd andb]; auto. split; auto.
  rewrite (query_user_same I m m') by auto. destruct (query_user I m' id ui rc) as [v|] eqn:Q; auto. cbn [bind].
  rewrite (query_user_rows I m m' id ui rc v EU) by (rewrite (query_user_same I m m') by auto; auto). auto.
Qed.

(** The recommendations of a fitted wrapper do not depend on the wrapped model's current
    item factors: only on its user factors and on the index built by fit.  (A Faiss index
    on the GPU asked for more than 1023 results passes the query on.) *)
Theorem C109_partial : forall T (NT : Num T) (E : ann_env T) (I : inner T) A m m' id ui N liked fi recalc items,
  user_factors m = user_factors m' -> a_approx_rec A = true -> a_use_gpu A = false ->
  snd (ann_recommend E I A m id ui N liked fi recalc items) = snd (ann_recommend E I A m' id ui N liked fi recalc items).
Proof.
  intros T NT E I A m m' id ui N liked fi recalc items EU HA HG. unfold ann_recommend. rewrite HA.
  destruct (check_csr_arg liked recalc ui); auto. destruct items; auto. cbn [negb].
  assert (ANG : forall g z, snd (match row_arg ui g with Ok r => angular_recommend1 E I A m z r N liked fi recalc | Raise e => (m, Raise e) end)
     = snd (match row_arg ui g with Ok r => angular_recommend1 E I A m' z r N liked fi recalc | Raise e => (m', Raise e) end)).
  { intros g z. destruct (row_arg ui g); auto. apply angular_same; auto. }
  assert (BCA : forall zs, snd (batch_call_st E (fun g z m => match row_arg ui g with Ok r => angular_recommend1 E I A m z r N liked fi recalc | Raise e => (m, Raise e) end) zs N m)
     = snd (batch_call_st E (fun g z m => match row_arg ui g with Ok r => angular_recommend1 E I A m z r N liked fi recalc | Raise e => (m, Raise e) end) zs N m')).
  { intros zs. unfold batch_call_st.
    destruct (batch_st_same (fun g z m => match row_arg ui g with Ok r => angular_recommend1 E I A m z r N liked fi recalc | Raise e => (m, Raise e) end) m m') with (ids := enum zs) as (B1 & B2 & B3); auto;
      try (intros g z; destruct (row_arg ui g); reflexivity).
    destruct (batch_st _ (enum zs) m) as [x1 y1], (batch_st _ (enum zs) m') as [x2 y2]. cbn [fst snd] in *. congruence. }
  assert (SCA : forall z, snd (let '(m0, r) := angular_recommend1 E I A m z ui N liked fi recalc in (m0, do ' (ids, sc) <- r; Ok (OneRow ids sc)))
     = snd (let '(m0, r) := angular_recommend1 E I A m' z ui N liked fi recalc in (m0, do ' (ids, sc) <- r; Ok (OneRow ids sc)))).
  { intros z. pose proof (angular_same E I A m m' z ui N liked fi recalc EU) as S.
    destruct (angular_recommend1 E I A m z ui N liked fi recalc), (angular_recommend1 E I A m' z ui N liked fi recalc). cbn [snd] in *. congruence. }
  destruct (a_lib A).
  - destruct id; auto.
  - destruct id; auto.
  - destruct id as [z|zs]; [apply faiss_same; auto|]. destruct liked; [|apply faiss_same; auto]. unfold batch_call_st.
    match goal with |- context [batch_st ?f (enum zs) m] => destruct (batch_st_same f m m') with (ids := enum zs) as (B1 & B2 & B3) end.
    + intros g z. destruct (row_arg ui g); auto. unfold one_row. cbn [fst]. apply (faiss_same I A m m'); auto.
    + intros g z. destruct (row_arg ui g); auto. unfold one_row. cbn [fst]. apply (faiss_same I A m m'); auto.
    + intros g z. destruct (row_arg ui g) as [ug|]; auto. unfold one_row. cbn [snd]. destruct (faiss_same I A m m' (Scalar z) ug N true fi recalc None EU HG) as [S _]. rewrite S. auto.
    + destruct (batch_st _ (enum zs) m) as [x1 y1], (batch_st _ (enum zs) m') as [x2 y2]. cbn [fst snd] in *. congruence.
Qed.
Print Assumptions C109_partial.

(** So after the item factors have been changed (partial_fit_items, fitting the wrapped
    model again) an exact index no longer gives the best items. *)
Definition C109_statement : Prop := forall (B : builders R) (E : ann_env R) (I : inner R) m m' asim A u N,
  inner_index (ae_fmin32 E) B -> faiss_fit E B false (item_factors m) asim true = Ok A ->
  user_factors m' = user_factors m -> length (item_factors m') = length (item_factors m) ->
  (0 <= u < Z.of_nat (length (user_factors m)))%Z -> N <= length (item_factors m) ->
  exists ids scores, snd (ann_recommend E I A m' (Scalar u) NotCsr N false None false None) = Ok (OneRow (map Z.of_nat ids) scores) /\
    TopN (fun i => spec_dot (nth (Z.to_nat u) (user_factors m') []) (nth i (item_factors m') [])) (seq 0 (length (item_factors m'))) N ids scores.
Definition ex_before : mf R := {| user_factors := [[1]]%R; item_factors := [[3]; [5]]%R |}.
Definition ex_after : mf R := {| user_factors := [[1]]%R; item_factors := [[5]; [3]]%R |}.
Theorem C109_refuted : ~ C109_statement.
Proof.
  intros HS. destruct (exact_builders_ok (-1000)) as (_ & _ & HX).
  destruct (C55_faiss_partial _ real_env0 (no_inner cpu_attrs) ex_before false _ 0%Z NotCsr 1 false None HX eq_refl) as (ids & sc & HR & HT); [simpl; lia|exact I|intros []|discriminate|].
  apply (topn_one _ 1 0) in HT; [|simpl; unfold spec_dot; simpl; lra|discriminate]. destruct HT as [-> ->].
  destruct (HS _ real_env0 (no_inner cpu_attrs) ex_before ex_after false _ 0%Z 1 HX eq_refl eq_refl eq_refl) as (ids & sc & HR' & HT'); [simpl; lia|simpl; lia|].
  rewrite (C109_partial _ _ _ _ _ ex_after ex_before) in HR' by reflexivity. rewrite HR in HR'. cbn in HR'. injection HR' as HI HSc.
  assert (ids = [1]). { destruct ids as [|a [|b ids]]; simpl in HI; try discriminate HI. f_equal. injection HI as HI. lia. } subst ids.
  pose proof (topn_best _ _ _ _ _ HT' 1 0) as B. simpl in B. assert (X : nleb (spec_dot [1%R] [5%R]) (spec_dot [1%R] [3%R]) = true) by (apply B; auto; intros [D|[]]; discriminate D).
  apply nleb_R in X. unfold spec_dot in X. simpl in X. lra.
Qed.
Print Assumptions C109_refuted.
(** Changed user factors (partial_fit_users) are used at once. *)
Theorem C109_users_fresh : forall (B : builders R) (E : ann_env R) (I : inner R) fitted now asim A u N,
  inner_index (ae_fmin32 E) B -> faiss_fit E B false (item_factors fitted) asim true = Ok A ->
  item_factors now = item_factors fitted -> (0 <= u < Z.of_nat (length (user_factors now)))%Z -> N <= length (item_factors now) ->
  exists ids scores, ann_recommend E I A now (Scalar u) NotCsr N false None false None = (now, Ok (OneRow (map Z.of_nat ids) scores)) /\
    TopN (fun i => spec_dot (nth (Z.to_nat u) (user_factors now) []) (nth i (item_factors now) [])) (seq 0 (length (item_factors now))) N ids scores.
Proof.
  intros B E I fitted now asim A u N HX HF EI HU HN. rewrite <- EI in HF.
  destruct (C55_faiss_partial B E I now asim A u NotCsr N false None HX HF HU) as (ids & sc & HR & HT); [exact Logic.I|intros []|discriminate|].
  assert (FE : filter (allowed None false NotCsr) (seq 0 (length (item_factors now))) = seq 0 (length (item_factors now))).
  { generalize (seq 0 (length (item_factors now))). induction l as [|x l IH]; auto. cbn [filter]. rewrite IH. reflexivity. }
  rewrite FE, seq_length in *. rewrite Nat.min_l in HT by auto. replace (N - length (item_factors now)) with 0 in HR by lia. cbn [repeat] in HR. rewrite !app_nil_r in HR. eauto.
Qed.
Print Assumptions C109_users_fresh.
Example C109_example : (exists A, faiss_fit real_env0 (exact_builders (-1000)) false (item_factors ex_before) false true = Ok A) /\ inner_index (ae_fmin32 real_env0) (exact_builders (-1000)) /\ 1 <= length (item_factors ex_before).
Proof. split; [eexists; reflexivity|]. split; [apply exact_builders_ok|simpl; lia]. Qed.
