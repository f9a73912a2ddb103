(** C139: evaluation does not depend on how users and items are numbered, nor on the values,
    order or repetition of the test entries. *)
From Coq Require Import List Arith Lia Bool ZArith Reals Lra Permutation.
From Verif Require Import Base Num Heap Sparse TopkModel TopkSpec TopkBatch RecommendModel RecommendProofs RecommendBatch
  RVec KnnAcc KnnProofs MetricsModel MetricsProofs MetricsProofs2 PropTopk PropMetrics.
Import ListNotations.
Local Open Scope R_scope.

(** The second evaluation is the first with user [u] called [su u] and item [z] called [ti z]. *)
Definition renumbered {T T'} (su : nat -> nat) (ti : Z -> Z) (test : csr T) (r : nat -> list Z) (test' : csr T') (r' : nat -> list Z) : Prop :=
  c_cols test' = c_cols test /\ (forall x y, ti x = ti y -> x = y) /\
  Permutation (test_users test') (map su (test_users test)) /\
  forall u, In u (test_users test) ->
    r' (su u) = map ti (r u) /\
    (forall z, In z (map Z.of_nat (test_items test' (su u))) <-> exists y, In y (map Z.of_nat (test_items test u)) /\ z = ti y).

Lemma isrel_spec A z : isrel A z = true <-> In z (map Z.of_nat A).
Proof.
  unfold isrel, memz. rewrite existsb_exists. split.
  - intros [x [Hx Ex]]. apply Z.eqb_eq in Ex. subst. auto.
  - intros H. exists z. split; auto. apply Z.eqb_refl.
Qed.

Section Pattern.
Variables (A B : list nat) (ti : Z -> Z).
Hypothesis rel : forall z, isrel B (ti z) = isrel A z.
Lemma nhits_map l : nhits B (map ti l) = nhits A l.
Proof. unfold nhits. induction l; simpl; auto. rewrite rel. destruct (isrel A a); simpl; auto. Qed.
Lemma nmiss_map l : nmiss B (map ti l) = nmiss A l.
Proof. unfold nmiss. induction l; simpl; auto. rewrite rel. destruct (isrel A a); simpl; auto. Qed.
Lemma ap_map l : forall k h, ap_rec B k h (map ti l) = ap_rec A k h l.
Proof. induction l; simpl; intros; auto. rewrite rel. destruct (isrel A a); rewrite IHl; auto. Qed.
Lemma dcg_map l : forall k, dcg_rec B k (map ti l) = dcg_rec A k l.
Proof. induction l; simpl; intros; auto. rewrite rel, IHl. auto. Qed.
Lemma auc_map l : forall h, auc_rec B h (map ti l) = auc_rec A h l.
Proof. induction l; simpl; intros; auto. rewrite rel. destruct (isrel A a); rewrite IHl; auto. Qed.
End Pattern.

Lemma mean_perm f us us' : Permutation us us' -> mean f us = mean f us'.
Proof. intros P. unfold mean. rewrite (Permutation_length P). f_equal. apply rsum_perm, Permutation_map. auto. Qed.
Lemma mean_map f s us : mean f (map s us) = mean (fun u => f (s u)) us.
Proof. unfold mean. rewrite map_map, map_length. auto. Qed.
Lemma mean_ext f g us : (forall u, In u us -> f u = g u) -> mean f us = mean g us.
Proof. intros E. unfold mean. f_equal. apply rsum_map_ext. auto. Qed.

(** Whatever the numbering, all four metrics come out the same. *)
Theorem C139_numbering : forall (T T' : Type) (test : csr T) (test' : csr T') r r' rec rec' (K : nat) su ti,
  (1 <= K)%nat -> test_users test <> [] -> answers test r rec -> answers test' r' rec' ->
  (forall u, In u (test_users test) -> (length (test_items test u) < c_cols test)%nat /\ (K <= length (r u))%nat) ->
  renumbered su ti test r test' r' ->
  exists m, ranking_metrics_at_k rec test K = Ok m /\ ranking_metrics_at_k rec' test' K = Ok m.
Proof.
  intros T T' test test' r r' rec rec' K su ti HK NE A A' H [EC [INJ [PU EACH]]].
  assert (BS : (0 < metrics_batch_size)%nat) by (unfold metrics_batch_size; lia).
  assert (LEN : forall u, In u (test_users test) -> length (test_items test' (su u)) = length (test_items test u)).
  { intros u Hu. destruct (EACH u Hu) as [_ IT].
    assert (P : Permutation (map Z.of_nat (test_items test' (su u))) (map ti (map Z.of_nat (test_items test u)))).
    { apply NoDup_Permutation.
      - apply FinFun.Injective_map_NoDup; [intros x y E; lia|apply test_items_nodup].
      - apply FinFun.Injective_map_NoDup; [exact INJ|]. apply FinFun.Injective_map_NoDup; [intros x y E; lia|apply test_items_nodup].
      - intros z. rewrite IT, in_map_iff. split; intros [y [Y1 Y2]]; exists y; auto. }
    apply Permutation_length in P. rewrite !map_length in P. auto. }
  assert (REL : forall u, In u (test_users test) -> forall z, isrel (test_items test' (su u)) (ti z) = isrel (test_items test u) z).
  { intros u Hu z. destruct (EACH u Hu) as [_ IT].
    destruct (isrel (test_items test u) z) eqn:Q.
    - apply isrel_spec. apply IT. exists z. split; auto. apply isrel_spec. auto.
    - destruct (isrel (test_items test' (su u)) (ti z)) eqn:Q'; auto. apply isrel_spec in Q'. apply IT in Q'. destruct Q' as [y [Hy Ey]].
      apply INJ in Ey. subst y. apply isrel_spec in Hy. congruence. }
  eexists. split.
  { unfold ranking_metrics_at_k. apply metrics_ok with (r := r); auto. }
  unfold ranking_metrics_at_k. rewrite (metrics_ok metrics_batch_size K test' r'); auto.
  2:{ intros v Hv. apply (Permutation_in _ PU) in Hv. apply in_map_iff in Hv. destruct Hv as [u [<- Hu]]. destruct (H u Hu) as [H1 H2].
      change (likes_of test' (su u)) with (test_items test' (su u)). rewrite LEN by auto. split; [lia|]. destruct (EACH u Hu) as [-> _]. rewrite map_length. auto. }
  2:{ intros E. change (to_generate test') with (test_users test') in E. rewrite E in PU. apply Permutation_nil in PU. destruct (test_users test); [congruence|discriminate]. }
  change (to_generate test) with (test_users test). change (to_generate test') with (test_users test'). change (likes_of test) with (test_items test). change (likes_of test') with (test_items test').
  f_equal. f_equal.
  - f_equal.
    + rewrite (rsum_perm _ _ (Permutation_map _ PU)), map_map. apply rsum_map_ext. intros u Hu. destruct (EACH u Hu) as [-> _]. rewrite firstn_map, (nhits_map _ _ ti (REL u Hu)). auto.
    + rewrite (rsum_perm _ _ (Permutation_map _ PU)), map_map. apply rsum_map_ext. intros u Hu. rewrite LEN; auto.
  - rewrite (mean_perm _ _ _ PU), mean_map. apply mean_ext. intros u Hu. destruct (EACH u Hu) as [-> _]. unfold u_ap. rewrite firstn_map, (ap_map _ _ ti (REL u Hu)), LEN; auto.
  - rewrite (mean_perm _ _ _ PU), mean_map. apply mean_ext. intros u Hu. destruct (EACH u Hu) as [-> _]. unfold u_ndcg. rewrite firstn_map, (dcg_map _ _ ti (REL u Hu)), LEN; auto.
  - rewrite (mean_perm _ _ _ PU), mean_map. apply mean_ext. intros u Hu. destruct (EACH u Hu) as [-> _]. unfold u_auc.
    rewrite firstn_map, (auc_map _ _ ti (REL u Hu)), (nhits_map _ _ ti (REL u Hu)), (nmiss_map _ _ ti (REL u Hu)), LEN, EC; auto.
Qed.
Print Assumptions C139_numbering.

(** In particular the values of the test entries, their order and repetitions do not matter,
    only which items each user has. *)
Theorem C139_values : forall (T T' : Type) (test : csr T) (test' : csr T') r rec (K : nat),
  (1 <= K)%nat -> test_users test <> [] -> c_rows test' = c_rows test -> c_cols test' = c_cols test ->
  (forall u i, (u < c_rows test)%nat -> In i (map fst (csr_row test' u)) <-> In i (map fst (csr_row test u))) ->
  answers test r rec ->
  (forall u, In u (test_users test) -> (length (test_items test u) < c_cols test)%nat /\ (K <= length (r u))%nat) ->
  exists m, ranking_metrics_at_k rec test K = Ok m /\ ranking_metrics_at_k rec test' K = Ok m.
Proof.
  intros T T' test test' r rec K HK NE ER EC SAME A H.
  assert (EU : test_users test' = test_users test).
  { unfold test_users. rewrite ER. apply filter_ext_in. intros u Hu. apply in_seq in Hu. f_equal.
    assert (S1 := fun i => SAME u i ltac:(lia)).
    destruct (csr_row test u) as [|e l], (csr_row test' u) as [|e' l']; simpl in *; auto; exfalso.
    - apply (S1 (fst e')). auto.
    - apply (S1 (fst e)). auto. }
  apply (C139_numbering T T' test test' r r rec rec K (fun u => u) (fun z => z)); auto.
  - unfold answers. rewrite EU. auto.
  - split; auto. split; auto. split; [rewrite EU, map_id; auto|]. intros u Hu. split; [rewrite map_id; auto|].
    intros z. assert (Lu : (u < c_rows test)%nat) by (unfold test_users in Hu; apply filter_In in Hu; destruct Hu as [Hu _]; apply in_seq in Hu; lia).
    rewrite !in_map_iff. unfold test_items. split.
    + intros [i [<- Hi]]. apply nodup_In in Hi. apply SAME in Hi; auto. exists (Z.of_nat i). split; auto. apply in_map_iff. exists i. split; auto. apply nodup_In. auto.
    + intros [y [Hy ->]]. apply in_map_iff in Hy. destruct Hy as [i [<- Hi]]. apply nodup_In in Hi. apply SAME in Hi; auto. exists i. split; auto. apply nodup_In. auto.
Qed.
Print Assumptions C139_values.

(** Two users swapped, items 0 and 2 swapped, other values, an entry repeated, an empty user dropped in between. *)
Example C139_example :
  let test := csr_of_rows 4 [[(0, 5%Z); (2, 1%Z)]; []; [(1, 1%Z)]]%nat in
  let test' := csr_of_rows 4 [[(1, true)]; [(2, true); (0, false); (2, true)]]%nat in
  let r := fun u => match u with O => [0; 1; 3]%Z | _ => [2; 1; 0]%Z end in
  let r' := fun u => match u with O => [0; 1; 2]%Z | _ => [2; 1; 3]%Z end in
  let su := fun u => match u with O => 1%nat | _ => O end in
  let ti := fun z => (if z =? 0 then 2 else if z =? 2 then 0 else z)%Z in
  test_users test = [0; 2]%nat /\ renumbered su ti test r test' r' /\
  (forall u, In u (test_users test) -> (length (test_items test u) < c_cols test)%nat /\ (3 <= length (r u))%nat).
Proof.
  cbv zeta. split; [reflexivity|split].
  - split; [reflexivity|split; [|split]].
    + intros x y. destruct (Z.eqb_spec x 0), (Z.eqb_spec y 0), (Z.eqb_spec x 2), (Z.eqb_spec y 2); lia.
    + change (Permutation [0; 1]%nat [1; 0]%nat). constructor.
    + intros u [<-|[<-|[]]]; (split; [reflexivity|]); intros z; vm_compute test_items; cbn [map In].
      * split; [intros [<-|[<-|[]]]; [exists 2%Z|exists 0%Z]|intros [y [[<-|[<-|[]]] ->]]]; simpl; auto.
      * split; [intros [<-|[]]; exists 1%Z|intros [y [[<-|[]] ->]]]; simpl; auto.
  - intros u [<-|[<-|[]]]; vm_compute; lia.
Qed.
