(** C169: item-item similarities are the same in both directions, to the last bit. *)
From Coq Require Import List Arith Lia Bool ZArith Reals Lra Permutation Sorted.
From Coq Require Import Floats.SpecFloat.
From Verif Require Import Base Num Heap Sparse TopkModel TopkSpec TopkProofs RVec RecommendModel RecommendProofs3 KnnModel KnnProofs PropKnn PropMore WeightModel WeightProofs PropWeight
  MetricsModel MetricsProofs MetricsDouble DoubleProofs SimilarProofs SimilarRound SimilarRoundProofs LossRound LossRoundProofs CosineRound CosineRoundProofs PropCosineRound.
Import ListNotations.

Section Any.
Context {T : Type} `{NumOrd T}.
Lemma terms_sym_nodup (W : csr T) i j : (forall k, k < c_rows W -> NoDup (csr_row_indices W k)) -> (forall a b : T, nmul a b = nmul b a) ->
  spec_terms W i j = spec_terms W j i.
Proof.
  intros ND C. unfold spec_terms.
  assert (G : forall l, (forall k, In k l -> k < c_rows W) ->
    flat_map (fun u => flat_map (fun p => map (fun q => nmul (snd q) (snd p)) (filter (fun q => fst q =? j) (csr_row W u))) (filter (fun p => fst p =? i) (csr_row W u))) l =
    flat_map (fun u => flat_map (fun p => map (fun q => nmul (snd q) (snd p)) (filter (fun q => fst q =? i) (csr_row W u))) (filter (fun p => fst p =? j) (csr_row W u))) l).
  { induction l as [|k l IH]; intros B; auto. cbn [flat_map]. rewrite IH by (intros; apply B; right; auto). f_equal.
    pose proof (ND k (B k (or_introl eq_refl))) as N.
    destruct (nodup_filter_fst (csr_row W k) i N) as [P|(v & P)]; destruct (nodup_filter_fst (csr_row W k) j N) as [Q|(w & Q)]; rewrite P, Q; cbn [map flat_map app snd]; auto.
    rewrite C. auto. }
  apply G. intros k Hk. apply in_seq in Hk. lia.
Qed.

Lemma sym_any HP (W S : csr T) K : std_heap_ok HP -> csr_wf W -> 0 < K -> (forall x : T, nadd x nzero = x) -> (forall a b : T, nmul a b = nmul b a) ->
  (forall k, k < c_rows W -> NoDup (csr_row_indices W k)) -> all_pairs_knn HP W K = Ok S ->
  (forall i j v w, i < c_cols W -> j < c_cols W -> In (j, v) (csr_row S i) -> In (i, w) (csr_row S j) -> i <> j -> v = w) /\
  ((forall i, i < c_cols W -> length (shares_user W i) <= K) ->
   forall i j v, i < c_cols W -> j < c_cols W -> i <> j -> In (j, v) (csr_row S i) -> In (i, v) (csr_row S j)).
Proof.
  intros HC WF HK AZ MC ND ES.
  assert (SY : forall i j, spec_cooc W i j = spec_cooc W j i) by (intros; unfold spec_cooc; rewrite (terms_sym_nodup W i j); auto).
  destruct (C15_exact T _ _ HP W K HC WF HK AZ) as [S' [E' [_ [_ [_ RW]]]]].
  rewrite ES in E'. inversion E'; subst S'.
  assert (ENT : forall i j v, i < c_cols W -> i <> j -> In (j, v) (csr_row S i) -> In j (shares_user W i) /\ v = spec_cooc W i j).
  { intros i j v Hi NE Hj. destruct (RW i Hi) as [ids [sc [TN [extra [EX [_ RI]]]]]]. apply RI in Hj.
    destruct Hj as [[Hj ->]|[X [-> _]]]; [|specialize (EX X); congruence]. split; auto. apply (topn_incl _ _ _ _ _ TN); auto. }
  split.
  - intros i j v w Hi Hj A B NE. apply ENT in A; auto. apply ENT in B; auto. destruct A as [_ ->], B as [_ ->]. apply SY.
  - intros SMALL i j v Hi Hj NE A. apply ENT in A; auto. destruct A as [A ->]. apply shares_sym in A; auto.
    destruct (RW j Hj) as [ids [sc [TN [extra [EX [_ RI]]]]]]. apply RI. left. split; [|apply SY].
    pose proof (topn_length _ _ _ _ _ TN) as LN. pose proof (SMALL j Hj) as LS. rewrite Nat.min_r in LN by auto.
    refine (NoDup_length_incl (topn_nodup _ _ _ _ _ TN) _ (topn_incl _ _ _ _ _ TN) _ A). lia.
Qed.
End Any.

(** Any weights of a floating point format, no interaction stored twice. *)
Theorem C169_partial : forall rd u (FO : format rd u) HP (W S : csr (fl rd)) K,
  std_heap_ok HP -> csr_wf W -> 0 < K -> (forall k, k < c_rows W -> NoDup (csr_row_indices W k)) ->
  @all_pairs_knn _ (Num_fl rd u FO) HP W K = Ok S ->
  (forall i j v w, i < c_cols W -> j < c_cols W -> i <> j -> In (j, v) (csr_row S i) -> In (i, w) (csr_row S j) -> v = w) /\
  ((forall i, i < c_cols W -> length (shares_user W i) <= K) ->
   forall i j v, i < c_cols W -> j < c_cols W -> i <> j -> In (j, v) (csr_row S i) -> In (i, v) (csr_row S j)).
Proof.
  intros rd u FO HP W S K HC WF HK ND E.
  destruct (@sym_any _ (Num_fl rd u FO) (NumOrd_fl rd u FO) HP W S K HC WF HK (fl_add_zero rd u FO) (fl_mul_comm rd u FO) ND E) as [A B].
  split; [intros; eapply (A i j); eauto|exact B].
Qed.
Print Assumptions C169_partial.

(** An interaction stored twice (weights 0.1 and 0.1 of item 1, 0.4 and 0.9 of item 2): the products are added in
    different orders. *)
Definition f64_01 : f64 := S754_finite false 7205759403792794 (-56).
Definition twice : csr f64 := csr_of_rows 3 [[(1, f64_01); (1, f64_01); (2, S754_finite false 7205759403792794 (-54)); (2, S754_finite false 8106479329266893 (-53))]].
Theorem C169_refuted : exists (W S : csr f64) i j v w,
  csr_wf W /\ @all_pairs_knn f64 Num_f64 simple_heap W 2 = Ok S /\ i < c_cols W /\ j < c_cols W /\ i <> j /\
  In (j, v) (csr_row S i) /\ In (i, w) (csr_row S j) /\ SFltb v w = true.
Proof.
  exists twice. eexists. exists 1, 2, (S754_finite false 4683743612465316 (-54)), (S754_finite false 4683743612465317 (-54)).
  split. { apply csr_of_rows_wf. intros r p Hr Hp. simpl in Hr. destruct Hr as [<-|[]]; simpl in Hp; repeat (destruct Hp as [<-|Hp]; [simpl; lia|]); tauto. }
  split; [vm_compute; reflexivity|]. split; [simpl; lia|]. split; [simpl; lia|]. split; [lia|].
  split; [vm_compute; auto|]. split; [vm_compute; auto|]. reflexivity.
Qed.
Print Assumptions C169_refuted.

(** Three users and three items, in doubles, K = 3: item 1 lists item 2 and item 2 lists item 1. *)
Example C169_example : let NF := Num_fl (rnd_p 53) _ (format_binary 53 ltac:(lia)) in
  csr_wf ex_plays /\ (forall k, k < c_rows ex_plays -> NoDup (csr_row_indices ex_plays k)) /\
  (forall i, i < c_cols ex_plays -> length (shares_user ex_plays i) <= 3) /\
  exists S v, @all_pairs_knn _ NF simple_heap ex_plays 3 = Ok S /\ In (2, v) (csr_row S 1) /\ In (1, v) (csr_row S 2).
Proof.
  intros NF. destruct ex_plays_ok as [WF ND _].
  assert (SM : forall i, i < c_cols ex_plays -> length (shares_user ex_plays i) <= 3).
  { intros i Hi. unfold shares_user. etransitivity; [apply filter_len_le|]. rewrite seq_length. simpl. lia. }
  split; [exact WF|]. split; [exact ND|]. split; [exact SM|].
  destruct (@C15_exact _ NF (NumOrd_fl _ _ _) simple_heap ex_plays 3 simple_heap_ok WF ltac:(lia) (fl_add_zero _ _ _)) as [S [E [_ [_ [_ RW]]]]].
  assert (C3 : c_cols ex_plays = 3) by reflexivity.
  destruct (RW 1 ltac:(rewrite C3; lia)) as [ids [sc [TN [extra [EX [_ RI]]]]]].
  assert (SH : shares_user ex_plays 1 = [0; 1; 2]) by reflexivity.
  assert (I2 : In 2 ids). { refine (NoDup_length_incl (topn_nodup _ _ _ _ _ TN) _ (topn_incl _ _ _ _ _ TN) _ _); rewrite ?(topn_length _ _ _ _ _ TN), SH; simpl; auto. }
  assert (IR : In (2, @spec_cooc _ NF ex_plays 1 2) (csr_row S 1)) by (apply RI; left; auto).
  exists S, (@spec_cooc _ NF ex_plays 1 2). split; [exact E|]. split; [exact IR|].
  destruct (C169_partial _ _ (format_binary 53 ltac:(lia)) simple_heap ex_plays S 3 simple_heap_ok WF ltac:(lia) ND E) as [_ B].
  apply (B SM 1 2); auto; rewrite C3; lia.
Qed.
