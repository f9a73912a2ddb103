(** C105-C108: longer result lists, filtering afterwards, and neighbour lists. *)
From Coq Require Import List Arith Lia Bool ZArith Permutation Sorted Reals Lra Psatz.
From Verif Require Import Base Num Heap Sparse TopkModel TopkSpec TopkProofs TopkBatch
  RecommendModel RecommendProofs RecommendProofs2 RecommendProofs3 RVec SimilarProofs PropTopk PropRecommend PropSimilar
  AnnProofs GpuKnnProofs2 KnnModel KnnProofs KnnRec2 PropKnn WeightModel WeightProofs PropWeight.
Import ListNotations.

(* ---------------------------------------------------------------- rankings *)
Section Rank.
Context {T : Type} `{NumOrd T}.
Lemma ss_firstn' {A} (P : A -> A -> Prop) l : forall k, StronglySorted P l -> StronglySorted P (firstn k l).
Proof.
  intros k HS. rewrite <- (firstn_skipn k l) in HS. apply ss_app_l in HS. auto.
Qed.
Lemma topn_firstn (score : nat -> T) cands n k ids sc : TopN score cands n ids sc -> k <= n -> TopN score cands k (firstn k ids) (firstn k sc).
Proof.
  intros [L S N I D B] HK. constructor.
  - rewrite firstn_length. lia.
  - rewrite S. apply firstn_map.
  - apply NoDup_firstn; auto.
  - intros x Hx. apply I. rewrite <- (firstn_skipn k ids). apply in_or_app; auto.
  - apply ss_firstn'; auto.
  - intros i j Hi Hj Hn. destruct (in_dec Nat.eq_dec j ids) as [Y|Y].
    + rewrite <- (firstn_skipn k ids) in D. apply ss_app_inv in D. apply D; auto.
      rewrite <- (firstn_skipn k ids) in Y. apply in_app_or in Y. tauto.
    + apply B; auto. rewrite <- (firstn_skipn k ids). apply in_or_app; auto.
Qed.
Lemma topn_ids_unique (score : nat -> T) cands n ids ids' sc sc' :
  (forall i j, In i cands -> In j cands -> i <> j -> nltb (score i) (score j) = true \/ nltb (score j) (score i) = true) ->
  TopN score cands n ids sc -> TopN score cands n ids' sc' -> ids = ids'.
Proof.
  intros HD A B. pose proof (topn_length _ _ _ _ _ A) as LA. pose proof (topn_length _ _ _ _ _ B) as LB.
  apply (nth_ext _ _ 0 0); [lia|]. intros i Hi.
  assert (I1 : In (nth i ids 0) cands) by (apply (topn_incl _ _ _ _ _ A), nth_In; lia).
  assert (I2 : In (nth i ids' 0) cands) by (apply (topn_incl _ _ _ _ _ B), nth_In; lia).
  destruct (Nat.eq_dec (nth i ids 0) (nth i ids' 0)) as [E|NE]; auto.
  pose proof (topn_scores_le _ _ _ _ _ _ _ i A B ltac:(lia)). pose proof (topn_scores_le _ _ _ _ _ _ _ i B A ltac:(lia)).
  destruct (HD _ _ I1 I2 NE); congruence.
Qed.
End Rank.

(** Which items the filters exclude (as in C03), and the items left. *)
Definition excludes {T} (m : mf T) (fl : bool) (ui : sparse_arg T) (fi : option arr) (excl : nat -> bool) : Prop :=
  let n := length (item_factors m) in
  forall i, i < n -> excl i = true <->
     (fl = true /\ exists M v, ui = Csr M /\ In (i, v) (csr_row M 0)) \/
     (exists a z, fi = Some a /\ In z (arr_list a) /\ (z = Z.of_nat i \/ z = Z.of_nat i - Z.of_nat n)%Z).
Definition left_items {T} (m : mf T) (excl : nat -> bool) : list nat := filter (fun i => negb (excl i)) (seq 0 (length (item_factors m))).
(** No two of these items have equal scores. *)
Definition no_ties {T} `{Num T} (s : nat -> T) (l : list nat) : Prop :=
  forall i j, In i l -> In j l -> i <> j -> nltb (s i) (s j) = true \/ nltb (s j) (s i) = true.
Definition antisymmetric (T : Type) `{Num T} : Prop := forall a b : T, nltb a b = false -> nltb b a = false -> a = b.

(* ------------------------------------------------------------------ *)
(** C105: a longer list begins with the shorter one.  The scores always do; the items do
    when no two unfiltered items have equal scores. *)
Theorem C105_partial :
  forall (T : Type) (HT : Num T) (HO : NumOrd T) (HP : std_heap) (fmin : T) (m : mf T) recalc u ui N N' fl fi,
  std_heap_ok HP -> antisymmetric T -> call_ok m u N fl ui fi -> (N <= N')%Z ->
  exists ids sc ids' sc',
    recommend HP fmin m recalc (Scalar u) ui N fl fi false None = Ok (OneRow ids sc) /\
    recommend HP fmin m recalc (Scalar u) ui N' fl fi false None = Ok (OneRow ids' sc') /\
    sc = firstn (Z.to_nat N) sc' /\
    (forall excl, excludes m fl ui fi excl ->
       (forall i, In i (left_items m excl) -> nltb fmin (mf_score m u i) = true) ->
       no_ties (mf_score m u) (left_items m excl) -> (Z.to_nat N <= length (left_items m excl)) ->
       ids = firstn (Z.to_nat N) ids').
Proof.
  intros T HT HO HP fmin m recalc u ui N N' fl fi HC AS HK HN.
  assert (HK' : call_ok m u N' fl ui fi). { destruct HK as (A & B & C & D). split; [exact A|split; [exact B|split; [lia|exact D]]]. }
  destruct (call_ok_parts _ _ _ _ _ _ HK) as [f [W [Hu [HN0 [HI [Hl [Hf H0]]]]]]].
  destruct (recommend_scalar HP HC fmin m f recalc u ui N fl fi W Hu HN0 HI Hl Hf) as [ids [sc [E TN]]].
  destruct (recommend_scalar HP HC fmin m f recalc u ui N' fl fi W Hu ltac:(lia) HI Hl Hf) as [ids' [sc' [E' TN']]].
  set (n := length (item_factors m)) in *.
  do 4 eexists. split; [exact E|]. split; [exact E'|]. split.
  - pose proof (topn_firstn _ _ _ (Nat.min (Z.to_nat N) n) _ _ TN' ltac:(lia)) as TF.
    pose proof (topn_scores_unique _ _ _ _ _ _ _ AS TN TF) as ES.
    pose proof (topn_length _ _ _ _ _ TN) as L. pose proof (topn_length _ _ _ _ _ TN') as L'.
    assert (LS : length sc = Nat.min (Z.to_nat N) n) by (rewrite (topn_scores _ _ _ _ _ TN), map_length; auto).
    assert (LS' : length sc' = Nat.min (Z.to_nat N') n) by (rewrite (topn_scores _ _ _ _ _ TN'), map_length; auto).
    unfold pad. rewrite LS, LS'. destruct (le_lt_dec (Z.to_nat N) n) as [LE|GT].
    + rewrite Nat.min_l in * by lia. rewrite Nat.sub_diag. cbn [repeat]. rewrite app_nil_r.
      rewrite firstn_app. replace (Z.to_nat N - length sc') with 0 by lia. rewrite firstn_O, app_nil_r. exact ES.
    + rewrite (Nat.min_r (Z.to_nat N) n) in * by lia. rewrite (Nat.min_r (Z.to_nat N') n) in * by lia. rewrite firstn_app, LS'. rewrite (firstn_all2 sc') by lia.
      rewrite ES. rewrite firstn_all2 by lia. f_equal.
      replace (Z.to_nat N' - n) with ((Z.to_nat N - n) + (Z.to_nat N' - Z.to_nat N)) by lia. rewrite repeat_app.
      rewrite firstn_app, repeat_length, Nat.sub_diag, firstn_O, app_nil_r. rewrite firstn_all2 by (rewrite repeat_length; lia). auto.
  - intros excl HE GT NT LA.
    destruct (C03_filtered_never_outrank T HT HO HP fmin m recalc u ui N fl fi excl HC HK HE GT) as (g & b & gs & X & TG & BB & BN).
    destruct (C03_filtered_never_outrank T HT HO HP fmin m recalc u ui N' fl fi excl HC HK' HE GT) as (g' & b' & gs' & X' & TG' & BB' & BN').
    assert (Q : map Z.of_nat (pad (Z.to_nat N) 0 ids) = map Z.of_nat ((g ++ b) ++ repeat 0 (Z.to_nat N - length (item_factors m)))) by congruence.
    assert (Q' : map Z.of_nat (pad (Z.to_nat N') 0 ids') = map Z.of_nat ((g' ++ b') ++ repeat 0 (Z.to_nat N' - length (item_factors m)))) by congruence.
    rewrite Q, Q'. fold (left_items m excl) in *. rewrite (BN LA) in *. rewrite app_nil_r.
    assert (LL : length (left_items m excl) <= n). { unfold left_items. etransitivity; [apply filter_len_le|]. rewrite seq_length. auto. }
    replace (Z.to_nat N - length (item_factors m)) with 0 by (fold n; lia). cbn [repeat]. rewrite app_nil_r.
    rewrite firstn_map. f_equal. rewrite Nat.min_l in TG by auto.
    pose proof (topn_length _ _ _ _ _ TG') as LG'.
    rewrite firstn_app, firstn_app. replace (Z.to_nat N - length (g' ++ b')) with 0 by (rewrite app_length; lia).
    replace (Z.to_nat N - length g') with 0 by lia. rewrite !firstn_O, !app_nil_r.
    eapply topn_ids_unique; [exact NT|exact TG|]. eapply topn_firstn; [exact TG'|]. lia.
Qed.
Print Assumptions C105_partial.

(** Two items of equal score: asking for one returns item 0, asking for two returns item 1
    first. *)
Definition tie_mf : mf Z := {| user_factors := [[1; 0]]%Z; item_factors := [[4; 0]; [4; 1]; [1; 1]]%Z |}.
Theorem C105_refuted : exists (m : mf Z) u N N' ids sc ids' sc',
  call_ok m u N false NotCsr None /\ (N <= N' <= Z.of_nat (length (item_factors m)))%Z /\
  recommend simple_heap fmin32 m no_recalc (Scalar u) NotCsr N false None false None = Ok (OneRow ids sc) /\
  recommend simple_heap fmin32 m no_recalc (Scalar u) NotCsr N' false None false None = Ok (OneRow ids' sc') /\
  ids <> firstn (Z.to_nat N) ids'.
Proof.
  exists tie_mf, 0%Z, 1%Z, 2%Z, [0%Z], [4%Z], [1; 0]%Z, [4; 4]%Z. split; [call_ok_tac 2|]. split; [simpl; lia|].
  split; [vm_compute; reflexivity|]. split; [vm_compute; reflexivity|]. vm_compute. discriminate.
Qed.
Print Assumptions C105_refuted.
(** Item 2 liked: the three others have different scores. *)
Example C105_example :
  recommend simple_heap fmin32 ex_mf no_recalc (Scalar 0) (Csr (csr_take_row ex_likes 0)) 2 true None false None = Ok (OneRow [3; 1]%Z [6; 2]%Z) /\
  recommend simple_heap fmin32 ex_mf no_recalc (Scalar 0) (Csr (csr_take_row ex_likes 0)) 3 true None false None = Ok (OneRow [3; 1; 0]%Z [6; 2; 1]%Z) /\
  antisymmetric Z /\ call_ok ex_mf 0 2 true (Csr (csr_take_row ex_likes 0)) None /\
  no_ties (mf_score ex_mf 0) [0; 1; 3].
Proof.
  split; [vm_compute; reflexivity|]. split; [vm_compute; reflexivity|]. split; [|split].
  - intros a b. simpl. rewrite !Z.ltb_ge. lia.
  - call_ok_tac 2. intros i v [E|[]]. inversion E. lia.
  - intros i j [<-|[<-|[<-|[]]]] [<-|[<-|[<-|[]]]] NE; try (exfalso; apply NE; reflexivity); vm_compute; auto.
Qed.

(* ------------------------------------------------------------------ *)
(** C106: filtering inside the query is asking for enough more results without filters
    and removing the unwanted ones afterwards. *)
Definition keep_rest {T} (excl : nat -> bool) (ids : list Z) (sc : list T) : list (Z * T) :=
  filter (fun p => negb (excl (Z.to_nat (fst p)))) (combine ids sc).

Lemma combine_map_same {A B C} (f : A -> B) (g : A -> C) l : combine (map f l) (map g l) = map (fun x => (f x, g x)) l.
Proof. induction l; simpl; auto. f_equal; auto. Qed.
Lemma combine_app_eq {A B} (a a' : list A) (b b' : list B) : length a = length b -> combine (a ++ a') (b ++ b') = combine a b ++ combine a' b'.
Proof. revert b; induction a; destruct b; simpl; intros E; try discriminate; auto. f_equal. apply IHa. lia. Qed.

Theorem C106_partial :
  forall (T : Type) (HT : Num T) (HO : NumOrd T) (HP : std_heap) (fmin : T) (m : mf T) recalc u ui N c fl fi excl,
  std_heap_ok HP -> antisymmetric T -> call_ok m u N fl ui fi -> excludes m fl ui fi excl ->
  (forall i, In i (left_items m excl) -> nltb fmin (mf_score m u i) = true) ->
  (Z.to_nat N <= length (left_items m excl)) ->
  (Z.to_nat N + length (filter excl (seq 0 (length (item_factors m)))) <= Z.to_nat c) ->
  exists ids sc ids' sc',
    recommend HP fmin m recalc (Scalar u) ui N fl fi false None = Ok (OneRow ids sc) /\
    recommend HP fmin m recalc (Scalar u) NotCsr c false None false None = Ok (OneRow ids' sc') /\
    sc = firstn (Z.to_nat N) (map snd (keep_rest excl ids' sc')) /\
    (no_ties (mf_score m u) (left_items m excl) -> ids = firstn (Z.to_nat N) (map fst (keep_rest excl ids' sc'))).
Proof.
  intros T HT HO HP fmin m recalc u ui N c fl fi excl HC AS HK HE GT LA CC.
  destruct (call_ok_parts _ _ _ _ _ _ HK) as [f [W [Hu [HN0 [HI [Hl [Hf H0]]]]]]].
  destruct (C03_filtered_never_outrank T HT HO HP fmin m recalc u ui N fl fi excl HC HK HE GT) as (g & b & gs & X & TG & BB & BN).
  fold (left_items m excl) in *. rewrite (BN LA) in X. rewrite Nat.min_l in TG by auto.
  destruct (recommend_scalar HP HC fmin m f recalc u NotCsr c false None W Hu ltac:(lia) HI) as [ids' [sc' [E' TN']]].
  { intros D; discriminate D. } { intros a z D; discriminate D. }
  set (n := length (item_factors m)) in *.
  assert (LL : length (left_items m excl) <= n). { unfold left_items. etransitivity; [apply filter_len_le|]. rewrite seq_length. auto. }
  replace (Z.to_nat N - n) with 0 in X by lia. cbn [repeat length] in X. rewrite !app_nil_r in X.
  do 4 eexists. split; [exact X|]. split; [exact E'|].
  assert (TM : TopN (mf_score m u) (seq 0 n) (Nat.min (Z.to_nat c) n) ids' sc').
  { rewrite wrap_nonneg in TN' by auto. eapply TopN_ext; [|exact TN']. intros i Hi. unfold fscore. cbn. reflexivity. }
  assert (TB : TopN (mf_score m u) (left_items m excl) (Z.to_nat N) (firstn (Z.to_nat N) (filter (fun i => negb (excl i)) ids'))
                 (map (mf_score m u) (firstn (Z.to_nat N) (filter (fun i => negb (excl i)) ids')))).
  { eapply (best_topn _ (fun i j => nleb (mf_score m u j) (mf_score m u i) = true)); [auto|].
    destruct TM as [L S ND IN SS BE].
    assert (BB' : Best (fun i j => nleb (mf_score m u j) (mf_score m u i) = true) (seq 0 n) (Nat.min (Z.to_nat c) (length (seq 0 n))) ids').
    { rewrite seq_length. constructor; auto. }
    pose proof (best_filter _ _ _ _ (fun i => negb (excl i)) (Z.to_nat N) (filter excl (seq 0 n)) (seq_NoDup n 0) BB') as Y.
    unfold left_items in LA |- *. fold n in LA |- *. rewrite Nat.min_l in Y by exact LA. apply Y; auto.
    intros i Hi Ke. apply filter_In. split; auto. apply negb_false_iff in Ke. auto. }
  assert (KR : firstn (Z.to_nat N) (keep_rest excl (map Z.of_nat (pad (Z.to_nat c) 0 ids')) (pad (Z.to_nat c) nzero sc'))
     = map (fun i => (Z.of_nat i, mf_score m u i)) (firstn (Z.to_nat N) (filter (fun i => negb (excl i)) ids'))).
  { unfold keep_rest, pad. rewrite map_app. rewrite combine_app_eq by (rewrite map_length, (topn_scores _ _ _ _ _ TM), map_length; auto).
    rewrite filter_app. rewrite (topn_scores _ _ _ _ _ TM) at 1. rewrite combine_map_same, filter_map_swap.
    cbn [fst]. rewrite (filter_ext _ (fun i => negb (excl i))) by (intros i; rewrite Nat2Z.id; auto).
    pose proof (topn_length _ _ _ _ _ TB) as LB. rewrite firstn_length in LB.
    rewrite firstn_app. rewrite map_length. replace (Z.to_nat N - length (filter (fun i => negb (excl i)) ids')) with 0 by lia.
    rewrite firstn_O, app_nil_r. rewrite firstn_map. auto. }
  rewrite !firstn_map, KR, !map_map. cbn [fst snd]. split.
  - eapply topn_scores_unique; [exact AS|exact TG|exact TB].
  - intros NT. f_equal. eapply topn_ids_unique; [exact NT|exact TG|exact TB].
Qed.
Print Assumptions C106_partial.

(** Equal scores again: item 2 filtered, one result wanted. *)
Theorem C106_refuted : exists (m : mf Z) u N c F ids sc ids' sc' excl,
  call_ok m u N false NotCsr (Some (PyList F)) /\ excludes m false NotCsr (Some (PyList F)) excl /\
  (Z.to_nat N <= length (left_items m excl)) /\ (N + Z.of_nat (length F) <= c)%Z /\
  recommend simple_heap fmin32 m no_recalc (Scalar u) NotCsr N false (Some (PyList F)) false None = Ok (OneRow ids sc) /\
  recommend simple_heap fmin32 m no_recalc (Scalar u) NotCsr c false None false None = Ok (OneRow ids' sc') /\
  ids <> firstn (Z.to_nat N) (map fst (keep_rest excl ids' sc')).
Proof.
  exists tie_mf, 0%Z, 1%Z, 2%Z, [2%Z], [0%Z], [4%Z], [1; 0]%Z, [4; 4]%Z, (fun i => i =? 2). split; [|split; [|split; [|split; [|split; [|split]]]]].
  - call_ok_tac 2. intros a z E. inversion E; subst. simpl. intros [<-|[]]. lia.
  - intros i Hi. rewrite Nat.eqb_eq. cbn [tie_mf item_factors length] in *. split.
    + intros ->. right. exists (PyList [2%Z]), 2%Z. split; auto. split; [left; auto|left; auto].
    + intros [[D _]|[a [z [E [Iz Hz]]]]]; [discriminate D|]. inversion E; subst. destruct Iz as [<-|[]]. lia.
  - vm_compute. lia.
  - simpl. lia.
  - vm_compute; reflexivity.
  - vm_compute; reflexivity.
  - vm_compute. discriminate.
Qed.
Print Assumptions C106_refuted.
Example C106_example :
  recommend simple_heap fmin32 ex_mf no_recalc (Scalar 0) (Csr (csr_take_row ex_likes 0)) 2 true None false None = Ok (OneRow [3; 1]%Z [6; 2]%Z) /\
  recommend simple_heap fmin32 ex_mf no_recalc (Scalar 0) NotCsr 3 false None false None = Ok (OneRow [2; 3; 1]%Z [7; 6; 2]%Z) /\
  keep_rest (fun i => i =? 2) [2; 3; 1]%Z [7; 6; 2]%Z = [(3, 6); (1, 2)]%Z /\
  excludes ex_mf true (Csr (csr_take_row ex_likes 0)) None (fun i => i =? 2).
Proof.
  split; [vm_compute; reflexivity|]. split; [vm_compute; reflexivity|]. split; [reflexivity|].
  intros i Hi. rewrite Nat.eqb_eq. split.
  - intros ->. left. split; auto. eexists _, 1%Z. split; [reflexivity|]. vm_compute. auto.
  - intros [[_ [M [v [E J]]]]|[a [z [D _]]]]; [|discriminate D]. inversion E; subst M. destruct J as [J|[]]. inversion J. auto.
Qed.

(* ------------------------------------------------------------------ *)
(** Neighbour lists of item-item models. *)
Local Open Scope R_scope.
Definition col_of (W : csr R) (i : nat) : list R := map (fun u => dense W u i) (seq 0 (c_rows W)).
Lemma cooc_dot W i j : spec_cooc W i j = rdot (col_of W i) (col_of W j).
Proof. rewrite C15_gram. unfold col_of. rewrite rdot_map. auto. Qed.
Lemma cooc_sym W i j : spec_cooc W i j = spec_cooc W j i.
Proof. rewrite !cooc_dot. apply rdot_comm. Qed.
Lemma cooc_le W i j : spec_cooc W j j <= spec_cooc W i i -> spec_cooc W i j <= spec_cooc W i i.
Proof.
  rewrite !cooc_dot. intros L. pose proof (cauchy_schwarz (col_of W i) (col_of W j)) as CS.
  pose proof (rdot_nonneg (col_of W i)) as P. pose proof (rdot_nonneg (col_of W j)) as Q.
  set (a := rdot (col_of W i) (col_of W i)) in *. set (b := rdot (col_of W j) (col_of W j)) in *. set (x := rdot (col_of W i) (col_of W j)) in *.
  destruct (Rle_dec x a) as [Y|Y]; auto. exfalso. assert (a < x) by lra. nra.
Qed.
Lemma shares_self {T} (W : csr T) i j : In j (shares_user W i) -> (i < c_cols W)%nat -> In i (shares_user W i).
Proof.
  unfold shares_user. rewrite !filter_In. intros [A B] L. split; [apply in_seq; lia|]. apply existsb_exists in B. destruct B as [u [Hu B]].
  apply existsb_exists. exists u. split; auto. apply andb_true_iff in B. destruct B as [B _]. rewrite B. auto.
Qed.
Lemma shares_sym {T} (W : csr T) i j : (i < c_cols W)%nat -> In j (shares_user W i) -> In i (shares_user W j).
Proof.
  unfold shares_user. rewrite !filter_In. intros L [A B]. split; [apply in_seq; lia|]. apply existsb_exists in B. destruct B as [u [Hu B]].
  apply existsb_exists. exists u. split; auto. rewrite andb_comm. auto.
Qed.

(** C107: an item heads its own neighbour list.  For any weights: if no item sharing a
    user with [i] has a larger norm, the best stored similarity of [i] is its similarity
    with itself, and if all the others are strictly smaller the list holds [i]. *)
Theorem C107_partial :
  forall (HP : std_heap) (W S : csr R) (K : nat) (i : nat),
  std_heap_ok HP -> csr_wf W -> (0 < K)%nat -> all_pairs_knn HP W K = Ok S ->
  (0 < i < c_cols W)%nat -> shares_user W i <> [] ->
  (forall j, In j (shares_user W i) -> spec_cooc W j j <= spec_cooc W i i) ->
  (exists j, In (j, spec_cooc W i i) (csr_row S i)) /\
  (forall j v, In (j, v) (csr_row S i) -> v <= spec_cooc W i i) /\
  ((forall j, In j (shares_user W i) -> j <> i -> spec_cooc W i j < spec_cooc W i i) -> In (i, spec_cooc W i i) (csr_row S i)).
Proof.
  intros HP W S K i HC WF HK ES Hi NE HN.
  destruct (C15_exact R Num_R NumOrd_R HP W K HC WF HK Rplus_0_r) as [S' [E' [_ [_ [_ RW]]]]].
  rewrite ES in E'. inversion E'; subst S'. destruct (RW i ltac:(lia)) as [ids [sc [TN [extra [EX [_ RI]]]]]].
  assert (XF : extra = false). { destruct extra; auto. specialize (EX eq_refl). lia. } subst extra.
  assert (IN : forall j v, In (j, v) (csr_row S i) <-> In j ids /\ v = spec_cooc W i j).
  { intros j v. rewrite RI. split; [intros [Y|[Y _]]; [auto|discriminate Y]|auto]. }
  assert (SELF : In i (shares_user W i)). { destruct (shares_user W i) as [|j l] eqn:EQ; [congruence|]. rewrite <- EQ. eapply shares_self; [rewrite EQ; left; reflexivity|lia]. }
  assert (LE : forall j, In j ids -> spec_cooc W i j <= spec_cooc W i i).
  { intros j Hj. apply cooc_le, HN. apply (topn_incl _ _ _ _ _ TN); auto. }
  assert (GE : ~ In i ids -> forall j, In j ids -> spec_cooc W i j = spec_cooc W i i).
  { intros NI j Hj. pose proof (topn_best _ _ _ _ _ TN j i Hj SELF NI) as B. apply nleb_R in B. specialize (LE j Hj). lra. }
  assert (L : ids <> []).
  { intros ->. pose proof (topn_length _ _ _ _ _ TN) as X. simpl in X. destruct (shares_user W i); [congruence|simpl in X; lia]. }
  split; [|split].
  - destruct (in_dec Nat.eq_dec i ids) as [Y|Y].
    + exists i. apply IN. auto.
    + destruct ids as [|j ids']; [congruence|]. exists j. apply IN. split; [left; auto|]. symmetry. apply GE; auto. left; auto.
  - intros j v Hj. apply IN in Hj. destruct Hj as [Hj ->]. auto.
  - intros ST. apply IN. split; auto. destruct (in_dec Nat.eq_dec i ids) as [Y|Y]; auto. exfalso.
    destruct ids as [|j ids']; [congruence|]. pose proof (GE Y j (or_introl eq_refl)) as Q.
    assert (j <> i) by (intros ->; apply Y; left; auto).
    pose proof (ST j (topn_incl _ _ _ _ _ TN j (or_introl eq_refl)) H). lra.
Qed.
Print Assumptions C107_partial.

(** Raw counts: the popular item 1 is nearer to item 0 than item 0 itself. *)
Theorem C107_refuted : exists (W S : csr Z) (i : nat) ids sc,
  csr_wf W /\ all_pairs_knn simple_heap W 2 = Ok S /\ (i < c_cols W)%nat /\ (spec_cooc W i i > 0)%Z /\
  ii_similar (-1000)%Z (-999)%Z (fun l => map snd (sort_by (fun p q => Z.ltb (fst q) (fst p)) (combine l (seq 0 (length l))))) S (Scalar (Z.of_nat i)) 1 false None None = Ok (OneRow ids sc) /\
  ~ In (Z.of_nat i) ids.
Proof.
  exists (csr_of_rows 3 [[(1%nat, 1%Z); (2%nat, 3%Z)]; [(2%nat, 2%Z)]]). eexists. exists 1%nat. eexists. eexists.
  split; [|split; [vm_compute; reflexivity|split; [simpl; lia|split; [vm_compute; reflexivity|split; [vm_compute; reflexivity|]]]]].
  - apply csr_of_rows_wf. intros r p Hr Hp. simpl in Hr. destruct Hr as [<-|[<-|[]]]; simpl in Hp; repeat (destruct Hp as [<-|Hp]; [simpl; lia|]); tauto.
  - simpl. intros [D|[]]. discriminate D.
Qed.
Print Assumptions C107_refuted.

(** Cosine models: every norm is 1, so the head of the list has similarity 1. *)
Theorem C107_cosine :
  forall (HP : std_heap) (counts : csr R) (K : nat) (i : nat),
  std_heap_ok HP -> csr_wf counts -> (0 < K)%nat ->
  (forall u, (u < c_rows counts)%nat -> NoDup (csr_row_indices counts u)) ->
  (forall u i v, (u < c_rows counts)%nat -> In (i, v) (csr_row counts u) ->
     exists u' v', (u' < c_rows counts)%nat /\ In (i, v') (csr_row counts u') /\ v' <> 0) ->
  (0 < i < c_cols counts)%nat -> shares_user counts i <> [] ->
  exists S, cosine_fit HP K counts = Some (Ok S) /\
    (exists j, In (j, 1) (csr_row S i)) /\ (forall j v, In (j, v) (csr_row S i) -> v <= 1) /\
    ((forall j, In j (shares_user counts i) -> j <> i -> spec_cosine counts i j <> 1) -> In (i, 1) (csr_row S i)).
Proof.
  intros HP counts K i HC WF HK ND NZ Hi NE.
  destruct (C24_cosine HP counts K HC WF HK ND NZ) as [S [ES [_ [ROW [RNG [_ ONE]]]]]].
  exists S. split; auto. destruct (ROW i ltac:(lia)) as [ids [sc [TN [extra [EX [_ RI]]]]]].
  assert (XF : extra = false). { destruct extra; auto. specialize (EX eq_refl). lia. } subst extra.
  assert (IN : forall j v, In (j, v) (csr_row S i) <-> In j ids /\ v = spec_cosine counts i j).
  { intros j v. rewrite RI. split; [intros [Y|[Y _]]; [auto|discriminate Y]|auto]. }
  assert (SELF : In i (shares_user counts i)). { destruct (shares_user counts i) as [|j l] eqn:EQ; [congruence|]. rewrite <- EQ. eapply shares_self; [rewrite EQ; left; reflexivity|lia]. }
  assert (S1 : spec_cosine counts i i = 1).
  { destruct (shares_pos counts NZ i i SELF) as [P _]. unfold spec_cosine. rewrite <- (norm2_column counts ND i). rewrite sqrt_sqrt by lra. field. lra. }
  assert (LE : forall j v, In (j, v) (csr_row S i) -> v <= 1). { intros j v Hj. apply (RNG i j v) in Hj; [lra|lia]. }
  assert (GE : ~ In i ids -> forall j, In j ids -> spec_cosine counts i j = 1).
  { intros NI j Hj. pose proof (topn_best _ _ _ _ _ TN j i Hj SELF NI) as B. apply nleb_R in B. rewrite S1 in B.
    specialize (LE j _ (proj2 (IN j _) (conj Hj eq_refl))). lra. }
  assert (L : ids <> []).
  { intros ->. pose proof (topn_length _ _ _ _ _ TN) as X. simpl in X. destruct (shares_user counts i); [congruence|simpl in X; lia]. }
  split; [|split; [exact LE|]].
  - destruct (in_dec Nat.eq_dec i ids) as [Y|Y].
    + exists i. apply IN. rewrite S1. auto.
    + destruct ids as [|j ids']; [congruence|]. exists j. apply IN. split; [left; auto|]. symmetry. apply GE; auto. left; auto.
  - intros ST. apply IN. split; auto. destruct (in_dec Nat.eq_dec i ids) as [Y|Y]; auto. exfalso.
    destruct ids as [|j ids']; [congruence|]. pose proof (GE Y j (or_introl eq_refl)) as Q.
    assert (j <> i) by (intros ->; apply Y; left; auto).
    apply (ST j); auto. apply (topn_incl _ _ _ _ _ TN); left; auto.
Qed.
Print Assumptions C107_cosine.
(** The hypotheses of [C107_cosine] hold of the counts of [C24_example] for item 1. *)
Example C107_example : (0 < 1 < c_cols ex_counts)%nat /\ shares_user ex_counts 1 <> [] /\ spec_cosine ex_counts 1 0 <> 1.
Proof.
  split; [simpl; lia|]. split; [unfold shares_user, csr_row_indices, ex_counts; simpl; discriminate|].
  destruct C24_example as (_ & _ & _ & E & _). unfold spec_cosine in *. rewrite rdot_comm, Rmult_comm. rewrite E. lra.
Qed.

(** C108: neighbourhood is mutual.  Stored similarities agree; when no list was cut (at
    most K items share a user with any item) [j] is listed for [i] exactly when [i] is
    listed for [j]. *)
Theorem C108_partial :
  forall (HP : std_heap) (W S : csr R) (K : nat),
  std_heap_ok HP -> csr_wf W -> (0 < K)%nat -> all_pairs_knn HP W K = Ok S ->
  (forall i j v w, (i < c_cols W)%nat -> (j < c_cols W)%nat -> i <> j -> In (j, v) (csr_row S i) -> In (i, w) (csr_row S j) -> v = w) /\
  ((forall i, (i < c_cols W)%nat -> (length (shares_user W i) <= K)%nat) ->
   forall i j v, (i < c_cols W)%nat -> (j < c_cols W)%nat -> i <> j -> In (j, v) (csr_row S i) -> In (i, v) (csr_row S j)).
Proof.
  intros HP W S K HC WF HK ES.
  destruct (C15_exact R Num_R NumOrd_R HP W K HC WF HK Rplus_0_r) as [S' [E' [_ [_ [_ RW]]]]].
  rewrite ES in E'. inversion E'; subst S'.
  assert (ENT : forall i j v, (i < c_cols W)%nat -> i <> j -> In (j, v) (csr_row S i) -> In j (shares_user W i) /\ v = spec_cooc W i j).
  { intros i j v Hi NE Hj. destruct (RW i Hi) as [ids [sc [TN [extra [EX [_ RI]]]]]]. apply RI in Hj.
    destruct Hj as [[Hj ->]|[X [-> _]]]; [|specialize (EX X); congruence]. split; auto. apply (topn_incl _ _ _ _ _ TN); auto. }
  split.
  - intros i j v w Hi Hj NE A B. apply ENT in A; auto. apply ENT in B; auto. destruct A as [_ ->], B as [_ ->]. apply cooc_sym.
  - intros SMALL i j v Hi Hj NE A. apply ENT in A; auto. destruct A as [A ->]. apply shares_sym in A; auto.
    destruct (RW j Hj) as [ids [sc [TN [extra [EX [_ RI]]]]]]. apply RI. left. split; [|apply cooc_sym].
    assert (INC : incl (shares_user W j) ids).
    { apply NoDup_length_incl; [apply (topn_nodup _ _ _ _ _ TN)| |apply (topn_incl _ _ _ _ _ TN)].
      rewrite (topn_length _ _ _ _ _ TN). specialize (SMALL j Hj). lia. }
    auto.
Qed.
Print Assumptions C108_partial.
(** K = 1, item 2 nearest to item 1 but item 1 not among the neighbours of item 2. *)
Theorem C108_refuted : exists (W S : csr Z) (i j : nat) v,
  csr_wf W /\ all_pairs_knn simple_heap W 1 = Ok S /\ (i < c_cols W)%nat /\ (j < c_cols W)%nat /\
  In (j, v) (csr_row S i) /\ forall w, ~ In (i, w) (csr_row S j).
Proof.
  exists (csr_of_rows 3 [[(1%nat, 1%Z); (2%nat, 3%Z)]; [(2%nat, 2%Z)]]). eexists. exists 1%nat, 2%nat, 3%Z.
  split; [|split; [vm_compute; reflexivity|split; [simpl; lia|split; [simpl; lia|split]]]].
  - apply csr_of_rows_wf. intros r p Hr Hp. simpl in Hr. destruct Hr as [<-|[<-|[]]]; simpl in Hp; repeat (destruct Hp as [<-|Hp]; [simpl; lia|]); tauto.
  - vm_compute. auto.
  - intros w. vm_compute. intros [D|[]]. inversion D.
Qed.
Print Assumptions C108_refuted.
(** Nothing is cut for K = 2 in the counts of [C24_example]. *)
Example C108_example : csr_wf ex_counts /\ forall i, (i < c_cols ex_counts)%nat -> (length (shares_user ex_counts i) <= 2)%nat.
Proof.
  split; [apply C24_example|]. intros i Hi. unfold shares_user. etransitivity; [apply filter_len_le|]. rewrite seq_length. simpl. lia.
Qed.
