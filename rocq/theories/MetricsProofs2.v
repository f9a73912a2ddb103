(** Specifications of the ranking metrics and their relation to the loop. *)
From Coq Require Import List Arith Lia Bool ZArith Reals Lra Psatz Permutation.
From Verif Require Import Base Num Heap Sparse TopkModel TopkBatch RecommendModel RVec KnnProofs
  MetricsModel MetricsProofs.
Import ListNotations.
Local Open Scope R_scope.

(** Textbook definitions.  [likes]: the test items of a user; [ids]: the ranking. *)
Definition b2r (b : bool) : R := if b then 1 else 0.
Definition relevant_at (likes : list nat) (ids : list Z) (i : nat) : bool :=
  existsb (fun j => Z.of_nat j =? nth i ids (-1))%Z likes.
Definition spec_hits (K : nat) (likes : list nat) (ids : list Z) : R :=
  rsum (map (fun i => b2r (relevant_at likes ids i)) (seq 0 K)).
(** Precision among the first n entries. *)
Definition spec_prec (n : nat) (likes : list nat) (ids : list Z) : R := spec_hits n likes ids / INR n.
Definition spec_ap (K : nat) (likes : list nat) (ids : list Z) : R :=
  rsum (map (fun i => b2r (relevant_at likes ids i) * spec_prec (S i) likes ids) (seq 0 K))
  / INR (Nat.min K (length likes)).
Definition discount (i : nat) : R := 1 / (ln (INR i + 2) / ln 2).
Definition spec_ndcg (K : nat) (likes : list nat) (ids : list Z) : R :=
  rsum (map (fun i => b2r (relevant_at likes ids i) * discount i) (seq 0 K))
  / rsum (map discount (seq 0 (Nat.min K (length likes)))).
(** Position of an item in a ranking, and the value of a (relevant, irrelevant)
    pair: 1 if ordered correctly by the ranking, 0 if wrongly, 1/2 if neither is in it. *)
Fixpoint position (z : Z) (l : list Z) : option nat :=
  match l with [] => None | x :: l => if (x =? z)%Z then Some 0%nat else option_map S (position z l) end.
Definition pair_value (ids : list Z) (p n : nat) : R :=
  match position (Z.of_nat p) ids, position (Z.of_nat n) ids with
  | Some a, Some b => if (a <? b)%nat then 1 else 0
  | Some _, None => 1
  | None, Some _ => 0
  | None, None => 1 / 2
  end.
Definition negatives (items : nat) (likes : list nat) : list nat :=
  filter (fun n => negb (memn n likes)) (seq 0 items).
Definition spec_auc (items : nat) (likes : list nat) (ids : list Z) : R :=
  rsum (map (fun p => rsum (map (pair_value ids p) (negatives items likes))) likes)
  / (INR (length likes) * INR (length (negatives items likes))).

(* ---------------------------------------------------------------- *)
Lemma relevant_at_isrel likes ids i : (i < length ids)%nat -> relevant_at likes ids i = isrel likes (nth i ids (-1)%Z).
Proof.
  intros _. unfold relevant_at, isrel, memz. set (z := nth i ids (-1)%Z). clearbody z.
  induction likes as [|j l IH]; auto. cbn [existsb map]. rewrite IH. f_equal. rewrite Z.eqb_sym. auto.
Qed.

Lemma seq_shift_map {A} (f : nat -> A) s n : map f (seq (S s) n) = map (fun i => f (S i)) (seq s n).
Proof. rewrite <- seq_shift, map_map. auto. Qed.

Lemma sum_enum (f : nat -> Z -> R) l k :
  rsum (map (fun p => f (fst p) (snd p)) (enum_from k l)) = rsum (map (fun i => f (k + i)%nat (nth i l (-1)%Z)) (seq 0 (length l))).
Proof.
  revert k. induction l as [|z l IH]; intros k; auto. cbn [enum_from map length seq rsum fst snd nth].
  rewrite seq_shift_map. cbn [nth]. rewrite Nat.add_0_r. f_equal. rewrite IH. apply rsum_map_ext. intros i _. f_equal. lia.
Qed.

Lemma hits_spec likes ids K : (K <= length ids)%nat -> spec_hits K likes ids = INR (nhits likes (firstn K ids)).
Proof.
  intros L. unfold spec_hits.
  rewrite (rsum_map_ext _ (fun i => b2r (isrel likes (nth i (firstn K ids) (-1)%Z)))).
  2:{ intros i Hi. apply in_seq in Hi. rewrite relevant_at_isrel by lia. f_equal. f_equal.
      rewrite <- (firstn_skipn K ids) at 1. rewrite app_nth1; auto. rewrite firstn_length. lia. }
  assert (E : K = length (firstn K ids)) by (rewrite firstn_length; lia). rewrite E at 1. generalize (firstn K ids). clear.
  intros l. induction l as [|z l IH]; auto. unfold nhits in *. cbn [length seq map rsum filter nth].
  rewrite seq_shift_map. cbn [nth]. rewrite IH. destruct (isrel likes z); unfold b2r; cbn [length]; rewrite ?S_INR; lra.
Qed.

Lemma firstn_firstn_nth {A} (l : list A) K i d : (i < K)%nat -> nth i (firstn K l) d = nth i l d.
Proof. revert l i; induction K; destruct l, i; simpl; intros; auto; try lia. apply IHK; lia. Qed.

Lemma firstn_S_nth {A} (l : list A) i d : (i < length l)%nat -> firstn (S i) l = firstn i l ++ [nth i l d].
Proof. revert i; induction l; destruct i; simpl; intros; auto; try lia. f_equal. apply IHl. lia. Qed.

Lemma ap_rec_sum likes l : forall k h,
  ap_rec likes k h l = rsum (map (fun i => b2r (isrel likes (nth i l (-1)%Z)) *
      (INR (h + nhits likes (firstn (S i) l)) / (INR (k + i) + 1))) (seq 0 (length l))).
Proof.
  induction l as [|z l IH]; intros k h; auto. cbn [ap_rec length seq map rsum nth].
  rewrite seq_shift_map. rewrite Nat.add_0_r.
  destruct (isrel likes z) eqn:E.
  - rewrite IH. unfold b2r at 2. unfold nhits at 2. cbn [firstn filter]. rewrite E. cbn [length].
    f_equal; [rewrite Rmult_1_l; f_equal; f_equal; lia|]. apply rsum_map_ext. intros i _. cbn [nth].
    change (firstn (S (S i)) (z :: l)) with (z :: firstn (S i) l). unfold nhits. cbn [filter]. rewrite E. cbn [length].
    f_equal. f_equal; [f_equal; lia|]. f_equal. f_equal. lia.
  - rewrite IH. unfold b2r at 2. rewrite Rmult_0_l, Rplus_0_l. apply rsum_map_ext. intros i _. cbn [nth].
    change (firstn (S (S i)) (z :: l)) with (z :: firstn (S i) l). unfold nhits. cbn [filter]. rewrite E.
    f_equal. f_equal. f_equal. f_equal. lia.
Qed.

Lemma ap_spec K likes ids : (K <= length ids)%nat -> spec_ap K likes ids = u_ap K likes ids.
Proof.
  intros L. unfold spec_ap, u_ap. f_equal. rewrite ap_rec_sum. rewrite firstn_length, Nat.min_l by auto.
  apply rsum_map_ext. intros i Hi. apply in_seq in Hi. rewrite relevant_at_isrel by lia.
  rewrite firstn_firstn_nth by lia. f_equal. unfold spec_prec. rewrite hits_spec by lia.
  rewrite firstn_firstn, Nat.min_l by lia. rewrite !Nat.add_0_l. rewrite <- S_INR. auto.
Qed.

Lemma dcg_rec_sum likes l k : dcg_rec likes k l = rsum (map (fun i => b2r (isrel likes (nth i l (-1)%Z)) * cg (k + i)) (seq 0 (length l))).
Proof.
  revert k. induction l as [|z l IH]; intros k; auto. cbn [dcg_rec length seq map rsum nth]. rewrite seq_shift_map, Nat.add_0_r.
  f_equal; [destruct (isrel likes z); unfold b2r; lra|]. rewrite IH. apply rsum_map_ext. intros i _. cbn [nth]. do 2 f_equal. lia.
Qed.

Lemma ndcg_spec K likes ids : (K <= length ids)%nat -> (0 < Nat.min K (length likes))%nat ->
  spec_ndcg K likes ids = u_ndcg K likes ids.
Proof.
  intros L P. unfold spec_ndcg, u_ndcg, cg_sum. f_equal.
  - rewrite dcg_rec_sum, firstn_length, Nat.min_l by auto. apply rsum_map_ext. intros i Hi. apply in_seq in Hi.
    rewrite relevant_at_isrel by lia. rewrite firstn_firstn_nth by lia. reflexivity.
  - replace (S (Nat.min K (length likes) - 1)) with (Nat.min K (length likes)) by lia. reflexivity.
Qed.

(* ---------------------------------------------------------------- *)
(** AUC. *)
Lemma position_in z l : position z l = None <-> ~ In z l.
Proof.
  induction l as [|x l IH]; simpl; [tauto|]. destruct (Z.eqb_spec x z) as [->|NE].
  - split; [discriminate|tauto].
  - destruct (position z l) as [n|]; simpl.
    + split; [discriminate|]. intros N. exfalso. destruct IH as [_ IH]. assert (~ In z l) by tauto. specialize (IH H). discriminate.
    + split; auto. intros _ [X|X]; [congruence|]. destruct IH as [IH _]. apply (IH eq_refl X).
Qed.
Lemma position_app_l z l l' : In z l -> position z (l ++ l') = position z l.
Proof.
  induction l as [|x l IH]; simpl; [tauto|]. intros H. destruct (Z.eqb_spec x z); auto.
  destruct H as [->|H]; [congruence|]. rewrite IH; auto.
Qed.
Lemma position_app_r z l l' : ~ In z l -> position z (l ++ l') = option_map (fun i => (length l + i)%nat) (position z l').
Proof.
  induction l as [|x l IH]; simpl; intros H; [destruct (position z l'); auto|].
  destruct (Z.eqb_spec x z); [exfalso; auto|]. rewrite IH by auto. destruct (position z l'); auto.
Qed.
Lemma position_lt z l i : position z l = Some i -> (i < length l)%nat.
Proof.
  revert i; induction l as [|x l IH]; simpl; [discriminate|]. destruct (x =? z)%Z; intros i E.
  - inversion E. lia.
  - destruct (position z l); [|discriminate]. inversion E. specialize (IH n eq_refl). lia.
Qed.

Lemma isrel_in likes z : isrel likes z = true <-> exists p, In p likes /\ z = Z.of_nat p.
Proof.
  unfold isrel. rewrite memz_spec, in_map_iff. split; intros [p [A B]]; exists p; auto.
Qed.

(** The relevant items of a duplicate-free list, counted either way. *)
Lemma count_likes likes l : NoDup likes -> NoDup l ->
  rsum (map (fun p => b2r (memz (Z.of_nat p) l)) likes) = INR (nhits likes l).
Proof.
  intros NL ND. assert (E : nhits likes l = length (filter (fun p => memz (Z.of_nat p) l) likes)).
  { unfold nhits. rewrite <- (map_length Z.of_nat (filter _ likes)). apply Permutation_length. apply NoDup_Permutation.
    - apply NoDup_filter; auto.
    - apply FinFun.Injective_map_NoDup; [intros x y; lia|]. apply NoDup_filter; auto.
    - intros z. rewrite filter_In, in_map_iff, isrel_in. split.
      + intros [H [p [Hp ->]]]. exists p. split; auto. apply filter_In. split; auto. apply memz_spec; auto.
      + intros [p [<- Hp]]. apply filter_In in Hp. destruct Hp as [Hp B]. apply memz_spec in B. split; auto. exists p; auto. }
  rewrite E. clear. induction likes as [|p likes IH]; auto. cbn [map rsum filter]. rewrite IH.
  destruct (memz (Z.of_nat p) l); unfold b2r; cbn [length]; rewrite ?S_INR; lra.
Qed.

(** Value of all pairs with a given irrelevant item. *)
Definition neg_value (likes : list nat) (ids : list Z) (n : nat) : R := rsum (map (fun p => pair_value ids p n) likes).

Lemma neg_value_out likes l n : NoDup likes -> NoDup l -> ~ In (Z.of_nat n) l ->
  neg_value likes l n = (INR (nhits likes l) + INR (length likes)) / 2.
Proof.
  intros NL ND NI. unfold neg_value. rewrite <- count_likes by auto.
  rewrite (rsum_map_ext _ (fun p => 1/2 * b2r (memz (Z.of_nat p) l) + 1/2)).
  - rewrite rsum_map_add, rsum_map_scale, rsum_map_const. lra.
  - intros p _. unfold pair_value. rewrite (proj2 (position_in _ l) NI).
    destruct (position (Z.of_nat p) l) eqn:E.
    + assert (memz (Z.of_nat p) l = true) as ->; [|unfold b2r; lra]. apply memz_spec.
      destruct (in_dec Z.eq_dec (Z.of_nat p) l) as [|NO]; auto. apply position_in in NO. congruence.
    + assert (memz (Z.of_nat p) l = false) as ->; [|unfold b2r; lra]. apply memz_false, position_in; auto.
Qed.

Lemma neg_value_in likes pre suf n : NoDup likes -> NoDup (pre ++ Z.of_nat n :: suf) -> ~ In n likes ->
  neg_value likes (pre ++ Z.of_nat n :: suf) n = INR (nhits likes pre).
Proof.
  intros NL ND NR. assert (NDP : NoDup pre).
  { clear -ND. induction pre; [constructor|]. simpl in ND. inversion ND as [|? ? A B]; subst. constructor; auto.
    intros X. apply A. apply in_or_app; auto. }
  assert (NP : ~ In (Z.of_nat n) pre).
  { intros X. apply (NoDup_remove_2 _ _ _ ND). apply in_or_app; auto. }
  rewrite <- count_likes by auto. unfold neg_value. apply rsum_map_ext. intros p Hp. unfold pair_value.
  rewrite (position_app_r (Z.of_nat n)) by auto. cbn [position]. rewrite Z.eqb_refl. cbn [option_map]. rewrite Nat.add_0_r.
  destruct (memz (Z.of_nat p) pre) eqn:M.
  - apply memz_spec in M. rewrite position_app_l by auto. destruct (position (Z.of_nat p) pre) eqn:E.
    + apply position_lt in E. apply Nat.ltb_lt in E. rewrite E. auto.
    + apply position_in in E. tauto.
  - apply memz_false in M. rewrite position_app_r by auto. cbn [position].
    destruct (Z.eqb_spec (Z.of_nat n) (Z.of_nat p)) as [X|X]; [apply Nat2Z.inj in X; subst; tauto|].
    destruct (position (Z.of_nat p) suf); cbn [option_map]; auto.
    destruct (Nat.ltb_spec (length pre + S n0) (length pre)); auto. lia.
Qed.

(** Sum over the irrelevant members of the list. *)
Lemma auc_rec_sum likes l : NoDup likes -> forall pre, NoDup (pre ++ l) -> (forall z, In z (pre ++ l) -> (0 <= z)%Z) ->
  INR (auc_rec likes (nhits likes pre) l) =
  rsum (map (fun z => neg_value likes (pre ++ l) (Z.to_nat z)) (filter (fun z => negb (isrel likes z)) l)).
Proof.
  intros NL. induction l as [|z l IH]; intros pre ND NN; auto. cbn [auc_rec filter].
  assert (E : pre ++ z :: l = (pre ++ [z]) ++ l) by (rewrite <- app_assoc; auto).
  destruct (isrel likes z) eqn:R; cbn [negb].
  - rewrite E. rewrite <- IH; rewrite <- ?E; auto. f_equal. f_equal. rewrite nhits_app. unfold nhits at 3. simpl. rewrite R. simpl. lia.
  - cbn [map rsum]. rewrite plus_INR. f_equal.
    + assert (0 <= z)%Z by (apply NN; apply in_or_app; right; left; auto).
      rewrite <- (Z2Nat.id z) at 1 by auto. rewrite neg_value_in; auto; rewrite ?Z2Nat.id; auto.
      intros X. assert (isrel likes z = true); [|congruence]. apply isrel_in. exists (Z.to_nat z). rewrite Z2Nat.id; auto.
    + rewrite E. rewrite <- IH; rewrite <- ?E; auto. f_equal. f_equal. rewrite nhits_app. unfold nhits at 3. simpl. rewrite R. simpl. lia.
Qed.

(** Rankings of distinct existing items. *)
Definition valid_ranking (items : nat) (l : list Z) : Prop :=
  NoDup l /\ forall z, In z l -> (0 <= z < Z.of_nat items)%Z.

Lemma negatives_length items likes : NoDup likes -> (forall i, In i likes -> (i < items)%nat) ->
  (length likes + length (negatives items likes) = items)%nat.
Proof.
  intros NL B. assert (P : Permutation (seq 0 items) (likes ++ negatives items likes)).
  { apply NoDup_Permutation.
    - apply seq_NoDup.
    - apply NoDup_app_intro; auto.
      + apply NoDup_filter, seq_NoDup.
      + intros x H1 H2. apply filter_In in H2. destruct H2 as [_ H2]. apply negb_true_iff, memn_false in H2. tauto.
    - intros x. rewrite in_app_iff. unfold negatives. rewrite filter_In, in_seq. destruct (memn x likes) eqn:M.
      + apply memn_spec in M. split; auto. intros _. specialize (B x M). lia.
      + apply memn_false in M. simpl. split; [intros; right; split; [lia|auto]|intros [X|X]; [specialize (B x X); lia|lia]]. }
  apply Permutation_length in P. rewrite seq_length, app_length in P. lia.
Qed.

Lemma pairs_total items likes l : NoDup likes -> (forall i, In i likes -> (i < items)%nat) -> valid_ranking items l ->
  rsum (map (fun p => rsum (map (pair_value l p) (negatives items likes))) likes) =
  INR (auc_rec likes 0 l) + (INR (nhits likes l) + INR (length likes)) / 2 *
     (INR items - INR (length likes) - INR (nmiss likes l)).
Proof.
  intros NL BL [ND V]. rewrite rsum_swap. change (fun b => rsum (map (fun a => pair_value l a b) likes)) with (neg_value likes l).
  set (inl := filter (fun n => memz (Z.of_nat n) l) (negatives items likes)).
  set (outl := filter (fun n => negb (memz (Z.of_nat n) l)) (negatives items likes)).
  assert (SPLIT : rsum (map (neg_value likes l) (negatives items likes)) =
     rsum (map (neg_value likes l) inl) + rsum (map (neg_value likes l) outl)).
  { unfold inl, outl. clear. induction (negatives items likes) as [|n ns IH]; simpl; [lra|].
    destruct (memz (Z.of_nat n) l); simpl; rewrite IH; lra. }
  assert (PM : Permutation (map Z.of_nat inl) (filter (fun z => negb (isrel likes z)) l)).
  { apply NoDup_Permutation.
    - apply FinFun.Injective_map_NoDup; [intros x y; lia|]. apply NoDup_filter, NoDup_filter, seq_NoDup.
    - apply NoDup_filter; auto.
    - intros z. rewrite in_map_iff, filter_In. split.
      + intros [n [<- H]]. apply filter_In in H. destruct H as [H B]. apply memz_spec in B. split; auto.
        apply filter_In in H. destruct H as [_ H]. apply negb_true_iff, memn_false in H. apply negb_true_iff.
        destruct (isrel likes (Z.of_nat n)) eqn:R; auto. apply isrel_in in R. destruct R as [p [Hp E]]. apply Nat2Z.inj in E. subst. tauto.
      + intros [H R]. destruct (V z H). exists (Z.to_nat z). split; [apply Z2Nat.id; auto|]. apply filter_In. split.
        * apply filter_In. split; [apply in_seq; lia|]. apply negb_true_iff, memn_false. intros X.
          apply negb_true_iff in R. assert (isrel likes z = true); [|congruence]. apply isrel_in. exists (Z.to_nat z). rewrite Z2Nat.id; auto.
        * apply memz_spec. rewrite Z2Nat.id; auto. }
  assert (LI : length inl = nmiss likes l) by (rewrite <- (map_length Z.of_nat inl), (Permutation_length PM); auto).
  assert (LO : (length inl + length outl = length (negatives items likes))%nat).
  { unfold inl, outl. clear. induction (negatives items likes); simpl; auto. destruct (memz _ l); simpl; lia. }
  pose proof (negatives_length items likes NL BL) as LN.
  rewrite SPLIT. f_equal.
  - change 0%nat with (nhits likes []). rewrite (auc_rec_sum likes l NL []) by (auto; intros z Hz; apply V; auto). simpl app.
    symmetry. etransitivity; [apply rsum_perm, Permutation_map, Permutation_sym, PM|].
    rewrite map_map. apply rsum_map_ext. intros n _. rewrite Nat2Z.id. auto.
  - rewrite (rsum_map_ext _ (fun _ => (INR (nhits likes l) + INR (length likes)) / 2)).
    + rewrite rsum_map_const. rewrite Rmult_comm. f_equal.
      assert (E : INR items = INR (length likes) + (INR (nmiss likes l) + INR (length outl))).
      { rewrite <- !plus_INR. f_equal. lia. } lra.
    + intros n Hn. apply filter_In in Hn. destruct Hn as [_ B]. apply neg_value_out; auto.
      apply negb_true_iff, memz_false in B. auto.
Qed.

Lemma auc_spec items likes K ids : NoDup likes -> (forall i, In i likes -> (i < items)%nat) ->
  valid_ranking items (firstn K ids) -> u_auc K items likes ids = spec_auc items likes (firstn K ids).
Proof.
  intros NL BL V. unfold u_auc, spec_auc. rewrite pairs_total by auto. f_equal. f_equal.
  pose proof (negatives_length items likes NL BL) as LN. rewrite <- LN at 1. rewrite plus_INR. lra.
Qed.

(** A complete ranking and the one with its tail reversed. *)
Lemma auc_rec_app likes h l l' : auc_rec likes h (l ++ l') = (auc_rec likes h l + auc_rec likes (h + nhits likes l) l')%nat.
Proof.
  revert h. induction l as [|z l IH]; intros h; simpl; [rewrite Nat.add_0_r; auto|]. unfold nhits in *. simpl.
  destruct (isrel likes z); simpl; rewrite IH; [do 2 f_equal; lia|lia].
Qed.
Lemma auc_rec_shift likes h l : auc_rec likes h l = (h * nmiss likes l + auc_rec likes 0 l)%nat.
Proof.
  revert h. induction l as [|z l IH]; intros h; simpl; [unfold nmiss; simpl; lia|]. unfold nmiss in *. simpl.
  destruct (isrel likes z); simpl.
  - rewrite (IH (S h)), (IH 1%nat). lia.
  - rewrite (IH h). lia.
Qed.
Lemma auc_rec_rev likes l : (auc_rec likes 0 l + auc_rec likes 0 (rev l) = nhits likes l * nmiss likes l)%nat.
Proof.
  induction l as [|z l IH]; auto. simpl rev. rewrite auc_rec_app.
  assert (NH : nhits likes (rev l) = nhits likes l).
  { unfold nhits. apply Permutation_length. clear. induction l; auto. simpl. rewrite filter_app. simpl.
    destruct (isrel likes a); simpl; rewrite ?app_nil_r; auto. rewrite Permutation_app_comm. simpl. auto. }
  unfold nhits at 2, nmiss. simpl. destruct (isrel likes z) eqn:R; simpl; rewrite ?R; simpl; rewrite ?R.
  - rewrite auc_rec_shift. fold (nhits likes l) (nmiss likes l). lia.
  - fold (nhits likes l) (nmiss likes l). lia.
Qed.
