(** Better rankings never score lower: property C127 of properties.jsonl. *)
From Coq Require Import List Arith Lia Bool ZArith Reals Lra Psatz.
From Verif Require Import Base Num Sparse RecommendModel RVec MetricsModel MetricsProofs MetricsProofs2 PropMetrics.
Import ListNotations.
Local Open Scope R_scope.

(** How many of the first [j] entries of a list are among [likes]. *)
Fixpoint hits_upto (likes : list nat) (l : list Z) (j : nat) : nat :=
  match j, l with
  | S j, z :: l => ((if existsb (fun i => Z.eqb z (Z.of_nat i)) likes then 1 else 0) + hits_upto likes l j)%nat
  | _, _ => 0%nat
  end.
(** [l'] is at least as good as [l]: up to every depth it has at least as many relevant items. *)
Definition at_least_as_good (K : nat) (likes : list nat) (l l' : list Z) : Prop :=
  forall j, (j <= K)%nat -> (hits_upto likes l j <= hits_upto likes l' j)%nat.

Lemma existsb_isrel likes z : existsb (fun i => Z.eqb z (Z.of_nat i)) likes = isrel likes z.
Proof. unfold isrel, memz. induction likes as [|i likes IH]; simpl; auto. rewrite IH. auto. Qed.
Lemma hits_upto_nhits likes : forall j l, hits_upto likes l j = nhits likes (firstn j l).
Proof.
  induction j as [|j IH]; intros [|z l]; simpl; auto. rewrite existsb_isrel, IH. unfold nhits. cbn [filter]. destruct (isrel likes z); simpl; lia.
Qed.

Lemma firstn_snoc (l : list Z) n : (n < length l)%nat -> firstn (S n) l = firstn n l ++ [nth n l 0%Z].
Proof. revert n. induction l as [|a l IH]; intros n B; simpl in B; [lia|]. destruct n; simpl; auto. rewrite <- IH by lia. auto. Qed.
Lemma auc_rec_snoc likes l z : forall h, auc_rec likes h (l ++ [z]) = (auc_rec likes h l + if isrel likes z then 0 else h + nhits likes l)%nat.
Proof.
  induction l as [|a l IH]; intros h; cbn [app auc_rec].
  - destruct (isrel likes z); unfold nhits; simpl; lia.
  - unfold nhits. cbn [filter]. destruct (isrel likes a); rewrite IH; destruct (isrel likes z); unfold nhits; simpl; lia.
Qed.
Lemma nhits_snoc likes l z : nhits likes (l ++ [z]) = (nhits likes l + if isrel likes z then 1 else 0)%nat.
Proof. rewrite nhits_app. unfold nhits at 2. simpl. destruct (isrel likes z); auto. Qed.

Section Two.
Variables (likes : list nat) (r r' : list Z) (K : nat).
Hypothesis D : at_least_as_good K likes r r'.
Hypothesis L : (K <= length r)%nat.
Hypothesis L' : (K <= length r')%nat.
Let H n := INR (nhits likes (firstn n r)).
Let H' n := INR (nhits likes (firstn n r')).
Lemma dom n : (n <= K)%nat -> H n <= H' n.
Proof. intros B. unfold H, H'. apply le_INR. rewrite <- !hits_upto_nhits. apply D; auto. Qed.

Lemma dcg_mono n : (n <= K)%nat -> cg n * (H' n - H n) <= dcg_rec likes 0 (firstn n r') - dcg_rec likes 0 (firstn n r).
Proof.
  induction n as [|n IH]; intros B.
  - unfold H, H'. simpl. lra.
  - specialize (IH ltac:(lia)). pose proof (dom (S n) B) as D1. pose proof (cg_decr n (S n) ltac:(lia)) as CD. pose proof (dom n ltac:(lia)) as D0.
    unfold H, H' in *. rewrite !firstn_snoc in * by lia. rewrite !dcg_rec_app. cbn [dcg_rec]. rewrite !firstn_length, !Nat.min_l by lia.
    rewrite !nhits_snoc, !plus_INR in *. cbn [plus]. destruct (isrel likes (nth n r 0%Z)), (isrel likes (nth n r' 0%Z)); simpl in *; nra.
Qed.
Let F (h : R) := h * (h + 1) / 2.
Lemma F_step likes' l z : F (INR (nhits likes' (l ++ [z]))) = F (INR (nhits likes' l)) + if isrel likes' z then INR (S (nhits likes' l)) else 0.
Proof. rewrite nhits_snoc, plus_INR. unfold F. destruct (isrel likes' z); rewrite ?S_INR; simpl; lra. Qed.
Lemma F_mono a b : 0 <= a <= b -> F a <= F b.
Proof. intros B. unfold F. nra. Qed.
Lemma ap_mono n : (n <= K)%nat -> / (INR n + 1) * (F (H' n) - F (H n)) <= ap_rec likes 0 0 (firstn n r') - ap_rec likes 0 0 (firstn n r).
Proof.
  induction n as [|n IH]; intros B.
  - unfold H, H', F. simpl. lra.
  - specialize (IH ltac:(lia)). pose proof (F_mono _ _ (conj (pos_INR _) (dom (S n) B))) as D1. pose proof (F_mono _ _ (conj (pos_INR _) (dom n ltac:(lia)))) as D0.
    pose proof (pos_INR n) as PN.
    assert (CD : / (INR (S n) + 1) <= / (INR n + 1)) by (rewrite S_INR; apply Rinv_le_contravar; lra).
    fold (H n) (H' n) (H (S n)) (H' (S n)) in D0, D1. unfold H, H' in *. rewrite !firstn_snoc in * by lia. rewrite !F_step in *. rewrite !ap_rec_app. cbn [ap_rec].
    rewrite !firstn_length, !Nat.min_l by lia. cbn [plus]. unfold Rdiv.
    set (w := / (INR n + 1)) in *. set (w' := / (INR (S n) + 1)) in *.
    set (P := INR (S (nhits likes (firstn n r)))) in *. set (P' := INR (S (nhits likes (firstn n r')))) in *.
    destruct (isrel likes (nth n r 0%Z)), (isrel likes (nth n r' 0%Z)); nra.
Qed.
Let G (h : R) := h * (h - 1) / 2.
Lemma G_step likes' l z : G (INR (nhits likes' (l ++ [z]))) = G (INR (nhits likes' l)) + if isrel likes' z then INR (nhits likes' l) else 0.
Proof. rewrite nhits_snoc, plus_INR. unfold G. destruct (isrel likes' z); simpl; lra. Qed.
Lemma auc_mono n : (n <= K)%nat -> INR (auc_rec likes 0 (firstn n r)) + G (H n) <= INR (auc_rec likes 0 (firstn n r')) + G (H' n).
Proof.
  induction n as [|n IH]; intros B.
  - unfold H, H', G. simpl. lra.
  - specialize (IH ltac:(lia)). pose proof (dom n ltac:(lia)) as D0. unfold H, H' in *. rewrite !firstn_snoc in * by lia. rewrite !G_step, !auc_rec_snoc, !plus_INR.
    destruct (isrel likes (nth n r 0%Z)), (isrel likes (nth n r' 0%Z)); rewrite ?plus_INR; simpl INR; lra.
Qed.

Lemma u_ap_mono : u_ap K likes r <= u_ap K likes r'.
Proof.
  pose proof (ap_mono K (le_n _)) as A. pose proof (F_mono _ _ (conj (pos_INR _) (dom K (le_n _)))) as D0. fold (H K) in D0.
  pose proof (pos_INR K) as PK. assert (0 < / (INR K + 1)) by (apply Rinv_0_lt_compat; lra).
  unfold u_ap. unfold Rdiv. apply Rmult_le_compat_r; [|nra].
  destruct (Nat.min K (length likes)) as [|m]; [simpl; rewrite Rinv_0; lra|]. left. apply Rinv_0_lt_compat. apply (lt_INR 0). lia.
Qed.
Lemma u_ndcg_mono : u_ndcg K likes r <= u_ndcg K likes r'.
Proof.
  pose proof (dcg_mono K (le_n _)) as A. pose proof (dom K (le_n _)) as D0. pose proof (cg_pos K).
  unfold u_ndcg, Rdiv. apply Rmult_le_compat_r; [left; apply Rinv_0_lt_compat, cg_sum_pos|nra].
Qed.
Lemma u_auc_mono items : (0 < length likes < items)%nat -> (K <= items)%nat -> u_auc K items likes r <= u_auc K items likes r'.
Proof.
  intros [P0 P1] KI. pose proof (auc_mono K (le_n _)) as A. pose proof (dom K (le_n _)) as D0.
  assert (M : forall l, (K <= length l)%nat -> INR (nmiss likes (firstn K l)) = INR K - INR (nhits likes (firstn K l))).
  { intros l B. pose proof (hits_miss likes (firstn K l)) as E. rewrite firstn_length, Nat.min_l in E by lia. rewrite <- E at 2. rewrite plus_INR. lra. }
  apply le_INR in KI. apply (lt_INR 0) in P0. apply lt_INR in P1. simpl in P0.
  unfold u_auc, Rdiv. apply Rmult_le_compat_r; [left; apply Rinv_0_lt_compat; apply Rmult_lt_0_compat; lra|].
  rewrite !M by auto. fold (H K) (H' K). unfold G in A.
  set (a := INR (auc_rec likes 0 (firstn K r))) in *. set (a' := INR (auc_rec likes 0 (firstn K r'))) in *. set (h := H K) in *. set (h' := H' K) in *.
  set (p := INR (length likes)) in *. set (n := INR items) in *. set (k := INR K) in *. clearbody a a' h h' p n k. nra.
Qed.
End Two.

Lemma mean_le f g us : us <> [] -> (forall u, In u us -> f u <= g u) -> mean f us <= mean g us.
Proof.
  intros NE E. unfold mean, Rdiv. apply Rmult_le_compat_r; [|apply rsum_le; auto].
  left. apply Rinv_0_lt_compat. apply (lt_INR 0). destruct us; [tauto|simpl; lia].
Qed.

(** If for every test user one model's list is at least as good as another's, no metric is lower; with the same numbers of
    hits in the whole lists the precision is the same. *)
Theorem C127 : forall (T : Type) (test : csr T) (r r' : nat -> list Z) rec rec' (K : nat),
  (1 <= K)%nat -> (K <= c_cols test)%nat -> test_users test <> [] -> answers test r rec -> answers test r' rec' ->
  (forall u, In u (test_users test) -> (length (test_items test u) < c_cols test)%nat /\ (K <= length (r u))%nat /\ (K <= length (r' u))%nat) ->
  (forall u, In u (test_users test) -> at_least_as_good K (test_items test u) (r u) (r' u)) ->
  exists m m', ranking_metrics_at_k rec test K = Ok m /\ ranking_metrics_at_k rec' test K = Ok m' /\
    precision m <= precision m' /\ map_ m <= map_ m' /\ ndcg m <= ndcg m' /\ auc m <= auc m' /\
    ((forall u, In u (test_users test) -> hits_upto (test_items test u) (r u) K = hits_upto (test_items test u) (r' u) K) -> precision m = precision m').
Proof.
  intros T test r r' rec rec' K K1 KI NE A A' S D.
  do 2 eexists. split; [unfold ranking_metrics_at_k; apply metrics_ok with (r := r); auto; [unfold metrics_batch_size; lia|intros u Hu; destruct (S u Hu) as [? [? ?]]; split; auto]|].
  split; [unfold ranking_metrics_at_k; apply metrics_ok with (r := r'); auto; [unfold metrics_batch_size; lia|intros u Hu; destruct (S u Hu) as [? [? ?]]; split; auto]|].
  cbn [precision map_ ndcg auc]. change (to_generate test) with (test_users test). change (likes_of test) with (test_items test).
  assert (PD : 0 <= / rsum (map (fun u => INR (Nat.min K (length (test_items test u)))) (test_users test))).
  { assert (P : 0 <= rsum (map (fun u => INR (Nat.min K (length (test_items test u)))) (test_users test))).
    { apply rsum_nonneg. intros v Hv. apply in_map_iff in Hv. destruct Hv as [u [<- _]]. apply pos_INR. }
    destruct P as [P|P]; [left; apply Rinv_0_lt_compat; auto|rewrite <- P, Rinv_0; lra]. }
  split; [|split; [|split; [|split]]].
  - unfold Rdiv. apply Rmult_le_compat_r; auto. apply rsum_le. intros u Hu. rewrite <- !hits_upto_nhits. apply le_INR. apply (D u Hu). auto.
  - apply mean_le; auto. intros u Hu. destruct (S u Hu) as [? [? ?]]. apply u_ap_mono; auto.
  - apply mean_le; auto. intros u Hu. destruct (S u Hu) as [? [? ?]]. apply u_ndcg_mono; auto.
  - apply mean_le; auto. intros u Hu. destruct (S u Hu) as [? [? ?]]. apply u_auc_mono; auto. split; auto. apply test_items_pos; auto.
  - intros E. f_equal. apply rsum_map_ext. intros u Hu. rewrite <- !hits_upto_nhits, E; auto.
Qed.
Print Assumptions C127.

(** Exchanging a relevant entry with an irrelevant one above it gives a list that is at least as good. *)
Theorem C127_swap : forall K likes front middle back hit miss,
  existsb (fun i => Z.eqb hit (Z.of_nat i)) likes = true ->
  at_least_as_good K likes (front ++ miss :: middle ++ hit :: back) (front ++ hit :: middle ++ miss :: back).
Proof.
  intros K likes front middle back hit miss E j _. rewrite existsb_isrel in E. rewrite !hits_upto_nhits.
  rewrite !firstn_app, !nhits_app. apply Nat.add_le_mono_l. destruct (j - length front)%nat as [|n]; auto.
  cbn [firstn]. rewrite !firstn_app. unfold nhits. cbn [filter]. rewrite E.
  destruct (n - length middle)%nat as [|m]; cbn [firstn].
  - destruct (isrel likes miss); cbn [length]; rewrite !filter_app, !app_length; simpl; lia.
  - destruct (isrel likes miss) eqn:M; cbn [length]; rewrite !filter_app, !app_length; cbn [filter]; rewrite E, ?M; simpl; lia.
Qed.
Print Assumptions C127_swap.

(** One user, test items {0, 2} of 4; 1, 0, 2 is worse than 0, 1, 2. *)
Example C127_example :
  at_least_as_good 3 (test_items ex_test 0) [1; 0; 2]%Z [0; 1; 2]%Z /\ ~ at_least_as_good 3 (test_items ex_test 0) [0; 1; 2]%Z [1; 0; 2]%Z /\
  test_users ex_test = [0%nat] /\ c_cols ex_test = 4%nat.
Proof.
  repeat split.
  - apply (C127_swap 3 _ [] [] [2%Z] 0%Z 1%Z). reflexivity.
  - intros A. specialize (A 1%nat ltac:(lia)). cbn in A. lia.
Qed.
