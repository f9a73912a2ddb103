(** Closed forms of the evaluation loop (C26-C31). *)
From Coq Require Import List Arith Lia Bool ZArith Reals Lra Psatz Permutation.
From Verif Require Import Base Num Heap Sparse TopkModel TopkBatch RecommendModel RVec MetricsModel.
Import ListNotations.
Local Open Scope R_scope.

Lemma cy_div_ok a b : b <> 0 -> cy_div a b = Ok (a / b).
Proof. intros. unfold cy_div. destruct (Req_EM_T b 0); auto; lra. Qed.
Lemma cy_div_zero a : cy_div a 0 = Raise ZeroDivisionError.
Proof. unfold cy_div. destruct (Req_EM_T 0 0); auto; lra. Qed.

Lemma log2_pos i : 0 < log2 (INR i + 2).
Proof.
  unfold log2, Rdiv. pose proof (pos_INR i). apply Rmult_lt_0_compat.
  - rewrite <- ln_1. apply ln_increasing; lra.
  - apply Rinv_0_lt_compat. rewrite <- ln_1. apply ln_increasing; lra.
Qed.
Lemma cg_pos i : 0 < cg i.
Proof. unfold cg, Rdiv. rewrite Rmult_1_l. apply Rinv_0_lt_compat, log2_pos. Qed.
Lemma cg_decr i j : (i <= j)%nat -> cg j <= cg i.
Proof.
  intros L. unfold cg, Rdiv. rewrite !Rmult_1_l. apply Rinv_le_contravar; [apply log2_pos|].
  unfold log2, Rdiv. apply Rmult_le_compat_r.
  - left. apply Rinv_0_lt_compat. rewrite <- ln_1. apply ln_increasing; lra.
  - apply le_INR in L. pose proof (pos_INR i). destruct (Req_dec (INR i) (INR j)) as [->|]; [lra|].
    left. apply ln_increasing; lra.
Qed.
Lemma cg_sum_pos n : 0 < cg_sum n.
Proof.
  unfold cg_sum. simpl. pose proof (cg_pos 0).
  assert (0 <= rsum (map cg (seq 1 n))); [|lra]. apply rsum_nonneg. intros x Hx.
  apply in_map_iff in Hx. destruct Hx as [i [<- _]]. left. apply cg_pos.
Qed.

Definition isrel (likes : list nat) (z : Z) : bool := memz z (map Z.of_nat likes).
Definition nhits (likes : list nat) (l : list Z) : nat := length (filter (isrel likes) l).
Definition nmiss (likes : list nat) (l : list Z) : nat := length (filter (fun z => negb (isrel likes z)) l).

Lemma hits_miss likes l : (nhits likes l + nmiss likes l = length l)%nat.
Proof. unfold nhits, nmiss. induction l; simpl; auto. destruct (isrel likes a); simpl; lia. Qed.
Lemma nhits_app likes l l' : nhits likes (l ++ l') = (nhits likes l + nhits likes l')%nat.
Proof. unfold nhits. rewrite filter_app, app_length. auto. Qed.
Lemma nmiss_app likes l l' : nmiss likes (l ++ l') = (nmiss likes l + nmiss likes l')%nat.
Proof. unfold nmiss. rewrite filter_app, app_length. auto. Qed.

Fixpoint ap_rec (likes : list nat) (k h : nat) (l : list Z) : R :=
  match l with
  | [] => 0
  | z :: l => if isrel likes z then INR (S h) / (INR k + 1) + ap_rec likes (S k) (S h) l
              else ap_rec likes (S k) h l
  end.
Fixpoint dcg_rec (likes : list nat) (k : nat) (l : list Z) : R :=
  match l with
  | [] => 0
  | z :: l => (if isrel likes z then cg k else 0) + dcg_rec likes (S k) l
  end.
Fixpoint auc_rec (likes : list nat) (h : nat) (l : list Z) : nat :=
  match l with
  | [] => 0%nat
  | z :: l => if isrel likes z then auc_rec likes (S h) l else (h + auc_rec likes h l)%nat
  end.

Lemma fold_inner likes idcg : idcg <> 0 -> forall l k h s, i_hit s = INR h ->
  fold_res (inner_step likes idcg) (enum_from k l) s =
  Ok {| i_relevant := i_relevant s + INR (nhits likes l); i_hit := INR (h + nhits likes l);
        i_miss := i_miss s + INR (nmiss likes l); i_ap := i_ap s + ap_rec likes k h l;
        i_ndcg := i_ndcg s + dcg_rec likes k l / idcg; i_auc := i_auc s + INR (auc_rec likes h l) |}.
Proof.
  intros HI. induction l as [|z l IH]; intros k h s Hs.
  - destruct s. simpl in *. f_equal. rewrite Nat.add_0_r, Hs. f_equal; unfold Rdiv; lra.
  - cbn [enum_from fold_res]. unfold inner_step. cbn [fst snd]. 
    unfold nhits, nmiss. cbn [filter ap_rec dcg_rec auc_rec]. change (memz z (map Z.of_nat likes)) with (isrel likes z).
    pose proof (pos_INR k).
    destruct (isrel likes z) eqn:E; cbn [negb].
    + rewrite (cy_div_ok _ (INR k + 1)) by lra. cbn [bind]. rewrite cy_div_ok by auto. cbn [bind].
      rewrite (IH (S k) (S h)) by (cbn [i_hit]; rewrite S_INR; lra).
      cbn [i_relevant i_hit i_miss i_ap i_ndcg i_auc length]. unfold nhits, nmiss. f_equal.
      f_equal; rewrite ?S_INR; try lra; try (f_equal; lia); try (rewrite Hs; lra); unfold Rdiv; ring.
    + cbn [bind]. rewrite (IH (S k) h) by auto.
      cbn [i_relevant i_hit i_miss i_ap i_ndcg i_auc length]. unfold nhits, nmiss. f_equal.
      f_equal; rewrite ?S_INR, ?plus_INR; try lra.
Qed.

(** One user's contribution. *)
Definition u_ap (K : nat) (likes : list nat) (ids : list Z) : R :=
  ap_rec likes 0 0 (firstn K ids) / INR (Nat.min K (length likes)).
Definition u_ndcg (K : nat) (likes : list nat) (ids : list Z) : R :=
  dcg_rec likes 0 (firstn K ids) / cg_sum (Nat.min K (length likes) - 1).
Definition u_auc (K items : nat) (likes : list nat) (ids : list Z) : R :=
  (INR (auc_rec likes 0 (firstn K ids)) +
   (INR (nhits likes (firstn K ids)) + INR (length likes)) / 2 *
   (INR items - INR (length likes) - INR (nmiss likes (firstn K ids)))) /
  (INR (length likes) * (INR items - INR (length likes))).

Lemma user_step_ok K items likes ids t : (0 < K)%nat -> likes <> [] -> (length likes < items)%nat -> (K <= length ids)%nat ->
  user_step K items likes ids t =
  Ok {| t_relevant := t_relevant t + INR (nhits likes (firstn K ids));
        t_pr_div := t_pr_div t + INR (Nat.min K (length likes)); t_total := t_total t + 1;
        t_map := t_map t + u_ap K likes ids; t_ndcg := t_ndcg t + u_ndcg K likes ids;
        t_auc := t_auc t + u_auc K items likes ids |}.
Proof.
  intros HK HL HI Hlen. unfold user_step.
  destruct (Nat.ltb_spec (length ids) K) as [L|L]; [lia|].
  assert (PL : (0 < length likes)%nat) by (destruct likes; [tauto|simpl; lia]).
  pose proof (cg_sum_pos (Nat.min K (length likes) - 1)) as CP.
  unfold enum. rewrite (fold_inner likes (cg_sum (Nat.min K (length likes) - 1))) with (h := 0%nat) by (simpl; lra).
  cbn [bind i_relevant i_hit i_miss i_ap i_ndcg i_auc].
  assert (0 < INR (Nat.min K (length likes))) by (apply (lt_INR 0); lia).
  assert (0 < INR (length likes)) by (apply (lt_INR 0); lia).
  assert (INR (length likes) < INR items) by (apply lt_INR; lia).
  rewrite cy_div_ok by lra. cbn [bind]. rewrite cy_div_ok by (apply Rmult_integral_contrapositive; lra). cbn [bind].
  rewrite !Rplus_0_l. reflexivity.
Qed.

Lemma user_step_zero K items likes ids t : likes <> [] -> length likes = items -> (K <= length ids)%nat -> (0 < K)%nat ->
  user_step K items likes ids t = Raise ZeroDivisionError.
Proof.
  intros HL HI Hlen HK. unfold user_step.
  destruct (Nat.ltb_spec (length ids) K) as [L|L]; [lia|].
  assert (PL : (0 < length likes)%nat) by (destruct likes; [tauto|simpl; lia]).
  pose proof (cg_sum_pos (Nat.min K (length likes) - 1)) as CP.
  unfold enum. rewrite (fold_inner likes (cg_sum (Nat.min K (length likes) - 1))) with (h := 0%nat) by (simpl; lra).
  cbn [bind i_relevant i_hit i_miss i_ap i_ndcg i_auc].
  assert (0 < INR (Nat.min K (length likes))) by (apply (lt_INR 0); lia).
  rewrite cy_div_ok by lra. cbn [bind]. rewrite HI. replace (INR items * (INR items - INR items)) with 0 by ring. rewrite cy_div_zero. auto.
Qed.

(** Totals over a list of users with recommendations [r u]. *)
Definition totals_of {T} (K : nat) (test : csr T) (r : nat -> list Z) (us : list nat) (t : totals) : totals :=
  {| t_relevant := t_relevant t + rsum (map (fun u => INR (nhits (likes_of test u) (firstn K (r u)))) us);
     t_pr_div := t_pr_div t + rsum (map (fun u => INR (Nat.min K (length (likes_of test u)))) us);
     t_total := t_total t + INR (length us);
     t_map := t_map t + rsum (map (fun u => u_ap K (likes_of test u) (r u)) us);
     t_ndcg := t_ndcg t + rsum (map (fun u => u_ndcg K (likes_of test u) (r u)) us);
     t_auc := t_auc t + rsum (map (fun u => u_auc K (c_cols test) (likes_of test u) (r u)) us) |}.

Lemma totals_of_app {T} K (test : csr T) r us us' t :
  totals_of K test r (us ++ us') t = totals_of K test r us' (totals_of K test r us t).
Proof. unfold totals_of. simpl. f_equal; rewrite ?map_app, ?rsum_app, ?app_length, ?plus_INR; lra. Qed.
Lemma totals_of_nil {T} K (test : csr T) r t : totals_of K test r [] t = t.
Proof. destruct t. unfold totals_of. simpl. f_equal; lra. Qed.

Lemma likes_length {T} (test : csr T) u : csr_row test u <> [] -> likes_of test u <> [].
Proof.
  intros H E. destruct (csr_row test u) as [|p l] eqn:Er; [tauto|].
  assert (X : In (fst p) (likes_of test u)).
  { unfold likes_of. apply nodup_In. unfold csr_row_indices. rewrite Er. left; auto. }
  rewrite E in X. destruct X.
Qed.

Lemma fold_users {T} K (test : csr T) (r : nat -> list Z) us t : (0 < K)%nat ->
  (forall u, In u us -> likes_of test u <> [] /\ (length (likes_of test u) < c_cols test)%nat /\ (K <= length (r u))%nat) ->
  fold_res (fun t p => user_step K (c_cols test) (likes_of test (fst p)) (snd p) t) (combine us (map r us)) t =
  Ok (totals_of K test r us t).
Proof.
  intros HK. revert t. induction us as [|u us IH]; intros t A.
  - simpl. rewrite totals_of_nil. auto.
  - cbn [map combine fold_res fst snd]. destruct (A u (or_introl eq_refl)) as [A1 [A2 A3]].
    rewrite user_step_ok by auto. cbn [bind].
    rewrite IH by (intros; apply A; right; auto). f_equal.
    change (u :: us) with ([u] ++ us). rewrite totals_of_app. f_equal.
    unfold totals_of. simpl. f_equal; lra.
Qed.

Lemma batch_loop_ok {T} bs K (test : csr T) (r : nat -> list Z) (rec : list nat -> res (list (list Z))) :
  (0 < bs)%nat -> (0 < K)%nat ->
  forall fuel us t, (length us <= fuel)%nat ->
  (forall b, incl b us -> b <> [] -> rec b = Ok (map r b)) ->
  (forall u, In u us -> likes_of test u <> [] /\ (length (likes_of test u) < c_cols test)%nat /\ (K <= length (r u))%nat) ->
  batch_loop fuel bs K test rec us t = Ok (totals_of K test r us t).
Proof.
  intros HB HK. induction fuel as [|fuel IH]; intros us t L RW A.
  - destruct us; [|simpl in L; lia]. simpl. rewrite totals_of_nil. auto.
  - destruct us as [|u us']; [simpl; rewrite totals_of_nil; auto|]. set (us := u :: us') in *.
    assert (I1 : incl (firstn bs us) us) by (intros x Hx; rewrite <- (firstn_skipn bs us); apply in_or_app; auto).
    assert (I2 : incl (skipn bs us) us) by (intros x Hx; rewrite <- (firstn_skipn bs us); apply in_or_app; auto).
    assert (E1 : batch_step K test rec (firstn bs us) t = Ok (totals_of K test r (firstn bs us) t)).
    { unfold batch_step. rewrite RW; [|auto|destruct bs; [lia|discriminate]]. cbn [bind].
      rewrite map_length, Nat.ltb_irrefl. apply fold_users; auto. }
    assert (STEP : batch_loop (S fuel) bs K test rec us t =
       (do t <- batch_step K test rec (firstn bs us) t; batch_loop fuel bs K test rec (skipn bs us) t)) by reflexivity.
    rewrite STEP, E1. cbn [bind]. rewrite IH.
    + rewrite <- totals_of_app, firstn_skipn. auto.
    + rewrite skipn_length. assert (length us = S (length us')) by reflexivity. lia.
    + intros b Hb NE. apply RW; auto. intros x Hx. apply I2, Hb; auto.
    + intros; apply A; auto.
Qed.

Lemma to_generate_in {T} (test : csr T) u : In u (to_generate test) <-> (u < c_rows test)%nat /\ csr_row test u <> [].
Proof.
  unfold to_generate. rewrite filter_In, in_seq. split.
  - intros [H B]. split; [lia|]. intros E. rewrite E in B. discriminate.
  - intros [H N]. split; [lia|]. destruct (csr_row test u); [tauto|auto].
Qed.

(** Average over users. *)
Definition mean (f : nat -> R) (us : list nat) : R := rsum (map f us) / INR (length us).

Lemma metrics_ok {T} bs K (test : csr T) (r : nat -> list Z) (rec : list nat -> res (list (list Z))) :
  (0 < bs)%nat -> (0 < K)%nat ->
  (forall b, incl b (to_generate test) -> b <> [] -> rec b = Ok (map r b)) ->
  (forall u, In u (to_generate test) -> (length (likes_of test u) < c_cols test)%nat /\ (K <= length (r u))%nat) ->
  to_generate test <> [] ->
  ranking_metrics_with bs rec test K = Ok
    {| precision := rsum (map (fun u => INR (nhits (likes_of test u) (firstn K (r u)))) (to_generate test)) /
                    rsum (map (fun u => INR (Nat.min K (length (likes_of test u)))) (to_generate test));
       map_ := mean (fun u => u_ap K (likes_of test u) (r u)) (to_generate test);
       ndcg := mean (fun u => u_ndcg K (likes_of test u) (r u)) (to_generate test);
       auc := mean (fun u => u_auc K (c_cols test) (likes_of test u) (r u)) (to_generate test) |}.
Proof.
  intros HB HK RW A NE. unfold ranking_metrics_with.
  rewrite (batch_loop_ok bs K test r rec HB HK); auto.
  2:{ intros u Hu. destruct (A u Hu). split; auto. apply likes_length. apply to_generate_in in Hu. tauto. }
  cbn [bind]. unfold totals_of, totals_zero. cbn [t_relevant t_pr_div t_total t_map t_ndcg t_auc].
  assert (L : 0 < INR (length (to_generate test))).
  { apply (lt_INR 0). destruct (to_generate test); [tauto|simpl; lia]. }
  assert (D : 0 < rsum (map (fun u => INR (Nat.min K (length (likes_of test u)))) (to_generate test))).
  { assert (P : forall u, In u (to_generate test) -> 0 < INR (Nat.min K (length (likes_of test u)))).
    { intros u Hu. apply (lt_INR 0). apply to_generate_in in Hu. destruct Hu as [_ Hu]. apply likes_length in Hu.
      destruct (likes_of test u); [tauto|simpl; destruct K; lia]. }
    clear -P NE. induction (to_generate test) as [|u us IH]; [tauto|]. cbn [map rsum].
    assert (0 < INR (Nat.min K (length (likes_of test u)))) by (apply P; left; auto).
    assert (0 <= rsum (map (fun u0 => INR (Nat.min K (length (likes_of test u0)))) us)); [|lra].
    apply rsum_nonneg. intros x Hx. apply in_map_iff in Hx. destruct Hx as [u' [<- _]]. apply pos_INR. }
  rewrite !Rplus_0_l. rewrite !cy_div_ok by lra. cbn [bind]. reflexivity.
Qed.
