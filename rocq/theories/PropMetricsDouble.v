(** C156: the ranking metrics in double precision. *)
From Coq Require Import List Arith Lia Bool ZArith Reals Lra Psatz Permutation.
From Verif Require Import Base Num Heap Sparse TopkModel RecommendModel RVec MetricsModel MetricsProofs MetricsProofs2
  MetricsDouble DoubleProofs MetricsDoubleProofs Log3 PropMetrics.
Import ListNotations.
Local Open Scope R_scope.

(* ------------------------------------------------------------------ *)
(** Sums of rounded numbers. *)
Section Sums.
Variable rnd : R -> R.
Variable RN : rounding rnd.
Variable lg : nat -> R.
Hypothesis LP : forall n, (2 <= n)%nat -> 0 < lg n.

Lemma ap_d_bound likes l : forall k h acc, (h <= k)%nat -> small (h + length l) -> 0 <= acc <= INR h ->
  0 <= ap_d rnd likes k h l acc <= INR (h + nhits likes l).
Proof.
  induction l as [|z l IH]; intros k h acc L SS B; [cbn; rewrite Nat.add_0_r; auto|].
  unfold nhits. cbn [ap_d filter length] in *. unfold small in SS. destruct (isrel likes z); cbn [length].
  - replace (h + S (length (filter (isrel likes) l)))%nat with (S h + nhits likes l)%nat by (unfold nhits; lia).
    apply IH; [lia|unfold small; lia|]. apply rnd_le_nat; auto; [unfold small; lia|].
    assert (U : 0 <= rnd (INR (S h) / INR (S k)) <= 1).
    { apply rnd_unit; auto; [apply (lt_INR 0); lia|]. split; [apply pos_INR|apply le_INR; lia]. }
    set (x := rnd (INR (S h) / INR (S k))) in *. rewrite S_INR. lra.
  - apply IH; [lia|unfold small; lia|auto].
Qed.
Lemma ap_d_hits likes l : forall k, small (k + length l) -> (forall z, In z l -> isrel likes z = true) ->
  forall l', ap_d rnd likes k k (l ++ l') (INR k) = ap_d rnd likes (k + length l) (k + length l) l' (INR (k + length l)).
Proof.
  induction l as [|z l IH]; intros k SS A l'; [cbn; rewrite Nat.add_0_r; auto|]. cbn [app ap_d length] in *.
  unfold small in SS. rewrite (A z (or_introl eq_refl)). unfold Rdiv at 1. rewrite Rinv_r by (apply not_0_INR; lia).
  rewrite (rnd_1 rnd RN), <- S_INR, (rnd_nat rnd RN) by (unfold small; lia).
  rewrite IH; [|unfold small; lia|intros; apply A; right; auto]. replace (S k + length l)%nat with (k + S (length l))%nat by lia. auto.
Qed.
Lemma ap_d_none likes l : forall k h acc, (forall z, In z l -> isrel likes z = false) -> ap_d rnd likes k h l acc = acc.
Proof.
  induction l as [|z l IH]; intros k h acc A; auto. cbn [ap_d]. rewrite (A z (or_introl eq_refl)). apply IH. intros; apply A; right; auto.
Qed.
Lemma sum_d_bound f us : forall n acc, small (n + length us) -> (forall u, In u us -> 0 <= f u <= 1) -> 0 <= acc <= INR n ->
  0 <= sum_d rnd f us acc <= INR (n + length us).
Proof.
  unfold sum_d. induction us as [|u us IH]; intros n acc SS A B; cbn [fold_left length] in *; [rewrite Nat.add_0_r; auto|].
  unfold small in SS. replace (n + S (length us))%nat with (S n + length us)%nat by lia.
  apply IH; [unfold small; lia|intros; apply A; right; auto|]. apply rnd_le_nat; auto; [unfold small; lia|].
  specialize (A u (or_introl eq_refl)). rewrite S_INR. lra.
Qed.
Lemma sum_d_ones f us : forall n, small (n + length us) -> (forall u, In u us -> f u = 1) ->
  sum_d rnd f us (INR n) = INR (n + length us).
Proof.
  unfold sum_d. induction us as [|u us IH]; intros n SS A; cbn [fold_left length] in *; [rewrite Nat.add_0_r; auto|].
  unfold small in SS. rewrite (A u (or_introl eq_refl)), <- S_INR, (rnd_nat rnd RN) by (unfold small; lia).
  rewrite IH; [f_equal; lia|unfold small; lia|intros; apply A; right; auto].
Qed.

Lemma dcg_d_nonneg likes idcg l : 0 < idcg -> forall k acc, 0 <= acc -> 0 <= dcg_d rnd lg likes idcg k l acc.
Proof.
  intros P. induction l as [|z l IH]; intros k acc A; auto. cbn [dcg_d]. apply IH. destruct (isrel likes z); auto.
  apply rnd_nonneg; auto. pose proof (cg_d_pos rnd RN lg LP k) as C.
  assert (0 <= rnd (cg_d rnd lg k / idcg)); [|lra]. apply rnd_nonneg; auto. left. apply Rdiv_lt_0_compat; auto.
Qed.
Fixpoint hitsum (likes : list nat) (k : nat) (l : list Z) : R :=
  match l with [] => 0 | z :: l => (if isrel likes z then cg_d rnd lg k else 0) + hitsum likes (S k) l end.
Lemma u_pos : 0 < unit_roundoff < 1 / 2. Proof. apply u_small. Qed.
Notation up := (1 + unit_roundoff).
Notation dn := (1 - unit_roundoff).
Lemma up_pow_ge n : 1 <= up ^ n. Proof. apply pow_R1_Rle. pose proof u_pos. lra. Qed.
Lemma dcg_d_high likes idcg l : 0 < idcg -> forall k acc, 0 <= acc ->
  dcg_d rnd lg likes idcg k l acc <= up ^ nhits likes l * (acc + up * (hitsum likes k l / idcg)).
Proof.
  intros P. pose proof u_pos as U. induction l as [|z l IH]; intros k acc A; [cbn; lra|].
  unfold nhits. cbn [dcg_d filter hitsum]. pose proof (cg_d_pos rnd RN lg LP k) as C.
  destruct (isrel likes z); cbn [length pow].
  - assert (Q : 0 < cg_d rnd lg k / idcg) by (apply Rdiv_lt_0_compat; auto).
    destruct (r_rel _ RN (cg_d rnd lg k / idcg)) as [_ R1]; [lra|].
    assert (R0 : 0 <= rnd (cg_d rnd lg k / idcg)) by (apply rnd_nonneg; auto; lra).
    destruct (r_rel _ RN (acc + rnd (cg_d rnd lg k / idcg))) as [_ R2]; [lra|].
    eapply Rle_trans; [apply IH; apply rnd_nonneg; auto; lra|]. fold (nhits likes l).
    set (q := up ^ nhits likes l). assert (1 <= q) by apply up_pow_ge.
    rewrite (Rmult_comm up q), Rmult_assoc. apply Rmult_le_compat_l; [lra|].
    assert (HS : 0 <= hitsum likes (S k) l / idcg).
    { apply Rmult_le_pos; [|left; apply Rinv_0_lt_compat; auto]. clear -LP RN. generalize (S k). induction l as [|z l IH]; intros j; cbn [hitsum]; [lra|].
      pose proof (cg_d_pos rnd RN lg LP j). specialize (IH (S j)). destruct (isrel likes z); lra. }
    set (s := hitsum likes (S k) l / idcg) in *. set (c := cg_d rnd lg k / idcg) in *.
    replace ((cg_d rnd lg k + hitsum likes (S k) l) / idcg) with (c + s) by (unfold c, s; field; lra).
    set (rc := rnd c) in *. assert (M : up * rc <= up * (up * c)) by (apply Rmult_le_compat_l; lra).
    assert (V : 0 <= unit_roundoff * (up * s)) by (apply Rmult_le_pos; [lra|apply Rmult_le_pos; lra]). lra.
  - rewrite Rplus_0_l. apply IH; auto.
Qed.

Hypothesis LM : forall n m, (2 <= n <= m)%nat -> lg n <= lg m.
Lemma cg_d_decr i j : (i <= j)%nat -> cg_d rnd lg j <= cg_d rnd lg i.
Proof.
  intros L. unfold cg_d. pose proof (LP (i + 2) ltac:(lia)). pose proof (LP (j + 2) ltac:(lia)). apply (r_mono _ RN). split.
  - left. apply Rdiv_lt_0_compat; lra.
  - unfold Rdiv. rewrite !Rmult_1_l. apply Rinv_le_contravar; auto. apply LM. lia.
Qed.
Lemma hitsum_bound likes l : forall k k', (k' <= k)%nat -> hitsum likes k l <= rsum (map (cg_d rnd lg) (seq k' (nhits likes l))).
Proof.
  induction l as [|z l IH]; intros k k' L; unfold nhits; cbn [filter hitsum length]; [simpl; lra|].
  destruct (isrel likes z); cbn [length seq map rsum].
  - pose proof (IH (S k) (S k')) as B. fold (nhits likes l) in *. pose proof (cg_d_decr k' k L). specialize (B ltac:(lia)). lra.
  - pose proof (IH (S k) k') as B. fold (nhits likes l) in *. specialize (B ltac:(lia)). lra.
Qed.
Lemma cg_fold_low l : forall s, 0 <= s -> dn ^ length l * (s + rsum (map (cg_d rnd lg) l)) <= fold_left (fun s j => rnd (s + cg_d rnd lg j)) l s.
Proof.
  pose proof u_pos as U. induction l as [|j l IH]; intros s SS; [cbn; lra|]. cbn [fold_left length map rsum pow].
  pose proof (cg_d_pos rnd RN lg LP j) as C. destruct (r_rel _ RN (s + cg_d rnd lg j)) as [R1 _]; [lra|].
  eapply Rle_trans; [|apply IH; apply rnd_nonneg; auto; lra].
  rewrite (Rmult_comm dn), Rmult_assoc. apply Rmult_le_compat_l; [apply pow_le; lra|].
  assert (HS : 0 <= rsum (map (cg_d rnd lg) l)).
  { apply rsum_nonneg. intros x Hx. apply in_map_iff in Hx. destruct Hx as [i [<- _]]. left. apply cg_d_pos; auto. }
  assert (0 <= unit_roundoff * rsum (map (cg_d rnd lg) l)) by (apply Rmult_le_pos; lra). lra.
Qed.
Lemma dn_pow_anti a b : (a <= b)%nat -> 0 < dn ^ b <= dn ^ a.
Proof.
  pose proof u_pos as U. intros L. split; [apply pow_lt; lra|]. replace b with (a + (b - a))%nat by lia. rewrite pow_add.
  rewrite <- (Rmult_1_r (dn ^ a)) at 2. apply Rmult_le_compat_l; [apply pow_le; lra|].
  pose proof (pow_incr dn 1 (b - a)) as X. rewrite pow1 in X. apply X. lra.
Qed.
Lemma hits_ideal K likes l : (nhits likes l <= Nat.min K (length likes))%nat -> (0 < Nat.min K (length likes))%nat ->
  hitsum likes 0 l / idcg_d rnd lg K likes <= / dn ^ K.
Proof.
  intros NH P. unfold idcg_d. set (m := Nat.min K (length likes)) in *.
  pose proof (cg_sum_d_pos rnd RN lg LP (m - 1)) as IP.
  assert (LOW : dn ^ K * rsum (map (cg_d rnd lg) (seq 0 m)) <= cg_sum_d rnd lg (m - 1)).
  { unfold cg_sum_d. pose proof (cg_fold_low (seq 1 (m - 1)) (cg_d rnd lg 0)) as F. rewrite seq_length in F.
    pose proof (cg_d_pos rnd RN lg LP 0). specialize (F ltac:(lra)). eapply Rle_trans; [|exact F].
    replace (seq 0 m) with (0%nat :: seq 1 (m - 1)) by (replace m with (S (m - 1)) at 2 by lia; reflexivity). cbn [map rsum].
    apply Rmult_le_compat_r; [|apply dn_pow_anti; lia].
    assert (0 <= rsum (map (cg_d rnd lg) (seq 1 (m - 1)))); [|lra].
    apply rsum_nonneg. intros x Hx. apply in_map_iff in Hx. destruct Hx as [i [<- _]]. left. apply cg_d_pos; auto. }
  assert (HB : hitsum likes 0 l <= rsum (map (cg_d rnd lg) (seq 0 m))).
  { eapply Rle_trans; [apply hitsum_bound with (k' := 0%nat); lia|]. replace m with (nhits likes l + (m - nhits likes l))%nat by lia.
    rewrite seq_app, map_app, rsum_app.
    assert (0 <= rsum (map (cg_d rnd lg) (seq (0 + nhits likes l) (m - nhits likes l)))); [|lra].
    apply rsum_nonneg. intros x Hx. apply in_map_iff in Hx. destruct Hx as [i [<- _]]. left. apply cg_d_pos; auto. }
  destruct (dn_pow_anti K K (le_n K)) as [DP _].
  apply (Rmult_le_reg_r (cg_sum_d rnd lg (m - 1))); auto. unfold Rdiv. rewrite Rmult_assoc, Rinv_l, Rmult_1_r by lra.
  apply (Rmult_le_reg_l (dn ^ K)); auto. rewrite <- Rmult_assoc, Rinv_r, Rmult_1_l by lra.
  eapply Rle_trans; [|exact LOW]. apply Rmult_le_compat_l; lra.
Qed.
Lemma ndcg_fold_high K (li : nat -> list nat) (r : nat -> list Z) us :
  (forall u, In u us -> (nhits (li u) (firstn K (r u)) <= Nat.min K (length (li u)))%nat /\ (0 < Nat.min K (length (li u)))%nat) ->
  forall acc n h, 0 <= acc <= up ^ h * (INR n * (up * / dn ^ K)) ->
  0 <= fold_left (fun s u => dcg_d rnd lg (li u) (idcg_d rnd lg K (li u)) 0 (firstn K (r u)) s) us acc
    <= up ^ (h + length us * K) * (INR (n + length us) * (up * / dn ^ K)).
Proof.
  pose proof u_pos as U. induction us as [|u us IH]; intros A acc n h B; [cbn [fold_left length]; rewrite !Nat.add_0_r; auto|].
  cbn [fold_left length]. replace (h + S (length us) * K)%nat with ((h + K) + length us * K)%nat by lia.
  replace (n + S (length us))%nat with (S n + length us)%nat by lia. apply IH; [intros; apply A; right; auto|].
  destruct (A u (or_introl eq_refl)) as [NH PM]. pose proof (cg_sum_d_pos rnd RN lg LP (Nat.min K (length (li u)) - 1)) as IP.
  fold (idcg_d rnd lg K (li u)) in IP. split; [apply dcg_d_nonneg; auto; lra|].
  eapply Rle_trans; [apply dcg_d_high; auto; lra|]. pose proof (hits_ideal K (li u) (firstn K (r u)) NH PM) as HI.
  set (x := hitsum (li u) 0 (firstn K (r u)) / idcg_d rnd lg K (li u)) in *. set (w := / dn ^ K) in *.
  assert (W : 0 < w) by (apply Rinv_0_lt_compat, (dn_pow_anti K K); lia).
  assert (Q : up ^ nhits (li u) (firstn K (r u)) <= up ^ K) by (apply Rle_pow; [lra|lia]).
  assert (Q1 := up_pow_ge (nhits (li u) (firstn K (r u)))). assert (Q2 := up_pow_ge h). assert (Q3 := up_pow_ge K).
  assert (X0 : 0 <= acc + up * w) by (assert (0 <= up * w) by (apply Rmult_le_pos; lra); lra).
  assert (X1 : acc + up * x <= acc + up * w) by (assert (up * x <= up * w) by (apply Rmult_le_compat_l; lra); lra).
  eapply Rle_trans; [apply Rmult_le_compat_l; [lra|exact X1]|]. eapply Rle_trans; [apply Rmult_le_compat_r; [exact X0|exact Q]|].
  rewrite pow_add, (Rmult_comm (up ^ h)), Rmult_assoc. apply Rmult_le_compat_l; [lra|].
  rewrite S_INR. assert (Y : up * w <= up ^ h * (up * w)).
  { rewrite <- (Rmult_1_l (up * w)) at 1. apply Rmult_le_compat_r; [apply Rmult_le_pos; lra|lra]. }
  lra.
Qed.
End Sums.

(* ------------------------------------------------------------------ *)
(** The closed form of the four numbers. *)
Lemma metrics_d_form {T} rnd (RN : rounding rnd) lg (LP : forall n, (2 <= n)%nat -> 0 < lg n)
    (test : csr T) (r : nat -> list Z) rec (K : nat) :
  (1 <= K)%nat -> csr_wf test -> test_users test <> [] -> answers test r rec ->
  (Z.of_nat (c_cols test) <= 2 ^ 26)%Z -> (Z.of_nat (length (test_users test) * K) < 2 ^ 52)%Z ->
  (forall u, In u (test_users test) -> (length (test_items test u) < c_cols test)%nat /\ (K <= length (r u))%nat /\
     valid_ranking (c_cols test) (firstn K (r u))) ->
  ranking_metrics_d rnd lg rec test K = Ok
   {| precision := rnd (INR (sumn (fun u => nhits (test_items test u) (firstn K (r u))) (test_users test)) /
                        INR (sumn (fun u => Nat.min K (length (test_items test u))) (test_users test)));
      map_ := rnd (sum_d rnd (fun u => rnd (ap_d rnd (test_items test u) 0 0 (firstn K (r u)) 0 / INR (Nat.min K (length (test_items test u)))))
                     (test_users test) 0 / INR (length (test_users test)));
      ndcg := rnd (fold_left (fun s u => dcg_d rnd lg (test_items test u) (idcg_d rnd lg K (test_items test u)) 0 (firstn K (r u)) s) (test_users test) 0
                   / INR (length (test_users test)));
      auc := rnd (sum_d rnd (fun u => rnd (u_auc K (c_cols test) (test_items test u) (r u))) (test_users test) 0 / INR (length (test_users test))) |}.
Proof.
  intros HK W NE A BI BU H. unfold ranking_metrics_d. rewrite test_users_eq.
  rewrite (batch_loop_d_ok rnd lg metrics_batch_size K test r rec); [|unfold metrics_batch_size; lia|lia|auto].
  change totals_zero with (tot 0 0 0 0 0 0).
  assert (PU : (0 < length (test_users test))%nat) by (destruct (test_users test); [tauto|simpl; lia]).
  assert (SM : forall m, (m <= length (test_users test) * K)%nat -> small m) by (intros m Hm; unfold small; lia).
  rewrite (users_d rnd RN lg LP); auto; try (apply SM; nia); [|apply incl_refl].
  cbn [bind tot t_relevant t_pr_div t_total t_map t_ndcg t_auc]. rewrite !Nat.add_0_l.
  assert (PD : (0 < sumn (fun u => Nat.min K (length (test_items test u))) (test_users test))%nat).
  { pose proof (test_items_pos test) as TP. clear -TP NE HK. destruct (test_users test) as [|u us]; [tauto|]. cbn [sumn].
    specialize (TP u (or_introl eq_refl)). lia. }
  rewrite !div_d_ok by (apply not_0_INR; lia). cbn [bind]. reflexivity.
Qed.

(** The libm logarithm returns positive numbers, in order. *)
Definition positive_log (lg : nat -> R) : Prop := forall n, (2 <= n)%nat -> 0 < lg n.
Definition ordered_log (lg : nat -> R) : Prop := forall n m, (2 <= n <= m)%nat -> lg n <= lg m.

(** Full statement: in double precision all four numbers lie between 0 and 1 when the rankings
    are of distinct existing items.  Proved: precision, MAP and AUC do; NDCG is not negative.
    Missing: NDCG is at most 1, which is false (refuted below); the next theorem bounds the excess. *)
Theorem C156_unit_interval_partial :
  forall (T : Type) (test : csr T) (r : nat -> list Z) (lg : nat -> R) rec (K : nat),
  (1 <= K)%nat -> csr_wf test -> test_users test <> [] -> answers test r rec -> positive_log lg ->
  (Z.of_nat (c_cols test) <= 2 ^ 26)%Z -> (Z.of_nat (length (test_users test) * K) < 2 ^ 52)%Z ->
  (forall u, In u (test_users test) -> (length (test_items test u) < c_cols test)%nat /\ (K <= length (r u))%nat /\
     valid_ranking (c_cols test) (firstn K (r u))) ->
  exists m, ranking_metrics_d rnd64 lg rec test K = Ok m /\
    in_unit (precision m) /\ in_unit (map_ m) /\ in_unit (auc m) /\ 0 <= ndcg m.
Proof.
  intros T test r lg rec K HK W NE A LP BI BU H. pose proof rounding_rnd64 as RN.
  eexists. split; [apply (metrics_d_form rnd64 RN lg LP test r rec K); auto|]. cbn [precision map_ ndcg auc]. unfold in_unit.
  assert (PU : (0 < length (test_users test))%nat) by (destruct (test_users test); [tauto|simpl; lia]).
  assert (PR : 0 < INR (length (test_users test))) by (apply (lt_INR 0); auto).
  assert (SM : forall m, (m <= length (test_users test) * K)%nat -> small m) by (intros m Hm; unfold small; lia).
  assert (NH : forall u, In u (test_users test) -> (nhits (test_items test u) (firstn K (r u)) <= Nat.min K (length (test_items test u)))%nat).
  { intros u Hu. eapply nhits_min; [apply test_items_nodup|]. apply H; auto. }
  assert (MP : forall u, In u (test_users test) -> (0 < Nat.min K (length (test_items test u)))%nat).
  { intros u Hu. pose proof (test_items_pos test u Hu). lia. }
  split; [|split; [|split]].
  - apply rnd_unit; auto.
    + apply (lt_INR 0). clear -MP NE. destruct (test_users test) as [|u us]; [tauto|]. cbn [sumn]. specialize (MP u (or_introl eq_refl)). lia.
    + split; [apply pos_INR|]. apply le_INR. apply sumn_le; auto.
  - apply rnd_unit; auto. rewrite <- (Nat.add_0_l (length (test_users test))). apply (sum_d_bound rnd64 RN); [apply SM; nia| |cbn; lra].
    intros u Hu. apply rnd_unit; auto; [apply (lt_INR 0); auto|].
    destruct (ap_d_bound rnd64 RN (test_items test u) (firstn K (r u)) 0 0 0) as [B1 B2]; [lia| |cbn; lra|].
    { rewrite firstn_length. apply SM. nia. }
    split; auto. eapply Rle_trans; [exact B2|]. apply le_INR. rewrite Nat.add_0_l. auto.
  - apply rnd_unit; auto. rewrite <- (Nat.add_0_l (length (test_users test))). apply (sum_d_bound rnd64 RN); [apply SM; nia| |cbn; lra].
    intros u Hu. assert (BL : forall i, In i (test_items test u) -> (i < c_cols test)%nat) by (intros i; apply test_items_lt; auto).
    destruct (H u Hu) as [H1 [H2 H3]]. rewrite auc_spec by (auto; apply test_items_nodup).
    destruct (auc_unit (c_cols test) (test_items test u) (firstn K (r u))) as [U1 U2]; auto; [apply test_items_nodup|split; auto; apply test_items_pos; auto|].
    change 1 with (INR 1). apply rnd_le_nat; auto. unfold small. lia.
  - apply rnd_nonneg; auto. apply Rmult_le_pos; [|left; apply Rinv_0_lt_compat; auto].
    assert (Z0 : 0 <= 0) by lra. revert Z0. generalize 0 at 2 4 as acc. clear -RN LP.
    induction (test_users test) as [|u us IH]; intros acc P; cbn [fold_left]; auto. apply IH. apply dcg_d_nonneg; auto.
    apply cg_sum_d_pos; auto.
Qed.
Print Assumptions C156_unit_interval_partial.

(** How far NDCG can exceed 1: by rounding only. *)
Theorem C156_ndcg_partial :
  forall (T : Type) (test : csr T) (r : nat -> list Z) (lg : nat -> R) rec (K : nat),
  (1 <= K)%nat -> csr_wf test -> test_users test <> [] -> answers test r rec -> positive_log lg -> ordered_log lg ->
  (Z.of_nat (c_cols test) <= 2 ^ 26)%Z -> (Z.of_nat (length (test_users test) * K) < 2 ^ 52)%Z ->
  (forall u, In u (test_users test) -> (length (test_items test u) < c_cols test)%nat /\ (K <= length (r u))%nat /\
     valid_ranking (c_cols test) (firstn K (r u))) ->
  exists m, ranking_metrics_d rnd64 lg rec test K = Ok m /\
    ndcg m <= (1 + / 2 ^ 53) ^ (length (test_users test) * K + 2) / (1 - / 2 ^ 53) ^ K.
Proof.
  intros T test r lg rec K HK W NE A LP LM BI BU H. pose proof rounding_rnd64 as RN.
  eexists. split; [apply (metrics_d_form rnd64 RN lg LP test r rec K); auto|]. cbn [ndcg]. fold unit_roundoff.
  assert (PU : (0 < length (test_users test))%nat) by (destruct (test_users test); [tauto|simpl; lia]).
  assert (PR : 0 < INR (length (test_users test))) by (apply (lt_INR 0); auto). pose proof u_pos as U.
  destruct (ndcg_fold_high rnd64 RN lg LP LM K (test_items test) r (test_users test)) with (acc := 0) (n := 0%nat) (h := 0%nat) as [B1 B2].
  - intros u Hu. pose proof (test_items_pos test u Hu). split; [|lia]. eapply nhits_min; [apply test_items_nodup|]. apply H; auto.
  - cbn. lra.
  - rewrite !Nat.add_0_l in B2. set (x := fold_left _ _ _) in *.
    assert (X0 : 0 <= x / INR (length (test_users test))) by (apply Rmult_le_pos; [lra|left; apply Rinv_0_lt_compat; auto]).
    destruct (r_rel _ RN _ X0) as [_ R1]. eapply Rle_trans; [exact R1|].
    assert (X1 : x / INR (length (test_users test)) <= (1 + unit_roundoff) ^ (length (test_users test) * K) * ((1 + unit_roundoff) * / (1 - unit_roundoff) ^ K)).
    { apply (Rmult_le_reg_r (INR (length (test_users test)))); auto. unfold Rdiv. rewrite Rmult_assoc, Rinv_l, Rmult_1_r by lra. lra. }
    rewrite pow_add. cbn [pow]. unfold Rdiv. apply (Rmult_le_compat_l (1 + unit_roundoff)) in X1; [|lra]. lra.
Qed.
Print Assumptions C156_ndcg_partial.

(** A ranking that puts test items first scores exactly 1 in precision and MAP. *)
Theorem C156_perfect_partial :
  forall (T : Type) (test : csr T) (r : nat -> list Z) (lg : nat -> R) rec (K : nat),
  (1 <= K)%nat -> csr_wf test -> test_users test <> [] -> answers test r rec -> positive_log lg ->
  (Z.of_nat (c_cols test) <= 2 ^ 26)%Z -> (Z.of_nat (length (test_users test) * K) < 2 ^ 52)%Z ->
  (forall u, In u (test_users test) -> (length (test_items test u) < c_cols test)%nat /\ (K <= length (r u))%nat /\
     valid_ranking (c_cols test) (firstn K (r u)) /\
     forall i, (i < Nat.min K (length (test_items test u)))%nat -> exists p, In p (test_items test u) /\ nth i (r u) (-1)%Z = Z.of_nat p) ->
  exists m, ranking_metrics_d rnd64 lg rec test K = Ok m /\ precision m = 1 /\ map_ m = 1.
Proof.
  intros T test r lg rec K HK W NE A LP BI BU H. pose proof rounding_rnd64 as RN.
  eexists. split; [apply (metrics_d_form rnd64 RN lg LP test r rec K); auto|].
  { intros u Hu. destruct (H u Hu) as [? [? [? ?]]]. auto. }
  cbn [precision map_].
  assert (PU : (0 < length (test_users test))%nat) by (destruct (test_users test); [tauto|simpl; lia]).
  assert (SM : forall m, (m <= length (test_users test) * K)%nat -> small m) by (intros m Hm; unfold small; lia).
  assert (KEY : forall u, In u (test_users test) -> exists l1 l2, firstn K (r u) = l1 ++ l2 /\
     length l1 = Nat.min K (length (test_items test u)) /\
     (forall z, In z l1 -> isrel (test_items test u) z = true) /\ (forall z, In z l2 -> isrel (test_items test u) z = false)).
  { intros u Hu. destruct (H u Hu) as [H1 [H2 [H3 H4]]]. set (mm := Nat.min K (length (test_items test u))) in *.
    exists (firstn mm (firstn K (r u))), (skipn mm (firstn K (r u))).
    assert (L1 : length (firstn mm (firstn K (r u))) = mm) by (rewrite !firstn_length; unfold mm; lia).
    assert (A1 : forall z, In z (firstn mm (firstn K (r u))) -> isrel (test_items test u) z = true).
    { intros z Hz. apply (In_nth _ _ (-1)%Z) in Hz. destruct Hz as [i [Hi <-]]. rewrite L1 in Hi.
      rewrite !firstn_firstn_nth by (unfold mm in *; lia). destruct (H4 i Hi) as [p [Hp ->]]. apply isrel_in. exists p; auto. }
    split; [symmetry; apply firstn_skipn|]. split; auto. split; auto.
    apply nhits_zero. pose proof (nhits_min _ _ K (r u) (test_items_nodup test u) H3) as B. fold mm in B.
    rewrite <- (firstn_skipn mm (firstn K (r u))) in B. rewrite nhits_app in B.
    destruct (all_hits _ _ 0 A1) as [_ [_ [E _]]]. rewrite E, L1 in B. lia. }
  assert (MP : forall u, In u (test_users test) -> (0 < Nat.min K (length (test_items test u)))%nat).
  { intros u Hu. pose proof (test_items_pos test u Hu). lia. }
  split.
  - assert (E : sumn (fun u => nhits (test_items test u) (firstn K (r u))) (test_users test) =
                sumn (fun u => Nat.min K (length (test_items test u))) (test_users test)).
    { clear -KEY. induction (test_users test) as [|u us IH]; auto. cbn [sumn]. rewrite IH by (intros; apply KEY; right; auto). f_equal.
      destruct (KEY u (or_introl eq_refl)) as [l1 [l2 [-> [L [X1 X2]]]]]. rewrite nhits_app.
      destruct (all_hits _ _ 0 X1) as [_ [_ [-> _]]]. destruct (no_hits _ _ 0 0 X2) as [_ [_ [-> _]]]. lia. }
    rewrite E. unfold Rdiv. rewrite Rinv_r; [apply rnd_1; auto|]. apply not_0_INR.
    clear -MP NE. destruct (test_users test) as [|u us]; [tauto|]. cbn [sumn]. specialize (MP u (or_introl eq_refl)). lia.
  - change 0 with (INR 0) at 2. rewrite (sum_d_ones rnd64 RN); [|apply SM; nia|].
    + rewrite Nat.add_0_l. unfold Rdiv. rewrite Rinv_r; [apply rnd_1; auto|]. apply not_0_INR. lia.
    + intros u Hu. destruct (KEY u Hu) as [l1 [l2 [E [L [X1 X2]]]]]. rewrite E.
      change 0 with (INR 0). rewrite (ap_d_hits rnd64 RN) by (auto; rewrite L; apply SM; nia). rewrite ap_d_none by auto.
      rewrite Nat.add_0_l, L. unfold Rdiv. rewrite Rinv_r; [apply rnd_1; auto|]. specialize (MP u Hu). apply not_0_INR. lia.
Qed.
Print Assumptions C156_perfect_partial.

(* ------------------------------------------------------------------ *)
(** The refutation.  A logarithm is [faithful] if it returns one of the two doubles around the true
    value, and the true value when that is a double. *)
Definition is_double (x : R) : Prop := rnd64 x = x.
Definition faithful (lg : nat -> R) : Prop := forall n, (2 <= n)%nat -> is_double (lg n) /\
  forall d, is_double d -> (d <= ln (INR n) / ln 2 -> d <= lg n) /\ (ln (INR n) / ln 2 <= d -> lg n <= d).

Lemma rnd64_q' a b m s q : rounds_to a b m s = true -> (2 ^ s)%Z = q -> rnd64 (IZR a / IZR b) = IZR m / IZR q.
Proof. intros H <-. apply rnd64_q; auto. Qed.
Ltac rq X a b m s q :=
  replace (X) with (IZR a / IZR b) by (field; try lra); rewrite (rnd64_q' a b m s q) by (vm_compute; reflexivity).

(** Three users with 1, 1 and 3 test items, all ranked first. *)
Definition final (l3 : R) : R :=
  let c1 := rnd64 (1 / l3) in
  let s := rnd64 (rnd64 (1 + c1) + 1 / 2) in
  rnd64 (rnd64 (rnd64 (rnd64 (2 + rnd64 (1 / s)) + rnd64 (c1 / s)) + rnd64 (1 / 2 / s)) / 3).
Lemma final_0 : final (7138036527644008 / 4503599627370496) = 4503599627370497 / 4503599627370496.
Proof.
  unfold final. cbv zeta.
  rq (1 / (7138036527644008 / 4503599627370496)) 562949953421312%Z 892254565955501%Z 5682910006162750%Z 53%Z 9007199254740992%Z.
  rq (1 + 5682910006162750 / 9007199254740992) 7345054630451871%Z 4503599627370496%Z 7345054630451871%Z 52%Z 4503599627370496%Z.
  rq (7345054630451871 / 4503599627370496 + 1 / 2) 9596854444137119%Z 4503599627370496%Z 4798427222068560%Z 51%Z 2251799813685248%Z.
  rq (1 / (4798427222068560 / 2251799813685248)) 140737488355328%Z 299901701379285%Z 8453773982595948%Z 54%Z 18014398509481984%Z.
  rq (5682910006162750 / 9007199254740992 / (4798427222068560 / 2251799813685248)) 568291000616275%Z 1919370888827424%Z 5333737535588060%Z 54%Z 18014398509481984%Z.
  rq (1 / 2 / (4798427222068560 / 2251799813685248)) 70368744177664%Z 299901701379285%Z 8453773982595948%Z 55%Z 36028797018963968%Z.
  rq (2 + 8453773982595948 / 18014398509481984) 11120642750389979%Z 4503599627370496%Z 5560321375194990%Z 51%Z 2251799813685248%Z.
  rq (5560321375194990 / 2251799813685248 + 5333737535588060 / 18014398509481984) 12454077134286995%Z 4503599627370496%Z 6227038567143498%Z 51%Z 2251799813685248%Z.
  rq (6227038567143498 / 2251799813685248 + 8453773982595948 / 36028797018963968) 27021597764222979%Z 9007199254740992%Z 6755399441055745%Z 51%Z 2251799813685248%Z.
  rq (6755399441055745 / 2251799813685248 / 3) 6755399441055745%Z 6755399441055744%Z 4503599627370497%Z 52%Z 4503599627370496%Z.
  reflexivity.
Qed.
Lemma final_1 : final (7138036527644009 / 4503599627370496) = 4503599627370497 / 4503599627370496.
Proof.
  unfold final. cbv zeta.
  rq (1 / (7138036527644009 / 4503599627370496)) 4503599627370496%Z 7138036527644009%Z 5682910006162749%Z 53%Z 9007199254740992%Z.
  rq (1 + 5682910006162749 / 9007199254740992) 14690109260903741%Z 9007199254740992%Z 7345054630451870%Z 52%Z 4503599627370496%Z.
  rq (7345054630451870 / 4503599627370496 + 1 / 2) 4798427222068559%Z 2251799813685248%Z 4798427222068559%Z 51%Z 2251799813685248%Z.
  rq (1 / (4798427222068559 / 2251799813685248)) 2251799813685248%Z 4798427222068559%Z 8453773982595950%Z 54%Z 18014398509481984%Z.
  rq (5682910006162749 / 9007199254740992 / (4798427222068559 / 2251799813685248)) 5682910006162749%Z 19193708888274236%Z 5333737535588061%Z 54%Z 18014398509481984%Z.
  rq (1 / 2 / (4798427222068559 / 2251799813685248)) 1125899906842624%Z 4798427222068559%Z 8453773982595950%Z 55%Z 36028797018963968%Z.
  rq (2 + 8453773982595950 / 18014398509481984) 22241285500779959%Z 9007199254740992%Z 5560321375194990%Z 51%Z 2251799813685248%Z.
  rq (5560321375194990 / 2251799813685248 + 5333737535588061 / 18014398509481984) 49816308537147981%Z 18014398509481984%Z 6227038567143498%Z 51%Z 2251799813685248%Z.
  rq (6227038567143498 / 2251799813685248 + 8453773982595950 / 36028797018963968) 54043195528445959%Z 18014398509481984%Z 6755399441055745%Z 51%Z 2251799813685248%Z.
  rq (6755399441055745 / 2251799813685248 / 3) 6755399441055745%Z 6755399441055744%Z 4503599627370497%Z 52%Z 4503599627370496%Z.
  reflexivity.
Qed.

Lemma double_half z : (0 <= z < 2 ^ 53)%Z -> is_double (IZR z / 2).
Proof. apply rnd64_half. Qed.
Lemma double_52 z : (2 ^ 52 <= z < 2 ^ 53)%Z -> is_double (IZR z / IZR (2 ^ 52)).
Proof.
  intros B. unfold is_double. apply (rnd64_q z (2 ^ 52) z 52). unfold rounds_to.
  rewrite !andb_true_iff, orb_true_iff, andb_true_iff, !Z.ltb_lt, !Z.leb_le. repeat split; try lia.
Qed.
Lemma faithful_2 lg : faithful lg -> lg 2%nat = 1.
Proof.
  intros F. destruct (F 2%nat (le_n 2)) as [_ G]. destruct (G 1) as [A B].
  { replace 1 with (IZR 2 / 2) by lra. apply double_half. lia. }
  replace (ln (INR 2) / ln 2) with 1 in *; [lra|]. replace (INR 2) with 2 by (cbn [INR]; lra). pose proof ln2_pos. field. lra.
Qed.
Lemma faithful_4 lg : faithful lg -> lg 4%nat = 2.
Proof.
  intros F. destruct (F 4%nat ltac:(lia)) as [_ G]. destruct (G 2) as [A B].
  { replace 2 with (IZR 4 / 2) by lra. apply double_half. lia. }
  replace (ln (INR 4) / ln 2) with 2 in *; [lra|]. replace (INR 4) with (2 * 2) by (cbn [INR]; lra). rewrite ln_mult by lra.
  pose proof ln2_pos. field. lra.
Qed.
Lemma faithful_3 lg : faithful lg -> lg 3%nat = 7138036527644008 / 4503599627370496 \/ lg 3%nat = 7138036527644009 / 4503599627370496.
Proof.
  intros F. destruct (F 3%nat ltac:(lia)) as [D G]. pose proof log2_3 as L. unfold log2 in L.
  replace (2 ^ 52) with 4503599627370496 in L by (rewrite pow_IZR; reflexivity).
  replace (INR 3) with 3 in G by (cbn [INR]; lra). set (x := ln 3 / ln 2) in *.
  destruct (G (7138036527644008 / 4503599627370496)) as [A _]; [apply (double_52 7138036527644008); lia|].
  destruct (G (7138036527644009 / 4503599627370496)) as [_ B]; [apply (double_52 7138036527644009); lia|].
  specialize (A ltac:(lra)). specialize (B ltac:(lra)). set (y := lg 3%nat) in *.
  assert (E : exponent y = (-52)%Z).
  { apply exponent_unique. change (-52 + 52)%Z with 0%Z. change (-52 + 53)%Z with 1%Z. cbn [powerRZ]. 
    change (Pos.to_nat 1) with 1%nat. cbn [pow]. lra. }
  unfold is_double in D. rewrite rnd64_eq, E in D by lra. set (z := rne (y * powerRZ 2 (- (-52)))) in *.
  replace (powerRZ 2 (-52)) with (/ 4503599627370496) in D.
  2:{ pose proof (p2_neg 52) as N. rewrite (p2_pos_int 52) in N by lia. change (2 ^ 52)%Z with 4503599627370496%Z in N. change (- (52))%Z with (-52)%Z in N. lra. }
  assert (Z1 : IZR 7138036527644008 <= IZR z <= IZR 7138036527644009) by (cbn; lra). destruct Z1 as [Z1 Z2].
  apply le_IZR in Z1. apply le_IZR in Z2. assert (z = 7138036527644008 \/ z = 7138036527644009)%Z as [Ez|Ez] by lia; rewrite Ez in D; [left|right]; lra.
Qed.

Definition rd_test : csr Z := csr_of_rows 4 [[(0%nat, 1%Z)]; [(0%nat, 1%Z)]; [(0%nat, 1%Z); (1%nat, 1%Z); (2%nat, 1%Z)]].
Definition rd_rank (u : nat) : list Z := [0; 1; 2]%Z.
Lemma rd_wf : csr_wf rd_test.
Proof. apply csr_of_rows_wf. intros r p [<-|[<-|[<-|[]]]] Hp; simpl in Hp; intuition; subst; simpl; lia. Qed.
Lemma rd_users : test_users rd_test = [0; 1; 2]%nat. Proof. reflexivity. Qed.
Lemma rd_perfect u : In u (test_users rd_test) -> (length (test_items rd_test u) < c_cols rd_test)%nat /\ (3 <= length (rd_rank u))%nat /\
  valid_ranking (c_cols rd_test) (firstn 3 (rd_rank u)) /\
  forall i, (i < Nat.min 3 (length (test_items rd_test u)))%nat -> exists p, In p (test_items rd_test u) /\ nth i (rd_rank u) (-1)%Z = Z.of_nat p.
Proof.
  intros Hu. split; [|split; [|split]].
  - rewrite rd_users in Hu. destruct Hu as [<-|[<-|[<-|[]]]]; vm_compute; lia.
  - simpl; lia.
  - split; [repeat constructor; simpl; intuition; lia|]. simpl. intros z Hz. intuition; subst; lia.
  - rewrite rd_users in Hu. intros i Hi. exists i. destruct Hu as [<-|[<-|[<-|[]]]]; vm_compute in Hi.
    + assert (i = 0)%nat as -> by lia. vm_compute. auto.
    + assert (i = 0)%nat as -> by lia. vm_compute. auto.
    + assert (i = 0 \/ i = 1 \/ i = 2)%nat as [->|[->| ->]] by lia; vm_compute; auto.
Qed.

(** Whatever faithful logarithm the platform has, a perfect recommender gets NDCG 1.0000000000000002. *)
Theorem C156_refuted :
  exists (test : csr Z) (r : nat -> list Z) (K : nat),
    (1 <= K)%nat /\ csr_wf test /\ test_users test <> [] /\
    (forall u, In u (test_users test) -> (length (test_items test u) < c_cols test)%nat /\ (K <= length (r u))%nat /\
      valid_ranking (c_cols test) (firstn K (r u)) /\
      forall i, (i < Nat.min K (length (test_items test u)))%nat -> exists p, In p (test_items test u) /\ nth i (r u) (-1)%Z = Z.of_nat p) /\
    forall lg rec, faithful lg -> positive_log lg -> answers test r rec ->
    exists m, ranking_metrics_d rnd64 lg rec test K = Ok m /\ ndcg m = 1 + / 2 ^ 52.
Proof.
  exists rd_test, rd_rank, 3%nat. split; [lia|]. split; [apply rd_wf|]. split; [rewrite rd_users; discriminate|].
  split; [apply rd_perfect|]. intros lg rec F LP A. pose proof rounding_rnd64 as RN.
  eexists. split.
  { apply (metrics_d_form rnd64 RN lg LP rd_test rd_rank rec 3); auto; [apply rd_wf|rewrite rd_users; discriminate|vm_compute; discriminate|vm_compute; reflexivity|].
    intros u Hu. destruct (rd_perfect u Hu) as [? [? [? ?]]]. auto. }
  cbn [ndcg]. rewrite rd_users.
  change (test_items rd_test) with (fun u => test_items rd_test u).
  cbn [fold_left length].
  change (test_items rd_test 0) with [0%nat]. change (test_items rd_test 1) with [0%nat]. change (test_items rd_test 2) with [0; 1; 2]%nat.
  unfold rd_rank. cbn [firstn dcg_d]. 
  repeat match goal with |- context [isrel ?l ?z] => let b := eval vm_compute in (isrel l z) in change (isrel l z) with b end. cbv iota.
  unfold idcg_d, cg_sum_d. cbn [Nat.min length Nat.sub seq fold_left]. unfold cg_d. cbn [Nat.add].
  rewrite (faithful_2 lg F), (faithful_4 lg F).
  replace (1 / 1) with 1 by lra. replace (rnd64 1) with 1 by (symmetry; apply rnd_1; auto).
  replace (rnd64 (1 / 2)) with (1 / 2) by (symmetry; apply (rnd64_half 1); lia).
  replace (1 / 1) with 1 by lra. replace (rnd64 1) with 1 by (symmetry; apply rnd_1; auto).
  replace (0 + 1) with 1 by lra. replace (rnd64 1) with 1 by (symmetry; apply rnd_1; auto).
  replace (rnd64 (1 + 1)) with 2 by (replace (1 + 1) with (INR 2) by (cbn [INR]; lra); rewrite rnd_nat by (auto; unfold small; lia); cbn [INR]; lra).
  replace (INR 3) with 3 by (cbn [INR]; lra).
  change (final (lg 3%nat) = 1 + / 2 ^ 52). replace (2 ^ 52) with 4503599627370496 by (rewrite pow_IZR; reflexivity).
  destruct (faithful_3 lg F) as [-> | ->]; [rewrite final_0|rewrite final_1]; lra.
Qed.
Print Assumptions C156_refuted.

(** A correctly rounded logarithm is faithful, positive and ordered. *)
Definition lg_exact (n : nat) : R := rnd64 (log2 (INR n)).
Lemma log2_ge n : (2 <= n)%nat -> 0 < log2 (INR n).
Proof. intros H. replace (INR n) with (INR (n - 2) + 2) by (rewrite minus_INR by auto; cbn [INR]; lra). apply log2_pos. Qed.
Lemma log2_mono n m : (2 <= n <= m)%nat -> log2 (INR n) <= log2 (INR m).
Proof.
  intros [A B]. unfold log2, Rdiv. apply Rmult_le_compat_r; [left; apply Rinv_0_lt_compat, ln2_pos|].
  assert (0 < INR n) by (apply (lt_INR 0); lia). apply le_INR in B. destruct B as [B| ->]; [left; apply ln_increasing; auto|lra].
Qed.
Example C156_example :
  faithful lg_exact /\ positive_log lg_exact /\ ordered_log lg_exact /\
  (Z.of_nat (c_cols rd_test) <= 2 ^ 26)%Z /\ (Z.of_nat (length (test_users rd_test) * 3) < 2 ^ 52)%Z /\
  answers rd_test rd_rank (fun b => Ok (map rd_rank b)).
Proof.
  split; [|split; [|split; [|repeat split; vm_compute; congruence]]].
  - intros n Hn. pose proof (log2_ge n Hn) as P. split; [apply rnd64_idem; lra|]. intros d D. unfold lg_exact, log2, is_double in *. split; intros L.
    + destruct (Rle_dec 0 d) as [P0|N0].
      * rewrite <- D. apply rnd64_mono. lra.
      * assert (0 <= rnd64 (ln (INR n) / ln 2)); [|lra]. apply rnd_nonneg; [apply rounding_rnd64|lra].
    + rewrite <- D. apply rnd64_mono. lra.
  - intros n Hn. apply rnd_pos; [apply rounding_rnd64|apply log2_ge; auto].
  - intros n m H. apply rnd64_mono. split; [left; apply log2_ge; lia|apply log2_mono; auto].
Qed.
