(** C24, C25: weighting of the item-item models. *)
From Coq Require Import List Arith Lia Bool ZArith Permutation Sorted Reals Lra Psatz.
From Verif Require Import Base Num Heap Sparse TopkModel TopkSpec TopkProofs TopkBatch
  RecommendModel RecommendProofs RecommendProofs2 RVec
  KnnModel KnnProofs KnnRec2 PropKnn WeightModel WeightProofs.
Import ListNotations.
Local Open Scope R_scope.

(* ------------------------------------------------------------------ *)
(** C24.  Same shape and pattern: the stored positions, in order. *)
Definition same_pattern {A B} (X : coo A) (Y : coo B) : Prop :=
  o_rows X = o_rows Y /\ o_cols X = o_cols Y /\ map fst (o_entries X) = map fst (o_entries Y).

Lemma set_data_pattern {A B} (f : nat * nat * A -> B) X : same_pattern X (set_data f X).
Proof.
  unfold same_pattern, set_data. cbn. repeat split. rewrite map_map. apply map_ext. intros [[r c] v]. auto.
Qed.

(** Rows with a non-zero entry get unit norm and keep their direction; rows
    whose stored entries are all zero become non-numbers. *)
Theorem C24_normalize : forall (X : coo R),
  same_pattern X (normalize X) /\
  (forall r, (exists c v, In (r, c, v) (o_entries X) /\ v <> 0) ->
     exists ys norm, 0 < norm /\
       map eval_ (filter (fun e => erow e =? r)%nat (o_entries (normalize X))) = map Some ys /\
       map eval_ (filter (fun e => erow e =? r)%nat (o_entries X)) = map (fun y => norm * y) ys /\
       rsum (map (fun y => y * y) ys) = 1) /\
  (forall r c y, (forall c v, In (r, c, v) (o_entries X) -> v = 0) ->
     In (r, c, y) (o_entries (normalize X)) -> y = None).
Proof.
  intros X. split; [apply set_data_pattern|]. split.
  - intros r [c [v [Hv NZ]]].
    set (S := row_total (fun x => x * x) X r).
    assert (PS : 0 < S).
    { unfold S, row_total. apply rsum_pos_in with (v * v).
      - intros y Hy. apply in_map_iff in Hy. destruct Hy as [e [<- _]]. nra.
      - apply in_map_iff. exists (r, c, v). split; auto. apply filter_In. split; auto. apply Nat.eqb_refl.
      - nra. }
    set (row := filter (fun e : nat * nat * R => (erow e =? r)%nat) (o_entries X)).
    exists (map (fun e => eval_ e / sqrt S) row), (sqrt S).
    assert (SQ : 0 < sqrt S) by (apply sqrt_lt_R0; auto).
    split; [auto|]. split; [|split].
    + rewrite map_map. unfold normalize, set_data. cbn [o_entries].
      assert (G : forall l, map eval_ (filter (fun e => erow e =? r)%nat
           (map (fun e : nat * nat * R => (erow e, ecol e, fdiv (eval_ e) (sqrt (row_total (fun x => x * x) X (erow e))))) l)) =
         map (fun e => Some (eval_ e / sqrt S)) (filter (fun e => erow e =? r)%nat l)).
      { induction l as [|e l IH]; auto. cbn [map filter]. unfold erow at 1. cbn [fst].
        destruct (Nat.eqb_spec (erow e) r) as [E|NE]; auto. cbn [map]. rewrite IH. f_equal.
        unfold eval_ at 1. cbn [snd]. rewrite E. fold S. apply fdiv_some. lra. }
      apply G.
    + rewrite map_map. apply map_ext. intros e. field. lra.
    + rewrite map_map.
      rewrite (rsum_map_ext _ (fun e => (/ S) * (eval_ e * eval_ e))).
      * rewrite rsum_map_scale. change (rsum (map (fun e => eval_ e * eval_ e) row)) with S. field. lra.
      * intros e _. pose proof (sqrt_sqrt S) as Q. specialize (Q ltac:(lra)).
        transitivity (eval_ e * eval_ e / (sqrt S * sqrt S)); [field; lra|]. rewrite Q. field. lra.
  - intros r c y Z Hy. unfold normalize, set_data in Hy. cbn [o_entries] in Hy. apply in_map_iff in Hy.
    destruct Hy as [[[r' c'] v] [E Hv]]. unfold erow, ecol, eval_ in E. cbn [fst snd] in E. inversion E; subst.
    replace (row_total (fun x => x * x) X r) with 0.
    + rewrite sqrt_0. apply fdiv_none.
    + symmetry. apply rsum_zero. intros x Hx. apply in_map_iff in Hx. destruct Hx as [[[r' c'] v'] [<- Hx]].
      apply filter_In in Hx. destruct Hx as [Hx B]. apply Nat.eqb_eq in B. unfold erow in B. cbn [fst] in B. subst r'.
      unfold eval_. cbn [snd]. rewrite (Z c' v' Hx). lra.
Qed.
Print Assumptions C24_normalize.

(** Specification: the cosine of the columns of the counts of two items. *)
Definition column (m : csr R) (i : nat) : list R := map (fun u => dense m u i) (seq 0 (c_rows m)).
Definition spec_cosine (m : csr R) (i j : nat) : R :=
  rdot (column m i) (column m j) / (sqrt (rdot (column m i) (column m i)) * sqrt (rdot (column m j) (column m j))).

Lemma abs_cosine x y : 0 < rdot x x -> 0 < rdot y y ->
  -1 <= rdot x y / (sqrt (rdot x x) * sqrt (rdot y y)) <= 1.
Proof.
  intros X Y. pose proof (cauchy_schwarz x y) as CS.
  set (d := sqrt (rdot x x) * sqrt (rdot y y)).
  assert (D : 0 < d) by (apply Rmult_lt_0_compat; apply sqrt_lt_R0; auto).
  assert (DD : d * d = rdot x x * rdot y y).
  { unfold d. transitivity ((sqrt (rdot x x) * sqrt (rdot x x)) * (sqrt (rdot y y) * sqrt (rdot y y))); [ring|].
    rewrite !sqrt_sqrt; lra. }
  assert (B : -d <= rdot x y <= d).
  { split; apply Rnot_lt_le; intros L; nra. }
  split.
  - apply Rmult_le_reg_r with d; auto. unfold Rdiv. rewrite Rmult_assoc, Rinv_l, Rmult_1_r by lra. lra.
  - apply Rmult_le_reg_r with d; auto. unfold Rdiv. rewrite Rmult_assoc, Rinv_l, Rmult_1_r by lra. lra.
Qed.

Section Cosine.
Variable counts : csr R.
Hypothesis Wf : csr_wf counts.
Hypothesis ND : forall u, (u < c_rows counts)%nat -> NoDup (csr_row_indices counts u).
Hypothesis NZ : forall u i v, (u < c_rows counts)%nat -> In (i, v) (csr_row counts u) ->
  exists u' v', (u' < c_rows counts)%nat /\ In (i, v') (csr_row counts u') /\ v' <> 0.

Let items := coo_T (coo_of_csr counts).
Let norm2 (i : nat) := row_total (fun x => x * x) items i.

Lemma norm2_column i : norm2 i = rdot (column counts i) (column counts i).
Proof.
  unfold norm2, row_total, items, coo_T. cbn [o_entries]. rewrite swap_filter, map_map.
  transitivity (rsum (map (fun e => eval_ e * eval_ e) (filter (fun e => ecol e =? i)%nat (o_entries (coo_of_csr counts)))));
    [reflexivity|].
  rewrite (coo_of_csr_col counts (fun x => x * x) i). unfold column. rewrite rdot_map. apply rsum_map_ext.
  intros u Hu. apply in_seq in Hu. unfold dense.
  destruct (nodup_filter_fst (csr_row counts u) i (ND u ltac:(lia))) as [->|[v ->]]; cbn [map rsum snd]; lra.
Qed.

Lemma norm2_pos u i v : (u < c_rows counts)%nat -> In (i, v) (csr_row counts u) -> 0 < norm2 i.
Proof.
  intros Hu Hi. destruct (NZ u i v Hu Hi) as [u' [v' [Hu' [Hi' Hv]]]].
  unfold norm2, row_total. apply rsum_pos_in with (v' * v'); [|apply in_map_iff; exists (i, u', v'); split; auto|nra].
  - intros y Hy. apply in_map_iff in Hy. destruct Hy as [e [<- _]]. nra.
  - apply filter_In. split; [|apply Nat.eqb_refl]. unfold items, coo_T. cbn [o_entries].
    apply in_map_iff. exists (u', i, v'). split; auto. apply in_coo_of_csr. auto.
Qed.

Definition cos_weight (e : nat * nat * R) : R := eval_ e / sqrt (norm2 (erow e)).
Definition cos_W : coo R := coo_T (set_data cos_weight items).

Lemma cosine_weights_some : cosine_weights counts = Some cos_W.
Proof.
  unfold cosine_weights, normalize. fold items. rewrite (finite_some items _ cos_weight); [reflexivity|].
  intros [[i u] v] He. unfold cos_weight. apply fdiv_some. fold (norm2 (erow (i, u, v))).
  unfold items, coo_T in He. cbn [o_entries] in He. apply in_map_iff in He. destruct He as [[[u' i'] v'] [E He]].
  unfold erow, ecol, eval_ in E. cbn [fst snd] in E. inversion E; subst. apply in_coo_of_csr in He.
  unfold erow. cbn [fst]. assert (0 < norm2 i) by (eapply norm2_pos; apply He).
  pose proof (sqrt_lt_R0 _ H). lra.
Qed.

Definition cos_csr : csr R := coo_to_csr (c_rows counts) (c_cols counts) (o_entries cos_W).

Lemma cos_entries : o_entries cos_W =
  map (fun e => (erow e, ecol e, eval_ e / sqrt (norm2 (ecol e)))) (o_entries (coo_of_csr counts)).
Proof. unfold cos_W, coo_T, set_data, items, coo_T. cbn [o_entries]. rewrite !map_map. apply map_ext. intros [[u i] v]. reflexivity. Qed.

Lemma cos_dense u i : (u < c_rows counts)%nat -> (i < c_cols counts)%nat ->
  dense cos_csr u i = / sqrt (norm2 i) * dense counts u i.
Proof.
  intros Hu Hi. unfold dense at 1. unfold cos_csr. rewrite coo_to_csr_row by auto.
  change (rsum (map snd (filter (fun p => (fst p =? i)%nat) (coo_row (c_cols counts) (o_entries cos_W) u))))
    with (row_dense (coo_row (c_cols counts) (o_entries cos_W) u) i).
  rewrite coo_row_dense by auto. unfold coo_dense. rewrite cos_entries.
  assert (G : forall l, rsum (map eval_ (filter (at_ u i) (map (fun e => (erow e, ecol e, eval_ e / sqrt (norm2 (ecol e)))) l)))
     = / sqrt (norm2 i) * rsum (map (fun e => eval_ e) (filter (at_ u i) l))).
  { induction l as [|e l IH]; [simpl; lra|]. cbn [map filter].
    change (at_ u i (erow e, ecol e, eval_ e / sqrt (norm2 (ecol e)))) with (at_ u i e).
    destruct (at_ u i e) eqn:B; [|exact IH]. cbn [map rsum]. rewrite IH.
    unfold at_ in B. apply andb_true_iff in B. destruct B as [_ B]. apply Nat.eqb_eq in B. rewrite B. unfold eval_ at 1. cbn [snd].
    unfold Rdiv. ring. }
  rewrite G. f_equal. apply (coo_of_csr_filter counts (fun x => x) u i Hu).
Qed.

Lemma cos_indices u i : (u < c_rows counts)%nat ->
  In i (csr_row_indices cos_csr u) <-> In i (csr_row_indices counts u).
Proof.
  intros Hu. unfold csr_row_indices at 1. unfold cos_csr. rewrite coo_to_csr_row by auto.
  rewrite coo_row_in, cos_entries. split.
  - intros [_ [v Hv]]. apply in_map_iff in Hv. destruct Hv as [[[u' i'] v'] [E He]].
    unfold erow, ecol in E. cbn [fst snd] in E. inversion E; subst. apply in_coo_of_csr in He.
    unfold csr_row_indices. apply in_map_iff. exists (i, v'). tauto.
  - intros Hi. split; [eapply csr_row_indices_lt; eauto|].
    unfold csr_row_indices in Hi. apply in_map_iff in Hi. destruct Hi as [[i' v] [<- Hi]].
    eexists. apply in_map_iff. exists (u, i', v). split; [reflexivity|]. apply in_coo_of_csr. auto.
Qed.

Lemma cos_shares i : shares_user cos_csr i = shares_user counts i.
Proof.
  unfold shares_user. assert (R1 : c_rows cos_csr = c_rows counts).
  { unfold cos_csr, coo_to_csr. simpl. rewrite map_length, seq_length. auto. }
  rewrite R1. replace (c_cols cos_csr) with (c_cols counts) by reflexivity.
  apply filter_ext. intros j.
  assert (G : forall l, (forall u, In u l -> (u < c_rows counts)%nat) ->
     existsb (fun u => memn i (csr_row_indices cos_csr u) && memn j (csr_row_indices cos_csr u)) l =
     existsb (fun u => memn i (csr_row_indices counts u) && memn j (csr_row_indices counts u)) l).
  { induction l as [|u l IH]; intros B; auto. cbn [existsb]. rewrite IH by (intros; apply B; right; auto). f_equal.
    assert (M : forall x, memn x (csr_row_indices cos_csr u) = memn x (csr_row_indices counts u)).
    { intros x. apply eq_true_iff_eq. rewrite !memn_spec. apply cos_indices. apply B. left; auto. }
    rewrite !M. auto. }
  apply G. intros u Hu. apply in_seq in Hu. lia.
Qed.

Lemma cos_cooc i j : (i < c_cols counts)%nat -> (j < c_cols counts)%nat ->
  spec_cooc cos_csr i j = spec_cosine counts i j.
Proof.
  intros Hi Hj. rewrite C15_gram. unfold spec_cosine. rewrite <- !norm2_column. unfold column. rewrite rdot_map.
  assert (R1 : c_rows cos_csr = c_rows counts).
  { unfold cos_csr, coo_to_csr. simpl. rewrite map_length, seq_length. auto. }
  rewrite R1. rewrite (rsum_map_ext _ (fun u => (/ sqrt (norm2 i) * / sqrt (norm2 j)) * (dense counts u i * dense counts u j))).
  - rewrite rsum_map_scale. unfold Rdiv. rewrite Rinv_mult. ring.
  - intros u Hu. apply in_seq in Hu. rewrite !cos_dense by lia. ring.
Qed.

Lemma shares_pos i j : In j (shares_user counts i) -> 0 < norm2 i /\ 0 < norm2 j.
Proof.
  unfold shares_user. intros Hj. apply filter_In in Hj. destruct Hj as [_ B]. apply existsb_exists in B.
  destruct B as [u [Hu B]]. apply in_seq in Hu. apply andb_true_iff in B. rewrite !memn_spec in B.
  unfold csr_row_indices in B. rewrite !in_map_iff in B. destruct B as [[[i' v] [<- B1]] [[j' w] [<- B2]]].
  split; eapply norm2_pos; try eassumption; lia.
Qed.
End Cosine.

(** [counts]: no repeated entries; every item with stored counts has a non-zero
    one.  Each row of the fitted model holds the K best cosines (item 0 possibly
    also a zero, see C16); cosines lie in [-1, 1], are symmetric, and 1 for an item
    and itself. *)
Theorem C24_cosine :
  forall (HP : std_heap) (counts : csr R) (K : nat),
  std_heap_ok HP -> csr_wf counts -> (0 < K)%nat ->
  (forall u, (u < c_rows counts)%nat -> NoDup (csr_row_indices counts u)) ->
  (forall u i v, (u < c_rows counts)%nat -> In (i, v) (csr_row counts u) ->
     exists u' v', (u' < c_rows counts)%nat /\ In (i, v') (csr_row counts u') /\ v' <> 0) ->
  exists S, cosine_fit HP K counts = Some (Ok S) /\ c_rows S = c_cols counts /\
  (forall i, (i < c_cols counts)%nat -> exists ids scores,
    TopN (spec_cosine counts i) (shares_user counts i) (Nat.min K (length (shares_user counts i))) ids scores /\
    exists extra : bool, (extra = true -> i = 0%nat) /\
    row_is (csr_row S i) (fun j v =>
      (In j ids /\ v = spec_cosine counts i j) \/ (extra = true /\ j = 0%nat /\ ~ In 0%nat ids /\ v = 0))) /\
  (forall i j v, (i < c_cols counts)%nat -> In (j, v) (csr_row S i) -> -1 <= v <= 1) /\
  (forall i j v w, (i < c_cols counts)%nat -> (j < c_cols counts)%nat ->
     In (j, v) (csr_row S i) -> In (i, w) (csr_row S j) -> v = w) /\
  (forall i v, (0 < i < c_cols counts)%nat -> In (i, v) (csr_row S i) -> v = 1).
Proof.
  intros HP counts K HC Wf HK ND NZ.
  destruct (C15_exact R Num_R NumOrd_R HP (cos_csr counts) K HC (coo_to_csr_wf _ _ _) HK Rplus_0_r) as [S [E [R1 [R2 [WF RW]]]]].
  assert (CC : c_cols (cos_csr counts) = c_cols counts) by reflexivity. rewrite CC in *.
  assert (ROW : forall i, (i < c_cols counts)%nat -> exists ids scores,
    TopN (spec_cosine counts i) (shares_user counts i) (Nat.min K (length (shares_user counts i))) ids scores /\
    exists extra : bool, (extra = true -> i = 0%nat) /\
    row_is (csr_row S i) (fun j v =>
      (In j ids /\ v = spec_cosine counts i j) \/ (extra = true /\ j = 0%nat /\ ~ In 0%nat ids /\ v = 0))).
  { intros i Hi. destruct (RW i Hi) as [ids [sc [TN [extra [EX RI]]]]].
    rewrite (cos_shares counts Wf i) in TN.
    assert (LT : forall j, In j (shares_user counts i) -> (j < c_cols counts)%nat).
    { intros j Hj. unfold shares_user in Hj. apply filter_In in Hj. destruct Hj as [Hj _]. apply in_seq in Hj. lia. }
    exists ids, sc. split.
    - eapply TopN_ext; [|exact TN]. intros j Hj. apply cos_cooc; auto.
    - exists extra. split; auto. destruct RI as [S1 S2]. split; auto. intros j v. rewrite S2. split.
      + intros [[Hj ->]|X]; [left|right; exact X]. split; auto. apply cos_cooc; auto. apply LT, (topn_incl _ _ _ _ _ TN); auto.
      + intros [[Hj ->]|X]; [left|right; exact X]. split; auto. symmetry. apply cos_cooc; auto. apply LT, (topn_incl _ _ _ _ _ TN); auto. }
  assert (ENT : forall i j v, (i < c_cols counts)%nat -> In (j, v) (csr_row S i) ->
     (In j (shares_user counts i) /\ v = spec_cosine counts i j) \/ (i = 0%nat /\ j = 0%nat /\ v = 0)).
  { intros i j v Hi Hj. destruct (ROW i Hi) as [ids [sc [TN [extra [EX [_ S2]]]]]]. apply S2 in Hj.
    destruct Hj as [[Hj ->]|[X [-> [_ ->]]]]; [left|right; auto]. split; auto. apply (topn_incl _ _ _ _ _ TN); auto. }
  exists S. split; [unfold cosine_fit; rewrite (cosine_weights_some counts NZ); cbn [fit_weighted]; f_equal; exact E|].
  split; [exact R1|]. split; [exact ROW|]. split; [|split].
  - intros i j v Hi Hj. destruct (ENT i j v Hi Hj) as [[Hs ->]|[_ [_ ->]]]; [|lra].
    destruct (shares_pos counts NZ i j Hs) as [P1 P2].
    unfold spec_cosine. apply abs_cosine; rewrite <- (norm2_column counts ND); auto.
  - intros i j v w Hi Hj A B. destruct (ENT i j v Hi A) as [[Hs ->]|[-> [-> ->]]].
    + destruct (ENT j i w Hj B) as [[Hs' ->]|[-> [-> ->]]].
      * unfold spec_cosine. rewrite (rdot_comm (column counts j) (column counts i)). f_equal. ring.
      * (* the same cell of row 0 *)
        destruct (ROW 0%nat Hi) as [ids [sc [TN [extra [EX [_ S2]]]]]].
        apply S2 in A, B. destruct A as [[A1 A2]|[_ [_ [A1 A2]]]], B as [[B1 B2]|[_ [_ [B1 B2]]]]; try tauto; congruence.
    + destruct (ROW 0%nat Hi) as [ids [sc [TN [extra [EX [_ S2]]]]]].
      apply S2 in A, B. destruct A as [[A1 A2]|[_ [_ [A1 A2]]]], B as [[B1 B2]|[_ [_ [B1 B2]]]]; try tauto; congruence.
  - intros i v Hi A. destruct (ENT i i v ltac:(lia) A) as [[Hs ->]|[-> _]]; [|lia].
    destruct (shares_pos counts NZ i i Hs) as [P1 _]. unfold spec_cosine.
    rewrite <- (norm2_column counts ND i). rewrite sqrt_sqrt by lra. field. lra.
Qed.
Print Assumptions C24_cosine.

(** Two users, two items: cosine 24/25. *)
Definition ex_counts : csr R := csr_of_rows 2 [[(0%nat, 3); (1%nat, 4)]; [(0%nat, 4); (1%nat, 3)]].
Example C24_example :
  csr_wf ex_counts /\
  (forall u, (u < c_rows ex_counts)%nat -> NoDup (csr_row_indices ex_counts u)) /\
  (forall u i v, (u < c_rows ex_counts)%nat -> In (i, v) (csr_row ex_counts u) ->
     exists u' v', (u' < c_rows ex_counts)%nat /\ In (i, v') (csr_row ex_counts u') /\ v' <> 0) /\
  spec_cosine ex_counts 0 1 = 24 / 25 /\ shares_user ex_counts 0 = [0; 1]%nat.
Proof.
  assert (ROWS : forall u, (u < c_rows ex_counts)%nat -> u = 0%nat \/ u = 1%nat) by (simpl; lia).
  split; [|split; [|split; [|split]]].
  - apply csr_of_rows_wf. intros r p Hr Hp. simpl in Hr. destruct Hr as [<-|[<-|[]]]; simpl in Hp;
      destruct Hp as [<-|[<-|[]]]; simpl; lia.
  - intros u Hu. destruct (ROWS u Hu) as [-> | ->]; unfold csr_row_indices; simpl; repeat constructor; simpl; intuition lia.
  - intros u i v Hu Hi. exists u, v. split; auto. split; auto.
    destruct (ROWS u Hu) as [-> | ->]; unfold ex_counts in Hi; rewrite csr_row_of_rows in Hi; simpl in Hi;
      destruct Hi as [E|[E|[]]]; inversion E; lra.
  - unfold spec_cosine, column, dense. cbn [c_rows ex_counts csr_of_rows length seq map]. fold ex_counts.
    unfold ex_counts. rewrite !csr_row_of_rows. cbn.
    replace (sqrt ((3 + 0) * (3 + 0) + ((4 + 0) * (4 + 0) + 0))) with 5.
    2:{ symmetry. apply sqrt_lem_1; lra. }
    replace (sqrt ((4 + 0) * (4 + 0) + ((3 + 0) * (3 + 0) + 0))) with 5.
    2:{ symmetry. apply sqrt_lem_1; lra. }
    field.
  - unfold shares_user, csr_row_indices, ex_counts. simpl. reflexivity.
Qed.

(* ------------------------------------------------------------------ *)
(** C25. *)
Lemma idf_nonneg X c : (1 + col_count X c <= o_rows X)%nat -> 0 <= idf X c.
Proof.
  intros L. unfold idf. assert (P : 0 < 1 + INR (col_count X c)).
  { pose proof (pos_INR (col_count X c)). lra. }
  assert (Q : 1 + INR (col_count X c) <= INR (o_rows X)).
  { rewrite Rplus_comm, <- S_INR. apply le_INR. lia. }
  destruct Q as [Q|Q]; [pose proof (ln_increasing _ _ P Q); lra|rewrite Q; lra].
Qed.
Lemma idf_pos X c : (1 + col_count X c < o_rows X)%nat -> 0 < idf X c.
Proof.
  intros L. unfold idf. assert (P : 0 < 1 + INR (col_count X c)).
  { pose proof (pos_INR (col_count X c)). lra. }
  assert (Q : 1 + INR (col_count X c) < INR (o_rows X)).
  { rewrite Rplus_comm, <- S_INR. apply lt_INR. lia. }
  pose proof (ln_increasing _ _ P Q); lra.
Qed.

(** The document frequency of column [c]: the number of its stored entries. *)
Definition spec_df (X : coo R) (c : nat) : nat :=
  length (filter (fun e => ecol e =? c)%nat (o_entries X)).
(** Smoothed inverse document frequency. *)
Definition spec_idf (X : coo R) (c : nat) : R := ln (INR (o_rows X) / (1 + INR (spec_df X c))).

Lemma idf_spec X c : (0 < o_rows X)%nat -> idf X c = spec_idf X c.
Proof.
  intros H. unfold idf, spec_idf. apply lt_INR in H. simpl in H.
  assert (P : 0 < 1 + INR (spec_df X c)).
  { pose proof (pos_INR (spec_df X c)). lra. }
  unfold Rdiv. rewrite ln_mult by (auto; apply Rinv_0_lt_compat; auto). rewrite ln_Rinv by auto. reflexivity.
Qed.

(** tf-idf: pattern kept, values sqrt(count) * idf, monotone in the count within
    a column while some row does not occur in it. *)
Theorem C25_tfidf : forall (X : coo R),
  (forall e, In e (o_entries X) -> (erow e < o_rows X)%nat /\ 0 <= eval_ e) ->
  same_pattern X (tfidf_weight X) /\
  (forall k r c x, nth_error (o_entries X) k = Some (r, c, x) ->
     nth_error (o_entries (tfidf_weight X)) k = Some (r, c, Some (sqrt x * spec_idf X c))) /\
  (forall c x y, (spec_df X c < o_rows X)%nat -> 0 <= x <= y -> 
     0 <= sqrt x * spec_idf X c <= sqrt y * spec_idf X c) /\
  (forall c x y, (1 + spec_df X c < o_rows X)%nat -> 0 <= x < y -> sqrt x * spec_idf X c < sqrt y * spec_idf X c).
Proof.
  intros X P. split; [apply set_data_pattern|]. split; [|split].
  - intros k r c x Hk. unfold tfidf_weight, set_data. cbn [o_entries]. rewrite nth_error_map, Hk. cbn [option_map].
    unfold erow, ecol, eval_. cbn [fst snd]. pose proof (nth_error_In _ _ Hk) as Hin. destruct (P _ Hin) as [L N].
    unfold eval_ in N. cbn [snd] in N. rewrite fsqrt_some by auto. cbn [fmul].
    rewrite idf_spec by (unfold erow in L; cbn in L; lia). auto.
  - intros c x y L [X0 XY]. assert (I : 0 <= spec_idf X c).
    { rewrite <- idf_spec by lia. apply idf_nonneg. unfold spec_df in L. unfold col_count. lia. }
    pose proof (sqrt_pos x). pose proof (sqrt_le_1_alt x y XY). nra.
  - intros c x y L [X0 XY]. assert (I : 0 < spec_idf X c).
    { rewrite <- idf_spec by lia. apply idf_pos. unfold spec_df in L. unfold col_count. lia. }
    pose proof (sqrt_lt_1_alt x y (conj X0 XY)). nra.
Qed.
Print Assumptions C25_tfidf.

(** Counterpart: a user who rated every item reverses the order. *)
Theorem C25_full_column_negative : forall (X : coo R) c x y,
  (0 < o_rows X)%nat -> spec_df X c = o_rows X -> 0 <= x < y -> sqrt y * spec_idf X c < sqrt x * spec_idf X c.
Proof.
  intros X c x y H E [X0 XY]. pose proof (sqrt_lt_1_alt x y (conj X0 XY)).
  assert (spec_idf X c < 0); [|nra]. rewrite <- idf_spec by auto. unfold idf. unfold col_count. unfold spec_df in E. rewrite E.
  apply lt_INR in H. simpl in H. assert (ln (INR (o_rows X)) < ln (1 + INR (o_rows X))); [apply ln_increasing; lra|lra].
Qed.
Print Assumptions C25_full_column_negative.

(** BM25 specification. *)
Definition spec_total (X : coo R) (r : nat) : R :=
  rsum (map eval_ (filter (fun e => erow e =? r)%nat (o_entries X))).
Definition spec_average (X : coo R) : R := rsum (map eval_ (o_entries X)) / INR (o_rows X).
Definition spec_bm25 (K1 B len avg x idf : R) : R :=
  x * (K1 + 1) / (K1 * (1 - B + B * len / avg) + x) * idf.

Lemma total_rows (X : coo R) : (forall e, In e (o_entries X) -> (erow e < o_rows X)%nat) ->
  rsum (row_sums X) = rsum (map eval_ (o_entries X)).
Proof.
  intros P. unfold row_sums, row_total. induction (o_entries X) as [|e l IH].
  - simpl. apply rsum_zero. intros x Hx. apply in_map_iff in Hx. destruct Hx as [r [<- _]]. auto.
  - cbn [map rsum]. rewrite <- IH by (intros; apply P; right; auto).
    rewrite (rsum_map_ext _ (fun r => (if (erow e =? r)%nat then eval_ e else 0) +
       rsum (map (fun e => eval_ e) (filter (fun e => (erow e =? r)%nat) l)))).
    + rewrite rsum_map_add. f_equal.
      rewrite (rsum_single (fun r => if (erow e =? r)%nat then eval_ e else 0) (erow e)).
      * rewrite Nat.eqb_refl. auto.
      * specialize (P e (or_introl eq_refl)). lia.
      * intros c NE. destruct (Nat.eqb_spec (erow e) c); auto. congruence.
    + intros r _. cbn [filter]. destruct (erow e =? r)%nat; cbn [map rsum]; lra.
Qed.

Theorem C25_bm25 : forall (K1 B : R) (X : coo R),
  0 <= K1 -> 0 <= B <= 1 ->
  (forall e, In e (o_entries X) -> (erow e < o_rows X)%nat /\ 0 < eval_ e) ->
  same_pattern X (bm25_weight K1 B X) /\
  (forall k r c x, nth_error (o_entries X) k = Some (r, c, x) ->
     nth_error (o_entries (bm25_weight K1 B X)) k =
       Some (r, c, Some (spec_bm25 K1 B (spec_total X r) (spec_average X) x (spec_idf X c)))) /\
  (* increasing in the count, bounded, for rows of the same length *)
  (forall c len avg x y, (spec_df X c < o_rows X)%nat -> 0 < avg -> 0 < len -> 0 < x <= y ->
     0 <= spec_bm25 K1 B len avg x (spec_idf X c) <= spec_bm25 K1 B len avg y (spec_idf X c) /\
     spec_bm25 K1 B len avg y (spec_idf X c) <= (K1 + 1) * spec_idf X c) /\
  (* decreasing in the length of the row *)
  (forall c len len' avg x, (spec_df X c < o_rows X)%nat -> 0 < avg -> 0 < len <= len' -> 0 < x ->
     spec_bm25 K1 B len' avg x (spec_idf X c) <= spec_bm25 K1 B len avg x (spec_idf X c)).
Proof.
  intros K1 B X HK HB P. split; [apply set_data_pattern|].
  assert (LN : forall len avg, 0 < avg -> 0 < len -> 0 <= 1 - B + B * len / avg).
  { intros len avg A L. assert (0 <= B * len / avg); [|lra].
    unfold Rdiv. apply Rmult_le_pos; [nra|]. left. apply Rinv_0_lt_compat; auto. }
  assert (II : forall c, (spec_df X c < o_rows X)%nat -> 0 <= spec_idf X c).
  { intros c L. rewrite <- idf_spec by lia. apply idf_nonneg. unfold spec_df in L. unfold col_count. lia. }
  split; [|split].
  - intros k r c x Hk. pose proof (nth_error_In _ _ Hk) as Hin. destruct (P _ Hin) as [L N].
    unfold eval_, erow in L, N. cbn [fst snd] in L, N.
    unfold bm25_weight, set_data. cbn [o_entries]. rewrite nth_error_map, Hk. cbn [option_map].
    unfold erow, ecol, eval_. cbn [fst snd].
    assert (R0 : 0 < INR (o_rows X)) by (apply (lt_INR 0); lia).
    assert (TOT : 0 < rsum (map eval_ (o_entries X))).
    { apply rsum_pos_in with x; auto.
      - intros y Hy. apply in_map_iff in Hy. destruct Hy as [e [<- He]]. destruct (P e He). lra.
      - apply in_map_iff. exists (r, c, x). auto. }
    assert (AVG : 0 < spec_average X).
    { unfold spec_average, Rdiv. apply Rmult_lt_0_compat; auto. apply Rinv_0_lt_compat; auto. }
    assert (LEN : 0 < spec_total X r).
    { apply rsum_pos_in with x; auto.
      - intros y Hy. apply in_map_iff in Hy. destruct Hy as [e [<- He]]. apply filter_In in He. destruct (P e (proj1 He)). lra.
      - apply in_map_iff. exists (r, c, x). split; auto. apply filter_In. split; auto. apply Nat.eqb_refl. }
    unfold length_norm. rewrite total_rows by (intros e He; apply P; auto).
    rewrite fdiv_some by lra. fold (spec_average X). rewrite fdiv_some by lra.
    replace (nth r (row_sums X) 0) with (spec_total X r).
    2:{ unfold row_sums. rewrite (nth_indep _ 0 (row_total (fun x => x) X 0)) by (rewrite map_length, seq_length; auto).
        rewrite map_nth, seq_nth by auto. reflexivity. }
    pose proof (LN (spec_total X r) (spec_average X) AVG LEN).
    rewrite fdiv_some by nra. cbn [fmul]. rewrite idf_spec by lia. reflexivity.
  - intros c len avg x y L A LE [X0 XY]. specialize (II c L). specialize (LN len avg A LE).
    unfold spec_bm25. set (l := 1 - B + B * len / avg) in *. 
    assert (F : forall z, 0 < z -> 0 <= z * (K1 + 1) / (K1 * l + z) <= K1 + 1).
    { intros z Z0. assert (0 < K1 * l + z) by nra. split.
      - unfold Rdiv. apply Rmult_le_pos; [nra|]. left. apply Rinv_0_lt_compat; auto.
      - apply Rmult_le_reg_r with (K1 * l + z); auto. unfold Rdiv. rewrite Rmult_assoc, Rinv_l, Rmult_1_r by lra.
        assert (0 <= K1 * l) by nra. nra. }
    assert (M : x * (K1 + 1) / (K1 * l + x) <= y * (K1 + 1) / (K1 * l + y)).
    { assert (0 < K1 * l + x) by nra. assert (0 < K1 * l + y) by nra.
      apply Rmult_le_reg_r with ((K1 * l + x) * (K1 * l + y)); [nra|].
      replace (x * (K1 + 1) / (K1 * l + x) * ((K1 * l + x) * (K1 * l + y))) with (x * (K1 + 1) * (K1 * l + y)) by (field; lra).
      replace (y * (K1 + 1) / (K1 * l + y) * ((K1 * l + x) * (K1 * l + y))) with (y * (K1 + 1) * (K1 * l + x)) by (field; lra).
      assert (0 <= K1 * l) by nra. assert (0 <= (y - x) * (K1 * l)) by nra. nra. }
    pose proof (F x X0) as FX. pose proof (F y ltac:(lra)) as FY.
    set (a := x * (K1 + 1) / (K1 * l + x)) in *. set (b := y * (K1 + 1) / (K1 * l + y)) in *.
    split; [split|]; nra.
  - intros c len len' avg x L A [LE LE'] X0. specialize (II c L). unfold spec_bm25.
    pose proof (LN len avg A LE) as L1. pose proof (LN len' avg A ltac:(lra)) as L2.
    assert (D : 1 - B + B * len / avg <= 1 - B + B * len' / avg).
    { assert (B * len / avg <= B * len' / avg); [|lra]. unfold Rdiv. apply Rmult_le_compat_r; [|nra].
      left. apply Rinv_0_lt_compat; auto. }
    set (l := 1 - B + B * len / avg) in *. set (l' := 1 - B + B * len' / avg) in *.
    assert (P1 : 0 < K1 * l + x) by nra. assert (P2 : 0 < K1 * l' + x) by nra.
    apply Rmult_le_compat_r; auto. unfold Rdiv. apply Rmult_le_compat_l; [nra|].
    apply Rinv_le_contravar; nra.
Qed.
Print Assumptions C25_bm25.

(** A two-row matrix meeting the hypotheses, with a column below the limit. *)
Definition ex_coo : coo R := {| o_rows := 3; o_cols := 2; o_entries := [(0%nat, 0%nat, 4); (2%nat, 0%nat, 1); (0%nat, 1%nat, 9)] |}.
Example C25_example :
  (forall e, In e (o_entries ex_coo) -> (erow e < o_rows ex_coo)%nat /\ 0 < eval_ e) /\
  spec_df ex_coo 0 = 2%nat /\ spec_df ex_coo 1 = 1%nat /\ spec_total ex_coo 0 = 13 /\ spec_average ex_coo = 14 / 3 /\
  spec_idf ex_coo 1 = ln (3 / 2).
Proof.
  unfold erow, eval_. split; [|repeat split].
  - intros e He. simpl in He. repeat (destruct He as [<-|He]; [simpl; split; [lia|lra]|]). tauto.
  - unfold spec_total. simpl. unfold eval_. simpl. lra.
  - unfold spec_average. simpl. unfold eval_. simpl. field.
  - unfold spec_idf. f_equal. simpl. field.
Qed.
