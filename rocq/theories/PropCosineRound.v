(** C162: the cosine item-item model in floating point. *)
From Coq Require Import List Arith Lia Bool ZArith Reals Lra Permutation Sorted.
From Coq Require Import Floats.SpecFloat.
From Verif Require Import Base Num Heap Sparse TopkModel TopkSpec TopkProofs RVec RecommendModel KnnModel KnnProofs PropKnn PropMore WeightModel WeightProofs PropWeight
  MetricsModel MetricsProofs MetricsDouble DoubleProofs SimilarProofs SimilarRound SimilarRoundProofs LossRound LossRoundProofs CosineRound CosineRoundProofs.
Import ListNotations.
Local Open Scope R_scope.

(** The users with a stored count of an item. *)
Definition raters {T} (m : csr T) (i : nat) : list nat :=
  filter (fun k => existsb (fun p => fst p =? i)%nat (csr_row m k)) (seq 0 (c_rows m)).
(** The error of a similarity when no item has more than [w] raters. *)
Definition cosine_error (u : R) (w : nat) : R := (/ (1 - u)) ^ (3 * w + 7) - 1.

Lemma raters_stored {T} (m : csr T) i : (forall k, (k < c_rows m)%nat -> NoDup (csr_row_indices m k)) -> length (stored_col m i) = length (raters m i).
Proof.
  intros ND. unfold stored_col, raters.
  assert (G : forall l, (forall k, In k l -> (k < c_rows m)%nat) ->
    length (flat_map (fun k => map snd (picks m k i)) l) = length (filter (fun k => existsb (fun p => fst p =? i)%nat (csr_row m k)) l)).
  { induction l as [|k l IH]; intros B; auto. cbn [flat_map filter]. rewrite app_length, map_length, IH by (intros; apply B; right; auto).
    destruct (nodup_filter_fst (csr_row m k) i (ND k (B k (or_introl eq_refl)))) as [P|(v & P)]; unfold picks; rewrite P; cbn [length].
    - assert (E : existsb (fun p => fst p =? i)%nat (csr_row m k) = false).
      { destruct (existsb _ _) eqn:E; auto. apply existsb_exists in E. destruct E as (p & Hp & E). assert (Q : In p (filter (fun p => fst p =? i)%nat (csr_row m k))) by (apply filter_In; auto). rewrite P in Q. destruct Q. }
      rewrite E. auto.
    - assert (E : existsb (fun p => fst p =? i)%nat (csr_row m k) = true).
      { apply existsb_exists. exists (i, v). assert (Q : In (i, v) (filter (fun p => fst p =? i)%nat (csr_row m k))) by (rewrite P; left; auto). apply filter_In in Q. auto. }
      rewrite E. auto. }
  apply G. intros k Hk. apply in_seq in Hk. lia.
Qed.

Record counts_ok {rd} (m : csr (fl rd)) : Prop := {
  ck_wf : csr_wf m;
  ck_nodup : forall k, (k < c_rows m)%nat -> NoDup (csr_row_indices m k);
  ck_nonzero : forall k i v, (k < c_rows m)%nat -> In (i, v) (csr_row m k) ->
     exists k' v', (k' < c_rows m)%nat /\ In (i, v') (csr_row m k') /\ val v' <> 0 }.

Section Cosine.
Variables (rd : R -> R) (u : R) (FO : format rd u) (m : csr (fl rd)) (w : nat).
Hypothesis OK : counts_ok m.
Hypothesis RT : forall i, (length (raters m i) <= w)%nat.
Notation NF := (Num_fl rd u FO).
Notation W := (@fitted _ NF (sqrt_fl rd u FO) m).
Notation sim i j := (@spec_cooc _ NF W i j).
Lemma values_shares i : shares_user (values rd m) i = shares_user m i.
Proof.
  unfold shares_user. cbn [values c_rows c_cols]. apply filter_ext. intros j.
  assert (E : forall k, csr_row_indices (values rd m) k = csr_row_indices m k) by (intros; unfold csr_row_indices; rewrite values_row, map_map; auto).
  induction (seq 0 (c_rows m)) as [|k l IH]; auto. cbn [existsb]. rewrite IH, !E. auto.
Qed.
Lemma shares_norms i j : In j (shares_user m i) -> 0 < rnorm (map val (stored_col m i)) /\ 0 < rnorm (map val (stored_col m j)).
Proof.
  intros Hj. rewrite <- values_shares in Hj.
  assert (ND : forall k, (k < c_rows (values rd m))%nat -> NoDup (csr_row_indices (values rd m) k)).
  { intros k Hk. unfold csr_row_indices. rewrite values_row, map_map. apply (ck_nodup m OK k Hk). }
  assert (NZ : forall k i v, (k < c_rows (values rd m))%nat -> In (i, v) (csr_row (values rd m) k) ->
     exists k' v', (k' < c_rows (values rd m))%nat /\ In (i, v') (csr_row (values rd m) k') /\ v' <> 0).
  { intros k i0 v Hk Hv. rewrite values_row in Hv. apply in_map_iff in Hv. destruct Hv as ((i1 & v1) & E & Hv). cbn [fst snd] in E. inversion E; subst.
    destruct (ck_nonzero m OK k i0 v1 Hk Hv) as (k' & v' & A & B & C). exists k', (val v'). split; [exact A|]. split; [|exact C]. rewrite values_row. apply in_map_iff. exists (i0, v'). auto. }
  destruct (shares_pos (values rd m) NZ i j Hj) as [A B]. rewrite !norm2_column in * by auto.
  rewrite (column_sq rd m (ck_nodup m OK)) in A. rewrite (column_sq rd m (ck_nodup m OK)) in B. unfold rnorm. split; apply sqrt_lt_R0; auto.
Qed.
Lemma sim_err i j : In j (shares_user m i) -> Rabs (val (sim i j) - spec_cosine (values rd m) i j) <= cosine_error u w.
Proof.
  intros Hj. destruct (shares_norms i j Hj) as [A B]. apply cosine_err; auto; try apply OK; rewrite raters_stored; auto; apply OK.
Qed.
Lemma cos_range i j : In j (shares_user m i) -> -1 <= spec_cosine (values rd m) i j <= 1.
Proof.
  intros Hj. destruct (shares_norms i j Hj) as [A B]. unfold spec_cosine. apply abs_cosine; rewrite (column_sq rd m (ck_nodup m OK)); apply sqrt_lt_0_alt; rewrite sqrt_0; auto.
Qed.
Lemma cos_self i : In i (shares_user m i) -> spec_cosine (values rd m) i i = 1.
Proof.
  intros Hj. destruct (shares_norms i i Hj) as [A _]. unfold spec_cosine. rewrite !(column_sq rd m (ck_nodup m OK)). unfold rnorm in A.
  assert (P : 0 < rdot (map val (stored_col m i)) (map val (stored_col m i))) by (apply sqrt_lt_0_alt; rewrite sqrt_0; auto).
  rewrite sqrt_sqrt by lra. field. lra.
Qed.
End Cosine.

(** For every floating point format without overflow, every matrix of counts, any number of neighbours and any heap:
    what [fit] stores for two items is within [cosine_error] of their cosine, the same for both, and at most that
    far outside [-1, 1]; an item left out is not nearer than one that is kept by more than twice the
    error; and the best similarity kept for an item is no less than one minus the error. *)
Theorem C162_partial : forall (rd : R -> R) (u : R) (FO : format rd u) (HP : std_heap) (m : csr (fl rd)) (K w : nat),
  std_heap_ok HP -> (0 < K)%nat -> counts_ok m -> (forall i, (length (raters m i) <= w)%nat) ->
  exists S, @cosine_fit_by _ (Num_fl rd u FO) (sqrt_fl rd u FO) HP K m = Ok S /\ c_rows S = c_cols m /\ c_cols S = c_cols m /\
  let cosine := spec_cosine (values rd m) in
  let G := cosine_error u w in
  (forall i j v, (0 < i < c_cols m)%nat -> In (j, v) (csr_row S i) ->
     In j (shares_user m i) /\ Rabs (val v - cosine i j) <= G /\ - 1 - G <= val v <= 1 + G /\ (i = j -> 1 - G <= val v)) /\
  (forall i j v v', (0 < i < c_cols m)%nat -> (0 < j < c_cols m)%nat -> In (j, v) (csr_row S i) -> In (i, v') (csr_row S j) -> v = v') /\
  (forall i, (0 < i < c_cols m)%nat -> length (csr_row S i) = Nat.min K (length (shares_user m i)) /\ NoDup (map fst (csr_row S i))) /\
  (forall i j k v, (0 < i < c_cols m)%nat -> In (j, v) (csr_row S i) -> In k (shares_user m i) -> ~ In k (map fst (csr_row S i)) ->
     cosine i k <= cosine i j + 2 * G) /\
  (forall i, (0 < i < c_cols m)%nat -> raters m i <> [] -> exists j v, In (j, v) (csr_row S i) /\ 1 - G <= val v).
Proof.
  intros rd u FO HP m K w HC HK OK RT. set (NF := Num_fl rd u FO). set (Wt := @fitted _ NF (sqrt_fl rd u FO) m).
  assert (WF : csr_wf Wt) by (apply fitted_wf, OK).
  destruct (C15_exact (fl rd) NF (NumOrd_fl rd u FO) HP Wt K HC WF HK (fl_add_zero rd u FO)) as (S & ES & R1 & R2 & _ & RW).
  exists S. split; [exact ES|]. split; [exact R1|]. split; [exact R2|]. intros cosine G.
  assert (SH : forall i, shares_user Wt i = shares_user m i) by (intros; apply fitted_shares; apply OK).
  assert (ROW : forall i, (0 < i < c_cols m)%nat -> exists ids sc, @TopN _ NF (@spec_cooc _ NF Wt i) (shares_user m i) (Nat.min K (length (shares_user m i))) ids sc /\
     StronglySorted lt (map fst (csr_row S i)) /\ forall j v, In (j, v) (csr_row S i) <-> In j ids /\ v = @spec_cooc _ NF Wt i j).
  { intros i Hi. change (c_cols m) with (c_cols Wt) in Hi. destruct (RW i ltac:(lia)) as (ids & sc & TN & extra & EX & SS & RI). rewrite SH in TN. exists ids, sc. split; [exact TN|]. split; [exact SS|].
    assert (XF : extra = false) by (destruct extra; auto; specialize (EX eq_refl); lia). subst extra.
    intros j v. rewrite RI. split; [intros [Y|[Y _]]; [auto|discriminate Y]|auto]. }
  assert (ERR : forall i j, In j (shares_user m i) -> Rabs (val (@spec_cooc _ NF Wt i j) - cosine i j) <= G) by (intros; apply sim_err; auto).
  assert (RNG : forall i j, In j (shares_user m i) -> -1 <= cosine i j <= 1) by (intros; eapply cos_range; eauto).
  assert (ABS : forall x y, Rabs (x - y) <= G -> y - G <= x <= y + G) by (intros x y; unfold Rabs; destruct (Rcase_abs _); lra).
  split; [|split; [|split; [|split]]].
  - intros i j v Hi Hv. destruct (ROW i Hi) as (ids & sc & TN & SS & RI). apply RI in Hv. destruct Hv as [Hv ->].
    assert (Hj : In j (shares_user m i)) by (apply (topn_incl _ _ _ _ _ TN); auto).
    split; [exact Hj|]. pose proof (ERR i j Hj) as E. split; [exact E|]. apply ABS in E. pose proof (RNG i j Hj). split; [lra|].
    intros <-. unfold cosine in E. rewrite (cos_self rd m OK i Hj) in E. lra.
  - intros i j v v' Hi Hj Hv Hv'. destruct (ROW i Hi) as (ids & sc & TN & SS & RI). apply RI in Hv. destruct Hv as [_ ->].
    destruct (ROW j Hj) as (ids' & sc' & TN' & SS' & RI'). apply RI' in Hv'. destruct Hv' as [_ ->].
    apply fitted_cooc_sym; try apply OK. apply fl_mul_comm.
  - intros i Hi. destruct (ROW i Hi) as (ids & sc & TN & SS & RI).
    assert (ND : NoDup (map fst (csr_row S i))).
    { clear - SS. induction SS as [|x l SS IH F]; constructor; auto. intros Hx. rewrite Forall_forall in F. specialize (F x Hx). lia. }
    split; [|exact ND]. rewrite <- (map_length fst). rewrite <- (topn_length _ _ _ _ _ TN). apply Permutation_length. apply NoDup_Permutation; auto.
    + apply (topn_nodup _ _ _ _ _ TN).
    + intros j. rewrite in_map_iff. split.
      * intros ((j' & v) & <- & Hv). apply RI in Hv. apply Hv.
      * intros Hj. eexists (j, _). split; [reflexivity|]. apply RI. split; [exact Hj|reflexivity].
  - intros i j k v Hi Hv Hk NK. destruct (ROW i Hi) as (ids & sc & TN & SS & RI). apply RI in Hv. destruct Hv as [Hj ->].
    assert (NI : ~ In k ids). { intros Y. apply NK. apply in_map_iff. exists (k, @spec_cooc _ NF Wt i k). split; auto. apply RI. auto. }
    pose proof (topn_best _ _ _ _ _ TN j k Hj Hk NI) as B.
    assert (B' : val (@spec_cooc _ NF Wt i k) <= val (@spec_cooc _ NF Wt i j)).
    { apply nleb_R. exact B. }
    pose proof (ABS _ _ (ERR i k Hk)). pose proof (ABS _ _ (ERR i j (topn_incl _ _ _ _ _ TN j Hj))). lra.
  - intros i Hi NE. destruct (ROW i Hi) as (ids & sc & TN & SS & RI).
    assert (SELF : In i (shares_user m i)).
    { destruct (raters m i) as [|k l] eqn:EQ; [congruence|]. assert (Hk : In k (raters m i)) by (rewrite EQ; left; auto). unfold raters in Hk. apply filter_In in Hk. destruct Hk as [Hk B].
      apply in_seq in Hk. apply existsb_exists in B. destruct B as (p & Hp & B). apply Nat.eqb_eq in B. subst i.
      unfold shares_user. apply filter_In. split; [apply in_seq; lia|]. apply existsb_exists. exists k. split; [apply in_seq; lia|].
      assert (M : memn (fst p) (csr_row_indices m k) = true) by (apply memn_spec; unfold csr_row_indices; apply in_map; auto). rewrite M. auto. }
    assert (SV : 1 - G <= val (@spec_cooc _ NF Wt i i)).
    { pose proof (ABS _ _ (ERR i i SELF)) as E. unfold cosine in E. rewrite (cos_self rd m OK i SELF) in E. lra. }
    destruct (in_dec Nat.eq_dec i ids) as [Y|Y].
    + exists i, (@spec_cooc _ NF Wt i i). split; [apply RI; auto|exact SV].
    + destruct ids as [|j ids'].
      { pose proof (topn_length _ _ _ _ _ TN) as L. cbn [length] in L. destruct (shares_user m i); [destruct SELF|cbn [length] in L; lia]. }
      exists j, (@spec_cooc _ NF Wt i j). split; [apply RI; split; [left; auto|auto]|].
      pose proof (topn_best _ _ _ _ _ TN j i (or_introl eq_refl) SELF Y) as B.
      assert (B' : val (@spec_cooc _ NF Wt i i) <= val (@spec_cooc _ NF Wt i j)) by (apply nleb_R; exact B). lra.
Qed.
Print Assumptions C162_partial.

(* ---------- double precision ---------- *)
Lemma rnd_p_idem_pos p x : (1 <= p)%Z -> 0 < x -> rnd_p p (rnd_p p x) = rnd_p p x.
Proof.
  intros P1 PX. pose proof (rnd_p_low p P1 x PX) as L. pose proof (rnd_p_high p P1 x PX) as H. pose proof (p2_pos (exponent_p p x + (p - 1))) as P2.
  set (y := rnd_p p x) in *. assert (PY : 0 < y) by lra.
  assert (UQ : forall e, powerRZ 2 (e + (p - 1)) <= y < powerRZ 2 (e + p) -> exponent_p p y = e).
  { intros e B. rewrite exponent_p_eq. enough (exponent y = e - (53 - p))%Z by lia. apply exponent_unique.
    replace (e - (53 - p) + 52)%Z with (e + (p - 1))%Z by lia. replace (e - (53 - p) + 53)%Z with (e + p)%Z by lia. auto. }
  assert (EI : exists z, y * powerRZ 2 (- exponent_p p y) = IZR z).
  { destruct (Req_dec y (powerRZ 2 (exponent_p p x + p))) as [E|NE].
    - assert (EY : exponent_p p y = (exponent_p p x + 1)%Z).
      { apply UQ. rewrite E. replace (exponent_p p x + 1 + (p - 1))%Z with (exponent_p p x + p)%Z by lia. split; [lra|].
        replace (exponent_p p x + 1 + p)%Z with (exponent_p p x + p + 1)%Z by lia. rewrite (p2_add _ 1). pose proof (p2_pos (exponent_p p x + p)).
        change (powerRZ 2 1) with (2 * 1). lra. }
      exists (2 ^ (p - 1))%Z. rewrite EY, E, <- p2_add. replace (exponent_p p x + p + - (exponent_p p x + 1))%Z with (p - 1)%Z by lia. apply p2_pos_int. lia.
    - assert (EY : exponent_p p y = exponent_p p x) by (apply UQ; lra).
      rewrite EY. exists (rne (x * powerRZ 2 (- exponent_p p x))). unfold y. rewrite rnd_p_eq by lra. rewrite Rmult_assoc, p2_neg. ring. }
  destruct EI as [z EZ]. rewrite rnd_p_eq by lra. rewrite EZ, rne_int, <- EZ, Rmult_assoc, (Rmult_comm (powerRZ 2 (- exponent_p p y))), p2_neg. ring.
Qed.
Lemma rnd_p_one p : (1 <= p)%Z -> rnd_p p 1 = 1.
Proof.
  intros P1. assert (E : exponent_p p 1 = (- (p - 1))%Z).
  { rewrite exponent_p_eq. enough (exponent 1 = -52)%Z by lia. apply exponent_unique. replace (-52 + 52)%Z with 0%Z by lia. replace (-52 + 53)%Z with 1%Z by lia. change (powerRZ 2 0) with 1. change (powerRZ 2 1) with (2 * 1). lra. }
  rewrite rnd_p_eq by lra. rewrite E, Z.opp_involutive, Rmult_1_l, p2_pos_int, rne_int by lia. rewrite <- p2_pos_int by lia. rewrite <- p2_add.
  replace (p - 1 + - (p - 1))%Z with 0%Z by lia. auto.
Qed.
(** The binary formats: [p] binary digits, rounding to the nearest. *)
Theorem format_binary p : (1 <= p)%Z -> format (rnd_p p) (powerRZ 2 (- p)).
Proof.
  intros P1. constructor.
  - intros x. destruct (total_order_T x 0) as [[L| ->]|G].
    + replace x with (- - x) by ring. rewrite (rnd_p_opp p (- x)), rnd_p_opp. f_equal. apply rnd_p_idem_pos; auto. lra.
    + rewrite !rnd_p_zero. auto.
    + apply rnd_p_idem_pos; auto.
  - apply rnd_p_zero.
  - apply rnd_p_one; auto.
  - apply rnd_p_opp; auto.
  - apply rnd_p_rel; auto.
  - split; [left; apply p2_pos|]. change 1 with (powerRZ 2 0). assert (powerRZ 2 (- p) <= powerRZ 2 (-1)) by (apply p2_le; lia). change (powerRZ 2 (-1)) with (/ (2 * 1)) in H. change (powerRZ 2 0) with 1. lra.
Qed.

(** Double precision, and no item with more than a million raters: the error is below 10^-9. *)
Lemma double_error w : (Z.of_nat w <= 1000000)%Z -> cosine_error (powerRZ 2 (-53)) w <= / 1000000000.
Proof.
  intros B. unfold cosine_error. set (u := powerRZ 2 (-53)).
  assert (UV : u = / 9007199254740992).
  { pose proof (p2_neg 53) as N. rewrite (p2_pos_int 53) in N by lia. change (2 ^ 53)%Z with 9007199254740992%Z in N. change (powerRZ 2 (- (53))) with u in N. lra. }
  assert (UR : 0 <= u < 1) by (rewrite UV; lra).
  assert (IN : INR (3 * w + 7) <= 3000007) by (rewrite INR_IZR_INZ; apply IZR_le; lia). pose proof (pos_INR (3 * w + 7)).
  assert (BU : INR (3 * w + 7) * u <= / 2000000000) by (apply Rle_trans with (3000007 * u); [apply Rmult_le_compat_r; lra|rewrite UV; lra]).
  pose proof (h_le_bound u UR (3 * w + 7) ltac:(lra)) as HB.
  assert (I : / (1 - INR (3 * w + 7) * u) <= / (1 - / 2000000000)) by (apply Rinv_le_contravar; lra). lra.
Qed.
Theorem C162_double_partial : forall (HP : std_heap) (m : csr (fl (rnd_p 53))) (K : nat),
  std_heap_ok HP -> (0 < K)%nat -> counts_ok m -> (forall i, (Z.of_nat (length (raters m i)) <= 1000000)%Z) ->
  exists FO S, @cosine_fit_by _ (Num_fl (rnd_p 53) (powerRZ 2 (-53)) FO) (sqrt_fl (rnd_p 53) (powerRZ 2 (-53)) FO) HP K m = Ok S /\
  forall i j v, (0 < i < c_cols m)%nat -> In (j, v) (csr_row S i) ->
    Rabs (val v - spec_cosine (values (rnd_p 53) m) i j) <= / 1000000000 /\
    (forall k, In k (shares_user m i) -> ~ In k (map fst (csr_row S i)) ->
       spec_cosine (values (rnd_p 53) m) i k <= spec_cosine (values (rnd_p 53) m) i j + / 500000000).
Proof.
  intros HP m K HC HK OK RT. exists (format_binary 53 ltac:(lia)).
  assert (RT' : forall i, (length (raters m i) <= Z.to_nat 1000000)%nat) by (intros i; specialize (RT i); apply Nat2Z.inj_le; rewrite Z2Nat.id by lia; auto).
  destruct (C162_partial _ _ (format_binary 53 ltac:(lia)) HP m K (Z.to_nat 1000000) HC HK OK RT') as (S & ES & _ & _ & A & _ & _ & B & _).
  exists S. split; [exact ES|]. pose proof (double_error (Z.to_nat 1000000) ltac:(rewrite Z2Nat.id; lia)) as E. intros i j v Hi Hv. split.
  - destruct (A i j v Hi Hv) as (_ & P & _). eapply Rle_trans; [exact P|exact E].
  - intros k Hk NK. specialize (B i j k v Hi Hv Hk NK). cbv zeta in B. change (- (53))%Z with (-53)%Z in B. lra.
Qed.
Print Assumptions C162_double_partial.

(** Two users, each with one count of item 1 and three of item 2, in IEEE double precision: the similarity of item 1 with
    itself is below 1, so the one neighbour kept for item 1 is item 2, and that of item 2 with itself is above 1. *)
Definition pair_counts : csr f64 :=
  csr_of_rows 3 [[(1%nat, f64_of_Z 1); (2%nat, f64_of_Z 3)]; [(1%nat, f64_of_Z 1); (2%nat, f64_of_Z 3)]].
Theorem C162_refuted : exists (counts : csr f64) S S2 v v1 v2,
  csr_wf counts /\ (forall p k, In p (csr_row counts k) -> SFltb (S754_zero false) (snd p) = true) /\
  @cosine_fit_by f64 Num_f64 sqrt_f64 simple_heap 1 counts = Ok S /\ csr_row S 1 = [(2%nat, v)] /\
  @cosine_fit_by f64 Num_f64 sqrt_f64 simple_heap 2 counts = Ok S2 /\
  In (1%nat, v1) (csr_row S2 1) /\ SFltb v1 (f64_of_Z 1) = true /\
  In (2%nat, v2) (csr_row S2 2) /\ SFltb (f64_of_Z 1) v2 = true.
Proof.
  exists pair_counts. eexists. eexists. eexists. exists (S754_finite false 9007199254740990 (-53)), (S754_finite false 4503599627370497 (-52)).
  split; [|split; [|split; [|split; [|split; [|split; [|split; [|split]]]]]]].
  - apply csr_of_rows_wf. intros r p Hr Hp. simpl in Hr. destruct Hr as [<-|[<-|[]]]; simpl in Hp; destruct Hp as [<-|[<-|[]]]; simpl; lia.
  - intros p [|[|k]] Hp; vm_compute in Hp; [| |destruct k; destruct Hp]; destruct Hp as [<-|[<-|[]]]; reflexivity.
  - vm_compute. reflexivity.
  - vm_compute. reflexivity.
  - vm_compute. reflexivity.
  - vm_compute. auto.
  - reflexivity.
  - vm_compute. auto.
  - reflexivity.
Qed.
Print Assumptions C162_refuted.

(** So [similar_items] of item 1 with N = 1 answers with item 2, and of item 2 with a similarity above 1. *)
Example C162_run : exists S,
  @cosine_fit_by f64 Num_f64 sqrt_f64 simple_heap 2 pair_counts = Ok S /\ map fst (csr_row S 1) = [1%nat; 2%nat] /\ map fst (csr_row S 2) = [1%nat; 2%nat] /\
  map snd (csr_row S 1) = [S754_finite false 9007199254740990 (-53); f64_of_Z 1] /\ map snd (csr_row S 2) = [f64_of_Z 1; S754_finite false 4503599627370497 (-52)].
Proof. eexists. split; [vm_compute; reflexivity|]. repeat split; vm_compute; reflexivity. Qed.

(** A case for the theorems: three users and three items, in doubles. *)
Definition dbl (k : Z) : fl (rnd_p 53) := round _ _ (format_binary 53 ltac:(lia)) (IZR k).
Definition ex_plays : csr (fl (rnd_p 53)) := csr_of_rows 3 [[(0%nat, dbl 1); (1%nat, dbl 1)]; [(1%nat, dbl 1); (2%nat, dbl 1)]; [(2%nat, dbl 1)]].
Lemma dbl_one : val (dbl 1) = 1. Proof. apply (rnd_p_one 53). lia. Qed.
Lemma ex_plays_ok : counts_ok ex_plays.
Proof.
  constructor.
  - apply csr_of_rows_wf. intros r p Hr Hp. simpl in Hr. repeat (destruct Hr as [<-|Hr]; [simpl in Hp; repeat (destruct Hp as [<-|Hp]; [simpl; lia|]); tauto|]). tauto.
  - intros k Hk. cbn in Hk. destruct k as [|[|[|k]]]; [| | |lia]; cbn; repeat constructor; simpl; intuition lia.
  - intros k i v Hk Hv. exists k, v. split; auto. split; auto. cbn in Hk. assert (E : v = dbl 1).
    { destruct k as [|[|[|k]]]; [| | |lia]; unfold ex_plays in Hv; rewrite csr_row_of_rows in Hv; simpl in Hv; repeat (destruct Hv as [Hv|Hv]; [inversion Hv; auto|]); tauto. }
    subst v. rewrite dbl_one. lra.
Qed.
Example C162_example : counts_ok ex_plays /\ (forall i, (length (raters ex_plays i) <= 2)%nat) /\ shares_user ex_plays 1 = [0; 1; 2]%nat /\
  spec_cosine (values (rnd_p 53) ex_plays) 1 2 = 1 / 2.
Proof.
  split; [exact ex_plays_ok|]. split; [|split].
  - intros [|[|[|i]]]; vm_compute; lia.
  - reflexivity.
  - unfold spec_cosine. rewrite !(column_sq _ ex_plays (ck_nodup _ ex_plays_ok)).
    assert (Q : forall i, (i = 1 \/ i = 2)%nat -> map val (stored_col ex_plays i) = [1; 1]).
    { intros i [-> | ->]; unfold stored_col, picks; cbn [ex_plays csr_of_rows c_rows length seq flat_map]; fold ex_plays; unfold ex_plays; rewrite !csr_row_of_rows; cbn [nth filter fst Nat.eqb map snd app]; rewrite dbl_one; auto. }
    rewrite !Q by auto. rewrite (column_prod _ ex_plays (ck_nodup _ ex_plays_ok)).
    assert (F : flat_map (both ex_plays 1 2) (seq 0 (c_rows ex_plays)) = [(dbl 1, dbl 1)]) by (unfold both, picks, ex_plays; cbn [c_rows csr_of_rows length seq flat_map]; fold ex_plays; unfold ex_plays; rewrite !csr_row_of_rows; reflexivity).
    rewrite F. cbn [map rsum rdot fst snd]. rewrite dbl_one. replace (1 * 1 + (1 * 1 + 0)) with 2 by ring. rewrite sqrt_sqrt by lra. lra.
Qed.
