(** C54-C58: the wrappers around ANN libraries. *)
From Coq Require Import String List Arith Lia Bool ZArith QArith Permutation Sorted Reals Lra Psatz.
From Verif Require Import Base Num Heap Sparse TopkModel TopkSpec TopkProofs RecommendModel RecommendProofs KnnModel RVec SimilarProofs PropSimilar AnnModel AnnProofs.
Import ListNotations.
Local Open Scope list_scope.
Local Open Scope nat_scope.

(* --------------------------------------------------- exact indexes (spec) *)
(** An exact index over the rows [row i], i in [idl]: the nearest first. *)
Definition exact_answer (d : nat -> R) (idl : list nat) (c : nat) (hits : list (Z * R)) : Prop :=
  exists ids, hits = map (fun i => (Z.of_nat i, d i)) ids /\ Best (fun i j => d i <= d j)%R idl (Nat.min c (length idl)) ids.
(** Annoy "angular": distance sqrt(2(1-cos)); a null vector is at a right angle to all. *)
Definition angular_index (B : builders R) : Prop := exists d : list R -> list R -> R,
  (forall u v c, is_cosine u v c -> d u v = sqrt (2 * (1 - c))) /\
  forall rows q c, exact_answer (fun i => d q (nth i rows [])) (seq 0 (length rows)) c (b_angular B rows q c).
(** NMSLib "cosinesimil": distance 1-cos; no assumption for null vectors. *)
Definition cosine_index (B : builders R) : Prop := exists d : list R -> list R -> R,
  (forall u v c, (spec_norm u * spec_norm v <> 0)%R -> is_cosine u v c -> d u v = 1 - c)%R /\
  forall idl row q c, NoDup idl -> exact_answer (fun i => d q (row i)) idl c (b_cosine B (map (fun i => (Z.of_nat i, row i)) idl) q c).
(** Faiss inner product: the largest first; unused places hold id -1 and [fmin]. *)
Definition inner_index (fmin : R) (B : builders R) : Prop :=
  forall rows q c, exists ids, b_inner B rows q c = map (fun i => (Z.of_nat i, spec_dot q (nth i rows []))) ids ++ repeat ((-1)%Z, fmin) (c - length rows) /\
    Best (fun i j => spec_dot q (nth j rows []) <= spec_dot q (nth i rows []))%R (seq 0 (length rows)) (Nat.min c (length rows)) ids.
Definition real_env (E : ann_env R) : Prop := (forall v, ae_norm E v = spec_norm v) /\ (forall x, ae_sqrt E x = sqrt x) /\ (0 < ae_tiny E)%R.

(** Such indexes exist: sort everything. *)
Lemma best_sort (s : nat -> R) idl c : NoDup idl ->
  Best (fun i j => s i <= s j)%R idl (Nat.min c (length idl)) (firstn c (sort_by (fun i j => Rltb (s j) (s i)) idl)).
Proof.
  intros ND. set (cmp := fun i j => Rltb (s j) (s i)).
  assert (SP : Permutation (sort_by cmp idl) idl) by apply sort_by_perm.
  assert (SS : StronglySorted (fun i j => (s i <= s j)%R) (sort_by cmp idl)).
  { assert (HS : StronglySorted (fun x y => cmp x y = false) (sort_by cmp idl)).
    { apply sort_by_sorted. unfold cmp, Rltb. split.
      - intros a. destruct (Rlt_dec (s a) (s a)); auto. lra.
      - intros a b c0. destruct (Rlt_dec (s b) (s a)), (Rlt_dec (s c0) (s b)), (Rlt_dec (s c0) (s a)); auto; try discriminate; lra.
      - intros a b c0. destruct (Rlt_dec (s b) (s a)), (Rlt_dec (s c0) (s b)), (Rlt_dec (s c0) (s a)); auto; try discriminate; lra. }
    eapply ss_weaken; [|exact HS]. unfold cmp, Rltb. intros a b _ _. destruct (Rlt_dec (s b) (s a)); [discriminate|lra]. }
  set (l := sort_by cmp idl) in *. assert (LL : length l = length idl) by (apply Permutation_length; auto).
  assert (FS : StronglySorted (fun i j => (s i <= s j)%R) (firstn c l ++ skipn c l)) by (rewrite firstn_skipn; auto).
  apply ss_app_inv in FS. destruct FS as [F1 F2]. split.
  - rewrite firstn_length, LL. auto.
  - apply NoDup_firstn. eapply Permutation_NoDup; [symmetry; exact SP|auto].
  - intros x Hx. eapply Permutation_in; [exact SP|]. rewrite <- (firstn_skipn c l). apply in_or_app; auto.
  - auto.
  - intros i j Hi Hj Hn. apply F2; auto. assert (K : In j (firstn c l ++ skipn c l)) by (rewrite firstn_skipn; eapply Permutation_in; [symmetry; exact SP|auto]).
    apply in_app_or in K. tauto.
Qed.
Definition sort_hits (s : nat -> R) (idl : list nat) (c : nat) : list (Z * R) := map (fun i => (Z.of_nat i, s i)) (firstn c (sort_by (fun i j => Rltb (s j) (s i)) idl)).
Definition exact_builders (fmin : R) : builders R := {|
  b_angular := fun rows q c => sort_hits (fun i => sqrt (2 * (1 - cosine q (nth i rows []))))%R (seq 0 (length rows)) c;
  b_cosine := fun es q c => sort_hits (fun i => 1 - cosine q (match find (fun e => (fst e =? Z.of_nat i)%Z) es with Some e => snd e | None => [] end))%R (map (fun e => Z.to_nat (fst e)) es) c;
  b_inner := fun rows q c => map (fun h => (fst h, (- snd h)%R)) (sort_hits (fun i => (- spec_dot q (nth i rows []))%R) (seq 0 (length rows)) c) ++ repeat ((-1)%Z, fmin) (c - length rows) |}.
Lemma is_cosine_unique u v c c' : is_cosine u v c -> is_cosine u v c' -> c = c'.
Proof.
  intros [A1 A2] [B1 B2]. destruct (Req_dec (spec_norm u * spec_norm v) 0) as [Z|Z].
  - rewrite A2, B2; auto.
  - rewrite A1, B1; auto.
Qed.
Lemma exact_builders_ok fmin : angular_index (exact_builders fmin) /\ cosine_index (exact_builders fmin) /\ inner_index fmin (exact_builders fmin).
Proof.
  split; [|split].
  - exists (fun u v => sqrt (2 * (1 - cosine u v))%R). split.
    + intros u v c HC. rewrite (is_cosine_unique u v c (cosine u v)); auto. apply cosine_is_cosine.
    + intros rows q c. cbn [b_angular exact_builders]. exists (firstn c (sort_by (fun i j => Rltb (sqrt (2 * (1 - cosine q (nth j rows [])))) (sqrt (2 * (1 - cosine q (nth i rows []))))) (seq 0 (length rows)))).
      split; [reflexivity|]. apply best_sort. apply seq_NoDup.
  - exists (fun u v => 1 - cosine u v)%R. split.
    + intros u v c _ HC. rewrite (is_cosine_unique u v c (cosine u v)); auto. apply cosine_is_cosine.
    + intros idl row q c ND. cbn [b_cosine exact_builders]. set (es := map (fun i => (Z.of_nat i, row i)) idl).
      assert (EM : map (fun e : Z * list R => Z.to_nat (fst e)) es = idl). { unfold es. rewrite map_map. rewrite (map_ext _ (fun i => i)); [apply map_id|]. intros i. cbn. lia. }
      rewrite EM.
      assert (FI : forall i, In i idl -> find (fun e => (fst e =? Z.of_nat i)%Z) es = Some (Z.of_nat i, row i)).
      { unfold es. clear. induction idl as [|k idl IH]; intros i Hi; [destruct Hi|]. simpl. destruct (Z.eqb_spec (Z.of_nat k) (Z.of_nat i)) as [E|E].
        - assert (k = i) by lia. subst; auto.
        - apply IH. destruct Hi; auto. subst. congruence. }
      set (s := fun i => (1 - cosine q (match find (fun e => (fst e =? Z.of_nat i)%Z) es with Some e => snd e | None => [] end))%R).
      pose proof (best_sort s idl c ND) as HB. exists (firstn c (sort_by (fun i j => Rltb (s j) (s i)) idl)). split.
      * unfold sort_hits. apply map_ext_in. intros i Hi. f_equal. apply (best_incl _ _ _ _ HB) in Hi. unfold s. rewrite FI by auto. auto.
      * eapply best_weaken; [|exact HB]. intros i j Hi Hj. unfold s. rewrite !FI by auto. auto.
  - intros rows q c. cbn [b_inner exact_builders]. set (s := fun i => (- spec_dot q (nth i rows []))%R). pose proof (best_sort s (seq 0 (length rows)) c (seq_NoDup _ _)) as HB.
    exists (firstn c (sort_by (fun i j => Rltb (s j) (s i)) (seq 0 (length rows)))). split.
    + f_equal. unfold sort_hits. rewrite map_map. apply map_ext. intros i. cbn [fst snd]. unfold s. f_equal. lra.
    + rewrite seq_length in HB. eapply best_weaken; [|exact HB]. unfold s. intros; lra.
Qed.

(* ------------------------------------------------------------------ C54 *)
(** augment_inner_product_matrix: all rows get the largest norm; the cosine with (q,0),
    scaled, is the inner product; the angular order is that of the inner products. *)
Theorem C54_augment : forall E (factors : list (list R)) f, real_env E -> factors <> [] -> Forall (fun r => length r = f) factors ->
  exists mx extra, augment_inner_product_matrix E factors = Ok (mx, extra) /\ length extra = length factors /\
    (forall r, In r factors -> spec_norm r <= mx)%R /\ (exists r, In r factors /\ mx = spec_norm r) /\
    (forall i, i < length factors -> spec_norm (nth i extra []) = mx) /\
    (forall i, i < length factors -> exists e, nth i extra [] = nth i factors [] ++ [e]) /\
    (forall q i c, (i < length factors)%nat -> length q = f -> is_cosine (q ++ [0%R]) (nth i extra []) c ->
       mx * spec_norm (q ++ [0]) * c = spec_dot q (nth i factors []))%R /\
    (forall q i j ci cj, (i < length factors)%nat -> (j < length factors)%nat -> length q = f ->
       is_cosine (q ++ [0%R]) (nth i extra []) ci -> is_cosine (q ++ [0%R]) (nth j extra []) cj -> (0 < mx * spec_norm q)%R ->
       (ci <= cj <-> spec_dot q (nth i factors []) <= spec_dot q (nth j factors [])))%R.
Proof.
  intros E factors f (EN & ES & _) NE HF.
  assert (EM : exists mx, np_max (map (ae_norm E) factors) = Ok mx). { destruct factors; [congruence|]. simpl. eauto. }
  destruct EM as [mx EM]. pose proof (np_max_spec _ _ EM) as [M1 M2].
  exists mx, (map (fun r => r ++ [sqrt (mx * mx - rnorm r * rnorm r)]) factors).
  assert (LEN : forall r, In r factors -> (rnorm r <= mx)%R). { intros r Hr. apply M2. rewrite <- spec_norm_rnorm, <- EN. apply in_map. auto. }
  assert (NTH : forall i, i < length factors -> nth i (map (fun r => r ++ [sqrt (mx * mx - rnorm r * rnorm r)]) factors) [] = nth i factors [] ++ [sqrt (mx * mx - rnorm (nth i factors []) * rnorm (nth i factors []))]).
  { intros i Hi. rewrite (nth_indep _ [] ([] ++ [sqrt (mx * mx - rnorm [] * rnorm [])])) by (rewrite map_length; auto).
    apply (map_nth (fun r => r ++ [sqrt (mx * mx - rnorm r * rnorm r)])). }
  assert (HN : forall i, i < length factors -> rnorm (nth i (map (fun r => r ++ [sqrt (mx * mx - rnorm r * rnorm r)]) factors) []) = mx).
  { intros i Hi. rewrite NTH by auto. apply aug_norm. apply LEN. apply nth_In. auto. }
  assert (KEY : forall q i c, i < length factors -> length q = f -> is_cosine (q ++ [0%R]) (nth i (map (fun r => r ++ [sqrt (mx * mx - rnorm r * rnorm r)]) factors) []) c ->
       (mx * spec_norm (q ++ [0]) * c = spec_dot q (nth i factors []))%R).
  { intros q i c Hi Hq HC. rewrite (is_cosine_unique _ _ _ _ HC (cosine_is_cosine _ _)). rewrite spec_norm_rnorm, spec_dot_rdot.
    rewrite <- (HN i Hi) at 1. rewrite (Rmult_comm (rnorm _)). rewrite cosine_cases. rewrite NTH by auto. rewrite rdot_app; [lra|].
    rewrite Hq. symmetry. rewrite Forall_forall in HF. apply HF. apply nth_In. auto. }
  split. { unfold augment_inner_product_matrix. rewrite EM. cbn [bind]. f_equal. f_equal. apply map_ext. intros r. rewrite ES, EN, spec_norm_rnorm. reflexivity. }
  split; [apply map_length|]. split. { intros r Hr. rewrite spec_norm_rnorm. auto. }
  split. { apply in_map_iff in M1. destruct M1 as (r & <- & Hr). exists r. split; auto. }
  split. { intros i Hi. rewrite spec_norm_rnorm. auto. }
  split. { intros i Hi. rewrite NTH by auto. eauto. }
  split; [exact KEY|].
  intros q i j ci cj Hi Hj Hq Ci Cj HP. pose proof (KEY q i ci Hi Hq Ci). pose proof (KEY q j cj Hj Hq Cj).
  assert (SN : spec_norm (q ++ [0%R]) = spec_norm q). { rewrite !spec_norm_rnorm. apply rnorm_snoc0. }
  rewrite SN in *. split; intros; nra.
Qed.
Print Assumptions C54_augment.

(* ------------------------------------------------------------------ C55 *)
(** filter_items: None, a list, or an array whose truth value is that of the list (an
    array with two or more ids, or with the single id 0, is not). *)
Definition plain_filter (fi : option arr) : Prop :=
  match fi with Some (NdArray l) => l = [] \/ exists z, l = [z] /\ z <> 0%Z | _ => True end.
Definition filter_ids (fi : option arr) : list Z := match fi with Some a => arr_list a | None => [] end.
Definition likes_of (ui : sparse_arg R) : list nat := match ui with Csr M => csr_row_indices M 0 | NotCsr => [] end.
(** Item [i] is in neither filter. *)
Definition allowed (fi : option arr) (liked : bool) (ui : sparse_arg R) (i : nat) : bool :=
  negb (memz (Z.of_nat i) (filter_ids fi)) && negb (liked && memn i (likes_of ui)).
(** user_items is a csr matrix with one row when it is needed. *)
Definition row_given (liked : bool) (ui : sparse_arg R) : Prop := liked = true -> exists M, ui = Csr M /\ c_rows M = 1.

Lemma memz_app x a b : memz x (a ++ b) = memz x a || memz x b.
Proof. unfold memz. apply existsb_app. Qed.
Lemma memz_of_nat i l : memz (Z.of_nat i) (map Z.of_nat l) = memn i l.
Proof. induction l as [|k l IH]; simpl; auto. rewrite IH. f_equal. destruct (Z.eqb_spec (Z.of_nat i) (Z.of_nat k)), (Nat.eqb_spec i k); auto; lia. Qed.
Lemma rec_filter_spec N fi liked ui : plain_filter fi -> row_given liked ui ->
  exists count flt, rec_filter N fi liked ui = Ok (count, flt) /\ N + length (filter_ids flt) <= count /\
    (forall i, negb (memz (Z.of_nat i) (filter_ids flt)) = allowed fi liked ui i) /\ (flt = None -> count = N) /\
    (forall z, In z (filter_ids flt) -> In z (filter_ids fi) \/ (0 <= z)%Z).
Proof.
  intros PF RG. unfold rec_filter.
  assert (HT : exists b, truthy fi = Ok b /\ (b = false -> filter_ids fi = [])).
  { destruct fi as [[l|l]|]; simpl in *; eauto.
    - destruct l; simpl; eauto. eexists; split; eauto. discriminate.
    - destruct l as [|z [|z' l]]; eauto.
      + destruct PF as [PF|(w & PF & NZ)]; [discriminate|]. injection PF as ->. exists true. split; [|discriminate]. destruct (Z.eqb_spec w 0); [congruence|auto].
      + destruct PF as [PF|(w & PF & NZ)]; discriminate. }
  destruct HT as (b & -> & HB). cbn [bind].
  set (fi' := if b then option_map (fun a => NdArray (arr_list a)) fi else fi).
  assert (F' : filter_ids fi' = filter_ids fi). { unfold fi'. destruct b; auto. destruct fi; auto. }
  assert (C' : N + length (filter_ids fi) <= (if b then N + arr_len fi else N)).
  { destruct b; [destruct fi; simpl; lia|]. rewrite HB by auto. simpl. lia. }
  destruct liked.
  - destruct (RG eq_refl) as (M & -> & HM). rewrite HM. cbn [Nat.eqb]. eexists _, _. split; [reflexivity|]. split; [|split; [|split; [discriminate|]]].
    + simpl. destruct fi' as [a|]; simpl in *; rewrite ?app_length, ?map_length; [|rewrite <- F' in C'; simpl in C'; lia]. rewrite <- F' in C'. lia.
    + intros i. unfold allowed. cbn [andb likes_of]. rewrite <- F'. destruct fi' as [a|]; simpl; rewrite ?memz_app, memz_of_nat; auto. destruct (memz (Z.of_nat i) (arr_list a)); auto.
    + rewrite <- F'. intros z Hz. destruct fi' as [a|]; simpl in *; [apply in_app_or in Hz; destruct Hz as [Hz|Hz]; auto|]; apply in_map_iff in Hz; destruct Hz as (k & <- & _); right; lia.
  - eexists _, _. split; [reflexivity|]. rewrite F'. split; [auto|]. split; [|split].
    + intros i. unfold allowed. cbn [andb negb]. rewrite andb_true_r. auto.
    + unfold fi'. destruct b; auto. destruct fi; auto. discriminate.
    + auto.
Qed.

Lemma row_given_row liked (ui : sparse_arg R) : row_given liked ui -> check_csr_arg liked false ui = Ok tt.
Proof. intros RG. unfold check_csr_arg. destruct liked; auto. destruct (RG eq_refl) as (M & -> & _). auto. Qed.

(** Filtering the hits of an index. *)
Lemma filter_hits_map F N (g : nat -> R) ids : filter_hits F N (map (fun i => (Z.of_nat i, g i)) ids) = map (fun i => (Z.of_nat i, g i)) (firstn N (filter (fun i => negb (memz (Z.of_nat i) F)) ids)).
Proof. unfold filter_hits. rewrite filter_map_swap, firstn_map. reflexivity. Qed.
Lemma opt_filter (flt : option arr) N count (hits : list (Z * R)) : (flt = None -> count = N) -> length hits <= count ->
  match flt with None => hits | Some a => filter_hits (arr_list a) N hits end = filter_hits (filter_ids flt) N hits.
Proof.
  intros HN HL. destruct flt as [a|]; auto. unfold filter_hits. simpl. rewrite HN in HL by auto.
  assert (EF : filter (fun _ : Z * R => true) hits = hits) by (clear; induction hits; simpl; auto; f_equal; auto).
  rewrite EF. symmetry. apply firstn_all2. auto.
Qed.
Lemma query_user_scalar I m u ui : (0 <= u < Z.of_nat (length (user_factors m)))%Z ->
  exists v, query_user I m (Scalar u) ui false = Ok v /\ nd_rows m v = [nth (Z.to_nat u) (user_factors m) ([] : list R)].
Proof.
  intros HU. unfold query_user. assert (EI : index_rows (i_gpu I) UserRow (user_factors m) (Scalar u) = Ok (if i_gpu I then Fresh [nth (Z.to_nat u) (user_factors m) []] else UserRow (Z.to_nat u))).
  { unfold index_rows. rewrite np_index_ok by (unfold idx_ok; lia). cbn [bind]. rewrite wrap_nonneg by lia. auto. }
  rewrite EI. eexists. split; [destruct (i_has I "+_user_factor"%string); reflexivity|]. destruct (i_gpu I); reflexivity.
Qed.

Lemma numbered_spec (rows : list (list R)) : numbered rows = map (fun i => (Z.of_nat i, nth i rows [])) (seq 0 (length rows)).
Proof.
  unfold numbered, enum.
  assert (G : forall (l : list (list R)) pre, map (fun p => (Z.of_nat (fst p), snd p)) (enum_from (length pre) l) = map (fun i => (Z.of_nat i, nth i (pre ++ l) [])) (seq (length pre) (length l))).
  { induction l as [|x l IH]; intros pre; simpl; auto. f_equal; [rewrite app_nth2, Nat.sub_diag by lia; auto|]. specialize (IH (pre ++ [x])). rewrite app_length, <- app_assoc in IH. simpl in IH. rewrite Nat.add_1_r in IH. exact IH. }
  apply (G rows []).
Qed.

(** What the wrappers' conversions of distances need. *)
Definition conv (L : lib) (x : R) : R := match L with Annoy => 1 - x * x / (1 + 1) | _ => 1 - x end%R.
Definition dist_ok (L : lib) (d : list R -> list R -> R) : Prop :=
  (forall u v, spec_norm u * spec_norm v * conv L (d u v) = spec_dot u v)%R /\
  (forall u v w, d u v <= d u w -> conv L (d u w) <= conv L (d u v))%R.
Lemma angular_dist_ok d : (forall u v c, is_cosine u v c -> d u v = sqrt (2 * (1 - c)))%R -> dist_ok Annoy d.
Proof.
  intros HD. assert (K : forall u v, (conv Annoy (d u v) = cosine u v /\ 0 <= d u v)%R).
  { intros u v. rewrite (HD u v (cosine u v)) by apply cosine_is_cosine. pose proof (cosine_range u v). split; [|apply sqrt_pos]. cbn [conv]. rewrite sqrt_sqrt by lra. lra. }
  split.
  - intros u v. destruct (K u v) as [-> _]. rewrite !spec_norm_rnorm, spec_dot_rdot. apply cosine_cases.
  - intros u v w HL. destruct (K u v) as [_ K1]. destruct (K u w) as [_ K2]. cbn [conv]. nra.
Qed.
Lemma cosine_dist_ok d : (forall u v c, spec_norm u * spec_norm v <> 0 -> is_cosine u v c -> d u v = 1 - c)%R -> dist_ok NMSLib d.
Proof.
  intros HD. split.
  - intros u v. destruct (Req_dec (spec_norm u * spec_norm v) 0) as [Z|Z].
    + rewrite Z. pose proof (cosine_cases u v) as K. rewrite !spec_norm_rnorm in Z. rewrite Z in K. rewrite spec_dot_rdot. lra.
    + rewrite (HD u v (cosine u v)); auto; [|apply cosine_is_cosine]. cbn [conv]. rewrite !spec_norm_rnorm, spec_dot_rdot, <- cosine_cases. ring.
  - intros. cbn [conv]. lra.
Qed.

(** Annoy and NMSLib over an exact index: the N best items by inner product among those
    that are neither liked nor filtered, with their inner products. *)
Theorem C55_angular_partial : forall (L : lib) (B : builders R) (E : ann_env R) (I : inner R) m f asim A u ui N liked fi,
  real_env E -> (L = Annoy /\ angular_index B /\ annoy_fit E B (item_factors m) asim true = Ok A) \/ (L = NMSLib /\ cosine_index B /\ nmslib_fit E B (item_factors m) asim true = Ok A) ->
  Forall (fun r => length r = f) (user_factors m) -> Forall (fun r => length r = f) (item_factors m) ->
  (0 <= u < Z.of_nat (length (user_factors m)))%Z -> plain_filter fi -> row_given liked ui ->
  let cands := filter (allowed fi liked ui) (seq 0 (length (item_factors m))) in
  exists ids scores, ann_recommend E I A m (Scalar u) ui N liked fi false None = (m, Ok (OneRow (map Z.of_nat ids) scores)) /\
    TopN (fun i => spec_dot (nth (Z.to_nat u) (user_factors m) []) (nth i (item_factors m) [])) cands (Nat.min N (length cands)) ids scores.
Proof.
  intros L B E I m f asim A u ui N liked fi RE HF WU WI HU PF RG cands.
  pose proof RE as (EN & ES & _).
  assert (LL : L <> Faiss) by (destruct HF as [(-> & _)|(-> & _)]; discriminate).
  assert (NE : item_factors m <> []).
  { intro X. rewrite X in HF. destruct HF as [(_ & _ & HF)|(_ & _ & HF)]; discriminate. }
  destruct (C54_augment E (item_factors m) f RE NE WI) as (mx & extra & EA & LX & _ & (r0 & _ & MX0) & NX & SX & _).
  assert (FIT : a_lib A = L /\ a_approx_rec A = true /\ a_max_norm A = mx /\ exists d, dist_ok L d /\
    forall q c, exact_answer (fun i => d q (nth i extra [])) (seq 0 (length extra)) c (a_rec A q c)).
  { destruct HF as [(-> & (d & D1 & D2) & HF)|(-> & (d & D1 & D2) & HF)]; unfold annoy_fit, nmslib_fit in HF; rewrite EA in HF; cbn [bind] in HF; injection HF as <-; cbn [a_lib a_approx_rec a_max_norm a_rec].
    - repeat split; auto. exists d. split; [apply angular_dist_ok; auto|]. intros. apply D2.
    - repeat split; auto. exists d. split; [apply cosine_dist_ok; auto|]. intros.
      rewrite (numbered_spec extra).  apply (D2 _ (fun i => nth i extra [])). apply seq_NoDup. }
  destruct FIT as (AL & AR & AM & d & (D1 & D2) & D3). rewrite LX in D3. clear HF.
  set (n := length (item_factors m)) in *.
  set (user := nth (Z.to_nat u) (user_factors m) []).
  assert (LU : length user = f). { rewrite Forall_forall in WU. apply WU. apply nth_In. lia. }
  destruct (query_user_scalar I m u ui HU) as (v & EV & RV). fold user in RV.
  destruct (rec_filter_spec N fi liked ui PF RG) as (count & flt & EF & HC & HK & HN & _).
  set (query := user ++ [0%R]).
  destruct (D3 query count) as (ids0 & EH & HB). rewrite seq_length in HB.
  set (scaling := (mx * spec_norm query)%R).
  set (ids := firstn N (filter (allowed fi liked ui) ids0)).
  assert (SC : forall i, i < n -> (scaling * conv L (d query (nth i extra [])) = spec_dot user (nth i (item_factors m) []))%R).
  { intros i Hi. unfold scaling. rewrite <- (NX i Hi), (Rmult_comm (spec_norm (nth i extra []))), D1. destruct (SX i Hi) as [e ->].
    rewrite !spec_dot_rdot. unfold query. rewrite rdot_app; [lra|]. rewrite LU. symmetry. rewrite Forall_forall in WI. apply WI. apply nth_In. auto. }
  exists ids, (map (fun i => (spec_dot user (nth i (item_factors m) []))%R) ids).
  assert (SUB : forall i, In i ids -> i < n).
  { intros i Hi. unfold ids in Hi. assert (Hi' : In i (filter (allowed fi liked ui) ids0)) by (rewrite <- (firstn_skipn N); apply in_or_app; auto).
    apply filter_In in Hi'. destruct Hi' as [Hi' _]. apply (best_incl _ _ _ _ HB) in Hi'. apply in_seq in Hi'. lia. }
  split.
  - unfold ann_recommend. rewrite row_given_row by auto. rewrite AL, AR. cbn [negb].
    assert (GO : angular_recommend1 E I A m u ui N liked fi false = (m, Ok (map Z.of_nat ids, map (fun i => (spec_dot user (nth i (item_factors m) []))%R) ids))).
    { unfold angular_recommend1. rewrite EV. cbn [bind]. rewrite EF. cbn [bind]. rewrite RV. cbn [nth]. change (@nzero R Num_R) with 0%R. fold query.
      rewrite (opt_filter flt N count); auto; [|rewrite EH, map_length, (best_length _ _ _ _ HB); lia].
      rewrite EH, filter_hits_map. rewrite (filter_ext _ _ HK). fold ids. f_equal. f_equal. f_equal.
      - rewrite map_map. apply map_ext. auto.
      - rewrite map_map. apply map_ext_in. intros i Hi. cbn [snd]. rewrite <- (SC i) by auto. rewrite AM, EN, AL. fold scaling.
        unfold two. destruct L; reflexivity. }
    destruct L; [rewrite GO; reflexivity|rewrite GO; reflexivity|congruence].
  - assert (B2 : Best (fun i j => nleb (spec_dot user (nth j (item_factors m) [])) (spec_dot user (nth i (item_factors m) [])) = true) (seq 0 n) (Nat.min count (length (seq 0 n))) ids0).
    { rewrite seq_length. eapply best_weaken; [|exact HB]. intros i j Hi Hj Hd. apply in_seq in Hi, Hj. apply nleb_R. rewrite <- (SC i), <- (SC j) by lia.
      apply Rmult_le_compat_l; [|apply D2; auto]. unfold scaling. apply Rmult_le_pos; [rewrite MX0, spec_norm_rnorm; apply rnorm_pos|rewrite spec_norm_rnorm; apply rnorm_pos]. }
    pose proof (best_filter _ _ _ _ (allowed fi liked ui) N (map Z.to_nat (filter_ids flt)) (seq_NoDup _ _) B2) as B3.
    eapply best_topn; [|apply B3].
    + cbv beta. auto.
    + intros i Hi HA. rewrite <- HK in HA. apply negb_false_iff in HA. apply memz_spec in HA. apply in_map_iff. exists (Z.of_nat i). split; [lia|auto].
    + rewrite map_length. auto.
Qed.
Print Assumptions C55_angular_partial.

(** Faiss pads with id -1. *)
Lemma filter_repeat_true {A} (p : A -> bool) x k : p x = true -> filter p (repeat x k) = repeat x k.
Proof. intros HP. induction k; simpl; auto. rewrite HP, IHk. auto. Qed.
Lemma firstn_repeat {A} (x : A) n k : firstn n (repeat x k) = repeat x (Nat.min n k).
Proof. revert k; induction n; destruct k; simpl; auto. rewrite IHn. auto. Qed.
Lemma padded_filter F N count n ge (g : nat -> R) fmin ids0 : Best ge (seq 0 n) (Nat.min count n) ids0 -> N + length F <= count -> ~ In (-1)%Z F ->
  let ids := firstn N (filter (fun i => negb (memz (Z.of_nat i) F)) ids0) in
  filter_hits F N (map (fun i => (Z.of_nat i, g i)) ids0 ++ repeat ((-1)%Z, fmin) (count - n)) = map (fun i => (Z.of_nat i, g i)) ids ++ repeat ((-1)%Z, fmin) (N - length ids).
Proof.
  intros HB HC HF ids. unfold filter_hits. rewrite filter_app, filter_map_swap, filter_repeat_true; [|cbn [fst]; apply negb_true_iff, memz_false; auto].
  cbn [fst]. rewrite firstn_app, firstn_map, map_length, firstn_repeat. fold ids. f_equal. f_equal.
  unfold ids. rewrite firstn_length.
  set (K := length (filter (fun i => negb (memz (Z.of_nat i) F)) ids0)).
  assert (KL : Nat.min count n <= K + length F).
  { rewrite <- (best_length _ _ _ _ HB), <- (filter_length_split (fun i => negb (memz (Z.of_nat i) F)) ids0). fold K.
    apply Nat.add_le_mono_l. rewrite <- (map_length Z.to_nat F). apply NoDup_incl_length; [apply NoDup_filter; apply (best_nodup _ _ _ _ HB)|].
    intros x Hx. apply filter_In in Hx. destruct Hx as [_ Hx]. rewrite negb_involutive in Hx. apply memz_spec in Hx. apply in_map_iff. exists (Z.of_nat x). split; [lia|auto]. }
  lia.
Qed.
Lemma opt_filter_padded (flt : option arr) N count (hits : list (Z * R)) : (flt = None -> count = N) -> length hits = count ->
  match flt with None => Ok [hits] | Some a => Ok (map (filter_hits (arr_list a) N) [hits]) end = Ok [filter_hits (filter_ids flt) N hits] :> res (list (list (Z * R))).
Proof. intros HN HL. rewrite <- (opt_filter flt N count) by (auto; lia). destruct flt; auto. Qed.
Lemma filter_one u (hits : list (Z * R)) (a : arr) N : filter_items_from_results (Scalar u) [hits] (arr_list a) N = Ok (map (filter_hits (arr_list a) N) [hits]).
Proof. reflexivity. Qed.

(** Faiss over an exact index: as above, then id -1 up to N. *)
Theorem C55_faiss_partial : forall (B : builders R) (E : ann_env R) (I : inner R) m asim A u ui N liked fi,
  inner_index (ae_fmin32 E) B -> faiss_fit E B false (item_factors m) asim true = Ok A ->
  (0 <= u < Z.of_nat (length (user_factors m)))%Z -> plain_filter fi -> ~ In (-1)%Z (filter_ids fi) -> row_given liked ui ->
  let cands := filter (allowed fi liked ui) (seq 0 (length (item_factors m))) in
  exists ids scores, ann_recommend E I A m (Scalar u) ui N liked fi false None =
      (m, Ok (OneRow (map Z.of_nat ids ++ repeat (-1)%Z (N - length cands)) (scores ++ repeat (ae_fmin32 E) (N - length cands)))) /\
    TopN (fun i => spec_dot (nth (Z.to_nat u) (user_factors m) []) (nth i (item_factors m) [])) cands (Nat.min N (length cands)) ids scores.
Proof.
  intros B E I m asim A u ui N liked fi HX HF HU PF NM RG cands.
  unfold faiss_fit in HF. injection HF as <-.
  set (n := length (item_factors m)) in *. set (user := nth (Z.to_nat u) (user_factors m) []).
  destruct (query_user_scalar I m u ui HU) as (v & EV & RV). fold user in RV.
  destruct (rec_filter_spec N fi liked ui PF RG) as (count & flt & EF & HC & HK & HN & HM).
  destruct (HX (item_factors m) user count) as (ids0 & EH & HB). fold n in EH, HB.
  assert (NF : ~ In (-1)%Z (filter_ids flt)) by (intro X; apply HM in X; destruct X; [auto|lia]).
  set (ids := firstn N (filter (allowed fi liked ui) ids0)).
  pose proof (best_filter _ _ _ _ (allowed fi liked ui) N (map Z.to_nat (filter_ids flt)) (seq_NoDup n 0) ltac:(rewrite seq_length; exact HB)) as B3.
  assert (B4 : Best (fun i j => (spec_dot user (nth j (item_factors m) []) <= spec_dot user (nth i (item_factors m) []))%R) cands (Nat.min N (length cands)) ids).
  { apply B3; [|rewrite map_length; auto]. intros i Hi HA. rewrite <- HK in HA. apply negb_false_iff in HA. apply memz_spec in HA. apply in_map_iff. exists (Z.of_nat i). split; [lia|auto]. }
  exists ids, (map (fun i => (spec_dot user (nth i (item_factors m) []))%R) ids). split.
  - unfold ann_recommend. rewrite row_given_row by auto. cbn [a_lib a_approx_rec]. unfold faiss_recommend_direct. cbn [a_approx_rec negb a_use_gpu andb a_rec].
    rewrite EV. cbn [bind]. rewrite EF. cbn [bind]. rewrite RV. cbn [map].
    assert (LH : length (b_inner B (item_factors m) user count) = count). { rewrite EH, app_length, map_length, repeat_length, (best_length _ _ _ _ HB). lia. }
    f_equal.
    match goal with |- bind ?x ?k = _ => assert (EQ : x = Ok [filter_hits (filter_ids flt) N (b_inner B (item_factors m) user count)]) end.
    { rewrite <- (opt_filter_padded flt N count) by auto. destruct flt; reflexivity. }
    rewrite EQ. cbn [bind to_out nth]. rewrite EH. rewrite (padded_filter _ _ _ n _ _ _ _ HB HC NF). rewrite (filter_ext _ _ HK). fold ids.
    rewrite !map_app, !map_map. cbn [fst snd]. assert (LI : N - length ids = N - length cands) by (rewrite (best_length _ _ _ _ B4); lia). rewrite LI.
    assert (R1 : forall k, map fst (repeat ((-1)%Z, ae_fmin32 E) k) = repeat (-1)%Z k) by (induction k; simpl; congruence).
    assert (R2 : forall k, map snd (repeat ((-1)%Z, ae_fmin32 E) k) = repeat (ae_fmin32 E) k) by (induction k; simpl; congruence).
    rewrite R1, R2. reflexivity.
  - eapply best_topn; [|exact B4]. intros i j _ _ HL. apply nleb_R. exact HL.
Qed.
Print Assumptions C55_faiss_partial.
