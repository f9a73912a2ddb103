(** GPU recommend as a whole. *)
From Coq Require Import List Arith Lia Bool ZArith Permutation Sorted.
From Verif Require Import Base Num Heap Sparse TopkModel TopkSpec TopkProofs RecommendModel RecommendProofs RecommendProofs2 RecommendProofs3 GpuKnn GpuKnnProofs GpuKnnProofs2.
Import ListNotations.

Lemma pool_size_default free : (0 <= free)%Z -> (0 <= pool_size free 0 <= four_gib)%Z.
Proof.
  intros H. unfold pool_size. cbn [Z.eqb]. set (t := Z.min (free / 2) four_gib).
  assert (T0 : (0 <= t <= four_gib)%Z). { pose proof (Z.div_pos free 2 H ltac:(lia)). unfold t. generalize dependent (free / 2)%Z. intros. unfold four_gib. lia. }
  pose proof (Z.mod_pos_bound t 256 ltac:(lia)) as MB. pose proof (Z.div_mod t 256 ltac:(lia)) as DM. unfold four_gib in *.
  destruct (t mod 256 =? 0)%Z eqn:EM; auto. apply Z.eqb_neq in EM.
  rewrite size_t_small by lia. assert (t / 256 < 16777216 \/ t / 256 = 16777216)%Z by lia. lia.
Qed.

(** More cells than memory. *)
Lemma plan_too_big pool rows k items : (0 < items)%Z -> (pool <= four_gib)%Z -> (2 ^ 33 <= rows * k * 4 < 2 ^ 64)%Z -> plan pool 4 rows k items = Raise RuntimeError.
Proof.
  intros HI HP HB. unfold plan, batch_rows. replace ((items =? 0)%Z) with false by (symmetry; apply Z.eqb_neq; lia). cbn [bind].
  rewrite (size_t_small (rows * k * 4)) by lia. pose proof (align_ge (rows * k * 4) ltac:(lia)). unfold four_gib in HP.
  replace ((pool <? align (rows * k * 4))%Z) with true by (symmetry; apply Z.ltb_lt; lia). reflexivity.
Qed.

Section Sel.
Context {T : Type} `{NumOrd T}.
(** Selection by sorting. *)
Definition sel_sort (row : list T) (k : nat) : list (nat * T) := firstn k (sort_by (fun x y => nltb (snd x) (snd y)) (enum row)).

Lemma enum_nth_in (row : list T) p : In p (enum row) -> fst p < length row /\ snd p = nth (fst p) row nzero.
Proof.
  intros Hp. destruct (In_nth _ _ (0, nzero) Hp) as [i [Hi E]]. unfold enum in Hi. rewrite enum_from_length in Hi. unfold enum in E. rewrite nth_enum in E by auto. subst p. cbn. split; [lia|f_equal; lia].
Qed.
Lemma ss_firstn {A} (P : A -> A -> Prop) k : forall l, StronglySorted P l -> StronglySorted P (firstn k l).
Proof.
  induction k as [|k IH]; intros l HS; [constructor|]. destruct HS as [|a l HS HF]; [constructor|]. cbn [firstn]. constructor; auto.
  rewrite Forall_forall in *. intros x Hx. apply HF. rewrite <- (firstn_skipn k l). apply in_or_app; auto.
Qed.
Lemma ss_firstn_skipn {A} (P : A -> A -> Prop) k : forall l, StronglySorted P l -> forall x y, In x (firstn k l) -> In y (skipn k l) -> P x y.
Proof.
  induction k as [|k IH]; intros l HS x y Hx Hy; [destruct Hx|]. destruct HS as [|a l HS HF]; [destruct Hx|]. cbn [firstn skipn] in *. destruct Hx as [<-|Hx].
  - rewrite Forall_forall in HF. apply HF. rewrite <- (firstn_skipn k l). apply in_or_app; auto.
  - apply (IH l HS x y); auto.
Qed.
Lemma nodup_firstn {A} k (l : list A) : NoDup l -> NoDup (firstn k l).
Proof.
  revert k. induction l as [|a l IH]; intros [|k] ND; cbn [firstn]; try constructor. 
  - inversion ND as [|? ? NI ND']; subst. intros X. apply NI. rewrite <- (firstn_skipn k l). apply in_or_app; auto.
  - inversion ND; subst. apply IH; auto.
Qed.
Lemma sel_sort_ok : select_k_ok sel_sort.
Proof.
  intros row k HK. unfold sel_sort. set (comp := fun x y : nat * T => nltb (snd x) (snd y)).
  assert (SW : swo comp). { constructor; unfold comp; intros; [apply nltb_irrefl|eapply nltb_trans; eauto|eapply nltb_cotrans; eauto]. }
  pose proof (sort_by_sorted comp SW (enum row)) as SS. pose proof (sort_by_perm comp (enum row)) as PM. set (l := sort_by comp (enum row)) in *.
  assert (LL : length l = length row) by (rewrite (Permutation_length PM); unfold enum; apply enum_from_length).
  assert (IN : forall p, In p l -> fst p < length row /\ snd p = nth (fst p) row nzero) by (intros p Hp; apply enum_nth_in; eapply Permutation_in; eauto).
  assert (INF : forall p, In p (firstn k l) -> In p l) by (intros p Hp; rewrite <- (firstn_skipn k l); apply in_or_app; auto).
  constructor.
  - rewrite map_length, firstn_length. lia.
  - rewrite map_map. apply map_ext_in. intros p Hp. apply IN; auto.
  - rewrite <- firstn_map. apply nodup_firstn. eapply Permutation_NoDup; [apply Permutation_sym, Permutation_map, PM|]. apply enum_from_NoDup.
  - intros i Hi. apply in_map_iff in Hi. destruct Hi as [p [<- Hp]]. apply in_seq. destruct (IN p (INF p Hp)). lia.
  - apply (ss_firstn _ k) in SS. revert INF SS. generalize (firstn k l). intros l0 INF SS. induction SS as [|a l0 SS IH HF]; cbn [map]; constructor.
    + apply IH. intros p Hp. apply INF. right; auto.
    + rewrite Forall_forall in *. intros j Hj. apply in_map_iff in Hj. destruct Hj as [p [<- Hp]]. specialize (HF p Hp). unfold comp in HF.
      destruct (IN a (INF a (or_introl eq_refl))) as [_ Ea]. destruct (IN p (INF p (or_intror Hp))) as [_ Ep]. rewrite Ea, Ep in HF. apply nleb_nltb_false. auto.
  - intros i j Hi Hj Hn. apply in_map_iff in Hi. destruct Hi as [p [<- Hp]]. apply in_seq in Hj.
    assert (HJ : In (j, nth j row nzero) l).
    { eapply Permutation_in; [apply Permutation_sym, PM|]. replace (j, nth j row nzero) with (nth j (enum row) (0, nzero)) by (unfold enum; rewrite nth_enum by lia; f_equal; lia). apply nth_In. unfold enum. rewrite enum_from_length. lia. }
    rewrite <- (firstn_skipn k l) in HJ. apply in_app_or in HJ. destruct HJ as [HJ|HJ]. { exfalso. apply Hn. apply in_map_iff. exists (j, nth j row nzero). auto. }
    pose proof (ss_firstn_skipn _ k l SS p (j, nth j row nzero) Hp HJ) as X. unfold comp in X. cbn in X. destruct (IN p (INF p Hp)) as [_ Ep]. rewrite Ep in X. apply nleb_nltb_false. auto.
Qed.
End Sel.

Section Rec.
Context {T : Type} {NT : Num T} {NO : NumOrd T}.
Variables (sel : select_k T) (fdist : T) (junk : nat -> Z * T).
Hypothesis HS : select_k_ok sel.

Lemma knn_rows' pool (items query : gmatrix T) k norms fq fi :
  norms_ok (g_rows items) norms -> filters_ok (length (g_rows items)) fi fq -> (0 < k <= Z.of_nat (length (g_rows items)))%Z ->
  g_cols query = g_cols items -> g_size query = 4%Z -> g_size items = 4%Z -> g_rows query <> [] ->
  (Z.of_nat (length (g_rows query)) < 2 ^ 31)%Z -> (Z.of_nat (length (g_rows items)) < 2 ^ 31)%Z -> (0 <= pool <= four_gib)%Z ->
  (knn_topk sel fdist junk pool items query k norms fq fi = Raise RuntimeError /\
     plan pool 4 (Z.of_nat (length (g_rows query))) k (Z.of_nat (length (g_rows items))) = Raise RuntimeError) \/
  exists idss scs, knn_topk sel fdist junk pool items query k norms fq fi = Ok (map (map Z.of_nat) idss, scs) /\
    length idss = length (g_rows query) /\ length scs = length (g_rows query) /\
    forall g, g < length (g_rows query) ->
      TopN (fscore fdist (hidden fi fq g) (base_score (g_rows items) norms (nth g (g_rows query) [])))
           (seq 0 (length (g_rows items))) (Z.to_nat k) (nth g idss []) (nth g scs []).
Proof.
  intros HN HF HK HC HQ HI HNE HR HIt HP.
  assert (R0 : (0 < Z.of_nat (length (g_rows query)))%Z) by (destruct (g_rows query); [congruence|simpl; lia]).
  destruct (Z_lt_le_dec (Z.of_nat (length (g_rows query)) * k * 4) (2 ^ 47)) as [L|L].
  - apply knn_rows; auto. unfold fits. lia.
  - left. assert (E : plan pool 4 (Z.of_nat (length (g_rows query))) k (Z.of_nat (length (g_rows items))) = Raise RuntimeError) by (apply plan_too_big; nia).
    split; auto. unfold knn_topk.
    replace ((k <? 0)%Z) with false by (symmetry; apply Z.ltb_ge; lia). replace ((k =? 0)%Z) with false by (symmetry; apply Z.eqb_neq; lia).
    rewrite HC, Nat.eqb_refl, HQ, HI. cbn [Z.eqb Pos.eqb negb]. unfold topk_impl. rewrite Z2Nat.id by lia. rewrite E. reflexivity.
Qed.

Lemma int_vector_ok fi : (forall a, fi = Some a -> arr_list a <> []) -> int_vector fi = Ok (option_map arr_list fi).
Proof. intros HF. unfold int_vector. destruct fi as [a|]; auto. cbn. specialize (HF a eq_refl). destruct (arr_list a); [congruence|auto]. Qed.

(** Calls without an explicit item list. *)
Lemma gpu_recommend_ok pool (users items : gmatrix T) recalc id ui k fl fi (excl : nat -> nat -> bool) :
  let n := length (g_rows items) in let B := length (id_list id) in
  g_cols users = g_cols items -> g_size users = 4%Z -> g_size items = 4%Z ->
  (Z.of_nat (length (g_rows users)) <= 2 ^ 31)%Z -> (Z.of_nat n < 2 ^ 31)%Z -> (Z.of_nat B < 2 ^ 31)%Z -> (0 <= pool <= four_gib)%Z ->
  id_list id <> [] -> (forall z, In z (id_list id) -> (0 <= z < Z.of_nat (length (g_rows users)))%Z) ->
  (1 <= k <= Z.of_nat n)%Z ->
  (fl = true -> exists M, ui = Csr M /\ c_rows M = B /\ forall g c v, g < B -> In (c, v) (csr_row M g) -> c < n) ->
  (forall a, fi = Some a -> arr_list a <> [] /\ forall z, In z (arr_list a) -> (0 <= z < Z.of_nat n)%Z) ->
  (forall g i, g < B -> i < n -> excl g i = true <->
     (fl = true /\ exists M v, ui = Csr M /\ In (i, v) (csr_row M g)) \/
     (exists a, fi = Some a /\ In (Z.of_nat i) (arr_list a))) ->
  (gpu_recommend sel fdist junk pool users items recalc id ui k fl fi false None = Raise RuntimeError /\
     plan pool 4 (Z.of_nat B) k (Z.of_nat n) = Raise RuntimeError) \/
  exists idss scs, gpu_recommend sel fdist junk pool users items recalc id ui k fl fi false None = Ok (gfinish id (map (map Z.of_nat) idss) scs) /\
    length idss = B /\ length scs = B /\
    forall g, g < B ->
      TopN (fscore fdist (excl g) (base_score (g_rows items) None (nth (Z.to_nat (nth g (id_list id) 0%Z)) (g_rows users) [])))
           (seq 0 n) (Z.to_nat k) (nth g idss []) (nth g scs []).
Proof.
  intros n B HC HSU HSI HU HN HB HP HNE HID HK HL HF HE. unfold gpu_recommend. rewrite orb_false_r.
  assert (E1 : (if fl then match ui with NotCsr => Raise ValueError | Csr M => if c_rows M =? length (id_list id) then Ok tt else Raise ValueError end else Ok tt) = Ok tt).
  { destruct fl; auto. destruct (HL eq_refl) as [M [-> [-> _]]]. unfold B. rewrite Nat.eqb_refl. auto. }
  rewrite E1. cbn [bind]. rewrite gpu_getitem_ok by auto. cbn [bind].
  rewrite int_vector_ok by (intros a Ha; apply (HF a Ha)). cbn [bind].
  set (fq := if fl then match ui with NotCsr => None | Csr M => coo_opt M end else None).
  replace (if fl then match ui with NotCsr => None | Csr M => match coo_of M with [] => None | coo => Some coo end end else None) with fq by reflexivity.
  set (fz := option_map arr_list fi).
  assert (FO : filters_ok n fz fq).
  { unfold fq. assert (FI : forall ids z, fz = Some ids -> In z ids -> (0 <= z < Z.of_nat n)%Z).
    { intros ids z Ez Hz. unfold fz in Ez. destruct fi as [a|]; [|discriminate Ez]. injection Ez as <-. apply (HF a eq_refl); auto. }
    destruct fl; [|split; [exact FI|intros ? ? X; discriminate X]].
    destruct (HL eq_refl) as [M [-> [RM BM]]]. apply coo_opt_ok; auto. intros g c Hg Hc. unfold csr_row_indices in Hc. apply in_map_iff in Hc. destruct Hc as [[c' v] [<- Hc]]. apply (BM g c' v); auto. lia. }
  assert (HH : forall g i, g < B -> i < n -> hidden fz fq g i = excl g i).
  { intros g i Hg Hi. apply eq_true_iff_eq. rewrite (HE g i Hg Hi). unfold fq. destruct fl.
    - destruct (HL eq_refl) as [M [-> [RM BM]]]. rewrite coo_opt_hidden by lia. rewrite orb_true_iff, memn_spec. unfold csr_row_indices. rewrite in_map_iff. unfold fz. split.
      + intros [X|[[c v] [X Y]]].
        * right. destruct fi as [a|]; [|discriminate X]. exists a. split; auto. apply memz_spec. exact X.
        * left. cbn in X. subst c. split; auto. exists M, v. auto.
      + intros [[_ [M' [v [X Y]]]]|[a [-> X]]].
        * right. injection X as <-. exists (i, v). auto.
        * left. cbn. apply memz_spec. auto.
    - unfold hidden. rewrite orb_false_r. unfold fz. split.
      + intros X. right. destruct fi as [a|]; [|discriminate X]. exists a. split; auto. apply memz_spec. exact X.
      + intros [[X _]|[a [-> X]]]; [discriminate X|]. cbn. apply memz_spec. auto. }
  assert (LQ : length (g_rows (gpick users (id_list id))) = B) by (cbn; apply map_length).
  destruct (knn_rows' pool items (gpick users (id_list id)) k None fq fz) as [[X Y]|[idss [scs [X [L1 [L2 TN]]]]]]; auto.
  - intros ns Hns. discriminate Hns.
  - fold n. lia.
  - intros X. apply HNE. destruct (id_list id); auto. discriminate X.
  - rewrite LQ. auto.
  - rewrite LQ in Y. left. rewrite X. cbn [bind]. auto.
  - rewrite LQ in *. right. exists idss, scs. rewrite X. cbn [bind fst snd gremap]. split; auto. split; auto. split; auto.
    intros g Hg. specialize (TN g Hg). eapply TopN_ext; [|exact TN]. intros i Hi. apply in_seq in Hi. unfold fscore. fold n in Hi. rewrite HH by lia.
    destruct (excl g i); auto. cbn [gpick g_rows]. rewrite (nth_map_lt _ _ _ _ 0%Z) by auto. reflexivity.
Qed.
End Rec.
