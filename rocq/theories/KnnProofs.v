(** all_pairs_knn: rows of the similarity matrix, under every schedule. *)
From Coq Require Import List Arith Lia Bool ZArith Permutation Sorted.
From Verif Require Import Base Num Heap Sparse TopkModel TopkSpec TopkProofs TopkBatch
  RecommendModel RecommendProofs RecommendProofs2 KnnModel KnnAcc.
Import ListNotations.

(* ---------- general list facts ---------- *)
Lemma flat_map_ext_in {A B} (f g : A -> list B) l :
  (forall a, In a l -> f a = g a) -> flat_map f l = flat_map g l.
Proof. induction l as [|a l IH]; simpl; intros E; auto. rewrite E by auto. f_equal. apply IH; auto. Qed.

Lemma filter_flat_map {A B} (p : B -> bool) (f : A -> list B) l :
  filter p (flat_map f l) = flat_map (fun a => filter p (f a)) l.
Proof. induction l; simpl; auto. rewrite filter_app, IHl. auto. Qed.

Lemma map_flat_map {A B C} (g : B -> C) (f : A -> list B) l :
  map g (flat_map f l) = flat_map (fun a => map g (f a)) l.
Proof. induction l; simpl; auto. rewrite map_app, IHl. auto. Qed.

Lemma flat_map_nil {A B} (l : list A) : flat_map (fun _ => @nil B) l = [].
Proof. induction l; auto. Qed.

Lemma flat_map_flat_map {A B C} (g : B -> list C) (f : A -> list B) l :
  flat_map g (flat_map f l) = flat_map (fun a => flat_map g (f a)) l.
Proof. induction l; simpl; auto. rewrite flat_map_app, IHl. auto. Qed.

Lemma flat_map_map_in {A B C} (g : B -> list C) (f : A -> B) l :
  flat_map g (map f l) = flat_map (fun a => g (f a)) l.
Proof. induction l; simpl; auto. rewrite IHl. auto. Qed.

Lemma firstn_app_exact {A} (l l' : list A) : firstn (length l) (l ++ l') = l.
Proof. rewrite firstn_app, firstn_all, Nat.sub_diag. simpl. apply app_nil_r. Qed.

Lemma concat_reshape {A} n k (mem : list A) : length mem = n * k -> concat (reshape n k mem) = mem.
Proof.
  intros L. rewrite <- (firstn_all2 mem (n := n * k)) at 2 by lia.
  assert (G : forall m, m <= n -> concat (reshape m k mem) = firstn (m * k) mem).
  { induction m as [|m IH]; intros Hm; auto.
    unfold reshape in *. rewrite seq_S, map_app, concat_app, IH by lia. simpl map. simpl concat.
    rewrite app_nil_r. replace (S m * k) with (m * k + k) by lia.
    rewrite firstn_add. f_equal. unfold slice. f_equal. lia. }
  apply G. auto.
Qed.

Lemma combine_app_eq {A B} (a a' : list A) (b b' : list B) :
  length a = length b -> combine (a ++ a') (b ++ b') = combine a b ++ combine a' b'.
Proof. revert b; induction a; destruct b; simpl; intros; try lia; auto. f_equal; auto. Qed.

Section Knn.
Context {T : Type} `{NumOrd T}.
Variables (HP : std_heap) (HC : std_heap_ok HP).
Variables (users : csr T) (Wf : csr_wf users) (K : nat) (HK : 0 < K).

Definition knn_items_of := csr_transpose users.
Definition n_items := c_cols users.

Lemma items_rows : c_rows knn_items_of = n_items.
Proof. unfold knn_items_of, csr_transpose. cbn [c_rows csr_of_rows]. rewrite map_length, seq_length. auto. Qed.

Lemma items_row i : i < n_items -> csr_row knn_items_of i = transpose_row users i.
Proof.
  intros Hi. unfold knn_items_of, csr_transpose. rewrite csr_row_of_rows.
  rewrite (nth_indep _ [] (transpose_row users 0)) by (rewrite map_length, seq_length; auto).
  rewrite map_nth, seq_nth by auto. auto.
Qed.

(** Specification: the contributions to entry (i, j) of the co-occurrence matrix. *)
Definition cooc_terms (i j : nat) : list T :=
  flat_map (fun u =>
    flat_map (fun p => map (fun q => nmul (snd q) (snd p))
                           (filter (fun q => fst q =? j) (csr_row users u)))
             (filter (fun p => fst p =? i) (csr_row users u)))
    (seq 0 (c_rows users)).
Definition cooc (i j : nat) : T := nsum (cooc_terms i j).
(** Some user has both [i] and [j]. *)
Definition together (i j : nat) : bool :=
  existsb (fun u => memn i (csr_row_indices users u) && memn j (csr_row_indices users u)) (seq 0 (c_rows users)).
Definition neighbours (i : nat) : list nat := filter (together i) (seq 0 n_items).

Lemma added_knn i j : i < n_items -> added j (knn_adds users knn_items_of i) = cooc_terms i j.
Proof.
  intros Hi. unfold added, knn_adds. rewrite items_row by auto. unfold transpose_row.
  rewrite filter_flat_map, map_flat_map. rewrite flat_map_flat_map. unfold cooc_terms.
  apply flat_map_ext_in. intros u Hu. rewrite flat_map_map_in. apply flat_map_ext_in. intros p Hp.
  clear Hp. cbn [fst snd]. induction (csr_row users u) as [|q l IH]; simpl; auto.
  destruct (fst q =? j); simpl; rewrite IH; auto.
Qed.

Lemma in_knn_adds i j : i < n_items ->
  In j (map fst (knn_adds users knn_items_of i)) <-> together i j = true.
Proof.
  intros Hi. unfold knn_adds. rewrite items_row by auto. rewrite map_flat_map. unfold together.
  rewrite in_flat_map, existsb_exists. split.
  - intros [[u w] [Hp Hj]]. unfold transpose_row in Hp. apply in_flat_map in Hp.
    destruct Hp as [u' [Hu Hp]]. apply in_map_iff in Hp. destruct Hp as [[i' w'] [E Hp]].
    simpl in E. inversion E; subst. apply filter_In in Hp. destruct Hp as [Hp Ei].
    simpl in Ei. apply Nat.eqb_eq in Ei; subst.
    exists u. split; auto. rewrite andb_true_iff, !memn_spec. split.
    + unfold csr_row_indices. apply in_map_iff. exists (i, w); auto.
    + cbn [fst] in Hj. rewrite map_map in Hj. exact Hj.
  - intros [u [Hu B]]. apply andb_true_iff in B. rewrite !memn_spec in B. destruct B as [Bi Bj].
    unfold csr_row_indices in Bi. apply in_map_iff in Bi. destruct Bi as [[i' w] [E Bi]]. simpl in E; subst.
    exists (u, w). split.
    + unfold transpose_row. apply in_flat_map. exists u. split; auto. apply in_map_iff.
      exists (i, w). split; auto. apply filter_In. split; auto. simpl. apply Nat.eqb_refl.
    + cbn [fst]. rewrite map_map. exact Bj.
Qed.

Lemma together_lt i j : together i j = true -> j < n_items.
Proof.
  unfold together. rewrite existsb_exists. intros [u [_ B]]. apply andb_true_iff in B.
  rewrite !memn_spec in B. destruct B as [_ B]. eapply csr_row_indices_lt; eauto.
Qed.

Lemma knn_adds_lt i : i < n_items -> Forall (fun p => fst p < n_items) (knn_adds users knn_items_of i).
Proof.
  intros Hi. apply Forall_forall. intros p Hp. apply (together_lt i).
  apply in_knn_adds; auto. apply in_map; auto.
Qed.

(** The list of (item, sum) pairs visited for item [i]. *)
Definition visited (i : nat) : list (nat * T) :=
  map (fun j => (j, cooc i j)) (touch (knn_adds users knn_items_of i) []).

Lemma visited_fst i : map fst (visited i) = touch (knn_adds users knn_items_of i) [].
Proof. unfold visited. rewrite map_map. cbn [fst]. apply map_id. Qed.

Lemma visited_in i j : i < n_items -> In j (map fst (visited i)) <-> In j (neighbours i).
Proof.
  intros Hi. rewrite visited_fst, touch_in, in_knn_adds by auto. unfold neighbours.
  rewrite filter_In, in_seq. split.
  - intros [[]|B]. split; auto. apply together_lt in B. lia.
  - intros [_ B]; auto.
Qed.

Lemma visited_perm i : i < n_items -> Permutation (map fst (visited i)) (neighbours i).
Proof.
  intros Hi. apply NoDup_Permutation.
  - rewrite visited_fst. apply touch_nodup. constructor.
  - unfold neighbours. apply NoDup_filter, seq_NoDup.
  - intros j. apply visited_in; auto.
Qed.

(** The heap kept for item [i]. *)
Definition kept (i : nat) : list (T * nat) :=
  match topk_feed HP K (visited i) [] with Ok r => r | Raise _ => [] end.

Lemma kept_spec i : i < n_items ->
  topk_feed HP K (visited i) [] = Ok (kept i) /\
  exists ids scores,
    TopN (cooc i) (neighbours i) (Nat.min K (length (neighbours i))) ids scores /\
    Permutation (kept i) (map (fun j => (cooc i j, j)) ids).
Proof.
  intros Hi.
  destruct (topk_feed_spec HP HC K (visited i) HK) as [r [d [E [_ [_ [Hh _]]]]]].
  unfold kept. rewrite E. split; auto.
  destruct (topk_sorted_topn HP HC K (visited i) (cooc i) HK) as [r' [E' TN]].
  - rewrite visited_fst. apply touch_nodup. constructor.
  - unfold visited. intros j s Hj. apply in_map_iff in Hj. destruct Hj as [j' [Ej _]]. inversion Ej; auto.
  - rewrite E in E'. cbn [bind] in E'. inversion E' as [E2]. clear E'.
    destruct (HC _ _ (heap_order_swo (T:=T))) as [_ [_ Hsort]]. destruct (Hsort r Hh) as [PS _].
    exists (map snd r'), (map fst r'). split.
    + rewrite <- (Permutation_length (visited_perm i Hi)), map_length.
      eapply TopN_cands; [|exact TN]. intros j. apply visited_in; auto.
    + rewrite E2 in PS. rewrite <- PS. apply Permutation_refl'.
      pose proof (topn_scores _ _ _ _ _ TN) as SC. clear -SC.
      induction r' as [|[s j] r' IH]; simpl in *; auto. inversion SC; subst. f_equal; auto.
Qed.

Lemma kept_len i : i < n_items -> length (kept i) <= K.
Proof.
  intros Hi. destruct (kept_spec i Hi) as [_ [ids [sc [TN P]]]].
  rewrite (Permutation_length P), map_length, (topn_length _ _ _ _ _ TN). lia.
Qed.

Definition item_writes (i : nat) : knn_writes T :=
  {| k_rows := row_writes (K * i) (map (fun _ => i) (kept i));
     k_cols := row_writes (K * i) (map snd (kept i));
     k_vals := row_writes (K * i) (map fst (kept i)) |}.

Lemma knn_item_ok i : i < n_items ->
  knn_item HP users knn_items_of K (acc_new n_items) i = Ok (item_writes i, acc_new n_items).
Proof.
  intros Hi. unfold knn_item.
  pose proof (acc_run n_items _ (knn_adds_lt i Hi)) as R.
  destruct (acc_adds (knn_adds users knn_items_of i) (acc_new n_items)) as [a|]; [|discriminate].
  cbn [bind] in *. rewrite R. cbn [bind].
  replace (map (fun j => (j, nsum (added j (knn_adds users knn_items_of i))))
            (touch (knn_adds users knn_items_of i) [])) with (visited i).
  - rewrite (proj1 (kept_spec i Hi)). cbn [bind]. reflexivity.
  - unfold visited. apply map_ext. intros j. rewrite added_knn by auto. reflexivity.
Qed.

Lemma knn_thread_ok is_ : Forall (fun i => i < n_items) is_ ->
  knn_thread HP users knn_items_of K is_ = Ok (map item_writes is_).
Proof.
  unfold knn_thread. rewrite items_rows.
  induction is_ as [|i is_ IH]; intros F; auto. inversion F; subst.
  cbn [knn_items]. rewrite knn_item_ok by auto. cbn [bind]. rewrite IH by auto. auto.
Qed.

Lemma k_rows_concat (l : list (knn_writes T)) : k_rows (kw_concat l) = concat (map k_rows l).
Proof. induction l; simpl; auto. rewrite IHl. auto. Qed.
Lemma k_cols_concat (l : list (knn_writes T)) : k_cols (kw_concat l) = concat (map k_cols l).
Proof. induction l; simpl; auto. rewrite IHl. auto. Qed.
Lemma k_vals_concat (l : list (knn_writes T)) : k_vals (kw_concat l) = concat (map k_vals l).
Proof. induction l; simpl; auto. rewrite IHl. auto. Qed.

Lemma perm_concat_map {A B} (f : A -> list B) l l' : Permutation l l' ->
  Permutation (concat (map f l)) (concat (map f l')).
Proof. intros P. rewrite <- !flat_map_concat_map. apply Permutation_flat_map; auto. Qed.

Lemma seq_row_writes {V} (f : nat -> list V) n :
  concat (map (fun i => row_writes (K * i) (f i)) (seq 0 n)) = all_row_writes K (map f (seq 0 n)).
Proof.
  unfold all_row_writes, enum. f_equal. generalize 0. induction n; intros s; simpl; auto.
  f_equal; [f_equal; lia|auto].
Qed.

Lemma flat_read_back {V} (d : V) (f : nat -> list V) ws :
  (forall i, i < n_items -> length (f i) <= K) ->
  Permutation ws (concat (map (fun i => row_writes (K * i) (f i)) (seq 0 n_items))) ->
  apply_writes ws (repeat d (n_items * K)) = flat_map (fun i => pad K d (f i)) (seq 0 n_items).
Proof.
  intros B P. rewrite seq_row_writes in P.
  pose proof (read_back K d (map f (seq 0 n_items)) ws) as R.
  rewrite map_length, seq_length in R.
  rewrite <- (concat_reshape n_items K (apply_writes ws (repeat d (n_items * K)))).
  - rewrite R; auto. { rewrite map_map. symmetry. apply flat_map_concat_map. }
    intros r Hr. apply in_map_iff in Hr. destruct Hr as [i [<- Hi]]. apply in_seq in Hi. apply B. lia.
  - rewrite apply_writes_length, repeat_length. auto.
Qed.

(** What the three arrays hold for item [i]. *)
Definition item_entries (i : nat) : list (nat * nat * T) :=
  map (fun p => (i, snd p, fst p)) (kept i) ++ repeat (0, 0, nzero) (K - length (kept i)).

Lemma combine_pads i : combine (combine (pad K 0 (map (fun _ => i) (kept i))) (pad K 0 (map snd (kept i))))
                               (pad K nzero (map fst (kept i))) = item_entries i.
Proof.
  unfold pad, item_entries. rewrite !map_length.
  rewrite combine_app_eq by (rewrite !map_length; auto).
  rewrite combine_app_eq by (rewrite combine_length, !map_length; lia).
  f_equal.
  - induction (kept i) as [|[s j] l IH]; simpl; auto. f_equal; auto.
  - induction (K - length (kept i)); simpl; auto. f_equal; auto.
Qed.

Lemma arrays_entries rows cols vals :
  Permutation rows (concat (map (fun i => k_rows (item_writes i)) (seq 0 n_items))) ->
  Permutation cols (concat (map (fun i => k_cols (item_writes i)) (seq 0 n_items))) ->
  Permutation vals (concat (map (fun i => k_vals (item_writes i)) (seq 0 n_items))) ->
  knn_similarity_of n_items (knn_arrays n_items K rows cols vals)
  = coo_to_csr n_items n_items (flat_map item_entries (seq 0 n_items)).
Proof.
  intros P1 P2 P3. unfold knn_arrays, knn_similarity_of.
  rewrite (flat_read_back 0 (fun i => map (fun _ => i) (kept i)) rows);
    [|intros; rewrite map_length; apply kept_len; auto|exact P1].
  rewrite (flat_read_back 0 (fun i => map snd (kept i)) cols);
    [|intros; rewrite map_length; apply kept_len; auto|exact P2].
  rewrite (flat_read_back nzero (fun i => map fst (kept i)) vals);
    [|intros; rewrite map_length; apply kept_len; auto|exact P3].
  f_equal.
  assert (B : forall i, In i (seq 0 n_items) -> length (kept i) <= K).
  { intros i Hi. apply in_seq in Hi. apply kept_len; lia. }
  revert B. generalize (seq 0 n_items). induction l as [|i l IH]; intros B; auto.
  cbn [flat_map]. rewrite <- IH by (intros; apply B; right; auto).
  assert (PL : forall V (d : V) (x : list V), length x = length (kept i) -> length (pad K d x) = K).
  { intros V d x L. unfold pad. rewrite app_length, repeat_length. specialize (B i (or_introl eq_refl)). lia. }
  rewrite combine_app_eq by (rewrite !PL; rewrite ?map_length; auto).
  rewrite combine_app_eq by (rewrite combine_length, !PL; rewrite ?map_length; auto; lia).
  rewrite combine_pads. auto.
Qed.

(** Values stored for entry (r, c). *)
Definition pads : nat := length (flat_map (fun i => repeat (@nzero T _) (K - length (kept i))) (seq 0 n_items)).

Lemma filter_none {A} (p : A -> bool) l : (forall x, In x l -> p x = false) -> filter p l = [].
Proof. induction l as [|a l IH]; simpl; intros E; auto. rewrite E by auto. apply IH; auto. Qed.

Definition own (r c : nat) : list T := map fst (filter (fun p => snd p =? c) (kept r)).

Lemma entries_of r c i :
  map snd (filter (fun e => (fst (fst e) =? r) && (snd (fst e) =? c)) (item_entries i))
  = (if i =? r then own r c else []) ++
    (if (r =? 0) && (c =? 0) then repeat nzero (K - length (kept i)) else []).
Proof.
  unfold item_entries. rewrite filter_app, map_app. f_equal.
  - unfold own. destruct (Nat.eqb_spec i r) as [E|NE].
    + subst. induction (kept r) as [|[s j] l IH]; simpl; auto. rewrite Nat.eqb_refl. simpl.
      destruct (j =? c); simpl; rewrite IH; auto.
    + rewrite filter_none; auto. intros x Hx. apply in_map_iff in Hx. destruct Hx as [p [<- _]].
      simpl. apply Nat.eqb_neq in NE. rewrite NE. auto.
  - rewrite (Nat.eqb_sym r 0), (Nat.eqb_sym c 0).
    induction (K - length (kept i)) as [|m IH]; simpl; [destruct (_ && _); auto|].
    destruct r, c; simpl in *; auto. f_equal; auto.
Qed.

Lemma flat_map_single {A} (f : nat -> list A) r n s : s <= r -> r < s + n ->
  flat_map (fun i => if i =? r then f i else []) (seq s n) = f r.
Proof.
  revert s; induction n as [|n IH]; intros s L1 L2; [lia|]. simpl.
  destruct (Nat.eqb_spec s r) as [->|NE].
  - replace (flat_map (fun i => if i =? r then f i else []) (seq (S r) n)) with (@nil A).
    { apply app_nil_r. }
    symmetry. transitivity (flat_map (fun _ => @nil A) (seq (S r) n)); [|apply flat_map_nil].
    apply flat_map_ext_in. intros i Hi.
    apply in_seq in Hi. destruct (Nat.eqb_spec i r); auto; lia.
  - simpl. apply IH; lia.
Qed.

Lemma repeat_flat {A} (x : A) (f : nat -> nat) l :
  flat_map (fun i => repeat x (f i)) l = repeat x (length (flat_map (fun i => repeat x (f i)) l)).
Proof.
  induction l as [|a l IH]; simpl; auto. rewrite app_length, repeat_length, repeat_app. rewrite <- IH. auto.
Qed.

Lemma entries_at r c : r < n_items ->
  map snd (filter (fun e => (fst (fst e) =? r) && (snd (fst e) =? c)) (flat_map item_entries (seq 0 n_items)))
  = own r c ++ (if (r =? 0) && (c =? 0) then repeat nzero pads else []).
Proof.
  intros Hr. rewrite filter_flat_map, map_flat_map.
  rewrite (flat_map_ext_in _ _ _ (fun i _ => entries_of r c i)).
  destruct ((r =? 0) && (c =? 0)) eqn:Z.
  - apply andb_true_iff in Z. destruct Z as [Z1 Z2]. apply Nat.eqb_eq in Z1, Z2. subst.
    unfold pads. rewrite <- repeat_flat.
    revert Hr. generalize n_items. intros m Hr. destruct m as [|n]; [lia|]. simpl seq. cbn [flat_map]. rewrite <- app_assoc. simpl.
    f_equal. f_equal. apply flat_map_ext_in. intros i Hi. apply in_seq in Hi.
    destruct i; [lia|]. simpl. auto.
  - rewrite (flat_map_ext_in _ (fun i => if i =? r then (fun _ => own r c) i else [])).
    + rewrite (flat_map_single (fun _ => own r c)) by lia. rewrite app_nil_r. auto.
    + intros i _. rewrite app_nil_r. destruct (i =? r); auto.
Qed.

(** Adding the padding zeros changes nothing. *)
Hypothesis add_zero : forall x : T, nadd x nzero = x.

Lemma fold_zeros v m : fold_left nadd (repeat nzero m) v = v.
Proof. revert v; induction m; simpl; intros; auto. rewrite add_zero. auto. Qed.

Definition spurious (r c : nat) : bool := (r =? 0) && (c =? 0) && (0 <? pads).

Lemma own_ids r c ids : NoDup ids -> Permutation (kept r) (map (fun j => (cooc r j, j)) ids) ->
  own r c = if memn c ids then [cooc r c] else [].
Proof.
  intros ND P. unfold own.
  assert (P2 : Permutation (map fst (filter (fun p => snd p =? c) (kept r)))
                           (map fst (filter (fun p : T * nat => snd p =? c) (map (fun j => (cooc r j, j)) ids)))).
  { apply Permutation_map. clear -P. induction P; simpl; auto.
    - destruct (snd x =? c); auto.
    - destruct (snd x =? c), (snd y =? c); auto. apply perm_swap.
    - eapply Permutation_trans; eauto. }
  assert (E : map fst (filter (fun p : T * nat => snd p =? c) (map (fun j => (cooc r j, j)) ids))
              = if memn c ids then [cooc r c] else []).
  { clear -ND. induction ids as [|j ids IH]; auto. inversion ND as [|? ? N1 N2]; subst.
    unfold memn in *. cbn [map filter existsb snd]. rewrite (Nat.eqb_sym c j).
    destruct (Nat.eqb_spec j c) as [->|NE]; simpl; auto.
    rewrite IH by auto. replace (existsb (Nat.eqb c) ids) with false; auto.
    symmetry. apply memn_false. auto. }
  rewrite E in P2. destruct (memn c ids).
  - apply Permutation_sym, Permutation_length_1_inv in P2. auto.
  - apply Permutation_sym, Permutation_nil in P2. auto.
Qed.

Lemma coo_row_spec r ids : r < n_items -> NoDup ids ->
  Permutation (kept r) (map (fun j => (cooc r j, j)) ids) ->
  coo_row n_items (flat_map item_entries (seq 0 n_items)) r
  = map (fun c => (c, if memn c ids then cooc r c else nzero))
        (filter (fun c => memn c ids || spurious r c) (seq 0 n_items)).
Proof.
  intros Hr ND P. unfold coo_row.
  rewrite (flat_map_ext_in _ (fun c => if memn c ids || spurious r c
      then [(c, if memn c ids then cooc r c else nzero)] else [])).
  - generalize (seq 0 n_items). induction l as [|c l IH]; simpl; auto.
    destruct (memn c ids || spurious r c); simpl; rewrite IH; auto.
  - intros c _. rewrite entries_at by auto. rewrite (own_ids r c ids) by auto.
    unfold spurious. destruct ((r =? 0) && (c =? 0)); simpl.
    + destruct (memn c ids); simpl.
      * rewrite fold_zeros. auto.
      * destruct pads; simpl; auto. rewrite fold_zeros. auto.
    + rewrite app_nil_r. destruct (memn c ids); simpl; auto.
Qed.

Lemma all_pairs_knn_ok :
  all_pairs_knn HP users K = Ok (coo_to_csr n_items n_items (flat_map item_entries (seq 0 n_items))).
Proof.
  unfold all_pairs_knn. fold knn_items_of. rewrite items_rows.
  rewrite knn_thread_ok by (apply Forall_forall; intros i Hi; apply in_seq in Hi; lia).
  cbn [bind]. f_equal. apply arrays_entries.
  - rewrite k_rows_concat, map_map. auto.
  - rewrite k_cols_concat, map_map. auto.
  - rewrite k_vals_concat, map_map. auto.
Qed.

Lemma knn_schedule threads wss rows cols vals :
  Permutation (concat threads) (seq 0 n_items) ->
  map_res (knn_thread HP users knn_items_of K) threads = Ok wss ->
  Permutation rows (k_rows (kw_concat (concat wss))) ->
  Permutation cols (k_cols (kw_concat (concat wss))) ->
  Permutation vals (k_vals (kw_concat (concat wss))) ->
  all_pairs_knn HP users K = Ok (knn_similarity_of n_items (knn_arrays n_items K rows cols vals)).
Proof.
  intros PT E P1 P2 P3.
  assert (F : map_res (knn_thread HP users knn_items_of K) threads = Ok (map (map item_writes) threads)).
  { apply map_res_map. intros l Hl. apply knn_thread_ok. apply Forall_forall. intros i Hi.
    assert (X : In i (seq 0 n_items)). { eapply Permutation_in; [exact PT|]. apply in_concat; eauto. }
    apply in_seq in X. lia. }
  rewrite F in E. inversion E; subst wss. clear E F.
  rewrite <- concat_map in P1, P2, P3.
  rewrite k_rows_concat, map_map in P1. rewrite k_cols_concat, map_map in P2. rewrite k_vals_concat, map_map in P3.
  rewrite all_pairs_knn_ok. f_equal. symmetry. apply arrays_entries.
  - rewrite P1. apply perm_concat_map; auto.
  - rewrite P2. apply perm_concat_map; auto.
  - rewrite P3. apply perm_concat_map; auto.
Qed.

Lemma knn_schedule_total threads : Permutation (concat threads) (seq 0 n_items) ->
  exists wss, map_res (knn_thread HP users knn_items_of K) threads = Ok wss.
Proof.
  intros PT. exists (map (map item_writes) threads). apply map_res_map. intros l Hl.
  apply knn_thread_ok. apply Forall_forall. intros i Hi.
  assert (X : In i (seq 0 n_items)). { eapply Permutation_in; [exact PT|]. apply in_concat; eauto. }
  apply in_seq in X. lia.
Qed.

Lemma coo_csr_row r e : r < n_items -> csr_row (coo_to_csr n_items n_items e) r = coo_row n_items e r.
Proof.
  intros Hr. unfold coo_to_csr. rewrite csr_row_of_rows.
  rewrite (nth_indep _ [] (coo_row n_items e 0)) by (rewrite map_length, seq_length; auto).
  rewrite map_nth, seq_nth by auto. auto.
Qed.

Lemma knn_rows : exists S, all_pairs_knn HP users K = Ok S /\ c_rows S = n_items /\ c_cols S = n_items /\
  csr_wf S /\
  forall i, i < n_items -> exists ids scores,
    TopN (cooc i) (neighbours i) (Nat.min K (length (neighbours i))) ids scores /\
    csr_row S i = map (fun c => (c, if memn c ids then cooc i c else nzero))
                      (filter (fun c => memn c ids || spurious i c) (seq 0 n_items)).
Proof.
  eexists. split; [apply all_pairs_knn_ok|].
  split; [unfold coo_to_csr; cbn [c_rows csr_of_rows]; rewrite map_length, seq_length; auto|].
  split; [auto|].
  split.
  - apply csr_of_rows_wf. intros r p Hr Hp. apply in_map_iff in Hr. destruct Hr as [i [<- _]].
    unfold coo_row in Hp. apply in_flat_map in Hp. destruct Hp as [c [Hc Hp]]. apply in_seq in Hc.
    destruct (map snd _); simpl in Hp; [tauto|]. destruct Hp as [<-|[]]. simpl. lia.
  - intros i Hi. destruct (kept_spec i Hi) as [_ [ids [sc [TN P]]]]. exists ids, sc. split; auto.
    rewrite coo_csr_row by auto. apply coo_row_spec; auto. apply (topn_nodup _ _ _ _ _ TN).
Qed.

End Knn.
