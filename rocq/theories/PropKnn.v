(** C14-C23: item-item nearest neighbour models. *)
From Coq Require Import List Arith Lia Bool ZArith Permutation Sorted Reals Lra.
From Verif Require Import Base Num Heap Sparse TopkModel TopkSpec TopkProofs TopkBatch
  RecommendModel RecommendProofs RecommendProofs2 RecommendProofs3 RVec
  KnnModel KnnAcc KnnProofs KnnRec KnnConc KnnRec2.
Import ListNotations.

(* ------------------------------------------------------------------ *)
(** C14.  A history: calls of the accumulator, one after the other, on one object. *)
Fixpoint run_calls {T} `{Num T} (a : acc T) (hist : list (list (nat * T)))
  : res (list (list (nat * T)) * acc T) :=
  match hist with
  | [] => Ok ([], a)
  | xs :: hist =>
      do a <- acc_adds xs a;
      do ' (ps, a) <- acc_foreach a;
      do ' (outs, a) <- run_calls a hist;
      Ok (ps :: outs, a)
  end.

(** [ps] is the finite map "index -> sum of what was added to it". *)
Definition is_sum_map {T} `{Num T} (xs ps : list (nat * T)) : Prop :=
  NoDup (map fst ps) /\
  (forall j, In j (map fst ps) <-> exists v, In (j, v) xs) /\
  (forall j s, In (j, s) ps -> s = nsum (map snd (filter (fun p => fst p =? j) xs))).

Theorem C14_accumulator :
  forall (T : Type) (HT : Num T) (n : nat) (hist : list (list (nat * T))),
  (forall xs j v, In xs hist -> In (j, v) xs -> j < n) ->
  exists outs,
    run_calls (acc_new n) hist = Ok (outs, acc_new n) /\
    Forall2 is_sum_map hist outs /\
    Forall2 (fun xs ps => run_calls (acc_new n) [xs] = Ok ([ps], acc_new n)) hist outs.
Proof.
  intros T HT n hist B.
  exists (map (fun xs => map (fun j => (j, nsum (added j xs))) (touch xs [])) hist).
  assert (ONE : forall xs, In xs hist -> (do a <- acc_adds xs (acc_new n); acc_foreach a)
      = Ok (map (fun j => (j, nsum (added j xs))) (touch xs []), acc_new n)).
  { intros xs Hx. apply acc_run. apply Forall_forall. intros [j v] Hj. simpl. eapply B; eauto. }
  clear B. split; [|split].
  - induction hist as [|xs hist IH]; auto. cbn [run_calls map].
    specialize (ONE xs (or_introl eq_refl)) as E.
    destruct (acc_adds xs (acc_new n)) as [a|]; [|discriminate]. cbn [bind] in *. rewrite E. cbn [bind].
    rewrite IH by (intros; apply ONE; right; auto). auto.
  - clear ONE. induction hist as [|xs hist IH]; simpl; constructor; auto. split; [|split].
    + rewrite map_map. cbn [fst]. rewrite map_id. apply touch_nodup. constructor.
    + intros j. rewrite map_map. cbn [fst]. rewrite map_id, touch_in. simpl. split.
      * intros [[]|Hj]. apply in_map_iff in Hj. destruct Hj as [[j' v] [<- Hj]]. exists v. auto.
      * intros [v Hv]. right. apply in_map_iff. exists (j, v). auto.
    + intros j s Hj. apply in_map_iff in Hj. destruct Hj as [j' [E _]]. inversion E; subst. auto.
  - induction hist as [|xs hist IH]; simpl; constructor.
    + specialize (ONE xs (or_introl eq_refl)) as E.
      destruct (acc_adds xs (acc_new n)) as [a|]; [|discriminate]. cbn [bind] in *. rewrite E. auto.
    + apply IH. intros; apply ONE; right; auto.
Qed.
Print Assumptions C14_accumulator.

(** Rows of integer matrices, for the examples. *)
Definition zr (l : list (Z * Z)) : list (nat * Z) := map (fun p => (Z.to_nat (fst p), snd p)) l.

(** Two calls; the second is not disturbed by the first, cancelled sums included. *)
Example C14_example :
  run_calls (acc_new 4) (map zr [[(2, 5); (0, 1); (2, -5); (3, 7)]; [(3, 1); (1, 4); (3, 1)]]%Z) =
    Ok (map zr [[(3, 7); (0, 1); (2, 0)]; [(1, 4); (3, 2)]]%Z, acc_new 4).
Proof. vm_compute. reflexivity. Qed.

(* ------------------------------------------------------------------ *)
(** C15.  Specification: co-occurrence of items [i] and [j], and the items that
    share a user with [i]. *)
Definition spec_terms {T} `{Num T} (W : csr T) (i j : nat) : list T :=
  flat_map (fun u =>
    flat_map (fun p => map (fun q => nmul (snd q) (snd p))
                           (filter (fun q => fst q =? j) (csr_row W u)))
             (filter (fun p => fst p =? i) (csr_row W u)))
    (seq 0 (c_rows W)).
Definition spec_cooc {T} `{Num T} (W : csr T) (i j : nat) : T := nsum (spec_terms W i j).
Definition shares_user {T} (W : csr T) (i : nat) : list nat :=
  filter (fun j => existsb (fun u => memn i (csr_row_indices W u) && memn j (csr_row_indices W u))
                           (seq 0 (c_rows W))) (seq 0 (c_cols W)).

(** [row] holds, in increasing order of column, exactly the pairs described by [P]. *)
Definition row_is {T} (row : list (nat * T)) (P : nat -> T -> Prop) : Prop :=
  StronglySorted lt (map fst row) /\ forall j v, In (j, v) row <-> P j v.

(** Row [i] of the fitted similarity: the K best co-occurrences.  Row 0 may hold
    one extra entry (0, 0) with value 0 (see C16). *)
Theorem C15_exact :
  forall (T : Type) (HT : Num T) (HO : NumOrd T) (HP : std_heap) (W : csr T) (K : nat),
  std_heap_ok HP -> csr_wf W -> 0 < K -> (forall x : T, nadd x nzero = x) ->
  exists S, all_pairs_knn HP W K = Ok S /\ c_rows S = c_cols W /\ c_cols S = c_cols W /\ csr_wf S /\
  forall i, i < c_cols W -> exists ids scores,
    TopN (spec_cooc W i) (shares_user W i) (Nat.min K (length (shares_user W i))) ids scores /\
    exists extra : bool, (extra = true -> i = 0) /\
    row_is (csr_row S i) (fun j v =>
      (In j ids /\ v = spec_cooc W i j) \/ (extra = true /\ j = 0 /\ ~ In 0 ids /\ v = nzero)).
Proof.
  intros T HT HO HP W K HC Wf HK AZ.
  destruct (knn_rows HP HC W Wf K HK AZ) as [S [E [R1 [R2 [WF R]]]]].
  exists S. split; [auto|]. split; [auto|]. split; [auto|]. split; [auto|].
  intros i Hi. destruct (R i Hi) as [ids [sc [TN ER]]].
  exists ids, sc. split; [exact TN|]. exists (spurious HP W K i 0).
  split. { unfold spurious. rewrite !andb_true_iff. intros [[X _] _]. apply Nat.eqb_eq; auto. }
  rewrite ER. split.
  - rewrite map_map. cbn [fst]. rewrite map_id. apply ss_filter.
    clear. generalize 0. generalize (n_items W). induction n; simpl; intros s; constructor; auto.
    apply Forall_forall. intros x Hx. apply in_seq in Hx. lia.
  - intros j v. rewrite in_map_iff. split.
    + intros [c [Ec Hc]]. inversion Ec; subst. apply filter_In in Hc. destruct Hc as [_ B].
      destruct (memn j ids) eqn:M; [apply memn_spec in M; left; auto|].
      right. simpl in B. apply memn_false in M.
      assert (j = 0). { unfold spurious in B. rewrite !andb_true_iff in B. apply Nat.eqb_eq; tauto. }
      subst. auto.
    + intros [[Hj ->]|[X [-> [NI ->]]]].
      * exists j. pose proof (proj2 (memn_spec j ids) Hj) as M. rewrite M. split; auto.
        apply filter_In. rewrite M. split; auto. apply (topn_incl _ _ _ _ _ TN) in Hj.
        unfold neighbours in Hj. apply filter_In in Hj. tauto.
      * exists 0. rewrite (proj2 (memn_false 0 ids) NI). split; auto. apply filter_In.
        rewrite X, orb_true_r. split; auto. apply in_seq. unfold n_items. lia.
Qed.
Print Assumptions C15_exact.

(** Every schedule: [threads] lists the items each thread processes, in its
    order; the stores of all threads are executed in any interleaving. *)
Theorem C15_any_schedule :
  forall (T : Type) (HT : Num T) (HO : NumOrd T) (HP : std_heap) (W : csr T) (K : nat)
    (threads : list (list nat)),
  std_heap_ok HP -> csr_wf W -> 0 < K ->
  Permutation (concat threads) (seq 0 (c_cols W)) ->
  exists wss,
    map_res (knn_thread HP W (csr_transpose W) K) threads = Ok wss /\
    forall rows cols vals,
    Permutation rows (k_rows (kw_concat (concat wss))) ->
    Permutation cols (k_cols (kw_concat (concat wss))) ->
    Permutation vals (k_vals (kw_concat (concat wss))) ->
    all_pairs_knn HP W K = Ok (knn_similarity_of (c_cols W) (knn_arrays (c_cols W) K rows cols vals)).
Proof.
  intros T HT HO HP W K threads HC Wf HK PT.
  destruct (knn_schedule_total HP HC W Wf K HK threads PT) as [wss E].
  exists wss. split; auto. intros. eapply (knn_schedule HP HC W Wf K HK); eauto.
Qed.
Print Assumptions C15_any_schedule.

(** Over the reals the co-occurrence is the entry of W^T W. *)
Definition dense (m : csr R) (u i : nat) : R := rsum (map snd (filter (fun p => fst p =? i) (csr_row m u))).

Lemma rsum_flat_map {A} (f : A -> list R) l : rsum (flat_map f l) = rsum (map (fun a => rsum (f a)) l).
Proof. induction l; simpl; auto. rewrite rsum_app, IHl. auto. Qed.

Theorem C15_gram : forall (W : csr R) (i j : nat),
  spec_cooc W i j = rsum (map (fun u => dense W u i * dense W u j)%R (seq 0 (c_rows W))).
Proof.
  intros W i j. unfold spec_cooc, spec_terms. rewrite nsum_rsum, rsum_flat_map. apply rsum_map_ext.
  intros u _. rewrite rsum_flat_map. unfold dense.
  generalize (filter (fun p => fst p =? j) (csr_row W u)) as lj.
  generalize (filter (fun p => fst p =? i) (csr_row W u)) as li.
  intros li lj. induction li as [|p li IH]; cbn [map rsum]; [lra|]. rewrite IH.
  replace (rsum (map (fun q => nmul (snd q) (snd p)) lj)) with (snd p * rsum (map snd lj))%R; [lra|].
  rewrite <- (rsum_map_scale (snd p) snd lj). apply rsum_map_ext. intros; simpl; lra.
Qed.
Print Assumptions C15_gram.

(** Three users, four items, K = 2; two threads working backwards. *)
Definition ex_W : csr Z := csr_of_rows 4 (map zr [[(0, 1); (1, 2)]; [(1, 1); (2, 3); (3, 1)]; [(0, 2); (2, 1)]]%Z).
Lemma ex_W_wf : csr_wf ex_W.
Proof.
  apply csr_of_rows_wf. intros r p Hr Hp. simpl in Hr.
  repeat (destruct Hr as [<-|Hr]; [simpl in Hp; repeat (destruct Hp as [<-|Hp]; [simpl; lia|]); tauto|]). tauto.
Qed.
Example C15_example :
  csr_wf ex_W /\
  (exists S, all_pairs_knn simple_heap ex_W 2 = Ok S /\
     csr_to_rows S = map zr [[(0, 5); (2, 2)]; [(1, 5); (2, 3)]; [(2, 10); (3, 3)]; [(2, 3); (3, 1)]]%Z) /\
  Permutation (concat [[3; 1]; [2; 0]]) (seq 0 (c_cols ex_W)) /\
  (exists wss, map_res (knn_thread simple_heap ex_W (csr_transpose ex_W) 2) [[3; 1]; [2; 0]] = Ok wss /\
     csr_to_rows (knn_similarity_of 4 (knn_arrays 4 2 (rev (k_rows (kw_concat (concat wss))))
        (k_cols (kw_concat (concat wss))) (k_vals (kw_concat (concat wss)))))
     = map zr [[(0, 5); (2, 2)]; [(1, 5); (2, 3)]; [(2, 10); (3, 3)]; [(2, 3); (3, 1)]]%Z).
Proof.
  split; [apply ex_W_wf|]. split; [eexists; split; vm_compute; reflexivity|].
  split; [|eexists; split; vm_compute; reflexivity].
  simpl. apply NoDup_Permutation.
  - repeat constructor; simpl; intuition lia.
  - repeat constructor; simpl; intuition lia.
  - simpl; intuition.
Qed.

(* ------------------------------------------------------------------ *)
(** C16 fails for item 0: a zero padding entry is stored whenever some item has
    fewer than K neighbours.  Item 0 then has K + 1 neighbours, one of them
    (itself) with similarity 0 instead of 1. *)
Theorem C16_refuted : exists (W : csr Z) (K : nat) (S : csr Z),
  csr_wf W /\ 0 < K /\ all_pairs_knn simple_heap W K = Ok S /\
  length (csr_row S 0) = K + 1 /\
  exists j v, In (j, v) (csr_row S 0) /\ v <> spec_cooc W 0 j.
Proof.
  set (W := csr_of_rows 3 (map zr [[(0, 1); (1, 2)]]%Z)).
  exists W, 1. eexists. split.
  - apply csr_of_rows_wf. intros r p Hr Hp. simpl in Hr. destruct Hr as [<-|[]].
    simpl in Hp; repeat (destruct Hp as [<-|Hp]; [simpl; lia|]); tauto.
  - split; [lia|]. split; [vm_compute; reflexivity|]. split; [vm_compute; reflexivity|].
    exists 0, 0%Z. split; [vm_compute; auto|vm_compute; discriminate].
Qed.
Print Assumptions C16_refuted.

(** The part that holds: every other item has at most K neighbours with true
    similarities; item 0 at most K besides a possible zero self entry; and item 0
    is fine too when every item has at least K neighbours. *)
Theorem C16_partial :
  forall (T : Type) (HT : Num T) (HO : NumOrd T) (HP : std_heap) (W : csr T) (K : nat) (S : csr T),
  std_heap_ok HP -> csr_wf W -> 0 < K -> (forall x : T, nadd x nzero = x) ->
  all_pairs_knn HP W K = Ok S ->
  (forall i, 0 < i < c_cols W ->
     length (csr_row S i) <= K /\ forall j v, In (j, v) (csr_row S i) -> v = spec_cooc W i j) /\
  (0 < c_cols W -> length (csr_row S 0) <= K + 1 /\
     forall j v, In (j, v) (csr_row S 0) -> v = spec_cooc W 0 j \/ (j = 0 /\ v = nzero)) /\
  ((forall i, i < c_cols W -> K <= length (shares_user W i)) -> 0 < c_cols W ->
     length (csr_row S 0) <= K /\ forall j v, In (j, v) (csr_row S 0) -> v = spec_cooc W 0 j).
Proof.
  intros T HT HO HP W K S HC Wf HK AZ ES.
  destruct (knn_rows HP HC W Wf K HK AZ) as [S' [E [R1 [R2 [WF R]]]]].
  rewrite ES in E. inversion E; subst S'. clear E.
  assert (LEN : forall ids n, NoDup ids -> length (filter (fun c => memn c ids) (seq 0 n)) <= length ids).
  { intros ids n ND. apply NoDup_incl_length; [apply NoDup_filter, seq_NoDup|].
    intros x Hx. apply filter_In in Hx. apply memn_spec; tauto. }
  assert (NOSP : forall i, spurious HP W K i 0 = false -> i < c_cols W ->
     length (csr_row S i) <= K /\ forall j v, In (j, v) (csr_row S i) -> v = spec_cooc W i j).
  { intros i SP Hi. destruct (R i Hi) as [ids [sc [TN ER]]].
    assert (ALL : forall c, spurious HP W K i c = false).
    { intros [|c]; auto. unfold spurious. simpl. rewrite andb_false_r. auto. }
    rewrite ER. rewrite map_length. split.
    - erewrite filter_ext; [|intros c; rewrite ALL, orb_false_r; reflexivity].
      rewrite LEN by apply (topn_nodup _ _ _ _ _ TN). rewrite (topn_length _ _ _ _ _ TN). lia.
    - intros j v Hj. apply in_map_iff in Hj. destruct Hj as [c [Ec Hc]]. apply filter_In in Hc.
      destruct Hc as [_ B]. rewrite ALL, orb_false_r in B. rewrite B in Ec. inversion Ec; subst. auto. }
  split; [|split].
  - intros i Hi. apply NOSP; [|lia]. unfold spurious. destruct i; [lia|]. auto.
  - intros H0. destruct (R 0 H0) as [ids [sc [TN ER]]]. rewrite ER, map_length. split.
    + assert (X : length (filter (fun c => memn c ids || spurious HP W K 0 c) (seq 0 (n_items W))) <= length (0 :: ids)).
      { apply NoDup_incl_length; [apply NoDup_filter, seq_NoDup|]. intros x Hx. apply filter_In in Hx.
        destruct Hx as [_ B]. apply orb_true_iff in B. destruct B as [B|B].
        - right. apply memn_spec; auto.
        - left. unfold spurious in B. rewrite !andb_true_iff in B. destruct B as [[_ B] _].
          apply Nat.eqb_eq in B. auto. }
      simpl in X. rewrite (topn_length _ _ _ _ _ TN) in X. lia.
    + intros j v Hj. apply in_map_iff in Hj. destruct Hj as [c [Ec Hc]]. apply filter_In in Hc.
      destruct Hc as [_ B]. inversion Ec; subst. destruct (memn j ids); [left; auto|].
      right. split; auto. simpl in B. unfold spurious in B. rewrite !andb_true_iff in B.
      destruct B as [[_ B] _]. apply Nat.eqb_eq in B. auto.
  - intros FULL H0. apply NOSP; auto. unfold spurious.
    replace (pads HP W K) with 0; auto. unfold pads. symmetry. 
    rewrite (flat_map_ext_in _ (fun _ => [])); [rewrite flat_map_nil; auto|].
    intros i Hi. apply in_seq in Hi. destruct (kept_spec HP HC W Wf K HK i ltac:(lia)) as [_ [ids [sc [TN P]]]].
    rewrite (Permutation_length P), map_length, (topn_length _ _ _ _ _ TN).
    specialize (FULL i ltac:(unfold n_items in *; lia)). unfold shares_user in FULL.
    unfold neighbours, together, n_items. 
    replace (K - _) with 0 by lia. auto.
Qed.
Print Assumptions C16_partial.
Example C16_example : csr_wf ex_W /\ forall i, i < c_cols ex_W -> 2 <= length (shares_user ex_W i).
Proof.
  split; [apply ex_W_wf|]. intros i Hi. change (c_cols ex_W) with 4 in Hi.
  destruct i as [|[|[|[|i]]]]; [vm_compute; lia..|lia].
Qed.

(* ------------------------------------------------------------------ *)
(** C17.  A query: a user row and the filter flag. *)
Definition query (T : Type) : Type := (list (nat * T) * bool)%type.
Definition query_call {T} `{Num T} (sim : csr T) (q : query T) : call :=
  (sadds sim (fst q), if snd q then map fst (fst q) else []).

(** Any number of threads, each making a list of calls on one scorer, under any
    interleaving of their memory operations: no undefined behaviour, every
    completed call saw what it would see alone on a fresh scorer, and the
    accumulator is clean whenever nobody is inside. *)
Theorem C17_thread_safe :
  forall (T : Type) (HT : Num T) (HO : NumOrd T) (sim : csr T)
    (progs : list (list (query T))) (sched : list nat),
  csr_wf sim -> c_cols sim = c_rows sim ->
  (forall qs q j w, In qs progs -> In q qs -> In (j, w) (fst q) -> j < c_rows sim) ->
  exists st,
    crun sched (cstart (c_rows sim) (map (map (query_call sim)) progs)) = Ok st /\
    (s_lock st = None -> s_acc st = acc_new (c_rows sim)) /\
    (forall t th, nth_error (s_threads st) t = Some th ->
       exists fin rest, nth_error progs t = Some (fin ++ rest) /\
         t_todo th = map (query_call sim) rest /\
         Forall2 (fun q v => forall HP K,
             scorer_recommend HP sim (acc_new (c_rows sim)) (fst q) K (snd q) =
             (do r <- topk_feed HP (size_t_limit K (length v)) v [];
              Ok (sort_heap HP heap_order r, acc_new (c_rows sim)))) fin (t_done th)) /\
    ((forall t th, nth_error (s_threads st) t = Some th -> t_todo th = []) \/
     exists t st', cstep st t = Ok st' /\ st' <> st).
Proof.
  intros T HT HO sim progs sched Wf Sq B. set (n := c_rows sim).
  assert (OK : Forall (Forall (call_ok n)) (map (map (query_call sim)) progs)).
  { apply Forall_forall. intros cs Hcs. apply in_map_iff in Hcs. destruct Hcs as [qs [<- Hqs]].
    apply Forall_forall. intros c Hc. apply in_map_iff in Hc. destruct Hc as [q [<- Hq]].
    split; simpl.
    - apply sadds_lt; auto.
    - destruct (snd q); [|constructor]. apply Forall_forall. intros i Hi. apply in_map_iff in Hi.
      destruct Hi as [[j w] [<- Hi]]. eapply B; eauto. }
  destruct (crun_inv n _ sched OK _ (cstart_inv n _)) as [st [E I]].
  exists st. split; auto. pose proof I as [LEN [TH LK]]. split; [|split].
  - intros EL. rewrite EL in LK. tauto.
  - intros t th Et. destruct (TH t th Et) as [fin' [Ep F]].
    rewrite nth_error_map in Ep. destruct (nth_error progs t) as [qs|] eqn:Eq; [|discriminate].
    simpl in Ep. inversion Ep as [Em]. apply map_eq_app in Em. destruct Em as [fin [rest [-> [E1 E2]]]].
    exists fin, rest. split; auto. split; auto. subst fin'.
    apply nth_error_In in Eq.
    assert (BF : forall q, In q fin -> row_ok sim (fst q)).
    { intros q Hq. apply Forall_forall. intros [j w] Hj. eapply B; eauto. apply in_or_app; auto. }
    clear -F BF Wf Sq HO. remember (map (query_call sim) fin) as cs eqn:Ec. revert fin BF Ec.
    induction F as [|c v cs vs A F IH]; intros fin BF Ec; destruct fin as [|q fin]; simpl in Ec; try discriminate; constructor.
    + inversion Ec; subst. unfold alone, n in A. unfold query_call in A. cbn [fst snd] in A.
      rewrite (call_acc_scorer sim Wf Sq) in A by (apply BF; left; auto). inversion A; subst.
      intros HP K. apply scorer_recommend_eq; auto. apply BF; left; auto.
    + apply IH; [intros; apply BF; right; auto|]. inversion Ec; auto.
  - apply (cprogress n _ st OK I).
Qed.
Print Assumptions C17_thread_safe.

(** Repeated calls: the outcome of a call does not depend on the calls before it. *)
Fixpoint scorer_calls {T} `{Num T} HP (sim : csr T) (a : acc T) (qs : list (query T * Z))
  : res (list (list (T * nat))) :=
  match qs with
  | [] => Ok []
  | (q, K) :: qs =>
      do ' (r, a) <- scorer_recommend HP sim a (fst q) K (snd q);
      do rs <- scorer_calls HP sim a qs; Ok (r :: rs)
  end.
Theorem C17_history_free :
  forall (T : Type) (HT : Num T) (HO : NumOrd T) (HP : std_heap) (sim : csr T)
    (qs : list (query T * Z)) rs,
  csr_wf sim -> c_cols sim = c_rows sim ->
  scorer_calls HP sim (acc_new (c_rows sim)) qs = Ok rs <->
  Forall2 (fun q r => exists a,
      scorer_recommend HP sim (acc_new (c_rows sim)) (fst (fst q)) (snd q) (snd (fst q)) = Ok (r, a)) qs rs.
Proof.
  intros T HT HO HP sim qs rs Wf Sq. revert rs.
  induction qs as [|[q K] qs IH]; intros rs; cbn [scorer_calls].
  - split; intros E; inversion E; auto.
  - rewrite bind_ok. split.
    + intros [[r a] [E1 E2]]. pose proof (scorer_clean HP sim Wf Sq _ _ _ _ _ E1) as ->.
      apply bind_ok in E2. destruct E2 as [rs' [E2 E3]]. inversion E3; subst. constructor; eauto.
      apply IH; auto.
    + intros F. inversion F as [|? r ? rs' [a E1] F']; subst. simpl in E1.
      exists (r, a). split; auto. pose proof (scorer_clean HP sim Wf Sq _ _ _ _ _ E1) as ->.
      apply IH in F'. rewrite F'. auto.
Qed.
Print Assumptions C17_history_free.

Definition ex_sim : csr Z := csr_of_rows 3 (map zr [[(0, 4); (1, 2)]; [(0, 2); (1, 5); (2, 1)]; [(1, 1); (2, 6)]]%Z).
Lemma ex_sim_wf : csr_wf ex_sim.
Proof.
  apply csr_of_rows_wf. intros r p Hr Hp. simpl in Hr.
  repeat (destruct Hr as [<-|Hr]; [simpl in Hp; repeat (destruct Hp as [<-|Hp]; [simpl; lia|]); tauto|]). tauto.
Qed.
(** Two threads, interleaved step by step, then drained. *)
Example C17_example :
  exists st,
    crun (concat (repeat [0; 1] 40))
      (cstart 3 (map (map (query_call ex_sim)) [[([(0, 1%Z)], true); ([(2, 3%Z)], false)]; [([(1, 2%Z)], true)]])) = Ok st /\
    map t_done (s_threads st) = map (map zr) [[[(1, 2); (0, 0)]; [(2, 18); (1, 3)]]; [[(2, 2); (1, 0); (0, 4)]]]%Z /\
    s_lock st = None.
Proof. eexists. split; [vm_compute; reflexivity|split; vm_compute; reflexivity]. Qed.

(* ------------------------------------------------------------------ *)
(** C18.  Specification: (user row) x (similarity), items similar to a liked item. *)
Definition spec_predict {T} `{Num T} (sim : csr T) (row : list (nat * T)) (j : nat) : T :=
  nsum (flat_map (fun p => map (fun q => nmul (snd q) (snd p))
                               (filter (fun q => fst q =? j) (csr_row sim (fst p)))) row).
Definition spec_shown {T} `{Num T} (sim : csr T) (filter_liked : bool) (row : list (nat * T)) (j : nat) : T :=
  if filter_liked && memn j (map fst row) then nzero else spec_predict sim row j.
Definition similar_to_liked {T} (sim : csr T) (row : list (nat * T)) : list nat :=
  filter (fun j => existsb (fun p => memn j (csr_row_indices sim (fst p))) row) (seq 0 (c_rows sim)).

Theorem C18_exact :
  forall (T : Type) (HT : Num T) (HO : NumOrd T) (HP : std_heap) (fmin fmin32 : T) (sim M : csr T)
    (u : Z) (N : Z) (fl : bool),
  std_heap_ok HP -> csr_wf sim -> c_cols sim = c_rows sim -> c_rows M <> 0 ->
  (forall j w, In (j, w) (csr_row M 0) -> j < c_rows sim) -> (1 <= N)%Z ->
  let row := csr_row M 0 in
  exists ids scores,
    ii_recommend HP fmin fmin32 sim (acc_new (c_rows sim)) (Scalar u) (Csr M) N fl None None =
      Ok (OneRow (map Z.of_nat ids) scores, acc_new (c_rows sim)) /\
    TopN (spec_shown sim fl row) (similar_to_liked sim row)
         (Nat.min (Z.to_nat N) (length (similar_to_liked sim row))) ids scores.
Proof.
  intros T HT HO HP fmin fmin32 sim M u N fl HC Wf Sq NR RO HN row.
  destruct (ii_recommend1_topn HP HC sim Wf Sq fmin M N fl NR) as [ids [sc [E TN]]].
  { apply Forall_forall. intros [j w] Hj. eapply RO; eauto. } { lia. }
  exists ids, sc. split.
  - unfold ii_recommend. rewrite E. reflexivity.
  - unfold keep in TN. destruct (Z.ltb_spec N 0); [lia|]. exact TN.
Qed.
Print Assumptions C18_exact.

(** Over the reals: the matrix product. *)
Theorem C18_product : forall (sim : csr R) (row : list (nat * R)) (j : nat),
  spec_predict sim row j = rsum (map (fun p => snd p * dense sim (fst p) j)%R row).
Proof.
  intros sim row j. unfold spec_predict. rewrite nsum_rsum, rsum_flat_map. apply rsum_map_ext.
  intros p _. unfold dense. rewrite <- (rsum_map_scale (snd p) snd). apply rsum_map_ext. intros; simpl; lra.
Qed.
Print Assumptions C18_product.
Example C18_example :
  ii_recommend simple_heap (-1000)%Z (-999)%Z ex_sim (acc_new 3) (Scalar 7)
    (Csr (csr_of_rows 3 (map zr [[(0, 1); (1, 2)]])))%Z 2 false None None =
    Ok (OneRow [1; 0] [12; 8], acc_new 3)%Z.
Proof. vm_compute. reflexivity. Qed.

(* ------------------------------------------------------------------ *)
(** C19 fails: liked items only have their score set to 0, and are returned when
    not enough other items score above 0 (here for a model fitted on data). *)
Theorem C19_refuted : exists (W sim M : csr Z) (ids : list Z) (scores : list Z) (z : Z),
  all_pairs_knn simple_heap W 3 = Ok sim /\
  ii_recommend simple_heap (-1000)%Z (-999)%Z sim (acc_new (c_rows sim)) (Scalar 0) (Csr M) 3 true None None
    = Ok (OneRow ids scores, acc_new (c_rows sim)) /\
  In z ids /\ In (Z.to_nat z) (csr_row_indices M 0).
Proof.
  exists (csr_of_rows 3 (map zr [[(0, 1); (1, 1)]; [(1, 2); (2, 1)]]))%Z. eexists.
  exists (csr_of_rows 3 (map zr [[(1, 1)]]))%Z, [2; 0; 1]%Z, [2; 1; 0]%Z, 1%Z.
  split; [vm_compute; reflexivity|]. split; [vm_compute; reflexivity|]. vm_compute. auto.
Qed.
Print Assumptions C19_refuted.

(** What holds: a liked item that is returned has score exactly 0, and none is
    returned when N other items similar to a liked one score above 0. *)
Theorem C19_partial :
  forall (T : Type) (HT : Num T) (HO : NumOrd T) (HP : std_heap) (fmin fmin32 : T) (sim M : csr T)
    (u : Z) (N : Z),
  std_heap_ok HP -> csr_wf sim -> c_cols sim = c_rows sim -> c_rows M <> 0 ->
  (forall j w, In (j, w) (csr_row M 0) -> j < c_rows sim) -> (1 <= N)%Z ->
  let row := csr_row M 0 in
  exists ids scores,
    ii_recommend HP fmin fmin32 sim (acc_new (c_rows sim)) (Scalar u) (Csr M) N true None None =
      Ok (OneRow (map Z.of_nat ids) scores, acc_new (c_rows sim)) /\
    (forall p, p < length ids -> In (nth p ids 0) (map fst row) -> nth p scores nzero = nzero) /\
    (forall others, NoDup others -> length others = Z.to_nat N ->
       (forall j, In j others -> In j (similar_to_liked sim row) /\ ~ In j (map fst row) /\
                                 nltb nzero (spec_predict sim row j) = true) ->
       forall j, In j ids -> ~ In j (map fst row)).
Proof.
  intros T HT HO HP fmin fmin32 sim M u N HC Wf Sq NR RO HN row.
  destruct (C18_exact T HT HO HP fmin fmin32 sim M u N true HC Wf Sq NR RO HN) as [ids [sc [E TN]]].
  fold row in TN. exists ids, sc. split; [exact E|]. split.
  - intros p Hp Hl. rewrite (topn_scores _ _ _ _ _ TN). rewrite (nth_map_nat _ ids p 0) by auto.
    unfold spec_shown. rewrite (proj2 (memn_spec _ _) Hl). auto.
  - intros others ND LO PO j Hj Hl.
    assert (SH : forall x, In x others -> spec_shown sim true row x = spec_predict sim row x).
    { intros x Hx. unfold spec_shown. destruct (PO x Hx) as [_ [NL _]].
      rewrite (proj2 (memn_false _ _) NL). auto. }
    assert (INC : incl (j :: others) ids).
    { intros x [<-|Hx]; auto. destruct (PO x Hx) as [Hs [NL Pos]].
      destruct (in_dec Nat.eq_dec x ids) as [|NI]; auto. exfalso.
      pose proof (topn_best _ _ _ _ _ TN j x Hj Hs NI) as B. rewrite (SH x Hx) in B.
      unfold spec_shown in B. rewrite (proj2 (memn_spec _ _) Hl) in B. cbn [andb] in B.
      apply nleb_nltb_false in B. congruence. }
    assert (ND2 : NoDup (j :: others)).
    { constructor; auto. intros X. destruct (PO j X) as [_ [NL _]]. tauto. }
    pose proof (NoDup_incl_length ND2 INC) as LL. simpl in LL.
    rewrite (topn_length _ _ _ _ _ TN) in LL. lia.
Qed.
Print Assumptions C19_partial.
Example C19_example :
  ii_recommend simple_heap (-1000)%Z (-999)%Z ex_sim (acc_new 3) (Scalar 7)
    (Csr (csr_of_rows 3 (map zr [[(0, 1)]])))%Z 1 true None None = Ok (OneRow [1] [2], acc_new 3)%Z.
Proof. vm_compute. reflexivity. Qed.

(* ------------------------------------------------------------------ *)
(** C20 fails in its first half: the result is cut to N + |F| items. *)
Theorem C20_refuted : exists (sim M : csr Z) (F : list Z) (N : Z) ids scores,
  csr_wf sim /\
  ii_recommend simple_heap (-1000)%Z (-999)%Z sim (acc_new (c_rows sim)) (Scalar 0) (Csr M) N false (Some (PyList F)) None
    = Ok (OneRow ids scores, acc_new (c_rows sim)) /\
  (N < Z.of_nat (length ids))%Z.
Proof.
  exists ex_sim, (csr_of_rows 3 (map zr [[(1, 1)]]))%Z, [7]%Z, 1%Z, [1; 0]%Z, [5; 2]%Z.
  split; [apply ex_sim_wf|]. split; [vm_compute; reflexivity|simpl; lia].
Qed.
Print Assumptions C20_refuted.

(** What holds: the result is a sorted list of best unfiltered items, none of
    them filtered, at least min(N, available) and at most N + |F| of them. *)
Theorem C20_partial :
  forall (T : Type) (HT : Num T) (HO : NumOrd T) (HP : std_heap) (fmin fmin32 : T) (sim M : csr T)
    (u : Z) (N : Z) (fl : bool) (F : arr),
  std_heap_ok HP -> csr_wf sim -> c_cols sim = c_rows sim -> c_rows M <> 0 ->
  (forall j w, In (j, w) (csr_row M 0) -> j < c_rows sim) -> (1 <= N)%Z ->
  let row := csr_row M 0 in
  let allowed := filter (fun j => negb (memz (Z.of_nat j) (arr_list F))) (similar_to_liked sim row) in
  exists ids scores,
    ii_recommend HP fmin fmin32 sim (acc_new (c_rows sim)) (Scalar u) (Csr M) N fl (Some F) None =
      Ok (OneRow (map Z.of_nat ids) scores, acc_new (c_rows sim)) /\
    TopN (spec_shown sim fl row) allowed (length ids) ids scores /\
    (forall z, In z (map Z.of_nat ids) -> ~ In z (arr_list F)) /\
    Nat.min (Z.to_nat N) (length allowed) <= length ids <= Z.to_nat N + length (arr_list F).
Proof.
  intros T HT HO HP fmin fmin32 sim M u N fl F HC Wf Sq NR RO HN row allowed.
  destruct (ii_recommend1_filter HP HC sim Wf Sq fmin M N fl F NR) as [ids [sc [E TN]]].
  { apply Forall_forall. intros [j w] Hj. eapply RO; eauto. } { lia. }
  fold row in TN. set (p := fun j => negb (memz (Z.of_nat j) (arr_list F))) in *.
  exists (filter p ids), (map (spec_shown sim fl row) (filter p ids)). split.
  - unfold ii_recommend. rewrite E. rewrite (topn_scores _ _ _ _ _ TN), mask_in_map. reflexivity.
  - split; [apply (TopN_filter _ _ _ _ _ p TN)|]. split.
    + intros z Hz X. apply in_map_iff in Hz. destruct Hz as [j [<- Hj]]. apply filter_In in Hj.
      destruct Hj as [_ B]. unfold p in B. apply negb_true_iff, memz_false in B. tauto.
    + pose proof (topn_length _ _ _ _ _ TN) as L. unfold keep in L.
      destruct (Z.ltb_spec (N + Z.of_nat (length (arr_list F))) 0); [lia|].
      pose proof (filter_len_split p ids) as SP.
      assert (CNT : length (filter (fun x => negb (p x)) ids) <= length (arr_list F)).
      { pose proof (filtered_count (arr_list F) ids (topn_nodup _ _ _ _ _ TN)) as X.
        erewrite filter_ext; [exact X|]. intros x. unfold p. apply negb_involutive. }
      split; [|lia].
      destruct (Nat.le_ge_cases (length (reachable sim row)) (Z.to_nat (N + Z.of_nat (length (arr_list F))))) as [C|C].
      * (* everything was returned *)
        assert (INC : incl (reachable sim row) ids).
        { apply NoDup_length_incl; [apply (topn_nodup _ _ _ _ _ TN)|lia|apply (topn_incl _ _ _ _ _ TN)]. }
        assert (length allowed <= length (filter p ids)); [|lia].
        apply NoDup_incl_length; [apply NoDup_filter, NoDup_filter, seq_NoDup|].
        intros x Hx. apply filter_In in Hx. apply filter_In. split; [apply INC|]; tauto.
      * lia.
Qed.
Print Assumptions C20_partial.
Example C20_example :
  ii_recommend simple_heap (-1000)%Z (-999)%Z ex_sim (acc_new 3) (Scalar 7)
    (Csr (csr_of_rows 3 (map zr [[(1, 1)]])))%Z 1 false (Some (PyList [1]%Z)) None = Ok (OneRow [0] [2], acc_new 3)%Z.
Proof. vm_compute. reflexivity. Qed.

(* ------------------------------------------------------------------ *)
(** C21. *)
Theorem C21_items_exact :
  forall (T : Type) (HT : Num T) (HO : NumOrd T) (HP : std_heap) (fmin fmin32 : T) (sim M : csr T)
    (u : Z) (N : Z) (fl : bool) (S : arr),
  std_heap_ok HP -> csr_wf sim -> c_cols sim = c_rows sim -> c_rows M <> 0 ->
  (forall j w, In (j, w) (csr_row M 0) -> j < c_rows sim) ->
  arr_list S <> [] -> (forall z, In z (arr_list S) -> 0 <= z < Z.of_nat (c_rows sim))%Z ->
  let row := csr_row M 0 in
  exists ids scores,
    ii_recommend HP fmin fmin32 sim (acc_new (c_rows sim)) (Scalar u) (Csr M) N fl None (Some S) =
      Ok (OneRow ids scores, acc_new (c_rows sim)) /\
    length scores = length ids /\
    (forall z, In z ids <-> In z (arr_list S)) /\
    (NoDup (arr_list S) -> Permutation ids (arr_list S)) /\
    (forall p, p < length ids ->
       nth p scores nzero =
         if memn (Z.to_nat (nth p ids 0%Z)) (similar_to_liked sim row)
         then spec_shown sim fl row (Z.to_nat (nth p ids 0%Z)) else fmin).
Proof.
  intros T HT HO HP fmin fmin32 sim M u N fl S HC Wf Sq NR RO NE IN row.
  assert (NS : 0 < c_rows sim).
  { destruct (arr_list S) as [|z l] eqn:EL; [tauto|]. specialize (IN z (or_introl eq_refl)). lia. }
  destruct (ii_recommend1_items HP HC sim Wf Sq fmin M N fl S NR) as [ids [sc [E TN]]]; auto.
  { apply Forall_forall. intros [j w] Hj. eapply RO; eauto. }
  fold row in TN.
  assert (ALL : forall j, In j ids <-> In j (reachable sim row)).
  { intros j. split; [apply (topn_incl _ _ _ _ _ TN)|].
    apply NoDup_length_incl; [apply (topn_nodup _ _ _ _ _ TN)|rewrite (topn_length _ _ _ _ _ TN); lia|apply (topn_incl _ _ _ _ _ TN)]. }
  unfold ii_recommend. rewrite E. cbn [bind]. rewrite (topn_scores _ _ _ _ _ TN), mask_in_map. cbn zeta.
  set (hit := filter (fun i => xorb false (memz (Z.of_nat i) (arr_list S))) ids).
  unfold append_missing. cbn [fst snd].
  set (miss := filter (fun z => negb (memz z (map Z.of_nat hit))) (arr_list S)).
  eexists _, _. split; [reflexivity|].
  assert (HIT : forall z, In z (map Z.of_nat hit) <-> In z (arr_list S) /\ In (Z.to_nat z) ids /\ (0 <= z)%Z).
  { intros z. split.
    - intros Hz. apply in_map_iff in Hz. destruct Hz as [j [<- Hj]]. apply filter_In in Hj.
      rewrite Nat2Z.id. destruct Hj as [Hj B]. rewrite xorb_false_l in B. apply memz_spec in B. split; [auto|]. split; [auto|lia].
    - intros [Hz [Hj Hp]]. apply in_map_iff. exists (Z.to_nat z). split; [lia|]. apply filter_In.
      split; auto. rewrite xorb_false_l. apply memz_spec. rewrite Z2Nat.id; auto. }
  split; [|split; [|split]].
  - rewrite !app_length, !map_length. auto.
  - intros z. rewrite in_app_iff. split.
    + intros [Hz|Hz]; [apply HIT in Hz; tauto|apply filter_In in Hz; tauto].
    + intros Hz. destruct (memz z (map Z.of_nat hit)) eqn:B; [left; apply memz_spec; auto|].
      right. apply filter_In. rewrite B. auto.
  - intros ND. apply NoDup_Permutation; auto.
    + apply NoDup_app_intro.
      * apply FinFun.Injective_map_NoDup; [intros x y X; lia|]. apply NoDup_filter, (topn_nodup _ _ _ _ _ TN).
      * apply NoDup_filter; auto.
      * intros z H1 H2. apply filter_In in H2. destruct H2 as [_ B].
        apply negb_true_iff, memz_false in B. tauto.
    + intros z. rewrite in_app_iff. split.
      * intros [Hz|Hz]; [apply HIT in Hz; tauto|apply filter_In in Hz; tauto].
      * intros Hz. destruct (memz z (map Z.of_nat hit)) eqn:B; [left; apply memz_spec; auto|].
        right. apply filter_In. rewrite B. auto.
  - intros p Hp. rewrite app_length, map_length in Hp.
    destruct (Nat.lt_ge_cases p (length hit)) as [L|L].
    + rewrite (app_nth1 (map Z.of_nat hit)) by (rewrite map_length; auto).
      rewrite app_nth1 by (rewrite map_length; auto).
      rewrite (nth_indep _ 0%Z (Z.of_nat 0)) by (rewrite map_length; auto). rewrite map_nth, Nat2Z.id.
      rewrite (nth_map_nat _ hit p 0) by auto.
      assert (Hh : In (nth p hit 0) hit) by (apply nth_In; auto). apply filter_In in Hh.
      replace (memn (nth p hit 0) (similar_to_liked sim row)) with true; auto.
      symmetry. apply memn_spec. apply ALL. tauto.
    + rewrite (app_nth2 (map Z.of_nat hit)) by (rewrite map_length; auto).
      rewrite app_nth2 by (rewrite map_length; auto). rewrite !map_length.
      rewrite (nth_map_nat (fun _ => fmin) miss (p - length hit) 0%Z) by lia.
      assert (Hm : In (nth (p - length hit) miss 0%Z) miss) by (apply nth_In; lia).
      set (z := nth (p - length hit) miss 0%Z) in *. apply filter_In in Hm. destruct Hm as [Hz B].
      apply negb_true_iff, memz_false in B.
      replace (memn (Z.to_nat z) (similar_to_liked sim row)) with false; auto.
      symmetry. apply memn_false. intros X. apply B, HIT. split; auto. split; [apply ALL; auto|].
      specialize (IN z Hz). lia.
Qed.
Print Assumptions C21_items_exact.

(** Ids outside the model are rejected, as is an empty selection. *)
Theorem C21_items_rejected :
  forall (T : Type) (HT : Num T) (HP : std_heap) (fmin fmin32 : T) (sim M : csr T) a (u : Z) (N : Z) (fl : bool) (S : arr),
  (forall z, In z (arr_list S) -> (z < 0 \/ Z.of_nat (c_rows sim) <= z)%Z ->
     ii_recommend HP fmin fmin32 sim a (Scalar u) (Csr M) N fl None (Some S) = Raise IndexError) /\
  (arr_list S = [] ->
     ii_recommend HP fmin fmin32 sim a (Scalar u) (Csr M) N fl None (Some S) = Raise ValueError).
Proof.
  intros. split.
  - intros z Hz B. unfold ii_recommend, ii_recommend1, out_of_model.
    destruct (arr_list S) as [|x xs] eqn:Es; [destruct Hz|].
    replace (existsb (fun z0 => (Z.of_nat (c_rows sim) <=? z0)%Z || (z0 <? 0)%Z) (x :: xs)) with true; auto.
    symmetry. apply existsb_exists. exists z. split; auto. rewrite orb_true_iff, Z.leb_le, Z.ltb_lt. lia.
  - intros E. unfold ii_recommend, ii_recommend1, out_of_model. rewrite E. auto.
Qed.
Print Assumptions C21_items_rejected.
Example C21_example :
  ii_recommend simple_heap (-1000)%Z (-999)%Z ex_sim (acc_new 3) (Scalar 7)
    (Csr (csr_of_rows 3 (map zr [[(0, 1)]])))%Z 1 true None (Some (PyList [2; 0]%Z)) = Ok (OneRow [0; 2] [0; -1000], acc_new 3)%Z /\
  ii_recommend simple_heap (-1000)%Z (-999)%Z ex_sim (acc_new 3) (Scalar 7)
    (Csr (csr_of_rows 3 (map zr [[(0, 1)]])))%Z 1 true None (Some (PyList [2; 3]%Z)) = Raise IndexError.
Proof. split; vm_compute; reflexivity. Qed.

(* ------------------------------------------------------------------ *)
(** C22.  The similarity stored for (i, j); any argsort. *)
Definition spec_stored {T} `{Num T} (sim : csr T) (i j : nat) : T :=
  match find (fun p => fst p =? j) (csr_row sim i) with Some p => snd p | None => nzero end.

Theorem C22_similar_items :
  forall (T : Type) (HT : Num T) (HO : NumOrd T) (fmin fmin32 : T) argsort (sim : csr T) (i N : Z) (f : option arr),
  (forall l, Permutation (argsort l) (seq 0 (length l)) /\
             StronglySorted (fun p q => nleb (nth p l nzero) (nth q l nzero) = true) (argsort l)) ->
  (0 <= i < Z.of_nat (c_rows sim))%Z -> (0 <= N)%Z -> NoDup (csr_row_indices sim (Z.to_nat i)) ->
  let cands := filter (fun j => match f with None => true | Some a => negb (memz (Z.of_nat j) (arr_list a)) end)
                      (csr_row_indices sim (Z.to_nat i)) in
  exists ids scores,
    ii_similar fmin fmin32 argsort sim (Scalar i) N false f None = Ok (OneRow (map Z.of_nat ids) scores) /\
    TopN (spec_stored sim (Z.to_nat i)) cands (Nat.min (Z.to_nat N) (length cands)) ids scores.
Proof.
  intros T HT HO fmin fmin32 argsort sim i N f A Hi HN ND cands.
  destruct (ii_similar1_topn fmin argsort sim i N f A Hi HN ND) as [ids [sc [E TN]]].
  exists ids, sc. split; [unfold ii_similar; rewrite E; auto|exact TN].
Qed.
Print Assumptions C22_similar_items.

Theorem C22_past_end :
  forall (T : Type) (HT : Num T) (fmin fmin32 : T) argsort (sim : csr T) (i N : Z) (f : option arr),
  (Z.of_nat (c_rows sim) <= i)%Z ->
  ii_similar fmin fmin32 argsort sim (Scalar i) N false f None = Ok (OneRow [] []).
Proof.
  intros. unfold ii_similar, ii_similar1. destruct f; destruct (Z.leb_spec (Z.of_nat (c_rows sim)) i); auto; lia.
Qed.
Print Assumptions C22_past_end.

(** A selection given as a Python list is not accepted (an ndarray is). *)
Theorem C22_items_list_raises :
  forall (T : Type) (HT : Num T) (fmin fmin32 : T) argsort (sim : csr T) (i N : Z) (l : list Z),
  (0 <= i < Z.of_nat (c_rows sim))%Z ->
  ii_similar fmin fmin32 argsort sim (Scalar i) N false None (Some (PyList l)) = Raise TypeError.
Proof.
  intros. unfold ii_similar, ii_similar1. destruct (Z.leb_spec (Z.of_nat (c_rows sim)) i); [lia|].
  unfold np_index. destruct (Z.leb_spec 0 i); [|lia]. destruct (Z.ltb_spec i (Z.of_nat (c_rows sim))); [|lia]. auto.
Qed.
Print Assumptions C22_items_list_raises.

(** A sorting permutation of Z lists, to run the model. *)
Definition zargsort (l : list Z) : list nat :=
  map snd (sort_by (fun p q => (fst q <? fst p)%Z) (combine l (seq 0 (length l)))).
Example C22_example :
  ii_similar (-1000)%Z (-999)%Z zargsort ex_sim (Scalar 1) 2 false None None = Ok (OneRow [1; 0] [5; 2])%Z /\
  ii_similar (-1000)%Z (-999)%Z zargsort ex_sim (Scalar 1) 2 false (Some (PyList [1]%Z)) None = Ok (OneRow [0; 2] [2; 1])%Z /\
  ii_similar (-1000)%Z (-999)%Z zargsort ex_sim (Scalar 3) 2 false None None = Ok (OneRow [] []) /\
  NoDup (csr_row_indices ex_sim 1).
Proof.
  split; [vm_compute; reflexivity|]. split; [vm_compute; reflexivity|]. split; [vm_compute; reflexivity|].
  vm_compute. repeat constructor; simpl; intuition lia.
Qed.
(** The hypothesis on argsort is satisfiable. *)
Example C22_argsort_exists : argsort_ok zargsort.
Proof.
  intros l. set (c := fun p q : Z * nat => (fst q <? fst p)%Z).
  assert (SW : swo c).
  { constructor; unfold c; intros; rewrite ?Z.ltb_lt, ?Z.ltb_ge in *; try lia. }
  assert (P := sort_by_perm c (combine l (seq 0 (length l)))).
  assert (S := sort_by_sorted c SW (combine l (seq 0 (length l)))).
  assert (MS : map snd (combine l (seq 0 (length l))) = seq 0 (length l)).
  { generalize (seq_length (length l) 0). generalize (seq 0 (length l)). intros m. revert l P S.
    clear. intros l _ _. revert m. induction l; destruct m; simpl; intros; try lia; auto. f_equal; auto. }
  split.
  - unfold zargsort. fold c. rewrite (Permutation_map snd P), MS. auto.
  - unfold zargsort. fold c.
    assert (V : forall p, In p (sort_by c (combine l (seq 0 (length l)))) -> fst p = nth (snd p) l 0%Z).
    { intros p Hp. apply (Permutation_in _ P) in Hp. clear -Hp.
      assert (G : forall s m, In p (combine m (seq s (length m))) -> s <= snd p /\ fst p = nth (snd p - s) m 0%Z).
      { intros s m. revert s. induction m as [|a m IH]; simpl; intros s X; [tauto|].
        destruct X as [<-|X]; [simpl; rewrite Nat.sub_diag; auto|]. apply IH in X. destruct X as [X1 X2].
        split; [lia|]. replace (snd p - s) with (Datatypes.S (snd p - Datatypes.S s)) by lia. auto. }
      apply G in Hp. rewrite Nat.sub_0_r in Hp. tauto. }
    eapply ss_map_impl; [exact S|]. intros x y Hx Hy B. cbn. unfold nleb. simpl.
    rewrite <- (V x Hx), <- (V y Hy). unfold c in B. rewrite B. auto.
Qed.

(* ------------------------------------------------------------------ *)
(** C23.  Row g of a batched call is the scalar result for ids[g], cut to N and
    padded with id -1 and the smallest float32. *)
Definition spec_fit {T} (n : nat) (d : T) (r row : list Z * list T) : Prop :=
  length (fst row) = n /\ length (snd row) = n /\
  (forall p, p < n -> nth_error (fst row) p =
      if p <? length (fst r) then nth_error (fst r) p else Some (-1)%Z) /\
  (forall p, p < n -> nth_error (snd row) p =
      if p <? length (fst r) then nth_error (snd r) p else Some d).

Lemma nth_error_firstn_lt {A} (l : list A) n p : p < n -> nth_error (firstn n l) p = nth_error l p.
Proof. revert l p; induction n; destruct l, p; simpl; intros; auto; try lia. apply IHn; lia. Qed.
Lemma nth_error_repeat_lt {A} (x : A) n p : p < n -> nth_error (repeat x n) p = Some x.
Proof. revert p; induction n; destruct p; simpl; intros; auto; try lia. apply IHn; lia. Qed.

Lemma fit_row_spec {T} (n : nat) (d : T) r : length (snd r) = length (fst r) -> spec_fit n d r (fit_row n d r).
Proof.
  intros L. unfold spec_fit, fit_row. cbn [fst snd]. split; [|split; [|split]].
  - rewrite firstn_length, app_length, repeat_length. lia.
  - rewrite firstn_length, app_length, repeat_length. lia.
  - intros p Hp. rewrite nth_error_firstn_lt by auto. destruct (Nat.ltb_spec p (length (fst r))).
    + apply nth_error_app1; auto.
    + rewrite nth_error_app2 by auto. apply nth_error_repeat_lt. lia.
  - intros p Hp. rewrite nth_error_firstn_lt by auto. destruct (Nat.ltb_spec p (length (fst r))).
    + apply nth_error_app1; lia.
    + rewrite nth_error_app2 by lia. apply nth_error_repeat_lt. lia.
Qed.

Theorem C23_batch_call :
  forall (T : Type) (HT : Num T) (HO : NumOrd T) (fmin32 : T) (f : nat -> Z -> res (list Z * list T)) (ids : list Z) (N : Z),
  (0 <= N)%Z ->
  (forall g z r, f g z = Ok r -> length (snd r) = length (fst r)) ->
  (forall I S, batch_call fmin32 f ids N = Ok (I, S) ->
     length I = length ids /\ length S = length ids /\
     forall g, g < length ids -> exists r, f g (nth g ids 0%Z) = Ok r /\
        spec_fit (Z.to_nat N) fmin32 r (nth g I [], nth g S [])) /\
  ((forall g, g < length ids -> exists r, f g (nth g ids 0%Z) = Ok r) ->
     exists I S, batch_call fmin32 f ids N = Ok (I, S)).
Proof.
  intros T HT HO fmin32 f ids N HN FL. split.
  - intros I S E. apply batch_call_ok in E; auto. destruct E as [rs [F [-> ->]]].
    assert (L : length rs = length ids). { apply Forall2_len in F. unfold enum in F. rewrite enum_from_length in F. auto. }
    rewrite !map_length. split; auto. split; auto. intros g Hg.
    exists (nth g rs ([], [])).
    pose proof (proj2 (proj1 (Forall2_enum_nth (fun g z r => f g z = Ok r) ids rs 0%Z ([], [])) F) g Hg) as Ef.
    split; [exact Ef|].
    rewrite (nth_indep (map _ rs) [] (fst (fit_row (Z.to_nat N) fmin32 ([], [])))) by (rewrite map_length; lia).
    rewrite (map_nth (fun r => fst (fit_row (Z.to_nat N) fmin32 r)) rs ([], [])).
    rewrite (nth_indep (map _ rs) [] (snd (fit_row (Z.to_nat N) fmin32 ([], [])))) by (rewrite map_length; lia).
    rewrite (map_nth (fun r => snd (fit_row (Z.to_nat N) fmin32 r)) rs ([], [])).
    rewrite <- surjective_pairing. apply fit_row_spec. exact (FL _ _ _ Ef).
  - intros A.
    assert (G : exists rs, Forall2 (fun p r => f (fst p) (snd p) = Ok r) (enum ids) rs).
    { assert (B : forall p, In p (enum ids) -> exists r, f (fst p) (snd p) = Ok r).
      { intros [g z] Hp. apply in_enum in Hp. simpl. assert (g < length ids) by (apply nth_error_Some; congruence).
        rewrite <- (nth_error_nth_eq ids g 0%Z z Hp). auto. }
      clear A. induction (enum ids) as [|p l IH]; [exists []; auto|].
      destruct (B p (or_introl eq_refl)) as [r Er]. destruct IH as [rs F]; [intros; apply B; right; auto|].
      exists (r :: rs). auto. }
    destruct G as [rs F]. eexists _, _. apply batch_call_ok; auto. exists rs. split; auto.
Qed.
Print Assumptions C23_batch_call.

(** ... in particular for item-item recommend: query g sees row g of user_items
    and a clean accumulator. *)
Theorem C23_recommend_batch :
  forall (T : Type) (HT : Num T) (HO : NumOrd T) (HP : std_heap) (fmin fmin32 : T) (sim M : csr T)
    us N fl (f it : option arr),
  csr_wf sim -> c_cols sim = c_rows sim -> c_rows M = length us ->
  ii_recommend HP fmin fmin32 sim (acc_new (c_rows sim)) (Batch us) (Csr M) N fl f it =
  (do ' (Ids, Sc) <- batch_call fmin32 (fun g u =>
       do ' (r, _) <- ii_recommend HP fmin fmin32 sim (acc_new (c_rows sim)) (Scalar u) (Csr (csr_take_row M g)) N fl f it;
       match r with OneRow i s => Ok (i, s) | ManyRows _ _ => Raise UB end) us N;
   Ok (ManyRows Ids Sc, acc_new (c_rows sim))).
Proof.
  intros T HT HO HP fmin fmin32 sim M us N fl f it Wf Sq L.
  rewrite (ii_batch_is_batch_call HP sim Wf Sq) by auto. f_equal.
  unfold batch_call. destruct (N <? 0)%Z; auto. f_equal. apply map_res_ext. intros [g z] _. cbn [fst snd].
  unfold ii_recommend. destruct (ii_recommend1 _ _ _ _ _ _ _ _ _) as [[[r1 r2] a]|]; reflexivity.
Qed.
Print Assumptions C23_recommend_batch.
Example C23_example :
  ii_recommend simple_heap (-1000)%Z (-999)%Z ex_sim (acc_new 3) (Batch [5; 6]%Z)
    (Csr (csr_of_rows 3 (map zr [[(0, 1)]; [(1, 1)]])))%Z 3 false None None =
    Ok (ManyRows [[0; 1; -1]; [1; 0; 2]] [[4; 2; -999]; [5; 2; 1]], acc_new 3)%Z.
Proof. vm_compute. reflexivity. Qed.
