(** Scoring with a fitted item-item model. *)
From Coq Require Import List Arith Lia Bool ZArith Permutation Sorted.
From Verif Require Import Base Num Heap Sparse TopkModel TopkSpec TopkProofs TopkBatch
  RecommendModel RecommendProofs RecommendProofs2 KnnModel KnnAcc KnnProofs.
Import ListNotations.

Section Rec.
Context {T : Type} `{NumOrd T}.
Variables (HP : std_heap) (HC : std_heap_ok HP).
Variables (sim : csr T) (Wf : csr_wf sim) (Sq : c_cols sim = c_rows sim).

(** Specification: the terms of (user row) x (similarity matrix) at column [j]. *)
Definition predict_terms (row : list (nat * T)) (j : nat) : list T :=
  flat_map (fun p => map (fun q => nmul (snd q) (snd p))
                         (filter (fun q => fst q =? j) (csr_row sim (fst p)))) row.
Definition predict (row : list (nat * T)) (j : nat) : T := nsum (predict_terms row j).
(** Items similar to something in the row. *)
Definition reachable (row : list (nat * T)) : list nat :=
  filter (fun j => existsb (fun p => memn j (csr_row_indices sim (fst p))) row) (seq 0 (c_rows sim)).
(** The score shown: liked items count 0 when they are to be removed. *)
Definition shown (fl : bool) (row : list (nat * T)) (j : nat) : T :=
  if fl && memn j (map fst row) then nzero else predict row j.

Definition row_ok (row : list (nat * T)) : Prop := Forall (fun p => fst p < c_rows sim) row.

Definition sadds (row : list (nat * T)) : list (nat * T) :=
  flat_map (fun p => map (fun q => (fst q, nmul (snd q) (snd p))) (csr_row sim (fst p))) row.

Lemma scorer_adds_ok row : row_ok row -> scorer_adds sim row = Ok (sadds row).
Proof.
  intros R. unfold scorer_adds.
  rewrite (map_res_map _ (fun p => map (fun q => (fst q, nmul (snd q) (snd p))) (csr_row sim (fst p)))).
  - cbn [bind]. f_equal. symmetry. apply flat_map_concat_map.
  - intros p Hp. unfold row_ok in R. rewrite Forall_forall in R. specialize (R p Hp).
    apply Nat.ltb_lt in R. rewrite R. auto.
Qed.

Lemma scorer_adds_bad row : ~ row_ok row -> scorer_adds sim row = Raise UB.
Proof.
  unfold scorer_adds, row_ok. induction row as [|p row IH]; intros NR; [exfalso; apply NR; constructor|].
  cbn [map_res]. destruct (Nat.ltb_spec (fst p) (c_rows sim)) as [L|L]; cbn [bind]; auto.
  destruct (map_res _ row) as [x|e] eqn:E; cbn [bind] in *; [|apply IH; intro; apply NR; constructor; auto].
  exfalso. assert (~ Forall (fun p0 : nat * T => fst p0 < c_rows sim) row) as NR'.
  { intro; apply NR; constructor; auto. }
  specialize (IH NR'). discriminate.
Qed.

Lemma sadds_lt row : Forall (fun p => fst p < c_rows sim) (sadds row).
Proof.
  apply Forall_forall. intros p Hp. unfold sadds in Hp. apply in_flat_map in Hp.
  destruct Hp as [q [_ Hp]]. apply in_map_iff in Hp. destruct Hp as [x [<- Hx]]. simpl.
  rewrite <- Sq. apply (csr_row_indices_lt sim (fst q)); auto. unfold csr_row_indices. apply in_map; auto.
Qed.

Lemma added_sadds row j : added j (sadds row) = predict_terms row j.
Proof.
  unfold added, sadds, predict_terms. rewrite filter_flat_map, map_flat_map. apply flat_map_ext_in.
  intros p _. induction (csr_row sim (fst p)) as [|q l IH]; simpl; auto.
  destruct (fst q =? j); simpl; rewrite IH; auto.
Qed.

Lemma in_sadds row j : In j (map fst (sadds row)) <-> In j (reachable row).
Proof.
  unfold reachable. rewrite filter_In, existsb_exists. split.
  - intros Hj. split.
    + apply in_seq. apply in_map_iff in Hj. destruct Hj as [p [<- Hp]].
      pose proof (sadds_lt row) as F. rewrite Forall_forall in F. specialize (F p Hp). lia.
    + unfold sadds in Hj. rewrite map_flat_map in Hj. apply in_flat_map in Hj.
      destruct Hj as [p [Hp Hj]]. exists p. split; auto. apply memn_spec. rewrite map_map in Hj. exact Hj.
  - intros [_ [p [Hp Hj]]]. apply memn_spec in Hj. unfold sadds. rewrite map_flat_map. apply in_flat_map.
    exists p. split; auto. rewrite map_map. exact Hj.
Qed.

(** Pairs visited for one query. *)
Definition svisited (fl : bool) (row : list (nat * T)) : list (nat * T) :=
  map (fun j => (j, shown fl row j)) (touch (sadds row) []).

Lemma svisited_fst fl row : map fst (svisited fl row) = touch (sadds row) [].
Proof. unfold svisited. rewrite map_map. cbn [fst]. apply map_id. Qed.

Lemma svisited_in fl row j : In j (map fst (svisited fl row)) <-> In j (reachable row).
Proof. rewrite svisited_fst, touch_in, in_sadds. simpl. tauto. Qed.

Lemma svisited_perm fl row : Permutation (map fst (svisited fl row)) (reachable row).
Proof.
  apply NoDup_Permutation.
  - rewrite svisited_fst. apply touch_nodup. constructor.
  - unfold reachable. apply NoDup_filter, seq_NoDup.
  - intros j. apply svisited_in.
Qed.

(** The sequential call on a clean accumulator. *)
Definition call_acc (n : nat) (xs : list (nat * T)) (zs : list nat) : res (list (nat * T) * acc T) :=
  do a <- acc_adds xs (acc_new n); do a <- acc_zeros zs a; acc_foreach a.

Lemma call_acc_scorer (fl : bool) row : row_ok row ->
  call_acc (c_rows sim) (sadds row) (if fl then map fst row else [])
  = Ok (svisited fl row, acc_new (c_rows sim)).
Proof.
  intros R. unfold call_acc. rewrite acc_run_zeros.
  - f_equal. f_equal. unfold svisited. apply map_ext. intros j. f_equal.
    unfold shown, predict. rewrite added_sadds. destruct fl; auto.
  - apply sadds_lt.
  - destruct fl; [|constructor]. unfold row_ok in R. rewrite Forall_forall in *. intros i Hi.
    apply in_map_iff in Hi. destruct Hi as [p [<- Hp]]. auto.
Qed.

Lemma scorer_recommend_eq row K fl : row_ok row ->
  scorer_recommend HP sim (acc_new (c_rows sim)) row K fl
  = (do r <- topk_feed HP (size_t_limit K (length (svisited fl row))) (svisited fl row) [];
     Ok (sort_heap HP heap_order r, acc_new (c_rows sim))).
Proof.
  intros R. unfold scorer_recommend. rewrite scorer_adds_ok by auto. cbn [bind].
  pose proof (call_acc_scorer fl row R) as C. unfold call_acc in C.
  destruct (acc_adds (sadds row) (acc_new (c_rows sim))) as [a|]; [|discriminate]. cbn [bind] in *.
  destruct fl.
  - destruct (acc_zeros (map fst row) a) as [a'|]; [|discriminate]. cbn [bind] in *.
    rewrite C. cbn [bind]. reflexivity.
  - cbn [acc_zeros fold_res bind] in C. cbn [bind]. rewrite C. cbn [bind]. reflexivity.
Qed.

(** How many results a limit [K <> 0] keeps out of [m]. *)
Definition keep (K : Z) (m : nat) : nat := if (K <? 0)%Z then m else Nat.min (Z.to_nat K) m.

Lemma scorer_recommend_topn row K fl : row_ok row -> (K <> 0)%Z ->
  exists ids scores,
    scorer_recommend HP sim (acc_new (c_rows sim)) row K fl
      = Ok (combine scores ids, acc_new (c_rows sim)) /\
    TopN (shown fl row) (reachable row) (keep K (length (reachable row))) ids scores.
Proof.
  intros R NK. rewrite scorer_recommend_eq by auto.
  set (lim := size_t_limit K (length (svisited fl row))).
  assert (HL : 0 < lim). { unfold lim, size_t_limit. destruct (Z.ltb_spec K 0); lia. }
  destruct (topk_sorted_topn HP HC lim (svisited fl row) (shown fl row) HL) as [r [E TN]].
  - rewrite svisited_fst. apply touch_nodup. constructor.
  - unfold svisited. intros j s Hj. apply in_map_iff in Hj. destruct Hj as [j' [Ej _]]. inversion Ej; auto.
  - exists (map snd r), (map fst r). split.
    + destruct (topk_feed HP lim (svisited fl row) []) as [x|]; [|discriminate].
      cbn [bind] in *. inversion E; subst. f_equal. f_equal. symmetry. apply combine_fst_snd.
    + replace (keep K (length (reachable row))) with (Nat.min lim (length (svisited fl row))).
      * eapply TopN_cands; [|exact TN]. intros j. apply svisited_in.
      * rewrite <- (Permutation_length (svisited_perm fl row)), map_length.
        unfold lim, keep, size_t_limit. destruct (K <? 0)%Z; lia.
Qed.

Lemma combine_ids (ids : list nat) (sc : list T) : length sc = length ids ->
  (map (fun p => Z.of_nat (snd p)) (combine sc ids), map fst (combine sc ids)) = (map Z.of_nat ids, sc).
Proof.
  intros L. f_equal.
  - revert ids L. induction sc as [|s sc IH]; destruct ids as [|i ids]; simpl; intros L; try lia; auto. f_equal; auto.
  - revert ids L. induction sc as [|s sc IH]; destruct ids as [|i ids]; simpl; intros L; try lia; auto. f_equal; auto.
Qed.

(** [recommend] for one user without item restriction. *)
Lemma ii_recommend1_topn fmin M N fl : c_rows M <> 0 -> row_ok (csr_row M 0) -> (N <> 0)%Z ->
  exists ids scores,
    ii_recommend1 HP fmin sim (acc_new (c_rows sim)) (Csr M) N fl None None
      = Ok ((map Z.of_nat ids, scores), acc_new (c_rows sim)) /\
    TopN (shown fl (csr_row M 0)) (reachable (csr_row M 0)) (keep N (length (reachable (csr_row M 0)))) ids scores.
Proof.
  intros NR R NN. destruct (scorer_recommend_topn (csr_row M 0) N fl R NN) as [ids [sc [E TN]]].
  exists ids, sc. split; auto. unfold ii_recommend1. cbn [bind].
  apply Nat.eqb_neq in NR. rewrite NR. rewrite E. cbn [bind].
  assert (L : length sc = length ids). { rewrite (topn_scores _ _ _ _ _ TN), map_length; auto. }
  rewrite combine_ids by auto. auto.
Qed.

(** With [filter_items]: the scorer is asked for N + |F| items and the filtered
    ones are dropped; the cut uses the enlarged number. *)
Lemma ii_recommend1_filter fmin M N fl f : c_rows M <> 0 -> row_ok (csr_row M 0) ->
  (0 < N + Z.of_nat (length (arr_list f)))%Z ->
  exists ids scores,
    ii_recommend1 HP fmin sim (acc_new (c_rows sim)) (Csr M) N fl (Some f) None
      = Ok (mask_in (arr_list f) true (map Z.of_nat ids, scores), acc_new (c_rows sim)) /\
    TopN (shown fl (csr_row M 0)) (reachable (csr_row M 0))
         (keep (N + Z.of_nat (length (arr_list f))) (length (reachable (csr_row M 0)))) ids scores.
Proof.
  intros NR R NN. set (N' := (N + Z.of_nat (length (arr_list f)))%Z) in *.
  destruct (scorer_recommend_topn (csr_row M 0) N' fl R ltac:(lia)) as [ids [sc [E TN]]].
  exists ids, sc. split; auto. unfold ii_recommend1. cbn [bind]. fold N'.
  apply Nat.eqb_neq in NR. rewrite NR. rewrite E. cbn [bind].
  assert (L : length sc = length ids). { rewrite (topn_scores _ _ _ _ _ TN), map_length; auto. }
  rewrite combine_ids by auto. f_equal. f_equal.
  set (m := mask_in _ _ _).
  assert (LM : length (fst m) <= Z.to_nat N' /\ length (snd m) <= Z.to_nat N').
  { unfold m, mask_in. cbn [fst snd]. rewrite !map_length.
    assert (X : forall (g : Z * T -> bool) l, length (filter g l) <= length l).
    { intros g l. induction l; simpl; auto. destruct (g a); simpl; lia. }
    pose proof (X (fun p => xorb true (memz (fst p) (arr_list f))) (combine (map Z.of_nat ids) sc)) as Y.
    rewrite combine_length, map_length in Y. pose proof (topn_length _ _ _ _ _ TN) as TL.
    unfold keep in TL. destruct (Z.ltb_spec N' 0); lia. }
  unfold py_take. destruct (Z.ltb_spec N' 0); [lia|].
  rewrite !firstn_all2 by lia. destruct m; auto.
Qed.

(** With [items]. *)
Lemma ii_recommend1_items fmin M N fl s : c_rows M <> 0 -> row_ok (csr_row M 0) -> 0 < c_rows sim ->
  arr_list s <> [] -> (forall z, In z (arr_list s) -> 0 <= z < Z.of_nat (c_rows sim))%Z ->
  exists ids scores,
    ii_recommend1 HP fmin sim (acc_new (c_rows sim)) (Csr M) N fl None (Some s)
      = Ok (append_missing fmin (arr_list s) (mask_in (arr_list s) false (map Z.of_nat ids, scores)), acc_new (c_rows sim)) /\
    TopN (shown fl (csr_row M 0)) (reachable (csr_row M 0)) (length (reachable (csr_row M 0))) ids scores.
Proof.
  intros NR R NS NE IN.
  destruct (scorer_recommend_topn (csr_row M 0) (Z.of_nat (c_rows sim)) fl R ltac:(lia)) as [ids [sc [E TN]]].
  exists ids, sc. split.
  - unfold ii_recommend1. unfold out_of_model. destruct (arr_list s) as [|z zs] eqn:Es; [tauto|].
    replace (existsb (fun z0 => (Z.of_nat (c_rows sim) <=? z0)%Z || (z0 <? 0)%Z) (z :: zs)) with false.
    + cbn [bind]. apply Nat.eqb_neq in NR. rewrite NR. rewrite E. cbn [bind].
      rewrite combine_ids; auto. rewrite (topn_scores _ _ _ _ _ TN), map_length; auto.
    + symmetry. destruct (existsb _ _) eqn:X; auto. apply existsb_exists in X. destruct X as [x [Hx B]].
      specialize (IN x Hx). apply orb_true_iff in B. rewrite Z.leb_le, Z.ltb_lt in B. lia.
  - replace (keep (Z.of_nat (c_rows sim)) (length (reachable (csr_row M 0)))) with (length (reachable (csr_row M 0))) in TN; auto.
    unfold keep. destruct (Z.ltb_spec (Z.of_nat (c_rows sim)) 0); [lia|]. rewrite Nat2Z.id.
    assert (length (reachable (csr_row M 0)) <= c_rows sim); [|lia].
    unfold reachable. rewrite <- (seq_length (c_rows sim) 0) at 2.
    generalize (seq 0 (c_rows sim)). clear. induction l; simpl; auto. destruct (existsb _ _); simpl; lia.
Qed.

End Rec.
