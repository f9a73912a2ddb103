(** Filters, similar_items and batched calls of item-item models. *)
From Coq Require Import List Arith Lia Bool ZArith Permutation Sorted.
From Verif Require Import Base Num Heap Sparse TopkModel TopkSpec TopkProofs TopkBatch
  RecommendModel RecommendProofs RecommendProofs2 RecommendProofs3 KnnModel KnnAcc KnnProofs KnnRec.
Import ListNotations.

Section Rec2.
Context {T : Type} `{NumOrd T}.

(** Masking keeps pairs together. *)
Lemma mask_in_map (S : list Z) inv (ids : list nat) (score : nat -> T) :
  mask_in S inv (map Z.of_nat ids, map score ids) =
  let l := filter (fun i => xorb inv (memz (Z.of_nat i) S)) ids in (map Z.of_nat l, map score l).
Proof.
  unfold mask_in. cbn [fst snd]. f_equal; induction ids as [|i ids IH]; simpl; auto;
    destruct (xorb inv (memz (Z.of_nat i) S)); simpl; rewrite IH; auto.
Qed.

Lemma ss_filter {A} (R : A -> A -> Prop) (p : A -> bool) l : StronglySorted R l -> StronglySorted R (filter p l).
Proof.
  induction 1 as [|a l SS IH F]; simpl; [constructor|]. destruct (p a); auto. constructor; auto.
  rewrite Forall_forall in *. intros x Hx. apply filter_In in Hx. apply F, Hx.
Qed.

(** Dropping candidates from a top-n list leaves a top-m list of the others. *)
Lemma TopN_filter (score : nat -> T) cands n ids sc (p : nat -> bool) : TopN score cands n ids sc ->
  TopN score (filter p cands) (length (filter p ids)) (filter p ids) (map score (filter p ids)).
Proof.
  intros [L S ND I SS B]. constructor; auto.
  - apply NoDup_filter; auto.
  - intros i Hi. apply filter_In in Hi. apply filter_In. split; [apply I|]; tauto.
  - apply ss_filter; auto.
  - intros i j Hi Hj NJ. apply filter_In in Hi, Hj. apply B; try tauto.
    intros X. apply NJ. apply filter_In. tauto.
Qed.

Lemma filter_len_split {A} (p : A -> bool) l : length l = length (filter p l) + length (filter (fun x => negb (p x)) l).
Proof. induction l as [|a l IH]; simpl; auto. destruct (p a); simpl; lia. Qed.

(** If everything fits, all unfiltered candidates are present; otherwise at least
    [n - |F|] of them. *)
Lemma filtered_count (F : list Z) (ids : list nat) : NoDup ids ->
  length (filter (fun i => memz (Z.of_nat i) F) ids) <= length F.
Proof.
  intros ND. rewrite <- (map_length Z.of_nat (filter _ ids)).
  apply NoDup_incl_length.
  - apply FinFun.Injective_map_NoDup; [intros x y E; lia|]. apply NoDup_filter; auto.
  - intros z Hz. apply in_map_iff in Hz. destruct Hz as [i [<- Hi]]. apply filter_In in Hi.
    apply memz_spec. tauto.
Qed.

(* ---------- similar_items ---------- *)
(** np.argsort: any permutation that sorts. *)
Definition argsort_ok (argsort : list T -> list nat) : Prop :=
  forall l, Permutation (argsort l) (seq 0 (length l)) /\
            StronglySorted (fun p q => nleb (nth p l nzero) (nth q l nzero) = true) (argsort l).

Lemma ss_rev {A} (R : A -> A -> Prop) l : StronglySorted R l -> StronglySorted (fun x y => R y x) (rev l).
Proof.
  induction 1 as [|a l SS IH F]; simpl; [constructor|].
  assert (G : forall m, StronglySorted (fun x y => R y x) m -> (forall x, In x m -> R a x) ->
              StronglySorted (fun x y => R y x) (m ++ [a])).
  { induction m as [|b m IHm]; simpl; intros S1 S2; [repeat constructor|].
    inversion S1; subst. constructor; [apply IHm; auto|].
    apply Forall_app. split; auto. }
  apply G; auto. intros x Hx. apply in_rev in Hx. rewrite Forall_forall in F. auto.
Qed.

Lemma ss_firstn {A} (R : A -> A -> Prop) k l : StronglySorted R l -> StronglySorted R (firstn k l).
Proof.
  intros S. revert k; induction S as [|a l S IH F]; intros [|k]; simpl; constructor; auto.
  rewrite Forall_forall in *. intros x Hx. apply F. rewrite <- (firstn_skipn k l). apply in_or_app; auto.
Qed.

(** The [N] best positions of a list of scores, by a reversed argsort. *)
Lemma argsort_topn argsort (l : list T) k : argsort_ok argsort ->
  TopN (fun p => nth p l nzero) (seq 0 (length l)) (Nat.min k (length l))
       (firstn k (rev (argsort l))) (map (fun p => nth p l nzero) (firstn k (rev (argsort l)))).
Proof.
  intros A. destruct (A l) as [P S].
  assert (PR : Permutation (rev (argsort l)) (seq 0 (length l))) by (rewrite <- Permutation_rev; auto).
  assert (SR := ss_rev _ _ S).
  assert (ND : NoDup (rev (argsort l))) by (eapply Permutation_NoDup; [apply Permutation_sym, PR|apply seq_NoDup]).
  assert (SPL := firstn_skipn k (rev (argsort l))).
  constructor; auto.
  - rewrite firstn_length, (Permutation_length PR), seq_length. auto.
  - rewrite <- SPL in ND. clear -ND. induction (firstn k _); simpl in *; constructor; inversion ND; subst; auto.
    intro; apply H1; apply in_or_app; auto.
  - intros p Hp. eapply Permutation_in; [exact PR|]. rewrite <- SPL. apply in_or_app; auto.
  - apply ss_firstn; auto.
  - intros i j Hi Hj NJ.
    assert (J2 : In j (skipn k (rev (argsort l)))).
    { assert (X : In j (rev (argsort l))) by (eapply Permutation_in; [apply Permutation_sym, PR|auto]).
      rewrite <- SPL in X. apply in_app_or in X. tauto. }
    rewrite <- SPL in SR. clear -SR Hi J2. induction (firstn k _) as [|a m IH]; simpl in *; [tauto|].
    inversion SR as [|? ? S1 F1]; subst. destruct Hi as [->|Hi]; auto.
    rewrite Forall_forall in F1. apply F1. apply in_or_app; auto.
Qed.

Lemma nth_map_nat {A} (f : A -> T) l p d : p < length l -> nth p (map f l) nzero = f (nth p l d).
Proof. intros L. rewrite (nth_indep _ nzero (f d)) by (rewrite map_length; auto). apply map_nth. Qed.

(** Best rows of an association list with distinct keys. *)
Lemma argsort_topn_keys argsort (keys : list nat) (score : nat -> T) k : argsort_ok argsort -> NoDup keys ->
  let best := firstn k (rev (argsort (map score keys))) in
  let ids := map (fun p => nth p keys 0) best in
  map (fun p => nth p (map Z.of_nat keys) 0%Z) best = map Z.of_nat ids /\
  TopN score keys (Nat.min k (length keys)) ids (map (fun p => nth p (map score keys) nzero) best).
Proof.
  intros A ND best ids.
  pose proof (argsort_topn argsort (map score keys) k A) as TN. fold best in TN. rewrite map_length in TN.
  assert (BL : forall p, In p best -> p < length keys).
  { intros p Hp. apply (topn_incl _ _ _ _ _ TN) in Hp. apply in_seq in Hp. lia. }
  assert (SC : forall p, In p (seq 0 (length keys)) -> nth p (map score keys) nzero = score (nth p keys 0)).
  { intros p Hp. apply in_seq in Hp. apply nth_map_nat. lia. }
  split.
  - unfold ids. rewrite map_map. apply map_ext_in. intros p Hp.
    rewrite (nth_indep _ 0%Z (Z.of_nat 0)) by (rewrite map_length; auto). apply map_nth.
  - apply (TopN_ext _ _ _ _ _ _ SC) in TN.
    apply (TopN_rename score (fun p => nth p keys 0)) in TN.
    + replace (map (fun p => nth p keys 0) (seq 0 (length keys))) with keys in TN; [exact TN|].
      apply (list_ext _ _ 0); [rewrite map_length, seq_length; auto|].
      intros i Hi. rewrite (nth_indep (map _ _) 0 (nth 0 keys 0)) by (rewrite map_length, seq_length; auto).
      rewrite (map_nth (fun p => nth p keys 0)), seq_nth by auto. auto.
    + intros i j Hi Hj E. apply in_seq in Hi, Hj.
      apply (proj1 (NoDup_nth keys 0) ND); auto; lia.
Qed.

(** Stored similarity of [j] in row [i] (rows have distinct columns). *)
Definition stored (sim : csr T) (i j : nat) : T :=
  match find (fun p => fst p =? j) (csr_row sim i) with Some p => snd p | None => nzero end.

Lemma stored_row sim i : NoDup (csr_row_indices sim i) ->
  csr_row sim i = map (fun j => (j, stored sim i j)) (csr_row_indices sim i).
Proof.
  unfold stored, csr_row_indices. induction (csr_row sim i) as [|[j s] l IH]; simpl; intros ND; auto.
  inversion ND as [|? ? N1 N2]; subst. rewrite Nat.eqb_refl. simpl. f_equal.
  rewrite IH at 1 by auto. apply map_ext_in. intros k Hk. f_equal.
  destruct (Nat.eqb_spec j k); auto. subst; tauto.
Qed.

Definition unfiltered (f : option arr) (j : nat) : bool :=
  match f with None => true | Some a => negb (memz (Z.of_nat j) (arr_list a)) end.

Lemma filter_true {A} (l : list A) : filter (fun _ => true) l = l.
Proof. induction l; simpl; f_equal; auto. Qed.

Lemma ii_similar1_topn fmin argsort sim itemid N f : argsort_ok argsort ->
  (0 <= itemid < Z.of_nat (c_rows sim))%Z -> (0 <= N)%Z ->
  NoDup (csr_row_indices sim (Z.to_nat itemid)) ->
  exists ids scores,
    ii_similar1 fmin argsort sim itemid N false f None = Ok (map Z.of_nat ids, scores) /\
    TopN (stored sim (Z.to_nat itemid))
         (filter (unfiltered f) (csr_row_indices sim (Z.to_nat itemid)))
         (Nat.min (Z.to_nat N) (length (filter (unfiltered f) (csr_row_indices sim (Z.to_nat itemid)))))
         ids scores.
Proof.
  intros A Hi HN ND. set (i := Z.to_nat itemid) in *.
  set (keys := filter (unfiltered f) (csr_row_indices sim i)).
  destruct (argsort_topn_keys argsort keys (stored sim i) (Z.to_nat N) A) as [E TN].
  { apply NoDup_filter; auto. }
  eexists _, _. split; [|exact TN].
  unfold ii_similar1. rewrite <- E.
  assert (NI : np_index (c_rows sim) itemid = Ok i).
  { unfold np_index. destruct (Z.leb_spec 0 itemid); [|lia]. destruct (Z.ltb_spec itemid (Z.of_nat (c_rows sim))); [|lia]. auto. }
  destruct (Z.leb_spec (Z.of_nat (c_rows sim)) itemid); [lia|].
  assert (R1 : map (fun p : nat * T => Z.of_nat (fst p)) (csr_row sim i) = map Z.of_nat (csr_row_indices sim i)).
  { unfold csr_row_indices. rewrite map_map. auto. }
  assert (R2 : map snd (csr_row sim i) = map (stored sim i) (csr_row_indices sim i)).
  { rewrite (stored_row sim i ND) at 1. rewrite map_map. auto. }
  assert (PT : forall X (l : list X), py_take N l = firstn (Z.to_nat N) l).
  { intros X l. unfold py_take. destruct (Z.ltb_spec N 0); auto; lia. }
  destruct f as [fa|]; rewrite NI; cbn [bind]; rewrite R1, R2, PT.
  - rewrite mask_in_map. cbn zeta. cbn [fst snd].
    replace (filter (fun j => xorb true (memz (Z.of_nat j) (arr_list fa))) (csr_row_indices sim i)) with keys; auto.
  - unfold keys, unfiltered. rewrite filter_true. auto.
Qed.

(* ---------- batched calls ---------- *)
(** Row of a batched result: cut to [n], padded with id -1 and score [d]. *)
Definition fit_row (n : nat) (d : T) (r : list Z * list T) : list Z * list T :=
  (firstn n (fst r ++ repeat (-1)%Z (n - length (fst r))),
   firstn n (snd r ++ repeat d (n - length (fst r)))).

Lemma batch_call_ok fmin32 f ids N I S : (0 <= N)%Z ->
  batch_call fmin32 f ids N = Ok (I, S) <->
  exists rs, Forall2 (fun p r => f (fst p) (snd p) = Ok r) (enum ids) rs /\
    I = map (fun r => fst (fit_row (Z.to_nat N) fmin32 r)) rs /\
    S = map (fun r => snd (fit_row (Z.to_nat N) fmin32 r)) rs.
Proof.
  intros HN. unfold batch_call. destruct (Z.ltb_spec N 0); [lia|].
  rewrite bind_ok. split.
  - intros [rows [E X]]. apply map_res_ok in E. inversion X; subst. clear X.
    assert (G : exists rs, Forall2 (fun p r => f (fst p) (snd p) = Ok r) (enum ids) rs /\
                  rows = map (fit_row (Z.to_nat N) fmin32) rs).
    { clear -E. induction E as [|p r l rows Ep E IH]. { exists []; auto. }
      destruct IH as [rs [F ->]]. destruct (f (fst p) (snd p)) as [[bi bs]|] eqn:Ef; cbn [bind] in Ep; [|discriminate].
      inversion Ep; subst. exists ((bi, bs) :: rs). split; auto. }
    destruct G as [rs [F ->]]. exists rs. split; auto. rewrite !map_map. auto.
  - intros [rs [F [-> ->]]]. exists (map (fit_row (Z.to_nat N) fmin32) rs). split; [|rewrite !map_map; auto].
    apply map_res_ok. clear -F. induction F as [|p r l rs Ef F IH]; simpl; constructor; auto.
    rewrite Ef. destruct r as [bi bs]. auto.
Qed.

Variables (HP : std_heap) (HC : std_heap_ok HP).
Variables (sim : csr T) (Wf : csr_wf sim) (Sq : c_cols sim = c_rows sim).

(** A successful call leaves the accumulator clean. *)
Lemma scorer_clean row K fl r a :
  scorer_recommend HP sim (acc_new (c_rows sim)) row K fl = Ok (r, a) -> a = acc_new (c_rows sim).
Proof.
  intros E.
  assert (D : row_ok sim row \/ ~ row_ok sim row).
  { unfold row_ok. induction row as [|p row IH]; [left; constructor|].
    destruct (Nat.lt_ge_cases (fst p) (c_rows sim)) as [L|L].
    - destruct (Forall_dec (fun p : nat * T => fst p < c_rows sim) (fun q => lt_dec (fst q) (c_rows sim)) row) as [F|F].
      + left. constructor; auto.
      + right. intros X; inversion X; subst. auto.
    - right. intros X; inversion X; subst. lia. }
  destruct D as [R|R].
  - rewrite scorer_recommend_eq in E by auto.
    destruct (topk_feed _ _ _ _); cbn [bind] in E; [|discriminate]. inversion E; auto.
  - unfold scorer_recommend in E. rewrite scorer_adds_bad in E by auto. discriminate.
Qed.

Lemma ii_recommend1_clean fmin ui N fl f it r a :
  ii_recommend1 HP fmin sim (acc_new (c_rows sim)) ui N fl f it = Ok (r, a) -> a = acc_new (c_rows sim).
Proof.
  unfold ii_recommend1. destruct ui as [|M]; [discriminate|]. intros E.
  apply bind_ok in E. destruct E as [N' [_ E]]. destruct (c_rows M =? 0); [discriminate|].
  apply bind_ok in E. destruct E as [[r' a'] [E1 E2]]. apply scorer_clean in E1. subst a'.
  destruct f as [f|]; [inversion E2; auto|]. destruct it; inversion E2; auto.
Qed.

Lemma ii_batch_is_batch_call fmin fmin32 us M N fl f it : c_rows M = length us ->
  ii_recommend HP fmin fmin32 sim (acc_new (c_rows sim)) (Batch us) (Csr M) N fl f it =
  (do ' (Ids, Sc) <- batch_call fmin32 (fun g _ =>
       do ' (r, _) <- ii_recommend1 HP fmin sim (acc_new (c_rows sim)) (Csr (csr_take_row M g)) N fl f it;
       Ok r) us N;
   Ok (ManyRows Ids Sc, acc_new (c_rows sim))).
Proof.
  intros L. unfold ii_recommend, batch_call. rewrite L, Nat.eqb_refl. cbn [negb].
  destruct (N <? 0)%Z; auto.
  set (F := fun p : nat * Z => _ : res (list Z * list T)).
  assert (G : forall (l : list Z) k,
     ii_batch_rows HP fmin fmin32 sim (acc_new (c_rows sim)) M N fl f it (seq k (length l))
     = do rows <- map_res F (enum_from k l); Ok (rows, acc_new (c_rows sim))).
  { induction l as [|u l IH]; intros k; auto. cbn [length seq ii_batch_rows enum_from map_res].
    unfold F at 1. cbn [fst snd].
    destruct (ii_recommend1 HP fmin sim (acc_new (c_rows sim)) (Csr (csr_take_row M k)) N fl f it) as [[r a]|] eqn:E;
      cbn [bind]; auto.
    apply ii_recommend1_clean in E. subst a. rewrite IH. destruct r as [r1 r2].
    destruct (map_res F (enum_from (S k) l)); cbn [bind]; reflexivity. }
  rewrite G. unfold enum. destruct (map_res F (enum_from 0 us)); reflexivity.
Qed.

End Rec2.
