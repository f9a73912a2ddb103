(** Correctness of the bounded heap, of [select], and of [topk]. *)
From Coq Require Import List Arith Lia Bool ZArith Permutation Sorted.
From Verif Require Import Base Num Heap Sparse TopkModel TopkSpec.
Import ListNotations.

Section HeapOrder.
Context {T : Type} `{NumOrd T}.

Lemma nltb_neg_trans a b c : nltb a b = false -> nltb b c = false -> nltb a c = false.
Proof.
  intros. destruct (nltb a c) eqn:E; auto. destruct (nltb_cotrans a b c E); congruence.
Qed.

Lemma pair_ltb_swo : swo (@pair_ltb T _).
Proof.
  unfold pair_ltb. constructor.
  - intros [x i]; simpl. rewrite nltb_irrefl, Nat.ltb_irrefl. auto.
  - intros [x i] [y j] [z k]; simpl. intros A B.
    apply orb_true_iff in A. apply orb_true_iff in B. apply orb_true_iff.
    rewrite !andb_true_iff, !negb_true_iff, !Nat.ltb_lt in *.
    destruct A as [A|[A A']], B as [B|[B B']].
    + left; eapply nltb_trans; eauto.
    + left. destruct (nltb_cotrans x z y A); auto; congruence.
    + left. destruct (nltb_cotrans y x z B); auto; congruence.
    + right. split; [|lia]. eapply nltb_neg_trans; eauto.
  - intros [x i] [y j] [z k]; simpl. intros A. rewrite !orb_true_iff, !andb_true_iff,
      !negb_true_iff, !Nat.ltb_lt in *.
    destruct (nltb x y) eqn:E1; auto. destruct (nltb y z) eqn:E2; auto.
    destruct (nltb y x) eqn:E3, (nltb z y) eqn:E4; auto;
      destruct A as [A|[A A']]; try (destruct (nltb_cotrans x y z A); congruence).
    + pose proof (nltb_trans _ _ _ E4 E3). congruence.
    + destruct (nltb_cotrans y z x E3); congruence.
    + destruct (nltb_cotrans z x y E4); congruence.
    + destruct (Nat.lt_ge_cases i j); [left|right]; right; split; auto; lia.
Qed.

Lemma heap_order_swo : swo (@heap_order T _).
Proof. apply (swo_flip _ pair_ltb_swo). Qed.

Lemma heap_order_false_score p q : heap_order p q = false -> nleb (fst p) (fst q) = true.
Proof.
  unfold heap_order, pair_ltb, nleb. rewrite orb_false_iff. intros [A _]. rewrite A. auto.
Qed.

(** With distinct indices the order on pairs is total. *)
Lemma heap_order_antisym (p q : T * nat) :
  heap_order p q = false -> heap_order q p = false -> snd p = snd q.
Proof.
  destruct p as [x i], q as [y j]. unfold heap_order, pair_ltb; simpl.
  rewrite !orb_false_iff, !andb_false_iff, !negb_false_iff, !Nat.ltb_ge.
  intros [A [B|B]] [C [D|D]]; try congruence; lia.
Qed.
End HeapOrder.

Section TopKProofs.
Context {T : Type} `{NumOrd T}.
Variables (HP : std_heap) (HC : std_heap_ok HP).

Definition swap (p : nat * T) : T * nat := (snd p, fst p).

(** Invariant of the functor: [results] is a heap of the best elements among
    everything seen ([results ++ dropped]). *)
Record inv (K : nat) (results dropped : list (T * nat)) : Prop := {
  inv_heap : is_heap heap_order results;
  inv_len : length results = Nat.min K (length (results ++ dropped));
  inv_dom : forall r d, In r results -> In d dropped -> nleb (fst d) (fst r) = true
}.

Lemma topk_add_inv K results dropped index score :
  0 < K -> inv K results dropped ->
  exists results' dropped',
    topk_add HP K results index score = Ok results' /\
    inv K results' dropped' /\
    Permutation (results' ++ dropped') ((score, index) :: results ++ dropped).
Proof.
  intros HK [I1 I2 I3]. rewrite app_length in I2.
  destruct (HC _ _ heap_order_swo) as [Hpush [Hpop _]].
  unfold topk_add.
  destruct (Nat.ltb_spec (length results) K) as [L|L].
  - simpl. destruct (Nat.leb_spec K (length results)); [lia|].
    destruct (Hpush results (score, index) I1) as [P HH].
    exists (push_heap HP heap_order (results ++ [(score, index)])), [].
    assert (dropped = []) by (destruct dropped; auto; simpl in I2; lia). subst dropped.
    split; auto. split.
    + constructor; auto.
      * rewrite app_nil_r. apply Permutation_length in P. rewrite P, app_length. simpl. lia.
    + rewrite !app_nil_r. rewrite P. rewrite Permutation_app_comm. auto.
  - destruct results as [|r0 rs]; [simpl in L; lia|]. cbn [bind].
    assert (TOP : forall x, In x (r0 :: rs) -> nleb (fst r0) (fst x) = true).
    { intros x Hx. apply heap_order_false_score.
      apply (is_heap_top heap_order heap_order_swo r0 rs); auto. }
    destruct (nltb (fst r0) score) eqn:E.
    + destruct (Nat.leb_spec K (length (r0 :: rs))); [|lia].
      destruct (Hpop r0 rs I1) as [r [Er [Pr Hr]]]. rewrite Er, removelast_snoc.
      destruct (Hpush r (score, index) Hr) as [P HH].
      exists (push_heap HP heap_order (r ++ [(score, index)])), (r0 :: dropped).
      split; auto. pose proof (Permutation_length Pr) as Lr.
      pose proof (Permutation_length P) as LP. rewrite app_length in LP. simpl in LP, I2, L.
      split; [constructor|]; auto.
      * rewrite app_length. simpl. lia.
      * intros x d Hx Hd.
        assert (Hx' : x = (score, index) \/ In x rs).
        { apply (Permutation_in _ P) in Hx. apply in_app_or in Hx. simpl in Hx.
          destruct Hx as [Hx|[Hx|[]]]; auto. right. eapply Permutation_in; eauto. }
        destruct Hd as [<-|Hd].
        -- destruct Hx' as [->|Hx']; [apply nltb_nleb; auto|]. apply TOP; right; auto.
        -- destruct Hx' as [->|Hx'].
           ++ apply (nleb_trans _ (fst r0)). { apply I3; auto. left; auto. } apply nltb_nleb; auto.
           ++ apply I3; auto. right; auto.
      * rewrite P, Pr. rewrite <- !app_assoc. simpl.
        rewrite <- Permutation_middle. constructor.
        rewrite <- Permutation_middle. auto.
    + exists (r0 :: rs), ((score, index) :: dropped). split; auto. split; [constructor|]; auto.
      * rewrite app_length. simpl in *. lia.
      * intros x d Hx [<-|Hd]; auto. simpl.
        apply (nleb_trans _ (fst r0)); auto. unfold nleb. rewrite E. auto.
      * rewrite <- Permutation_middle. auto.
Qed.

Lemma topk_feed_inv K l : 0 < K -> forall results dropped,
  inv K results dropped ->
  exists results' dropped',
    topk_feed HP K l results = Ok results' /\
    inv K results' dropped' /\
    Permutation (results' ++ dropped') (map swap l ++ results ++ dropped).
Proof.
  intros HK. unfold topk_feed. induction l as [|[i s] l IH]; simpl; intros.
  - exists results, dropped. auto.
  - destruct (topk_add_inv K results dropped i s HK H1) as [r1 [d1 [E [I P]]]].
    rewrite E. simpl. destruct (IH r1 d1 I) as [r2 [d2 [E2 [I2 P2]]]].
    exists r2, d2. split; auto. split; auto.
    rewrite P2, P. unfold swap at 2. simpl. rewrite <- Permutation_middle. auto.
Qed.

Lemma inv_nil K : inv K [] [].
Proof. constructor; simpl; auto using is_heap_nil. rewrite Nat.min_0_r; auto. Qed.

(** Feeding a sequence of pairs: the functor keeps min(K, n) of them, and every
    discarded pair scores no more than every kept pair. *)
Lemma topk_feed_spec K l : 0 < K ->
  exists results dropped,
    topk_feed HP K l [] = Ok results /\
    Permutation (results ++ dropped) (map swap l) /\
    length results = Nat.min K (length l) /\
    is_heap heap_order results /\
    forall r d, In r results -> In d dropped -> nleb (fst d) (fst r) = true.
Proof.
  intros HK. destruct (topk_feed_inv K l HK [] [] (inv_nil K)) as [r [d [E [[I1 I2 I3] P]]]].
  simpl in P. rewrite app_nil_r in P.
  exists r, d. repeat split; auto.
  rewrite I2, (Permutation_length P), map_length. auto.
Qed.

(** Feeding and sorting. *)
Lemma topk_sorted_spec K l : 0 < K ->
  exists results dropped,
    (do r <- topk_feed HP K l []; Ok (sort_heap HP heap_order r)) = Ok results /\
    Permutation (results ++ dropped) (map swap l) /\
    length results = Nat.min K (length l) /\
    StronglySorted (fun x y => heap_order y x = false) results /\
    forall r d, In r results -> In d dropped -> nleb (fst d) (fst r) = true.
Proof.
  intros HK. destruct (topk_feed_spec K l HK) as [r [d [E [P [L [Hh D]]]]]].
  rewrite E. simpl. destruct (HC _ _ heap_order_swo) as [_ [_ Hsort]].
  destruct (Hsort r Hh) as [PS SS].
  exists (sort_heap HP heap_order r), d. split; auto. split; [rewrite PS; auto|].
  split; [rewrite (Permutation_length PS); auto|]. split; auto.
  intros x y Hx Hy. apply D; auto. eapply Permutation_in; eauto.
Qed.

Lemma ss_map_impl {A B} (R : A -> A -> Prop) (S : B -> B -> Prop) (f : A -> B) l :
  StronglySorted R l -> (forall x y, In x l -> In y l -> R x y -> S (f x) (f y)) ->
  StronglySorted S (map f l).
Proof.
  induction 1; simpl; intros; constructor.
  - apply IHStronglySorted. intros; apply H3; auto; right; auto.
  - rewrite Forall_forall in *. intros y Hy. apply in_map_iff in Hy.
    destruct Hy as [x [<- Hx]]. apply H3; [left; auto|right; auto|auto].
Qed.

(** Top-N form, for a sequence of candidates with distinct indices. *)
Lemma topk_sorted_topn K (l : list (nat * T)) (score : nat -> T) : 0 < K ->
  NoDup (map fst l) -> (forall i s, In (i, s) l -> s = score i) ->
  exists results,
    (do r <- topk_feed HP K l []; Ok (sort_heap HP heap_order r)) = Ok results /\
    TopN score (map fst l) (Nat.min K (length l)) (map snd results) (map fst results).
Proof.
  intros HK ND SC. destruct (topk_sorted_spec K l HK) as [r [d [E [P [L [S D]]]]]].
  exists r. split; auto.
  assert (INC : forall s i, In (s, i) (r ++ d) -> In i (map fst l) /\ s = score i).
  { intros s i Hi. apply (Permutation_in _ P) in Hi. apply in_map_iff in Hi.
    destruct Hi as [[i' s'] [E' Hi]]. unfold swap in E'; simpl in E'. inversion E'; subst.
    split; [apply in_map_iff; exists (i, s); auto|auto]. }
  assert (ND2 : NoDup (map snd (r ++ d))).
  { eapply Permutation_NoDup; [apply Permutation_sym, Permutation_map, P|].
    rewrite map_map. simpl. erewrite map_ext; [exact ND|]. intros [? ?]; auto. }
  assert (SCr : forall s i, In (s, i) r -> s = score i).
  { intros s i Hi. apply (INC s i). apply in_or_app; auto. }
  constructor.
  - rewrite map_length; auto.
  - rewrite map_map. apply map_ext_in. intros [s i] Hi. simpl. auto.
  - rewrite map_app in ND2. clear -ND2. induction (map snd r); simpl in *; constructor;
      inversion ND2; subst; auto. intro X; apply H1. apply in_or_app; auto.
  - intros i Hi. apply in_map_iff in Hi. destruct Hi as [[s i'] [<- Hi]]. simpl.
    apply (INC s i'). apply in_or_app; auto.
  - eapply ss_map_impl; [exact S|]. intros [x i] [y j] Hi Hj Hxy. simpl.
    apply heap_order_false_score in Hxy. simpl in Hxy.
    rewrite <- (SCr x i Hi), <- (SCr y j Hj). auto.
  - intros i j Hi Hj Hn. apply in_map_iff in Hi. destruct Hi as [[s i'] [<- Hi]]. simpl.
    apply in_map_iff in Hj. destruct Hj as [[j' sj] [Ej Hj]]. simpl in Ej; subst j'.
    assert (Hj2 : In (sj, j) (r ++ d)).
    { eapply Permutation_in; [apply Permutation_sym, P|]. apply in_map_iff.
      exists (j, sj); auto. }
    apply in_app_or in Hj2. destruct Hj2 as [Hj2|Hj2].
    { exfalso. apply Hn. apply in_map_iff. exists (sj, j); auto. }
    specialize (D _ _ Hi Hj2). simpl in D.
    rewrite <- (SCr s i' Hi). rewrite <- (SC j sj Hj). auto.
Qed.

(** The output does not depend on the heap implementation. *)
Lemma select_row_topn k (row : list T) d : 0 < k ->
  exists results,
    select_row HP k row = Ok results /\
    TopN (fun i => nth i row d) (seq 0 (length row)) (Nat.min k (length row))
         (map snd results) (map fst results).
Proof.
  intros HK.
  destruct (topk_sorted_topn k (enum row) (fun i => nth i row d) HK) as [r [E TN]].
  - apply enum_from_NoDup.
  - intros i s Hi. apply in_enum in Hi. symmetry. apply nth_error_nth_eq; auto.
  - exists r. split; auto. unfold enum in TN.
    rewrite map_fst_enum_from, enum_from_length in TN. auto.
Qed.
End TopKProofs.

(** Two conforming heap libraries give the same answer. *)
Section Unique.
Context {T : Type} `{NumOrd T}.

Lemma feed_two H1 H2 (C1 : std_heap_ok H1) (C2 : std_heap_ok H2) K (l : list (nat * T)) :
  0 < K -> forall r1 r2,
  is_heap heap_order r1 -> is_heap heap_order r2 ->
  Permutation r1 r2 -> NoDup (map snd r1 ++ map fst l) ->
  exists r1' r2',
    topk_feed H1 K l r1 = Ok r1' /\ topk_feed H2 K l r2 = Ok r2' /\
    is_heap heap_order r1' /\ is_heap heap_order r2' /\
    Permutation r1' r2' /\ NoDup (map snd r1').
Proof.
  intros HK. induction l as [|[i s] l IH]; intros r1 r2 Hh1 Hh2 P ND.
  { exists r1, r2. unfold topk_feed; simpl. rewrite app_nil_r in ND. repeat split; auto. }
  destruct (C1 _ _ heap_order_swo) as [Hpush1 [Hpop1 _]].
  destruct (C2 _ _ heap_order_swo) as [Hpush2 [Hpop2 _]].
  assert (ND' : forall r, Permutation r ((s, i) :: r1) ->
            NoDup (map snd r ++ map fst l)).
  { intros r Pr. eapply Permutation_NoDup; [|exact ND]. simpl.
    rewrite <- Permutation_middle. rewrite (Permutation_map snd Pr). simpl. auto. }
  assert (NDsub : forall (r : list (T * nat)) x, Permutation r1 (x :: r) -> 
            NoDup (map snd (r ++ [(s, i)]) ++ map fst l)).
  { intros r x Pr. rewrite map_app. simpl. rewrite <- app_assoc. simpl.
    assert (Q : Permutation (map snd r1 ++ i :: map fst l) (snd x :: (map snd r ++ i :: map fst l))).
    { rewrite (Permutation_map snd Pr). simpl. auto. }
    simpl in ND. apply (Permutation_NoDup Q) in ND. inversion ND; auto. }
  unfold topk_feed. simpl fold_res. unfold topk_add; simpl fst; simpl snd.
  rewrite <- (Permutation_length P).
  destruct (Nat.ltb_spec (length r1) K) as [L|L].
  - simpl. destruct (Nat.leb_spec K (length r1)); [lia|].
    destruct (Hpush1 r1 (s, i) Hh1) as [Q1 G1]. destruct (Hpush2 r2 (s, i) Hh2) as [Q2 G2].
    apply IH; auto. { rewrite Q1, Q2, P. auto. }
    apply ND'. rewrite Q1. rewrite Permutation_app_comm. auto.
  - destruct r1 as [|a r1]; [simpl in L; lia|].
    destruct r2 as [|b r2]; [apply Permutation_sym, Permutation_nil in P; discriminate|].
    assert (a = b).
    { assert (Ia : In b (a :: r1)) by (eapply Permutation_in; [symmetry; exact P|left; auto]).
      assert (Ib : In a (b :: r2)) by (eapply Permutation_in; [exact P|left; auto]).
      pose proof (is_heap_top _ heap_order_swo a r1 b Hh1 Ia) as X.
      pose proof (is_heap_top _ heap_order_swo b r2 a Hh2 Ib) as Y.
      pose proof (heap_order_antisym _ _ X Y) as E.
      destruct Ia as [|Ia]; auto. exfalso.
      simpl in ND. inversion ND as [|? ? N1 N2]; subst. apply N1. rewrite E.
      apply in_or_app; left. apply in_map; auto. }
    subst b. cbn [bind]. destruct (nltb (fst a) s) eqn:E.
    + cbn [bind]. destruct (Nat.leb_spec K (length (a :: r1))); [|lia].
      destruct (Hpop1 a r1 Hh1) as [q1 [E1 [Q1 G1]]]. destruct (Hpop2 a r2 Hh2) as [q2 [E2 [Q2 G2]]].
      rewrite E1, E2, !removelast_snoc.
      destruct (Hpush1 q1 (s, i) G1) as [Q1' G1']. destruct (Hpush2 q2 (s, i) G2) as [Q2' G2'].
      apply Permutation_cons_inv in P.
      apply IH; auto. { rewrite Q1', Q2', Q1, Q2, P. auto. }
      assert (Z : Permutation (map snd (push_heap H1 heap_order (q1 ++ [(s, i)])) ++ map fst l)
                              (map snd (r1 ++ [(s, i)]) ++ map fst l)).
      { rewrite (Permutation_map snd Q1'). rewrite !map_app, (Permutation_map snd Q1). auto. }
      eapply Permutation_NoDup; [apply Permutation_sym, Z|]. apply (NDsub r1 a). auto.
    + cbn [bind]. apply IH; auto.
      clear - ND. simpl in *. inversion ND; subst. constructor.
      * intro X. apply H1. apply in_app_or in X. apply in_or_app. simpl. tauto.
      * eapply NoDup_remove_1; eauto.
Qed.

Lemma select_row_unique H1 H2 (C1 : std_heap_ok H1) (C2 : std_heap_ok H2) k (row : list T) :
  0 < k -> select_row H1 k row = select_row H2 k row.
Proof.
  intros HK.
  destruct (feed_two H1 H2 C1 C2 k (enum row) HK [] []) as [r1 [r2 [E1 [E2 [G1 [G2 [P ND]]]]]]];
    auto using is_heap_nil.
  { simpl. apply enum_from_NoDup. }
  unfold select_row. rewrite E1, E2. simpl. f_equal.
  destruct (C1 _ _ heap_order_swo) as [_ [_ S1]]. destruct (C2 _ _ heap_order_swo) as [_ [_ S2]].
  destruct (S1 r1 G1) as [P1 T1]. destruct (S2 r2 G2) as [P2 T2].
  assert (PP : Permutation (sort_heap H1 heap_order r1) (sort_heap H2 heap_order r2)).
  { rewrite P1, P2. auto. }
  assert (NDs : NoDup (map snd (sort_heap H1 heap_order r1))).
  { eapply Permutation_NoDup; [apply Permutation_sym, Permutation_map, P1|auto]. }
  revert T1 T2 PP NDs. generalize (sort_heap H1 heap_order r1) (sort_heap H2 heap_order r2).
  clear. intros l. induction l as [|a l IH]; intros l' S S' P ND.
  - apply Permutation_nil in P; auto.
  - destruct l' as [|b l']; [apply Permutation_sym, Permutation_nil in P; discriminate|].
    inversion S as [|? ? SS1 F1]; subst. inversion S' as [|? ? SS2 F2]; subst.
    assert (a = b).
    { assert (Ha : In a (b :: l')) by (eapply Permutation_in; [exact P|left; auto]).
      assert (Hb : In b (a :: l)) by (eapply Permutation_in; [symmetry; exact P|left; auto]).
      destruct Ha as [|Ha]; auto. destruct Hb as [|Hb]; auto. exfalso.
      rewrite Forall_forall in *. specialize (F1 _ Hb). specialize (F2 _ Ha).
      pose proof (heap_order_antisym _ _ F1 F2) as E. inversion ND as [|? ? N1 N2]; subst.
      apply N1. rewrite <- E. apply in_map; auto. }
    subst. f_equal. apply IH; auto.
    + eapply Permutation_cons_inv; eauto.
    + inversion ND; auto.
Qed.
End Unique.
