From Coq Require Import List Arith Lia Bool ZArith Permutation Sorted.
From Verif Require Import Base Num Heap Sparse TopkModel RecommendModel AlsModel ExplainModel.
Import ListNotations.

Section Heap.
Context {T : Type} `{NO : NumOrd T}.

Lemma tuple_lt_swo : swo (@tuple_lt T _).
Proof.
  constructor.
  - intros [s i]. unfold tuple_lt. simpl. rewrite nltb_irrefl. apply Nat.ltb_irrefl.
  - intros [s1 i1] [s2 i2] [s3 i3]. unfold tuple_lt. simpl.
    destruct (nltb s1 s2) eqn:A12.
    + intros _. destruct (nltb s2 s3) eqn:A23.
      * intros _. rewrite (nltb_trans s1 s2 s3); auto.
      * destruct (nltb s3 s2) eqn:A32; [discriminate|]. intros _. destruct (nltb_cotrans s1 s3 s2 A12) as [X|X]; [rewrite X; auto|congruence].
    + destruct (nltb s2 s1) eqn:A21; [discriminate|]. intros I12. destruct (nltb s2 s3) eqn:A23.
      * intros _. destruct (nltb_cotrans s2 s1 s3 A23) as [X|X]; [congruence|]. rewrite X. auto.
      * destruct (nltb s3 s2) eqn:A32; [discriminate|]. intros I23.
        assert (A13 : nltb s1 s3 = false).
        { destruct (nltb s1 s3) eqn:X; auto. destruct (nltb_cotrans s1 s2 s3 X); congruence. }
        assert (A31 : nltb s3 s1 = false).
        { destruct (nltb s3 s1) eqn:X; auto. destruct (nltb_cotrans s3 s2 s1 X); congruence. }
        rewrite A13, A31. apply Nat.ltb_lt in I12. apply Nat.ltb_lt in I23. apply Nat.ltb_lt. lia.
  - intros [s1 i1] [s2 i2] [s3 i3]. unfold tuple_lt. simpl. intros X.
    destruct (nltb s1 s3) eqn:A13.
    + destruct (nltb_cotrans s1 s2 s3 A13) as [Y|Y]; rewrite Y; auto.
    + destruct (nltb s3 s1) eqn:A31; [discriminate|]. apply Nat.ltb_lt in X.
      destruct (nltb s1 s2) eqn:A12; auto. destruct (nltb s2 s3) eqn:A23; auto.
      destruct (nltb s2 s1) eqn:A21.
      { right. destruct (nltb_cotrans s2 s3 s1 A21); congruence. }
      destruct (nltb s3 s2) eqn:A32.
      { left. destruct (nltb_cotrans s3 s1 s2 A32); congruence. }
      destruct (Nat.ltb_spec i1 i2); auto. right. apply Nat.ltb_lt. lia.
Qed.

Variable Q : heapq.
Hypothesis HQ : heapq_ok Q.
Notation lt := (@tuple_lt T _).
Notation heap := (is_heap (fun a b => lt b a)).

Definition push_contribution (N : Z) (h : list (T * nat)) (c : T * nat) : list (T * nat) :=
  if (Z.of_nat (length h) <? N)%Z then heappush Q lt h c else heappushpop Q lt h c.

(** [h] holds the best of [l], [d] the rest. *)
Definition top_inv (N : Z) (l h d : list (T * nat)) : Prop :=
  heap h /\ Permutation (h ++ d) l /\ length h = Nat.min (length l) (Z.to_nat N) /\
  (forall x y, In x h -> In y d -> lt x y = false) .

Lemma push_inv N l h d c : top_inv N l h d -> exists d', top_inv N (l ++ [c]) (push_contribution N h c) d'.
Proof.
  intros [Hh [P [L B]]]. pose proof tuple_lt_swo as SW. destruct (HQ _ lt SW) as [H1 [H2 _]]. unfold push_contribution.
  assert (LL : length l = length h + length d) by (rewrite <- (Permutation_length P), app_length; auto).
  destruct (Z.ltb_spec (Z.of_nat (length h)) N) as [LT|GE].
  - destruct (H1 h c Hh) as [P1 Hh1]. exists d. split; auto.
    assert (d = []) by (destruct d; auto; simpl in LL; lia). subst d. rewrite app_nil_r in *. split; [|split].
    + rewrite P1. rewrite <- P. apply Permutation_cons_append.
    + pose proof (Permutation_length P1) as L1. simpl in L1. rewrite app_length. simpl. simpl in LL. etransitivity; [exact L1|]. lia.
    + intros x y _ [].
  - destruct (H2 h c Hh) as [m [P1 [MIN Hh1]]]. set (h' := heappushpop Q lt h c) in *. exists (m :: d). split; auto. split; [|split].
    + rewrite <- P. transitivity ((m :: h') ++ d); [simpl; symmetry; apply Permutation_middle|]. rewrite P1. simpl.
      apply Permutation_cons_append.
    + assert (S (length h') = S (length h)) by (apply (Permutation_length P1)). rewrite app_length. simpl. lia.
    + intros x y Hx Hy.
      assert (Hx' : In x (c :: h)) by (apply (Permutation_in _ P1); right; auto).
      destruct Hy as [<-|Hy]; [apply MIN; auto|]. destruct Hx' as [<-|Hx']; [|apply B; auto].
      assert (Hm : In m (c :: h)) by (apply (Permutation_in _ P1); left; auto). destruct Hm as [<-|Hm].
      * apply Permutation_cons_inv in P1. apply (Permutation_in _ P1) in Hx. apply B; auto.
      * apply (swo_negtrans lt SW c m y); [apply MIN; left; auto|apply B; auto].
Qed.

Lemma pop_all_sorted k h : heap h -> length h = k ->
  Permutation (pop_all Q k h) h /\ StronglySorted (fun a b => lt b a = false) (pop_all Q k h).
Proof.
  pose proof tuple_lt_swo as SW. destruct (HQ _ lt SW) as [_ [_ [_ H3]]].
  revert h. induction k as [|k IH]; intros h Hh L.
  - destruct h; [|discriminate]. split; constructor.
  - destruct h as [|a h]; [discriminate|]. destruct (H3 a h Hh) as [h' [E [P Hh']]]. cbn [pop_all]. rewrite E.
    assert (Lh : length h' = k) by (rewrite (Permutation_length P); simpl in L; lia).
    destruct (IH h' Hh' Lh) as [P2 S2]. split; [rewrite P2, P; auto|]. constructor; auto. apply Forall_forall. intros x Hx.
    apply (Permutation_in _ P2) in Hx. apply (Permutation_in _ P) in Hx.
    assert (SWr : swo (fun a b => lt b a)).
    { constructor; [apply SW|intros a0 b0 c0 X0 Y0; apply (swo_trans _ SW c0 b0 a0); auto|intros a0 b0 c0 X0; destruct (swo_cotrans _ SW c0 b0 a0 X0); auto]. }
    apply (is_heap_top (fun a b => lt b a) SWr a h x Hh). right; auto.
Qed.

Lemma fold_push N cs : forall l h d, top_inv N l h d ->
  exists d', top_inv N (l ++ cs) (fold_left (push_contribution N) cs h) d'.
Proof.
  induction cs as [|c cs IH]; intros l h d I; simpl; [rewrite app_nil_r; eauto|].
  destruct (push_inv N l h d c I) as [d' I']. replace (l ++ c :: cs) with ((l ++ [c]) ++ cs) by (rewrite <- app_assoc; auto). eauto.
Qed.
Lemma top_of N cs : exists d, top_inv N cs (fold_left (push_contribution N) cs []) d.
Proof.
  apply (fold_push N cs [] [] []). split; [intros i d0 B; simpl in B; lia|]. split; auto. split; auto. intros x y [].
Qed.
End Heap.
