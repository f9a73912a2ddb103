(** C168: in an item-item model a further like never lowers a score. *)
From Coq Require Import List Arith Lia Bool ZArith Permutation Sorted Reals Lra.
From Verif Require Import Base Num Heap Sparse TopkModel TopkSpec TopkProofs TopkBatch
  RecommendModel RecommendProofs RecommendProofs2 RecommendProofs3 RVec MetricsModel MetricsProofs MetricsDouble DoubleProofs FloatModel
  KnnModel KnnAcc KnnProofs KnnRec KnnConc KnnRec2 PropKnn ScaleProofs PropScale PropScaleKnn
  SimilarRound SimilarRoundProofs PropCosineRound PropStart.
Import ListNotations.
Local Open Scope R_scope.

(** The second row of likes has everything the first has, with the same or a greater weight, and possibly further likes
    of weight not less than 0. *)
Inductive more_likes : list (nat * R) -> list (nat * R) -> Prop :=
| ml_nil : more_likes [] []
| ml_keep i w w' r r' : w <= w' -> more_likes r r' -> more_likes ((i, w) :: r) ((i, w') :: r')
| ml_add i w r r' : 0 <= w -> more_likes r r' -> more_likes r ((i, w) :: r').

Section F.
Variables (rd : R -> R) (unit : R).
Hypothesis RO : rounding rd unit.
Local Notation NR := (Num_rnd rd).

Inductive more_terms : list R -> list R -> Prop :=
| mt_nil : more_terms [] []
| mt_keep x x' l l' : x <= x' -> more_terms l l' -> more_terms (x :: l) (x' :: l')
| mt_add x l l' : 0 <= x -> more_terms l l' -> more_terms l (x :: l').
Lemma more_terms_app a a' b b' : more_terms a a' -> more_terms b b' -> more_terms (a ++ b) (a' ++ b').
Proof. intros H1 H2. induction H1; cbn [app]; auto; constructor; auto. Qed.
Lemma more_terms_sum l l' : more_terms l l' -> @nsum R NR l <= @nsum R NR l'.
Proof.
  intros H. unfold nsum. assert (G : forall a a', a <= a' -> rd a' = a' -> fold_left (@nadd R NR) l a <= fold_left (@nadd R NR) l' a').
  { induction H as [|x x' l l' L H IH|x l l' L H IH]; intros a a' A F; cbn [fold_left]; auto.
    - apply IH; [apply (ro_mono _ _ RO); lra|apply (ro_idem _ _ RO)].
    - apply IH; [|apply (ro_idem _ _ RO)]. change (a <= rd (a' + x)). rewrite <- F in A. pose proof (ro_mono _ _ RO a' (a' + x) ltac:(lra)). lra. }
  apply G; [apply Rle_refl|exact (ro_zero _ _ RO)].
Qed.

Definition nonneg_sim (sim : csr R) : Prop := forall i j s, In (j, s) (csr_row sim i) -> 0 <= s.

Lemma more_likes_terms sim row row' j : nonneg_sim sim -> more_likes row row' ->
  @spec_predict R NR sim row j <= @spec_predict R NR sim row' j.
Proof.
  intros NS H. apply more_terms_sum. induction H as [|i w w' r r' L H IH|i w r r' L H IH]; cbn [flat_map fst snd]; [constructor| |].
  - apply more_terms_app; auto. pose proof (NS i) as Q. induction (csr_row sim i) as [|[k s] l IHl]; cbn [filter fst]; [constructor|].
    specialize (IHl (fun j s HI => Q j s (or_intror HI))). destruct (k =? j)%nat; auto. cbn [map snd]. constructor; auto.
    apply (ro_mono _ _ RO). specialize (Q k s (or_introl eq_refl)). apply Rmult_le_compat_l; auto.
  - change (flat_map (fun p => map (fun q => @nmul R NR (snd q) (snd p)) (filter (fun t => fst t =? j)%nat (csr_row sim (fst p)))) r)
      with ([] ++ flat_map (fun p => map (fun q => @nmul R NR (snd q) (snd p)) (filter (fun t => fst t =? j)%nat (csr_row sim (fst p)))) r).
    apply more_terms_app; auto. pose proof (NS i) as Q. induction (csr_row sim i) as [|[k s] l IHl]; cbn [filter fst]; [constructor|].
    specialize (IHl (fun j s HI => Q j s (or_intror HI))). destruct (k =? j)%nat; auto. cbn [map snd]. constructor; auto.
    change (0 <= rd (s * w)). rewrite <- (ro_zero _ _ RO). apply (ro_mono _ _ RO). specialize (Q k s (or_introl eq_refl)). apply Rmult_le_pos; auto.
Qed.
End F.

Lemma more_likes_incl r r' p : more_likes r r' -> In p r -> In (fst p) (map fst r').
Proof. induction 1; intros HI; cbn [map]; [destruct HI| |right; auto]. destruct HI as [<-|HI]; [left|right]; auto. Qed.
Lemma similar_more (sim : csr R) r r' j : more_likes r r' -> In j (similar_to_liked sim r) -> In j (similar_to_liked sim r').
Proof.
  unfold similar_to_liked. rewrite !filter_In. intros H [A B]. split; auto. apply existsb_exists in B. destruct B as (p & HI & Q).
  apply existsb_exists. pose proof (more_likes_incl _ _ _ H HI) as G. apply in_map_iff in G. destruct G as (p' & E & HI'). exists p'. rewrite E. auto.
Qed.

(** Exact arithmetic is a case. *)
Lemma rounding_exact : rounding (fun x => x) 0.
Proof. constructor; intros; try lra. rewrite Rminus_eq_0, Rabs_R0. lra. Qed.

Theorem C168_more_likes : forall rd unit HP fmin fmin32 (sim M M' : csr R) u N N' fl ids sc acc ids' sc' acc',
  rounding rd unit -> std_heap_ok HP -> csr_wf sim -> c_cols sim = c_rows sim -> nonneg_sim sim ->
  more_likes (csr_row M 0) (csr_row M' 0) -> (forall j w, In (j, w) (csr_row M' 0) -> (j < c_rows sim)%nat) ->
  c_rows M <> 0%nat -> c_rows M' <> 0%nat -> (1 <= N)%Z -> (1 <= N')%Z ->
  let ask M N := @ii_recommend R (Num_rnd rd) HP fmin fmin32 sim (@acc_new R (Num_rnd rd) (c_rows sim)) (Scalar u) (Csr M) N fl None None in
  ask M N = Ok (OneRow ids sc, acc) -> ask M' N' = Ok (OneRow ids' sc', acc') ->
  (forall i s s', In (i, s) (combine ids sc) -> In (i, s') (combine ids' sc') ->
     fl = false \/ ~ In i (map (fun p => Z.of_nat (fst p)) (csr_row M' 0)) -> s <= s') /\
  ((Z.of_nat (c_rows sim) <= N')%Z -> incl ids ids').
Proof.
  intros rd unit HP fmin fmin32 sim M M' u N N' fl ids sc acc ids' sc' acc' RO HC Wf Sq NS ML LT R0 R0' HN HN' ask E E'.
  assert (LT0 : forall j w, In (j, w) (csr_row M 0) -> (j < c_rows sim)%nat).
  { intros j w HI. pose proof (more_likes_incl _ _ _ ML HI) as G. cbn [fst] in G. apply in_map_iff in G. destruct G as ([j' w'] & EQ & HI'). cbn [fst] in EQ. subst. eauto. }
  destruct (C18_exact R (Num_rnd rd) (NumOrd_rnd rd) HP fmin fmin32 sim M u N fl HC Wf Sq R0 LT0 HN) as (i1 & s1 & E1 & T1).
  destruct (C18_exact R (Num_rnd rd) (NumOrd_rnd rd) HP fmin fmin32 sim M' u N' fl HC Wf Sq R0' LT HN') as (i2 & s2 & E2 & T2).
  unfold ask in *. rewrite E1 in E. injection E as <- <- <-. rewrite E2 in E'. injection E' as <- <- <-.
  destruct T1 as [L1 SC1 ND1 C1 _ _]. destruct T2 as [L2 SC2 ND2 C2 _ _].
  assert (CB : forall (f : nat -> R) l i s, In (i, s) (combine (map Z.of_nat l) (map f l)) -> exists n, i = Z.of_nat n /\ In n l /\ s = f n).
  { intros f l i s. induction l as [|n l IH]; cbn; [tauto|]. intros [Q|HI]; [injection Q as <- <-; eauto|]. destruct (IH HI) as (n' & ? & ? & ?); eauto. }
  split.
  - intros i s s' H1 H2 H3. subst s1 s2. apply CB in H1. apply CB in H2. destruct H1 as (n & -> & H1 & ->). destruct H2 as (n' & EN & H2 & ->). apply Nat2Z.inj in EN. subst n'.
    assert (NL : forall r : list (nat * R), (forall p, In p r -> In (fst p) (map fst (csr_row M' 0))) -> fl && memn n (map fst r) = false).
    { intros r HR. destruct fl; cbn [andb]; auto. destruct H3 as [|H3]; [discriminate|]. destruct (memn n (map fst r)) eqn:EM; auto. exfalso. apply H3.
      apply memn_spec in EM. apply in_map_iff in EM. destruct EM as (p & <- & HI). apply HR in HI. apply in_map_iff in HI. destruct HI as (p' & EQ & HI). apply in_map_iff. exists p'. rewrite EQ. auto. }
    unfold spec_shown. rewrite !NL; [apply (more_likes_terms rd unit); auto| |].
    + intros p HI. apply in_map; auto.
    + intros p HI. eapply more_likes_incl; eauto.
  - intros HL i HI. apply in_map_iff in HI. destruct HI as (n & <- & HI). apply in_map.
    assert (LC : (length (similar_to_liked sim (csr_row M' 0)) <= c_rows sim)%nat) by (unfold similar_to_liked; rewrite <- (seq_length (c_rows sim) 0) at 2; apply filter_len_le).
    assert (LE : length i2 = length (similar_to_liked sim (csr_row M' 0))) by lia.
    refine (NoDup_length_incl ND2 _ C2 n _); [lia|]. apply (similar_more sim (csr_row M 0)); auto.
Qed.
Print Assumptions C168_more_likes.

(** Items 0 and 1 liked with weights 1 and 2, then item 2 as well and item 0 more. *)
Definition ex_ruser_more : csr R := csr_of_rows 3 [[(0%nat, 3 / 2); (1%nat, 2); (2%nat, 1)]].
Example C168_example : let rd := rnd_p 53 in let NR := Num_rnd rd in
  rounding rd (powerRZ 2 (-53)) /\ csr_wf ex_rsim /\ c_cols ex_rsim = c_rows ex_rsim /\ nonneg_sim ex_rsim /\ more_likes (csr_row ex_ruser 0) (csr_row ex_ruser_more 0) /\ (forall j w, In (j, w) (csr_row ex_ruser_more 0) -> (j < c_rows ex_rsim)%nat) /\ exists ids sc ids' sc', @ii_recommend R NR simple_heap (-1000) (-999) ex_rsim (@acc_new R NR 3) (Scalar 0) (Csr ex_ruser) 2 false None None = Ok (OneRow ids sc, @acc_new R NR 3) /\
    @ii_recommend R NR simple_heap (-1000) (-999) ex_rsim (@acc_new R NR 3) (Scalar 0) (Csr ex_ruser_more) 3 false None None = Ok (OneRow ids' sc', @acc_new R NR 3) /\
    length ids = 2%nat /\ length ids' = 3%nat.
Proof.
  intros rd NR. destruct C166_example as (W & Sq & _ & RO & _).
  assert (LT : forall j w, In (j, w) (csr_row ex_ruser_more 0) -> (j < c_rows ex_rsim)%nat).
  { intros j w Hj. change (csr_row ex_ruser_more 0) with [(0%nat, 3 / 2); (1%nat, 2); (2%nat, 1)] in Hj. destruct Hj as [E|[E|[E|[]]]]; injection E as <- <-; cbn; lia. }
  split; [apply (rounding_binary 53); lia|]. split; [exact W|]. split; [exact Sq|].
  split. { intros i j s HI. destruct i as [|[|[|i]]]; cbn in HI.
    1-3: repeat (destruct HI as [E|HI]; [injection E as <- <-; lra|]); destruct HI.
    unfold csr_row in HI. cbn in HI. destruct i; destruct HI. }
  split. { change (csr_row ex_ruser 0) with [(0%nat, 1); (1%nat, 2)]. change (csr_row ex_ruser_more 0) with [(0%nat, 3 / 2); (1%nat, 2); (2%nat, 1)].
    apply ml_keep; [lra|]. apply ml_keep; [lra|]. apply ml_add; [lra|]. constructor. }
  split; [exact LT|].
  destruct (C18_exact R NR (NumOrd_rnd rd) simple_heap (-1000) (-999) ex_rsim ex_ruser 0 2 false simple_heap_ok W eq_refl ltac:(discriminate) RO ltac:(lia)) as (ids & sc & E & TN).
  destruct (C18_exact R NR (NumOrd_rnd rd) simple_heap (-1000) (-999) ex_rsim ex_ruser_more 0 3 false simple_heap_ok W eq_refl ltac:(discriminate) LT ltac:(lia)) as (ids' & sc' & E' & TN').
  change (c_rows ex_rsim) with 3%nat in *. exists (map Z.of_nat ids), sc, (map Z.of_nat ids'), sc'. split; [exact E|]. split; [exact E'|].
  rewrite !map_length, (topn_length _ _ _ _ _ TN), (topn_length _ _ _ _ _ TN'). split; reflexivity.
Qed.
