(** C12, C13: similar_items / similar_users of factor models. *)
From Coq Require Import List Arith Lia Bool ZArith Permutation Sorted Reals Lra.
From Verif Require Import Base Num Heap Sparse TopkModel TopkSpec TopkProofs TopkBatch
  RecommendModel RecommendProofs RecommendProofs2 RecommendProofs3 RVec SimilarProofs.
Import ListNotations.

(** C12 (specification side): the cosine, written with explicit sums. *)
Definition spec_norm (v : list R) : R := sqrt (rsum (map (fun a => a * a)%R v)).
Definition spec_dot (u v : list R) : R := rsum (map (fun p => fst p * snd p)%R (combine u v)).
Definition is_cosine (u v : list R) (c : R) : Prop :=
  (spec_norm u * spec_norm v <> 0 -> c = spec_dot u v / (spec_norm u * spec_norm v))%R /\
  (spec_norm u * spec_norm v = 0 -> c = 0)%R.

Lemma spec_norm_rnorm v : spec_norm v = rnorm v.
Proof. unfold spec_norm, rnorm. f_equal. induction v; simpl; auto. rewrite IHv. auto. Qed.
Lemma spec_dot_rdot u v : spec_dot u v = rdot u v.
Proof. unfold spec_dot. revert v; induction u; destruct v; simpl; auto. rewrite IHu. auto. Qed.

Lemma cosine_is_cosine u v : is_cosine u v (cosine u v).
Proof.
  unfold is_cosine, cosine. rewrite !spec_norm_rnorm, spec_dot_rdot.
  destruct (Req_EM_T (rnorm u) 0) as [E|U]; [rewrite E; split; intros; auto; exfalso; lra|].
  destruct (Req_EM_T (rnorm v) 0) as [E|V]; [rewrite E; split; intros; auto; exfalso; lra|].
  split; auto. intros E. apply Rmult_integral in E. tauto.
Qed.

(** similar_items(id, N): the N items of largest cosine; [tiny] is the constant 1e-10. *)
Theorem C12_similar_cosine :
  forall (HP : std_heap) (fmin tiny : R) (factors : list (list R)) (f : nat) (id N : Z),
  std_heap_ok HP -> (0 < tiny)%R -> (forall y, In y factors -> length y = f) ->
  (0 <= id < Z.of_nat (length factors))%Z -> (1 <= N)%Z ->
  let n := length factors in
  exists (score : nat -> R) ids scores,
    similar HP fmin factors (norms_of rnorm tiny factors) (Scalar id) N None None =
      Ok (OneRow (map Z.of_nat (ids ++ repeat 0 (Z.to_nat N - n))) (scores ++ repeat 0%R (Z.to_nat N - n))) /\
    TopN score (seq 0 n) (Nat.min (Z.to_nat N) n) ids scores /\
    (forall j, j < n -> is_cosine (nth (Z.to_nat id) factors []) (nth j factors []) (score j) /\
                        (-1 <= score j <= 1)%R) /\
    ((exists a, In a (nth (Z.to_nat id) factors []) /\ a <> 0%R) ->
       score (Z.to_nat id) = 1%R /\
       exists s, hd_error scores = Some s /\ s = 1%R).
Proof.
  intros HP fmin tiny factors f id N HC Ht W Hid HN n.
  destruct (similar_scalar HP HC fmin tiny Ht factors f id N) as [ids [sc [E TN]]]; auto.
  { unfold idx_ok; lia. } { lia. }
  fold n in TN, E. rewrite wrap_nonneg in TN by lia.
  set (q := nth (Z.to_nat id) factors []) in *.
  exists (fun j => cosine q (nth j factors [])), ids, sc. split; [|split; [exact TN|split]].
  - rewrite E. unfold pad. rewrite (topn_scores _ _ _ _ _ TN), map_length, (topn_length _ _ _ _ _ TN).
    replace (Z.to_nat N - Nat.min (Z.to_nat N) n) with (Z.to_nat N - n) by lia. auto.
  - intros j _. split; [apply cosine_is_cosine|apply cosine_range].
  - intros [a [Ha NZ]].
    assert (NQ : rnorm q <> 0%R). { intro X. apply NZ. eapply rnorm_zero; eauto. }
    split; [apply cosine_self; auto|].
    pose proof (topn_length _ _ _ _ _ TN) as L. pose proof (topn_scores _ _ _ _ _ TN) as S.
    destruct ids as [|i0 ids]. { simpl in L. lia. }
    exists (cosine q (nth i0 factors [])). rewrite S. simpl. split; auto.
    assert (SELF : cosine q (nth (Z.to_nat id) factors []) = 1%R) by (apply cosine_self; auto).
    assert (B : (1 <= cosine q (nth i0 factors []))%R).
    { rewrite <- SELF. apply nleb_R.
      destruct (in_dec Nat.eq_dec (Z.to_nat id) (i0 :: ids)) as [I|NI].
      - destruct I as [->|I]; [apply nleb_refl|].
        pose proof (topn_sorted _ _ _ _ _ TN) as SS. inversion SS as [|? ? _ F]; subst.
        rewrite Forall_forall in F. apply F; auto.
      - apply (topn_best _ _ _ _ _ TN); [left; auto| |auto]. apply in_seq. unfold n. lia. }
    pose proof (cosine_range q (nth i0 factors [])). lra.
Qed.
Print Assumptions C12_similar_cosine.

(** Hypotheses are met, e.g. by three items, one of them all zero. *)
Example C12_example :
  let factors := [[1; 1]; [0; 0]; [2; -1]]%R in
  (forall y, In y factors -> length y = 2) /\ (0 <= 0 < Z.of_nat (length factors))%Z /\
  is_cosine [1; 1]%R [0; 0]%R 0%R /\
  (exists a, In a (nth (Z.to_nat 0) factors []) /\ a <> 0%R).
Proof.
  simpl. split; [|split; [lia|split]].
  - intros y [<-|[<-|[<-|[]]]]; reflexivity.
  - split; auto. intros NZ. exfalso. apply NZ. unfold spec_norm. simpl.
    replace (0 * 0 + (0 * 0 + 0))%R with 0%R by ring. rewrite sqrt_0. ring.
  - exists 1%R. split; [left; auto|lra].
Qed.
(** The same function run on integers with unit norms. *)
Example C12_run :
  similar simple_heap (-1000)%Z [[1; 0]; [0; 1]; [-1; 0]]%Z [1; 1; 1]%Z (Scalar 0) 3 None None =
    Ok (OneRow [0; 1; 2]%Z [1; 0; -1]%Z).
Proof. vm_compute. reflexivity. Qed.

(* ------------------------------------------------------------------ *)
(** C13: with an explicit list of items.  True when N does not exceed it. *)
Theorem C13_similar_items_list_partial :
  forall (HP : std_heap) (fmin tiny : R) (factors : list (list R)) (f : nat) (id N : Z) (its : arr),
  std_heap_ok HP -> (0 < tiny)%R -> (forall y, In y factors -> length y = f) ->
  (0 <= id < Z.of_nat (length factors))%Z -> (1 <= N <= Z.of_nat (length (arr_list its)))%Z ->
  (forall z, In z (arr_list its) -> (0 <= z < Z.of_nat (length factors))%Z) ->
  NoDup (arr_list its) ->
  exists ids scores,
    similar HP fmin factors (norms_of rnorm tiny factors) (Scalar id) N None (Some its) = Ok (OneRow ids scores) /\
    NoDup ids /\ incl ids (arr_list its) /\ length ids = Z.to_nat N /\
    scores = map (fun z => cosine (nth (Z.to_nat id) factors []) (nth (Z.to_nat z) factors [])) ids.
Proof.
  intros HP fmin tiny factors f id N its HC Ht W Hid HN B ND.
  assert (NE : arr_list its <> []) by (destruct (arr_list its); simpl in *; [lia|discriminate]).
  destruct (similar_items_positions HP HC fmin tiny Ht factors f id N its) as [pos [sc [E TN]]]; auto.
  { unfold idx_ok; lia. } { lia. }
  rewrite wrap_nonneg in TN by lia. rewrite Nat.min_l in TN by lia.
  pose proof (topn_length _ _ _ _ _ TN) as L. pose proof (topn_scores _ _ _ _ _ TN) as S.
  assert (P : forall V (d : V) l, length l = Z.to_nat N -> pad (Z.to_nat N) d l = l).
  { intros V d l Ll. unfold pad. rewrite Ll, Nat.sub_diag. apply app_nil_r. }
  rewrite !P in E by (auto; rewrite S, map_length; auto).
  assert (PI : forall p, In p pos -> p < length (arr_list its)).
  { intros p Hp. apply (topn_incl _ _ _ _ _ TN) in Hp. apply in_seq in Hp. lia. }
  eexists _, _. split; [exact E|]. split; [|split; [|split]].
  - apply nodup_map_in; [|apply (topn_nodup _ _ _ _ _ TN)].
    intros x y Hx Hy Exy. apply (NoDup_nth (arr_list its) 0%Z) in Exy; auto.
  - intros z Hz. apply in_map_iff in Hz. destruct Hz as [p [<- Hp]]. apply nth_In; auto.
  - rewrite map_length; auto.
  - rewrite S, map_map. auto.
Qed.
Print Assumptions C13_similar_items_list_partial.
Example C13_example :
  similar simple_heap (-1000)%Z [[1; 0]; [0; 1]; [-1; 0]]%Z [1; 1; 1]%Z (Scalar 0) 2 None (Some (NdArray [2; 1]%Z)) =
    Ok (OneRow [1; 2]%Z [0; -1]%Z).
Proof. vm_compute. reflexivity. Qed.

(** Always false when N exceeds the list: the first listed item is repeated with score 0. *)
Theorem C13_short_list_repeats :
  forall (HP : std_heap) (fmin tiny : R) (factors : list (list R)) (f : nat) (id N : Z) (its : arr),
  std_heap_ok HP -> (0 < tiny)%R -> (forall y, In y factors -> length y = f) ->
  (0 <= id < Z.of_nat (length factors))%Z -> arr_list its <> [] ->
  (Z.of_nat (length (arr_list its)) < N)%Z ->
  (forall z, In z (arr_list its) -> (0 <= z < Z.of_nat (length factors))%Z) ->
  exists ids scores,
    similar HP fmin factors (norms_of rnorm tiny factors) (Scalar id) N None (Some its) = Ok (OneRow ids scores) /\
    ~ NoDup ids.
Proof.
  intros HP fmin tiny factors f id N its HC Ht W Hid NE HN B.
  destruct (similar_items_positions HP HC fmin tiny Ht factors f id N its) as [pos [sc [E TN]]]; auto.
  { unfold idx_ok; lia. } { lia. }
  eexists _, _. split; [exact E|].
  rewrite Nat.min_r in TN by lia.
  pose proof (topn_length _ _ _ _ _ TN) as L. unfold pad. rewrite L, map_app.
  assert (Z0 : In 0 pos).
  { assert (PP : Permutation pos (seq 0 (length (arr_list its)))).
    { apply NoDup_Permutation_bis.
      - apply (topn_nodup _ _ _ _ _ TN).
      - rewrite seq_length, L. auto.
      - apply (topn_incl _ _ _ _ _ TN). }
    eapply Permutation_in; [apply Permutation_sym; exact PP|]. apply in_seq.
    destruct (arr_list its); [congruence|simpl; lia]. }
  intros ND. destruct (Z.to_nat N - length (arr_list its)) eqn:D; [lia|]. simpl in ND.
  apply NoDup_remove_2 in ND. apply ND. apply in_or_app. left. apply in_map_iff. exists 0. auto.
Qed.
Print Assumptions C13_short_list_repeats.
Theorem C13_similar_items_list_refuted :
  exists factors norms id N its ids scores,
    norms = [1; 1; 1]%Z /\ map (fun v => ndot v v) factors = [1; 1; 1]%Z /\ NoDup (arr_list its) /\
    similar simple_heap (-1000)%Z factors norms (Scalar id) N None (Some its) = Ok (OneRow ids scores) /\
    ~ NoDup ids.
Proof.
  exists [[1; 0]; [0; 1]; [-1; 0]]%Z, [1; 1; 1]%Z, 0%Z, 3%Z, (NdArray [1]%Z), [1; 1; 1]%Z, [0; 0; 0]%Z.
  split; [|split; [|split; [|split]]]; auto.
  - repeat constructor. simpl; auto.
  - intros X. inversion X; subst. apply H1. simpl; auto.
Qed.
Print Assumptions C13_similar_items_list_refuted.
