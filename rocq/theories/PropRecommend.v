(** C03-C11: filters, explicit item lists and argument checks of recommend. *)
From Coq Require Import List Arith Lia Bool ZArith Permutation Sorted.
From Verif Require Import Base Num Heap Sparse TopkModel TopkSpec TopkProofs TopkBatch
  RecommendModel RecommendProofs RecommendProofs2 RecommendProofs3 RecommendBatch SimilarProofs PropTopk.
Import ListNotations.

(** The float32 value [-np.finfo(np.float32).max]. *)
Definition fmin32 : Z := (- (2 ^ 128 - 2 ^ 104))%Z.

(** Inner product of user [u] and item [i]. *)
Definition mf_score {T} `{Num T} (m : mf T) (u : Z) (i : nat) : T :=
  ndot (nth (Z.to_nat u) (user_factors m) []) (nth i (item_factors m) []).

(** A well-formed model and call: rectangular factors, existing user, at least
    one item, N >= 1, one row of likes inside the model, filters in range. *)
Definition call_ok {T} (m : mf T) (u N : Z) (fl : bool) (ui : sparse_arg T) (fi : option arr) : Prop :=
  (exists f, (forall x, In x (user_factors m) -> length x = f) /\
             (forall y, In y (item_factors m) -> length y = f)) /\
  (0 <= u < Z.of_nat (length (user_factors m)))%Z /\ (1 <= N)%Z /\ item_factors m <> [] /\
  (fl = true -> exists M, ui = Csr M /\ c_rows M = 1 /\
     forall i v, In (i, v) (csr_row M 0) -> i < length (item_factors m)) /\
  (forall a z, fi = Some a -> In z (arr_list a) ->
     (- Z.of_nat (length (item_factors m)) <= z < Z.of_nat (length (item_factors m)))%Z).

Lemma call_ok_parts {T} (m : mf T) u N fl ui fi : call_ok m u N fl ui fi ->
  exists f, mf_wf m f /\ idx_ok (length (user_factors m)) u /\ (0 < N)%Z /\ item_factors m <> [] /\
    liked_ok (length (item_factors m)) 1 fl ui /\ fi_ok (length (item_factors m)) fi /\ (0 <= u)%Z.
Proof.
  intros [[f [W1 W2]] [Hu [HN [HI [Hl Hf]]]]]. exists f. unfold mf_wf, idx_ok.
  repeat split; auto; try lia.
  - intros E. destruct (Hl E) as [M [-> [R B]]]. exists M. repeat split; auto.
    intros g i Hg Hi. assert (g = 0) by lia. subst. unfold csr_row_indices in Hi. apply in_map_iff in Hi.
    destruct Hi as [[c v] [<- Hi]]. simpl. eapply B; eauto.
  - apply (Hf a z); auto.
  - apply (Hf a z); auto.
Qed.

(** Discharging [call_ok] for concrete models with [k] factors. *)
Ltac mf_rect k := exists k; split; let x := fresh in let Hx := fresh in
  intros x Hx; simpl in Hx; repeat (destruct Hx as [<-|Hx]; [reflexivity|]); destruct Hx.
Ltac call_ok_tac k := unfold call_ok;
  split; [mf_rect k|split; [simpl; lia|split; [lia|split; [discriminate|split;
    [first [intros X; discriminate X | intros _; eexists; split; [reflexivity|split; [reflexivity|vm_compute]]]
    |first [intros ? ? X; discriminate X | idtac]]]]]].

(* ------------------------------------------------------------------ *)
(** C03: the result is the ranking of the unfiltered items, then (only if they
    are exhausted) filtered items with score [fmin], then zero padding (only if
    N exceeds the number of items, see C05). *)
Theorem C03_filtered_never_outrank :
  forall (T : Type) (HT : Num T) (HO : NumOrd T) (HP : std_heap) (fmin : T)
    (m : mf T) recalc u ui N fl fi (excl : nat -> bool),
  std_heap_ok HP -> call_ok m u N fl ui fi ->
  let n := length (item_factors m) in
  (forall i, i < n -> excl i = true <->
     (fl = true /\ exists M v, ui = Csr M /\ In (i, v) (csr_row M 0)) \/
     (exists a z, fi = Some a /\ In z (arr_list a) /\ (z = Z.of_nat i \/ z = Z.of_nat i - Z.of_nat n)%Z)) ->
  let allowed := filter (fun i => negb (excl i)) (seq 0 n) in
  (forall i, In i allowed -> nltb fmin (mf_score m u i) = true) ->
  exists good bad gs,
    recommend HP fmin m recalc (Scalar u) ui N fl fi false None =
      Ok (OneRow (map Z.of_nat ((good ++ bad) ++ repeat 0 (Z.to_nat N - n)))
                 ((gs ++ repeat fmin (length bad)) ++ repeat nzero (Z.to_nat N - n))) /\
    TopN (mf_score m u) allowed (Nat.min (Z.to_nat N) (length allowed)) good gs /\
    (forall i, In i bad -> i < n /\ excl i = true) /\
    (Z.to_nat N <= length allowed -> bad = []).
Proof.
  intros T HT HO HP fmin m recalc u ui N fl fi excl HC HK n HE allowed GT.
  destruct (call_ok_parts _ _ _ _ _ _ HK) as [f [W [Hu [HN [HI [Hl [Hf H0]]]]]]].
  destruct (recommend_filtered HP HC fmin m f recalc u ui N fl fi excl W Hu HN HI Hl Hf HE) as [good [bad [gs [E [TN [L [ND B]]]]]]].
  { rewrite wrap_nonneg by auto. exact GT. }
  rewrite wrap_nonneg in TN by auto.
  exists good, bad, gs. split; [|split; [|split]].
  - rewrite E. unfold pad.
    assert (LS : length (gs ++ repeat fmin (length bad)) = length (good ++ bad)).
    { rewrite !app_length, repeat_length. rewrite (topn_scores _ _ _ _ _ TN), map_length. auto. }
    rewrite LS, L. fold n. replace (Z.to_nat N - Nat.min (Z.to_nat N) n) with (Z.to_nat N - n) by lia. auto.
  - exact TN.
  - intros i Hi. destruct (B i Hi) as [B1 B2]. split; auto. apply HE; auto.
  - intros LE. pose proof (topn_length _ _ _ _ _ TN) as LG. fold n allowed in LG. rewrite Nat.min_l in LG by auto.
    rewrite app_length in L. assert (length bad = 0) by lia. destruct bad; auto. discriminate.
Qed.
Print Assumptions C03_filtered_never_outrank.

(** Item 2 liked, item 3 in filter_items; two unfiltered items remain and N = 3. *)
Example C03_example :
  recommend simple_heap fmin32 ex_mf no_recalc (Scalar 0) (Csr (csr_take_row ex_likes 0)) 3 true (Some (PyList [3]%Z)) false None =
    Ok (OneRow [1; 0; 2]%Z [2; 1; fmin32]%Z) /\
  call_ok ex_mf 0 3 true (Csr (csr_take_row ex_likes 0)) (Some (PyList [3]%Z)).
Proof.
  split; [vm_compute; reflexivity|].
  call_ok_tac 2.
  - intros i v [E|[]]. inversion E. lia.
  - intros a z E. inversion E; subst. simpl. intros [<-|[]]. lia.
Qed.

(* ------------------------------------------------------------------ *)
(** C04: the documentation's claim is false: when fewer than N items are
    unliked, liked items are returned. *)
Definition never_returns_liked : Prop :=
  forall (m : mf Z) u M N ids scores,
    call_ok m u N true (Csr M) None ->
    recommend simple_heap fmin32 m no_recalc (Scalar u) (Csr M) N true None false None = Ok (OneRow ids scores) ->
    forall i v, In (i, v) (csr_row M 0) -> ~ In (Z.of_nat i) ids.
Theorem C04_liked_never_returned_refuted :
  exists (m : mf Z) u M N ids scores,
    call_ok m u N true (Csr M) None /\ (Z.to_nat N <= length (item_factors m)) /\
    recommend simple_heap fmin32 m no_recalc (Scalar u) (Csr M) N true None false None = Ok (OneRow ids scores) /\
    exists i v, In (i, v) (csr_row M 0) /\ In (Z.of_nat i) ids.
Proof.
  exists ex_mf, 0%Z, (csr_of_rows 4 [[(0, 1%Z); (2, 1%Z)]]), 3%Z, [3; 1; 2]%Z, [6; 2; fmin32]%Z.
  split; [|split; [simpl; lia|split; [vm_compute; reflexivity|]]].
  - call_ok_tac 2. intros i v [E|[E|[]]]; inversion E; lia.
  - exists 2, 1%Z. split; [vm_compute; auto|simpl; auto].
Qed.
Print Assumptions C04_liked_never_returned_refuted.
Theorem C04_claim_false : ~ never_returns_liked.
Proof.
  intros X. destruct C04_liked_never_returned_refuted as [m [u [M [N [ids [sc [K [_ [E [i [v [A B]]]]]]]]]]]].
  eapply X; eauto.
Qed.
Print Assumptions C04_claim_false.

(** The true part: no liked item when at least N items are unliked. *)
Theorem C04_liked_never_returned_partial :
  forall (T : Type) (HT : Num T) (HO : NumOrd T) (HP : std_heap) (fmin : T)
    (m : mf T) recalc u M N (liked : nat -> bool),
  std_heap_ok HP -> call_ok m u N true (Csr M) None ->
  (forall i, liked i = true <-> exists v, In (i, v) (csr_row M 0)) ->
  let unliked := filter (fun i => negb (liked i)) (seq 0 (length (item_factors m))) in
  (forall i, In i unliked -> nltb fmin (mf_score m u i) = true) ->
  Z.to_nat N <= length unliked ->
  exists ids scores,
    recommend HP fmin m recalc (Scalar u) (Csr M) N true None false None = Ok (OneRow (map Z.of_nat ids) scores) /\
    TopN (mf_score m u) unliked (Z.to_nat N) ids scores.
Proof.
  intros T HT HO HP fmin m recalc u M N liked HC HK HL unliked GT LE.
  destruct (C03_filtered_never_outrank T HT HO HP fmin m recalc u (Csr M) N true None liked HC HK) as [good [bad [gs [E [TN [B BE]]]]]].
  - intros i Hi. rewrite HL. split.
    + intros [v X]. left. split; auto. exists M, v. auto.
    + intros [[_ [M' [v [E X]]]]|[a [z [E _]]]]; [|discriminate]. inversion E; subst. eauto.
  - exact GT.
  - specialize (BE LE). subst bad. exists good, gs. fold unliked in TN. rewrite Nat.min_l in TN by auto. split; auto.
    rewrite E. assert (LU : length unliked <= length (item_factors m)).
    { unfold unliked. etransitivity; [apply filter_len_le|]. rewrite seq_length; auto. }
    replace (Z.to_nat N - length (item_factors m)) with 0 by lia. simpl. rewrite !app_nil_r. auto.
Qed.
Print Assumptions C04_liked_never_returned_partial.
Example C04_example :
  recommend simple_heap fmin32 ex_mf no_recalc (Scalar 0) (Csr (csr_of_rows 4 [[(0, 1%Z); (2, 1%Z)]])) 2 true None false None =
    Ok (OneRow [3; 1]%Z [6; 2]%Z).
Proof. vm_compute. reflexivity. Qed.

(* ------------------------------------------------------------------ *)
(** C05: N larger than the number of items. *)
Theorem C05_more_than_items_refuted :
  exists (m : mf Z) u N ids scores,
    call_ok m u N false NotCsr None /\
    recommend simple_heap fmin32 m no_recalc (Scalar u) NotCsr N false None false None = Ok (OneRow ids scores) /\
    ~ NoDup ids /\ ~ StronglySorted (fun a b => (b <= a)%Z) scores.
Proof.
  exists {| user_factors := [[1]]%Z; item_factors := [[-3]; [-2]]%Z |}, 0%Z, 4%Z, [1; 0; 0; 0]%Z, [-2; -3; 0; 0]%Z.
  split; [|split; [vm_compute; reflexivity|split]].
  - call_ok_tac 1.
  - intros X. inversion X as [|? ? _ X1]; subst. inversion X1 as [|? ? X2 _]; subst. apply X2. simpl; auto.
  - intros X. inversion X as [|? ? _ X1]; subst. inversion X1 as [|? ? _ X2]; subst. inversion X2; subst. lia.
Qed.
Print Assumptions C05_more_than_items_refuted.

(** Exactly what is returned: a complete ranking of the items followed by
    N - n repetitions of (item 0, score 0). *)
Theorem C05_more_than_items_partial :
  forall (T : Type) (HT : Num T) (HO : NumOrd T) (HP : std_heap) (fmin : T)
    (m : mf T) recalc u ui N,
  std_heap_ok HP -> call_ok m u N false ui None ->
  let n := length (item_factors m) in
  n <= Z.to_nat N ->
  exists ids scores,
    recommend HP fmin m recalc (Scalar u) ui N false None false None =
      Ok (OneRow (map Z.of_nat (ids ++ repeat 0 (Z.to_nat N - n))) (scores ++ repeat nzero (Z.to_nat N - n))) /\
    TopN (mf_score m u) (seq 0 n) n ids scores /\ Permutation ids (seq 0 n).
Proof.
  intros T HT HO HP fmin m recalc u ui N HC HK n LE.
  destruct (call_ok_parts _ _ _ _ _ _ HK) as [f [W [Hu [HN [HI [Hl [Hf H0]]]]]]].
  destruct (recommend_scalar HP HC fmin m f recalc u ui N false None W Hu HN HI Hl Hf) as [ids [sc [E TN]]].
  rewrite wrap_nonneg in TN by auto. fold n in TN. rewrite Nat.min_r in TN by auto.
  assert (TN' : TopN (mf_score m u) (seq 0 n) n ids sc).
  { eapply TopN_ext; [|exact TN]. intros; reflexivity. }
  exists ids, sc. pose proof (topn_length _ _ _ _ _ TN') as L1. pose proof (topn_scores _ _ _ _ _ TN') as L2.
  split; [|split]; auto.
  - rewrite E. unfold pad. rewrite L2, map_length, L1. auto.
  - apply NoDup_Permutation_bis.
    + apply (topn_nodup _ _ _ _ _ TN').
    + rewrite seq_length, L1. auto.
    + apply (topn_incl _ _ _ _ _ TN').
Qed.
Print Assumptions C05_more_than_items_partial.
Example C05_example :
  recommend simple_heap fmin32 ex_mf no_recalc (Scalar 0) NotCsr 6 false None false None =
    Ok (OneRow [2; 3; 1; 0; 0; 0]%Z [7; 6; 2; 1; 0; 0]%Z).
Proof. vm_compute. reflexivity. Qed.

(* ------------------------------------------------------------------ *)
(** C06: explicit item list (repeats allowed): [l] is the given list reordered;
    the result lists positions of [l]. *)
Theorem C06_items_exact :
  forall (T : Type) (HT : Num T) (HO : NumOrd T) (HP : std_heap) (fmin : T)
    (m : mf T) recalc u ui N its,
  std_heap_ok HP -> call_ok m u N false ui None -> arr_list its <> [] ->
  (forall z, In z (arr_list its) -> (0 <= z < Z.of_nat (length (item_factors m)))%Z) ->
  exists l pos scores,
    Permutation l (arr_list its) /\
    recommend HP fmin m recalc (Scalar u) ui N false None false (Some its) =
      Ok (OneRow (map (fun p => nth p l 0%Z) pos) scores) /\
    TopN (fun p => mf_score m u (Z.to_nat (nth p l 0%Z)))
         (seq 0 (length l)) (Nat.min (Z.to_nat N) (length l)) pos scores.
Proof.
  intros T HT HO HP fmin m recalc u ui N its HC HK NE B.
  destruct (call_ok_parts _ _ _ _ _ _ HK) as [f [W [Hu [HN [HI [Hl [Hf H0]]]]]]].
  destruct (recommend_items_positions HP HC fmin m f recalc u ui N its W Hu HN NE B) as [l [pos [sc [P [E TN]]]]].
  rewrite wrap_nonneg in TN by auto. exists l, pos, sc. auto.
Qed.
Print Assumptions C06_items_exact.
Example C06_example :
  recommend simple_heap fmin32 ex_mf no_recalc (Scalar 0) NotCsr 3 false None false (Some (PyList [3; 0; 1; 0]%Z)) =
    Ok (OneRow [3; 1; 0]%Z [6; 2; 1]%Z) /\ call_ok ex_mf 0 3 false NotCsr None.
Proof.
  split; [vm_compute; reflexivity|]. call_ok_tac 2.
Qed.

(** For a list without repeats, directly in terms of item ids; with the liked filter: C08. *)
Theorem C06_items_exact_nodup :
  forall (T : Type) (HT : Num T) (HO : NumOrd T) (HP : std_heap) (fmin : T)
    (m : mf T) recalc u ui N its,
  std_heap_ok HP -> call_ok m u N false ui None -> arr_list its <> [] -> NoDup (arr_list its) ->
  (forall z, In z (arr_list its) -> (0 <= z < Z.of_nat (length (item_factors m)))%Z) ->
  exists ids scores,
    recommend HP fmin m recalc (Scalar u) ui N false None false (Some its) =
      Ok (OneRow (map Z.of_nat ids) scores) /\
    TopN (mf_score m u) (map Z.to_nat (arr_list its)) (Nat.min (Z.to_nat N) (length (arr_list its))) ids scores.
Proof.
  intros T HT HO HP fmin m recalc u ui N its HC HK NE ND B.
  destruct (call_ok_parts _ _ _ _ _ _ HK) as [f [W [Hu [HN [HI [Hl [Hf H0]]]]]]].
  destruct (recommend_scalar_items HP HC fmin m f recalc u ui N false its W Hu HN Hl NE ND B) as [ids [sc [E TN]]].
  rewrite wrap_nonneg in TN by auto. exists ids, sc. split; auto.
Qed.
Print Assumptions C06_items_exact_nodup.

(* ------------------------------------------------------------------ *)
(** C07: ids outside the model in an explicit list. *)
Theorem C07_items_out_of_range :
  forall (T : Type) (HT : Num T) (HO : NumOrd T) (HP : std_heap) (fmin : T)
    (m : mf T) recalc u ui N fl its,
  (forall z, In z (id_list u) -> (0 <= z < Z.of_nat (length (user_factors m)))%Z) ->
  (fl = true -> exists M, ui = Csr M /\ c_rows M = length (id_list u)) ->
  (exists z, In z (arr_list its) /\ ~ (0 <= z < Z.of_nat (length (item_factors m)))%Z) ->
  recommend HP fmin m recalc u ui N fl None false (Some its) = Raise IndexError.
Proof.
  intros. apply recommend_items_bad; auto. intros z Hz. specialize (H z Hz). unfold idx_ok. lia.
Qed.
Print Assumptions C07_items_out_of_range.

(** No argument combination turns such a call into a result. *)
Theorem C07_items_out_of_range_no_result :
  forall (T : Type) (HT : Num T) (HO : NumOrd T) (HP : std_heap) (fmin : T)
    (m : mf T) recalc u ui N fl fi rc its r,
  (exists z, In z (arr_list its) /\ ~ (0 <= z < Z.of_nat (length (item_factors m)))%Z) ->
  recommend HP fmin m recalc u ui N fl fi rc (Some its) <> Ok r.
Proof. intros. apply recommend_items_bad_any; auto. Qed.
Print Assumptions C07_items_out_of_range_no_result.

Theorem C07_similar_out_of_range :
  forall (T : Type) (HT : Num T) (HO : NumOrd T) (HP : std_heap) (fmin : T)
    (factors : list (list T)) norms id N its,
  length norms = length factors ->
  (forall z, In z (id_list id) -> (0 <= z < Z.of_nat (length factors))%Z) ->
  (exists z, In z (arr_list its) /\ ~ (0 <= z < Z.of_nat (length factors))%Z) ->
  similar HP fmin factors norms id N None (Some its) = Raise IndexError.
Proof.
  intros. apply similar_items_bad; auto. intros z Hz. specialize (H0 z Hz). unfold idx_ok. lia.
Qed.
Print Assumptions C07_similar_out_of_range.
Example C07_example :
  recommend simple_heap fmin32 ex_mf no_recalc (Scalar 0) NotCsr 3 false None false (Some (PyList [3; -1]%Z)) = Raise IndexError /\
  recommend simple_heap fmin32 ex_mf no_recalc (Batch [0; 1]%Z) NotCsr 3 false None false (Some (NdArray [3; 4]%Z)) = Raise IndexError /\
  similar simple_heap fmin32 (item_factors ex_mf) [1; 1; 1; 1]%Z (Scalar 0) 3 None (Some (NdArray [3; 4]%Z)) = Raise IndexError /\
  recommend simple_heap fmin32 ex_mf no_recalc (Scalar 0) NotCsr 3 false None false (Some (PyList [3; 2]%Z)) = Ok (OneRow [2; 3]%Z [7; 6]%Z).
Proof. vm_compute. auto. Qed.

(* ------------------------------------------------------------------ *)
(** C08: items= together with the liked filter. *)
(** For a repeat-free list and a row without explicit zeros the filter is exact. *)
Theorem C08_items_liked_partial :
  forall (T : Type) (HT : Num T) (HO : NumOrd T) (HP : std_heap) (fmin : T)
    (m : mf T) recalc u M N its (liked : nat -> bool),
  std_heap_ok HP -> call_ok m u N true (Csr M) None -> arr_list its <> [] -> NoDup (arr_list its) ->
  (forall z, In z (arr_list its) -> (0 <= z < Z.of_nat (length (item_factors m)))%Z) ->
  (forall i v, In (i, v) (csr_row M 0) -> neqb v nzero = false) ->
  (forall i, liked i = true <-> exists v, In (i, v) (csr_row M 0)) ->
  let cands := map Z.to_nat (arr_list its) in
  let unliked := filter (fun i => negb (liked i)) cands in
  (forall i, In i unliked -> nltb fmin (mf_score m u i) = true) ->
  exists good bad gs,
    recommend HP fmin m recalc (Scalar u) (Csr M) N true None false (Some its) =
      Ok (OneRow (map Z.of_nat (good ++ bad)) (gs ++ repeat fmin (length bad))) /\
    length (good ++ bad) = Nat.min (Z.to_nat N) (length cands) /\ NoDup (good ++ bad) /\
    TopN (mf_score m u) unliked (Nat.min (Z.to_nat N) (length unliked)) good gs /\
    (forall i, In i bad -> In i cands /\ liked i = true).
Proof.
  intros T HT HO HP fmin m recalc u M N its liked HC HK NE ND B NZ HL cands unliked GT.
  destruct (call_ok_parts _ _ _ _ _ _ HK) as [f [W [Hu [HN [HI [Hl [Hf H0]]]]]]].
  destruct (recommend_scalar_items HP HC fmin m f recalc u (Csr M) N true its W Hu HN Hl NE ND B) as [ids [sc [E TN]]].
  rewrite wrap_nonneg in TN by auto. fold (mf_score m u) in TN.
  assert (LE : forall i, liked_filter true (Csr M) i = liked i).
  { intros i. unfold liked_filter, liked_nz. cbn [andb]. apply eq_true_iff_eq. rewrite HL, existsb_exists. split.
    - intros [[c v] [X Y]]. cbn [fst snd] in Y. apply andb_true_iff in Y. destruct Y as [Y _].
      apply Nat.eqb_eq in Y. subst. eauto.
    - intros [v X]. exists (i, v). split; auto. cbn [fst snd]. rewrite Nat.eqb_refl, (NZ i v X). auto. }
  assert (NC : NoDup cands).
  { unfold cands. apply nodup_map_in; auto.
    intros x y Hx Hy. apply B in Hx. apply B in Hy. lia. }
  assert (FE : filter (fun i => negb (liked_filter true (Csr M) i)) cands = unliked).
  { apply filter_ext. intros i. rewrite LE. auto. }
  destruct (fscore_full fmin (liked_filter true (Csr M)) (mf_score m u) cands _ ids sc TN NC) as [good [bad [gs [E1 [E2 [TG BB]]]]]].
  { intros j Hj F. apply GT. rewrite <- FE. apply filter_In. rewrite F. auto. }
  rewrite FE in TG.
  exists good, bad, gs. rewrite <- E1, <- E2. split; [exact E|]. split; [|split; [|split]].
  - rewrite (topn_length _ _ _ _ _ TN). unfold cands. rewrite map_length. auto.
  - apply (topn_nodup _ _ _ _ _ TN).
  - assert (length unliked <= length (arr_list its)).
    { unfold unliked. etransitivity; [apply filter_len_le|]. unfold cands. rewrite map_length. auto. }
    replace (Nat.min (Nat.min (Z.to_nat N) (length (arr_list its))) (length unliked)) with (Nat.min (Z.to_nat N) (length unliked)) in TG by lia.
    exact TG.
  - intros i Hi. destruct (BB i Hi) as [X Y]. rewrite LE in X. auto.
Qed.
Print Assumptions C08_items_liked_partial.
Example C08_example :
  recommend simple_heap fmin32 ex_mf no_recalc (Scalar 0) (Csr (csr_of_rows 4 [[(0, 1%Z); (2, 1%Z)]])) 2 true None false (Some (PyList [2; 1; 3]%Z)) =
    Ok (OneRow [3; 1]%Z [6; 2]%Z).
Proof. vm_compute. reflexivity. Qed.

(** Refuted in general: with a repeated id the second copy is not filtered and
    outranks an unliked item; with an explicit zero the item is not filtered. *)
Theorem C08_items_liked_refuted :
  exists (m : mf Z) u M N its ids scores,
    call_ok m u N true (Csr M) None /\
    (forall z, In z (arr_list its) -> (0 <= z < Z.of_nat (length (item_factors m)))%Z) /\
    (forall i v, In (i, v) (csr_row M 0) -> v <> 0%Z) /\
    recommend simple_heap fmin32 m no_recalc (Scalar u) (Csr M) N true None false (Some its) = Ok (OneRow ids scores) /\
    exists i v j p q, In (i, v) (csr_row M 0) /\ ~ (exists w, In (j, w) (csr_row M 0)) /\
      p < q /\ nth p ids 0%Z = Z.of_nat i /\ nth q ids 0%Z = Z.of_nat j.
Proof.
  exists ex_mf, 0%Z, (csr_of_rows 4 [[(2, 1%Z)]]), 2%Z, (PyList [2; 2; 1]%Z), [2; 1]%Z, [7; 2]%Z.
  split; [|split; [|split; [|split]]].
  - call_ok_tac 2. intros i v [E|[]]; inversion E; lia.
  - intros z Hz. simpl in *. lia.
  - vm_compute. intros i v [E|[]]. inversion E. discriminate.
  - vm_compute. reflexivity.
  - exists 2, 1%Z, 1, 0, 1. split; [vm_compute; auto|]. split.
    + intros [w Hw]. vm_compute in Hw. destruct Hw as [E|[]]. discriminate.
    + repeat split. lia.
Qed.
Print Assumptions C08_items_liked_refuted.

Theorem C08_explicit_zero_refuted :
  exists (m : mf Z) u M N its ids scores,
    call_ok m u N true (Csr M) None /\ NoDup (arr_list its) /\
    (forall z, In z (arr_list its) -> (0 <= z < Z.of_nat (length (item_factors m)))%Z) /\
    recommend simple_heap fmin32 m no_recalc (Scalar u) (Csr M) N true None false (Some its) = Ok (OneRow ids scores) /\
    exists i v j p q, In (i, v) (csr_row M 0) /\ ~ (exists w, In (j, w) (csr_row M 0)) /\
      p < q /\ nth p ids 0%Z = Z.of_nat i /\ nth q ids 0%Z = Z.of_nat j.
Proof.
  exists ex_mf, 0%Z, (csr_of_rows 4 [[(2, 0%Z)]]), 2%Z, (PyList [2; 1]%Z), [2; 1]%Z, [7; 2]%Z.
  split; [|split; [|split; [|split]]].
  - call_ok_tac 2. intros i v [E|[]]; inversion E; lia.
  - repeat constructor; simpl; intuition discriminate.
  - intros z Hz. simpl in *. lia.
  - vm_compute. reflexivity.
  - exists 2, 0%Z, 1, 0, 1. split; [vm_compute; auto|]. split.
    + intros [w Hw]. vm_compute in Hw. destruct Hw as [E|[]]. discriminate.
    + repeat split. lia.
Qed.
Print Assumptions C08_explicit_zero_refuted.

(* ------------------------------------------------------------------ *)
(** C09: argument checks. *)
Theorem C09_not_csr :
  forall (T : Type) (HT : Num T) HP fmin (m : mf T) recalc u N fl fi rc items,
  fl || rc = true ->
  recommend HP fmin m recalc u NotCsr N fl fi rc items = Raise ValueError.
Proof. intros. apply recommend_notcsr; auto. Qed.
Print Assumptions C09_not_csr.
Theorem C09_row_count :
  forall (T : Type) (HT : Num T) HP fmin (m : mf T) recalc u M N fl fi rc items,
  fl || rc = true -> c_rows M <> length (id_list u) ->
  recommend HP fmin m recalc u (Csr M) N fl fi rc items = Raise ValueError.
Proof. intros. apply recommend_rows; auto. Qed.
Print Assumptions C09_row_count.
Theorem C09_bad_user :
  forall (T : Type) (HT : Num T) (HO : NumOrd T) HP fmin (m : mf T) recalc u ui N fl fi items,
  (fl = true -> exists M, ui = Csr M /\ c_rows M = length (id_list u)) ->
  (exists z, In z (id_list u) /\
     ~ (- Z.of_nat (length (user_factors m)) <= z < Z.of_nat (length (user_factors m)))%Z) ->
  recommend HP fmin m recalc u ui N fl fi false items = Raise IndexError.
Proof. intros. apply recommend_bad_user; auto. Qed.
Print Assumptions C09_bad_user.
(** Valid calls, scalar or batch, return. *)
Theorem C09_valid_returns :
  forall (T : Type) (HT : Num T) (HO : NumOrd T) HP fmin (m : mf T) f recalc u ui N fl fi,
  std_heap_ok HP ->
  (forall x, In x (user_factors m) -> length x = f) ->
  (forall y, In y (item_factors m) -> length y = f) ->
  (forall z, In z (id_list u) ->
     (- Z.of_nat (length (user_factors m)) <= z < Z.of_nat (length (user_factors m)))%Z) ->
  (1 <= N)%Z -> item_factors m <> [] ->
  (fl = true -> exists M, ui = Csr M /\ c_rows M = length (id_list u) /\
     forall g i, g < length (id_list u) -> In i (csr_row_indices M g) -> i < length (item_factors m)) ->
  (forall a z, fi = Some a -> In z (arr_list a) ->
     (- Z.of_nat (length (item_factors m)) <= z < Z.of_nat (length (item_factors m)))%Z) ->
  exists r, recommend HP fmin m recalc u ui N fl fi false None = Ok r.
Proof.
  intros T HT HO HP fmin m f recalc u ui N fl fi HC Wu Wi Hu HN HI Hl Hf.
  apply (recommend_total HP HC fmin m f); auto. { split; auto. } lia.
Qed.
Print Assumptions C09_valid_returns.
Example C09_example :
  recommend simple_heap fmin32 ex_mf no_recalc (Scalar 0) NotCsr 3 true None false None = Raise ValueError /\
  recommend simple_heap fmin32 ex_mf no_recalc (Scalar 0) (Csr ex_likes) 3 true None false None = Raise ValueError /\
  recommend simple_heap fmin32 ex_mf no_recalc (Batch [0; 2]%Z) (Csr ex_likes) 3 true None false None = Raise IndexError /\
  recommend simple_heap fmin32 ex_mf no_recalc (Batch [0; -1]%Z) (Csr ex_likes) 1 true (Some (PyList [-1]%Z)) false None =
    Ok (ManyRows [[1]; [1]]%Z [[2]; [-1]]%Z).
Proof. vm_compute. auto. Qed.

(* ------------------------------------------------------------------ *)
(** C10: recommend_all. *)
(** With offset 0, or without likes filter and recalculation, it is the batch call. *)
Theorem C10_recommend_all_partial :
  forall (T : Type) (HT : Num T) HP fmin (m : mf T) recalc M N rc fl fi offset,
  offset = 0 \/ fl || rc = false ->
  recommend_all HP fmin m recalc M N rc fl fi offset =
  match recommend HP fmin m recalc
          (Batch (map (fun i => Z.of_nat (i + offset)) (seq 0 (c_rows M)))) (Csr M) N fl fi rc None with
  | Ok (ManyRows ids _) => Ok ids
  | Ok (OneRow ids _) => Ok [ids]
  | Raise e => Raise e
  end.
Proof.
  intros. rewrite recommend_all_ids by auto. unfold bind.
  destruct (recommend _ _ _ _ _ _ _ _ _ _ _) as [[|]|]; auto.
Qed.
Print Assumptions C10_recommend_all_partial.
(** With the default likes filter every positive offset raises, although
    [recommend] for those users succeeds. *)
Theorem C10_offset_always_raises :
  forall (T : Type) (HT : Num T) HP fmin (m : mf T) recalc M N rc fl fi offset,
  0 < offset -> fl || rc = true ->
  recommend_all HP fmin m recalc M N rc fl fi offset = Raise ValueError.
Proof. intros. apply recommend_all_offset_raises; auto. Qed.
Print Assumptions C10_offset_always_raises.
Theorem C10_recommend_all_refuted :
  exists (m : mf Z) M N offset ids scores,
    0 < offset /\
    recommend simple_heap fmin32 m no_recalc
      (Batch (map (fun i => Z.of_nat (i + offset)) (seq 0 (c_rows M)))) (Csr M) N true None false None =
      Ok (ManyRows ids scores) /\
    recommend_all simple_heap fmin32 m no_recalc M N false true None offset = Raise ValueError.
Proof.
  exists ex_mf, (csr_of_rows 4 [[(0, 1%Z); (2, 1%Z)]]), 2%Z, 1, [[3; 1]]%Z, [[4; -1]]%Z.
  split; [lia|]. vm_compute. auto.
Qed.
Print Assumptions C10_recommend_all_refuted.
Example C10_example :
  recommend_all simple_heap fmin32 ex_mf no_recalc ex_likes 2 false true None 0 = Ok [[3; 1]; [3; 1]]%Z.
Proof. vm_compute. reflexivity. Qed.

(* ------------------------------------------------------------------ *)
(** C11: rank_items. *)
Theorem C11_rank_items_partial :
  forall (T : Type) (HT : Num T) (HO : NumOrd T) (HP : std_heap) (fmin : T)
    (m : mf T) recalc u ui its,
  std_heap_ok HP -> call_ok m u 10 false ui None -> arr_list its <> [] ->
  length (arr_list its) <= 10 ->
  (forall z, In z (arr_list its) -> (0 <= z < Z.of_nat (length (item_factors m)))%Z) ->
  exists ids scores,
    rank_items HP fmin m recalc (Scalar u) ui its false = Ok (OneRow ids scores) /\
    Permutation ids (arr_list its) /\
    scores = map (fun z => mf_score m u (Z.to_nat z)) ids /\
    StronglySorted (fun a b => nleb b a = true) scores.
Proof.
  intros T HT HO HP fmin m recalc u ui its HC HK NE LE B.
  destruct (C06_items_exact T HT HO HP fmin m recalc u ui 10 its HC HK NE B) as [l [pos [sc [P [E TN]]]]].
  pose proof (Permutation_length P) as PL.
  rewrite Nat.min_r in TN by (change (Z.to_nat 10) with 10; lia).
  assert (PP : Permutation pos (seq 0 (length l))).
  { apply NoDup_Permutation_bis.
    - apply (topn_nodup _ _ _ _ _ TN).
    - rewrite seq_length, (topn_length _ _ _ _ _ TN). auto.
    - apply (topn_incl _ _ _ _ _ TN). }
  exists (map (fun p => nth p l 0%Z) pos), sc. split; [exact E|]. split; [|split].
  - transitivity l; auto. rewrite (Permutation_map (fun p => nth p l 0%Z) PP).
    assert (X : map (fun p => nth p l 0%Z) (seq 0 (length l)) = l).
    { apply (list_ext _ _ 0%Z); rewrite ?map_seq_length; auto. intros j Hj. rewrite nth_map_seq; auto. }
    rewrite X. auto.
  - rewrite (topn_scores _ _ _ _ _ TN), map_map. auto.
  - pose proof (topn_sorted _ _ _ _ _ TN) as S. rewrite (topn_scores _ _ _ _ _ TN).
    clear -S. induction S as [|a ps S IH F]; simpl; constructor; auto.
    rewrite Forall_forall in *. intros x Hx. apply in_map_iff in Hx. destruct Hx as [p [<- Hp]]. auto.
Qed.
Print Assumptions C11_rank_items_partial.
(** Missing for the full claim: more than ten items; refuted: only 10 of 11 come back. *)
Theorem C11_rank_items_refuted :
  exists (m : mf Z) u its ids scores,
    call_ok m u 10 false NotCsr None /\ NoDup (arr_list its) /\
    (forall z, In z (arr_list its) -> (0 <= z < Z.of_nat (length (item_factors m)))%Z) /\
    rank_items simple_heap fmin32 m no_recalc (Scalar u) NotCsr its false = Ok (OneRow ids scores) /\
    length ids < length (arr_list its).
Proof.
  exists {| user_factors := [[1]]%Z; item_factors := map (fun i => [Z.of_nat i]) (seq 0 11) |}, 0%Z,
    (PyList (map Z.of_nat (seq 0 11))), [10; 9; 8; 7; 6; 5; 4; 3; 2; 1]%Z, [10; 9; 8; 7; 6; 5; 4; 3; 2; 1]%Z.
  split; [|split; [|split; [|split]]].
  - call_ok_tac 1.
  - simpl. repeat constructor; simpl; lia.
  - intros z Hz. cbn [arr_list] in Hz. apply in_map_iff in Hz. destruct Hz as [i [<- Hi]]. apply in_seq in Hi. simpl. lia.
  - vm_compute. reflexivity.
  - simpl. lia.
Qed.
Print Assumptions C11_rank_items_refuted.
Example C11_example :
  rank_items simple_heap fmin32 ex_mf no_recalc (Scalar 0) NotCsr (PyList [1; 3; 0]%Z) false = Ok (OneRow [3; 1; 0]%Z [6; 2; 1]%Z).
Proof. vm_compute. reflexivity. Qed.
