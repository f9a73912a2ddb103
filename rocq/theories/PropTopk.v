(** C01, C02: top-N of factor models; batches and schedules. *)
From Coq Require Import List Arith Lia Bool ZArith Permutation Sorted.
From Verif Require Import Base Num Heap Sparse TopkModel TopkSpec TopkProofs TopkBatch
  RecommendModel RecommendProofs RecommendProofs2 RecommendBatch SimilarBatch.
Import ListNotations.

(* ------------------------------------------------------------------ *)
(** C01. *)
Theorem C01_topn_exact :
  forall (T : Type) (HT : Num T) (HO : NumOrd T) (HP : std_heap) (fmin : T)
    (m : mf T) (f : nat) recalc (u : Z) (ui : sparse_arg T) (N : Z),
  std_heap_ok HP ->
  (forall x, In x (user_factors m) -> length x = f) ->
  (forall y, In y (item_factors m) -> length y = f) ->
  (0 <= u < Z.of_nat (length (user_factors m)))%Z ->
  (1 <= N <= Z.of_nat (length (item_factors m)))%Z ->
  exists ids scores,
    recommend HP fmin m recalc (Scalar u) ui N false None false None =
      Ok (OneRow (map Z.of_nat ids) scores) /\
    TopN (fun i => ndot (nth (Z.to_nat u) (user_factors m) []) (nth i (item_factors m) []))
         (seq 0 (length (item_factors m))) (Z.to_nat N) ids scores.
Proof.
  intros T HT HO HP fmin m f recalc u ui N HC Wu Wi Hu HN.
  assert (NE : item_factors m <> []) by (destruct (item_factors m); simpl in *; [lia|discriminate]).
  destruct (recommend_scalar HP HC fmin m f recalc u ui N false None) as [ids [sc [E TN]]]; auto.
  - split; auto.
  - unfold idx_ok; lia.
  - lia.
  - intros X; discriminate.
  - intros a z X; discriminate.
  - rewrite wrap_nonneg in TN by lia.
    replace (Nat.min (Z.to_nat N) (length (item_factors m))) with (Z.to_nat N) in TN by lia.
    assert (P : forall V (d : V) l, length l = Z.to_nat N -> pad (Z.to_nat N) d l = l).
    { intros V d l L. unfold pad. rewrite L, Nat.sub_diag. apply app_nil_r. }
    exists ids, sc. split.
    + rewrite E. pose proof (topn_length _ _ _ _ _ TN) as L1. pose proof (topn_scores _ _ _ _ _ TN) as L2.
      rewrite !P; auto. rewrite L2, map_length; auto.
    + eapply TopN_ext; [|exact TN]. intros; reflexivity.
Qed.
Print Assumptions C01_topn_exact.

(** Two users, four items (two factors); the two best of four. *)
Definition ex_mf : mf Z :=
  {| user_factors := [[1; 2]; [3; -1]]%Z; item_factors := [[1; 0]; [0; 1]; [5; 1]; [2; 2]]%Z |}.
Example C01_example :
  recommend simple_heap (-1000)%Z ex_mf no_recalc (Scalar 1) NotCsr 2 false None false None =
    Ok (OneRow [2; 3]%Z [14; 4]%Z) /\
  (0 <= 1 < Z.of_nat (length (user_factors ex_mf)))%Z /\
  (1 <= 2 <= Z.of_nat (length (item_factors ex_mf)))%Z.
Proof. vm_compute. repeat split; congruence. Qed.

(** Two conforming heap libraries return the same answer. *)
Theorem C01_heap_independent :
  forall (T : Type) (HT : Num T) (HO : NumOrd T) (HP HP' : std_heap) (k : nat) (row : list T),
  std_heap_ok HP -> std_heap_ok HP' -> 0 < k ->
  select_row HP k row = select_row HP' k row.
Proof. intros. apply select_row_unique; auto. Qed.
Print Assumptions C01_heap_independent.
Example C01_heap_example : std_heap_ok simple_heap /\
  select_row simple_heap 3 [4; 7; 7; 1; 4]%Z = Ok [(7%Z, 2); (7%Z, 1); (4%Z, 0)].
Proof. split; [apply simple_heap_ok|vm_compute; reflexivity]. Qed.

(* ------------------------------------------------------------------ *)
(** C02: any permutation of the stores of all batches leaves the same arrays. *)
Theorem C02_any_schedule :
  forall (T : Type) (HT : Num T) (HO : NumOrd T) (HP : std_heap) (fmin : T)
    (items query : list (list T)) norms fq fi (k : Z) ws ids scores,
  std_heap_ok HP -> (0 < k)%Z -> items <> [] ->
  topk_all_writes HP fmin items query (Z.to_nat k) norms fq fi = Ok ws ->
  Permutation ids (w_ids (writes_concat ws)) ->
  Permutation scores (w_scores (writes_concat ws)) ->
  topk HP fmin items query k norms fq fi = Ok (topk_output (length query) (Z.to_nat k) ids scores).
Proof.
  intros T HT HO HP fmin items query norms fq fi k ws ids scores HC Hk Hi E P1 P2.
  destruct (topk_any_schedule HP HC fmin items norms fq fi (Z.to_nat k) query ws ids scores) as [rs [F O]]; auto; [lia|].
  rewrite O. apply topk_ok; auto. exists rs. auto.
Qed.
Print Assumptions C02_any_schedule.

(** Reversing the stores of a three-row query. *)
Example C02_example_schedule :
  let items := [[1; 0]; [0; 1]; [5; 1]]%Z in
  let query := [[1; 2]; [3; -1]; [0; 1]]%Z in
  exists ws,
    topk_all_writes simple_heap (-1000)%Z items query 2 None None None = Ok ws /\
    length (w_ids (writes_concat ws)) = 6 /\
    topk_output 3 2 (rev (w_ids (writes_concat ws))) (rev (w_scores (writes_concat ws))) =
      ([[2; 1]; [2; 0]; [2; 1]], [[7; 2]; [14; 3]; [1; 1]]%Z).
Proof. eexists. vm_compute. repeat split. Qed.

(** A batch call is the scalar calls, whatever the options. *)
Theorem C02_recommend_batch_is_scalar :
  forall (T : Type) (HT : Num T) (HO : NumOrd T) (HP : std_heap) (fmin : T)
    (m : mf T) recalc us M N fl fi rc items I S,
  std_heap_ok HP -> us <> [] -> (0 < N)%Z -> item_factors m <> [] -> rowwise recalc ->
  recommend HP fmin m recalc (Batch us) (Csr M) N fl fi rc items = Ok (ManyRows I S) <->
  (fl || rc = true -> c_rows M = length us) /\ length I = length us /\ length S = length us /\
  forall g, g < length us ->
    recommend HP fmin m recalc (Scalar (nth g us 0%Z)) (Csr (csr_take_row M g)) N fl fi rc items =
      Ok (OneRow (nth g I []) (nth g S [])).
Proof. intros. apply recommend_batch; auto. Qed.
Print Assumptions C02_recommend_batch_is_scalar.

Definition ex_likes : csr Z := csr_of_rows 4 [[(2, 1%Z)]; [(0, 1%Z); (2, 1%Z)]].
Example C02_example_batch :
  recommend simple_heap (-1000)%Z ex_mf no_recalc (Batch [0; 1]%Z) (Csr ex_likes) 2 true None false None =
    Ok (ManyRows [[3; 1]; [3; 1]]%Z [[6; 2]; [4; -1]]%Z) /\
  recommend simple_heap (-1000)%Z ex_mf no_recalc (Scalar 1) (Csr (csr_take_row ex_likes 1)) 2 true None false None =
    Ok (OneRow [3; 1]%Z [4; -1]%Z) /\ rowwise (T:=Z) no_recalc.
Proof. split; [|split]; [vm_compute; reflexivity|vm_compute; reflexivity|apply no_recalc_rowwise]. Qed.

Theorem C02_similar_batch_is_scalar :
  forall (T : Type) (HT : Num T) (HO : NumOrd T) (HP : std_heap) (fmin : T)
    (factors : list (list T)) norms us N fi items I S,
  std_heap_ok HP -> us <> [] -> (0 < N)%Z ->
  similar HP fmin factors norms (Batch us) N fi items = Ok (ManyRows I S) <->
  length I = length us /\ length S = length us /\
  forall g, g < length us ->
    similar HP fmin factors norms (Scalar (nth g us 0%Z)) N fi items =
      Ok (OneRow (nth g I []) (nth g S [])).
Proof. intros. apply similar_batch; auto. Qed.
Print Assumptions C02_similar_batch_is_scalar.

Example C02_example_similar :
  similar simple_heap (-1000)%Z (item_factors ex_mf) [1; 1; 1; 2]%Z (Batch [0; 3]%Z) 2 None None =
    Ok (ManyRows [[2; 0]; [2; 3]]%Z [[5; 1]; [6; 2]]%Z) /\
  similar simple_heap (-1000)%Z (item_factors ex_mf) [1; 1; 1; 2]%Z (Scalar 3) 2 None None =
    Ok (OneRow [2; 3]%Z [6; 2]%Z).
Proof. vm_compute. auto. Qed.
