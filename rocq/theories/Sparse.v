(** scipy CSR matrices as the code sees them: the three arrays. *)
From Coq Require Import List Arith Lia Bool ZArith.
From Verif Require Import Base Num.
Import ListNotations.

Record csr (T : Type) : Type := {
  c_rows : nat;              (* shape[0] *)
  c_cols : nat;              (* shape[1] *)
  c_indptr : list nat;
  c_indices : list nat;
  c_data : list T
}.
Arguments c_rows {T}. Arguments c_cols {T}. Arguments c_indptr {T}.
Arguments c_indices {T}. Arguments c_data {T}.

Section Csr.
Context {T : Type}.

(** implicit/utils.py:9-12 [nonzeros]; the same loop
    [for index in range(indptr[u], indptr[u+1])] appears in every pyx file. *)
Definition csr_row (m : csr T) (u : nat) : list (nat * T) :=
  let s := nth u (c_indptr m) 0 in
  let e := nth (S u) (c_indptr m) 0 in
  combine (slice s e (c_indices m)) (slice s e (c_data m)).

(** [m[u].indices] *)
Definition csr_row_indices (m : csr T) (u : nat) : list nat := map fst (csr_row m u).

(** The whole matrix, row by row. *)
Definition csr_to_rows (m : csr T) : list (list (nat * T)) := map (csr_row m) (seq 0 (c_rows m)).

(** Building the three arrays from rows. *)
Fixpoint indptr_from (k : nat) (rows : list (list (nat * T))) : list nat :=
  match rows with [] => [k] | r :: rs => k :: indptr_from (k + length r) rs end.
Definition csr_of_rows (cols : nat) (rows : list (list (nat * T))) : csr T := {|
  c_rows := length rows; c_cols := cols;
  c_indptr := indptr_from 0 rows;
  c_indices := map fst (concat rows);
  c_data := map snd (concat rows) |}.

(** Well formed: what scipy's check_format guarantees. *)
Record csr_wf (m : csr T) : Prop := {
  wf_indptr_len : length (c_indptr m) = S (c_rows m);
  wf_indptr_mono : forall i j, i <= j -> j <= c_rows m ->
                     nth i (c_indptr m) 0 <= nth j (c_indptr m) 0;
  wf_indptr_last : nth (c_rows m) (c_indptr m) 0 <= length (c_indices m);
  wf_data_len : length (c_data m) = length (c_indices m);
  wf_cols : forall i, In i (c_indices m) -> i < c_cols m
}.

(** [m[i]] : the one-row matrix holding row [i]. *)
Definition csr_take_row (m : csr T) (i : nat) : csr T := csr_of_rows (c_cols m) [csr_row m i].

Lemma combine_fst_snd {A B} (l : list (A * B)) : combine (map fst l) (map snd l) = l.
Proof. induction l as [|[a b] l IH]; simpl; congruence. Qed.

Lemma slice_map {A B} (f : A -> B) s e l : slice s e (map f l) = map f (slice s e l).
Proof. unfold slice. rewrite skipn_map, firstn_map. auto. Qed.

Lemma indptr_from_nth k rows u :
  u <= length rows -> nth u (indptr_from k rows) 0 = k + length (concat (firstn u rows)).
Proof.
  revert k u; induction rows as [|r rs IH]; simpl; intros.
  - destruct u; simpl; lia.
  - destruct u; simpl; [lia|]. rewrite IH by lia. rewrite app_length. lia.
Qed.

Lemma slice_concat_row (rows : list (list (nat * T))) u :
  u < length rows ->
  slice (length (concat (firstn u rows))) (length (concat (firstn (S u) rows))) (concat rows)
  = nth u rows [].
Proof.
  revert u; induction rows as [|r rs IH]; intros u Hu; [simpl in Hu; lia|].
  destruct u.
  - simpl. unfold slice. simpl. rewrite app_nil_r, Nat.sub_0_r.
    rewrite firstn_app, Nat.sub_diag, firstn_all. simpl. apply app_nil_r.
  - simpl in Hu.
    replace (firstn (S u) (r :: rs)) with (r :: firstn u rs) by auto.
    replace (firstn (S (S u)) (r :: rs)) with (r :: firstn (S u) rs) by auto.
    simpl concat. rewrite !app_length. unfold slice.
    rewrite skipn_app.
    rewrite skipn_all2 by lia. simpl.
    replace (length r + length (concat (firstn u rs)) - length r)
      with (length (concat (firstn u rs))) by lia.
    specialize (IH u). unfold slice in IH. simpl firstn in IH at 1.
    simpl nth. rewrite <- IH by lia. f_equal. lia.
Qed.

(** Round trip: the arrays built from rows give back the rows. *)
Lemma csr_row_of_rows cols rows u :
  csr_row (csr_of_rows cols rows) u = nth u rows [].
Proof.
  unfold csr_row, csr_of_rows; cbn [c_indptr c_indices c_data].
  destruct (Nat.lt_ge_cases u (length rows)).
  - rewrite !indptr_from_nth by lia. simpl (0 + _).
    rewrite !slice_map, slice_concat_row by auto. apply combine_fst_snd.
  - rewrite (nth_overflow rows) by lia.
    assert (E : nth (S u) (indptr_from 0 rows) 0 = 0).
    { apply nth_overflow. assert (length (indptr_from 0 rows) = S (length rows)).
      { clear H. generalize 0. induction rows; simpl; intros; auto. }
      lia. }
    rewrite E. unfold slice. simpl. reflexivity.
Qed.

Lemma csr_take_row_row m i : csr_row (csr_take_row m i) 0 = csr_row m i.
Proof. unfold csr_take_row. rewrite csr_row_of_rows. auto. Qed.

Lemma csr_to_rows_of_rows cols rows : csr_to_rows (csr_of_rows cols rows) = rows.
Proof.
  unfold csr_to_rows. cbn [c_rows csr_of_rows].
  apply (list_ext _ _ []); rewrite map_length, seq_length; auto. intros i Hi.
  rewrite (nth_indep _ [] (csr_row (csr_of_rows cols rows) 0)) by (rewrite map_length, seq_length; auto).
  rewrite map_nth, seq_nth by auto. apply csr_row_of_rows.
Qed.

Lemma in_slice {A} s e (l : list A) x : In x (slice s e l) -> In x l.
Proof.
  unfold slice. intros. rewrite <- (firstn_skipn s l). apply in_or_app; right.
  rewrite <- (firstn_skipn (e - s) (skipn s l)). apply in_or_app; auto.
Qed.

Lemma csr_row_indices_lt m u i : csr_wf m -> In i (csr_row_indices m u) -> i < c_cols m.
Proof.
  intros W. unfold csr_row_indices, csr_row. intros Hin. apply in_map_iff in Hin.
  destruct Hin as [[a b] [E Hin]]. simpl in E; subst. apply in_combine_l in Hin.
  apply (wf_cols _ W). eapply in_slice; eauto.
Qed.

Lemma csr_of_rows_wf cols rows :
  (forall r p, In r rows -> In p r -> fst p < cols) -> csr_wf (csr_of_rows cols rows).
Proof.
  intros B.
  assert (L : length (indptr_from 0 rows) = S (length rows)).
  { clear B. generalize 0. induction rows; simpl; intros; auto. }
  constructor; cbn [c_indptr c_rows c_cols c_indices c_data csr_of_rows]; auto.
  - intros i j Hij Hj. rewrite !indptr_from_nth by lia. simpl.
    rewrite <- (firstn_skipn i (firstn j rows)). rewrite firstn_firstn, Nat.min_l by lia.
    rewrite concat_app, app_length. lia.
  - rewrite indptr_from_nth by lia. rewrite firstn_all, map_length. lia.
  - rewrite !map_length. auto.
  - intros i Hi. apply in_map_iff in Hi. destruct Hi as [p [<- Hp]].
    apply in_concat in Hp. destruct Hp as [r [Hr Hp]]. eauto.
Qed.
End Csr.
