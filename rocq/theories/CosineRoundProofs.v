(** Cosine similarities in rounded arithmetic against the cosines. *)
From Coq Require Import List Arith Lia Bool ZArith Reals Lra Permutation Eqdep_dec.
From Verif Require Import Base Num Heap Sparse KnnModel KnnProofs WeightModel WeightProofs RVec TopkSpec PropKnn PropWeight SimilarProofs SimilarRound SimilarRoundProofs
  BlasProofs LossRoundProofs CosineRound.
Import ListNotations.

(* ---------- the fitted weights, over any numbers ---------- *)
Section Any.
Context {T : Type} `{Num T}.
Variable sqrtT : T -> T.

Lemma filter_flat {A B} (P : B -> bool) (f : A -> list B) l : filter P (flat_map f l) = flat_map (fun x => filter P (f x)) l.
Proof. induction l; simpl; auto. rewrite filter_app, IHl. auto. Qed.
Lemma flat_pick {C} (f : nat -> list C) u n : u < n -> (forall v, v < n -> v <> u -> f v = []) -> flat_map f (seq 0 n) = f u.
Proof.
  intros Hu E. assert (G : forall s m, (s <= u < s + m) -> (forall v, s <= v < s + m -> v <> u -> f v = []) -> flat_map f (seq s m) = f u).
  { intros s m. revert s. induction m as [|m IH]; intros s B E1; [lia|]. cbn [seq flat_map]. destruct (Nat.eq_dec s u) as [->|NE].
    - assert (N : flat_map f (seq (S u) m) = []).
      { assert (Q : forall l, (forall v, In v l -> f v = []) -> flat_map f l = []) by (induction l; simpl; auto; intros Z; rewrite Z, IHl; auto).
        apply Q. intros v Hv. apply in_seq in Hv. apply E1; lia. }
      rewrite N, app_nil_r. auto.
    - rewrite E1 by lia. simpl. apply IH; [lia|]. intros; apply E1; lia. }
  apply G; [lia|]. intros; apply E; lia.
Qed.
Lemma filter_empty {A} (P : A -> bool) l : (forall x, In x l -> P x = false) -> filter P l = [].
Proof. induction l; simpl; auto. intros E. rewrite E by auto. auto. Qed.

Definition picks (m : csr T) (u i : nat) : list (nat * T) := filter (fun p => fst p =? i) (csr_row m u).
(** The stored counts of an item. *)
Definition stored_col (m : csr T) (i : nat) : list T := flat_map (fun u => map snd (picks m u i)) (seq 0 (c_rows m)).
Definition col_norm (m : csr T) (i : nat) : T := sqrtT (nsum (map (fun x => nmul x x) (stored_col m i))).

Lemma row_norm_col m i : row_norm sqrtT (coo_T (coo_of_csr m)) i = col_norm m i.
Proof.
  unfold row_norm, col_norm. do 2 f_equal. unfold coo_T. cbn [o_entries]. rewrite swap_filter, map_map.
  unfold stored_col. rewrite map_flat. unfold coo_of_csr. cbn [o_entries]. rewrite filter_flat, map_flat. apply flat_map_ext. intros u.
  unfold picks. rewrite map_map. induction (csr_row m u) as [|p l IH]; auto. cbn [map filter]. unfold erow, ecol, eval_ in *. cbn [fst snd] in *.
  destruct (fst p =? i); cbn [map fst snd]; rewrite IH; auto.
Qed.

Definition fitted (m : csr T) : csr T :=
  let W := cosine_weights_by sqrtT m in coo_to_csr (o_rows W) (o_cols W) (o_entries W).
Lemma fitted_entries m : o_entries (cosine_weights_by sqrtT m) = map (fun e => (erow e, ecol e, ndiv (eval_ e) (col_norm m (ecol e)))) (o_entries (coo_of_csr m)).
Proof.
  unfold cosine_weights_by, normalize_by.
  assert (N : forall i, row_norm sqrtT (coo_T (coo_of_csr m)) i = col_norm m i) by (intros; apply row_norm_col).
  generalize dependent (row_norm sqrtT (coo_T (coo_of_csr m))). intros g N. unfold coo_T, set_data. cbn [o_entries]. rewrite !map_map.
  apply map_ext. intros [[u i] v]. unfold erow, ecol, eval_. cbn [fst snd]. rewrite N. auto.
Qed.
Lemma fitted_rows m : c_rows (fitted m) = c_rows m.
Proof. unfold fitted, coo_to_csr. cbn. rewrite map_length, seq_length. auto. Qed.
Lemma fitted_row m u : u < c_rows m -> csr_row (fitted m) u = coo_row (c_cols m) (o_entries (cosine_weights_by sqrtT m)) u.
Proof.
  intros Hr. unfold fitted, coo_to_csr. rewrite csr_row_of_rows. cbn [o_rows o_cols cosine_weights_by coo_T normalize_by set_data coo_of_csr].
  rewrite (nth_indep _ [] (coo_row (c_cols m) (o_entries (cosine_weights_by sqrtT m)) 0)) by (rewrite map_length, seq_length; auto).
  rewrite map_nth, seq_nth by auto. auto.
Qed.
Lemma entries_at m u i : u < c_rows m ->
  filter (fun e => (erow e =? u) && (ecol e =? i)) (o_entries (coo_of_csr m)) = map (fun p => (u, fst p, snd p)) (picks m u i).
Proof.
  intros Hu. unfold coo_of_csr. cbn [o_entries]. rewrite filter_flat. rewrite (flat_pick _ u); auto.
  2:{ intros v _ NE. apply filter_empty. intros x Hx. apply in_map_iff in Hx. destruct Hx as (p & <- & _). unfold erow. cbn [fst]. destruct (Nat.eqb_spec v u); [congruence|auto]. }
  unfold picks. induction (csr_row m u) as [|p l IH]; auto. cbn [map filter]. unfold erow at 1, ecol at 1. cbn [fst snd]. rewrite Nat.eqb_refl. cbn [andb].
  destruct (fst p =? i); cbn [map]; rewrite IH; auto.
Qed.
Lemma fitted_wf m : csr_wf m -> csr_wf (fitted m).
Proof.
  intros W. apply csr_of_rows_wf. intros r p Hr Hp. apply in_map_iff in Hr. destruct Hr as (x & <- & _).
  unfold coo_row in Hp. apply in_flat_map in Hp. destruct Hp as (c & Hc & Hp). apply in_seq in Hc. destruct (map snd _); [destruct Hp|]. destruct Hp as [<-|[]]. cbn. cbn in Hc. lia.
Qed.
Lemma fitted_picks m u i : csr_wf m -> NoDup (csr_row_indices m u) -> u < c_rows m ->
  picks (fitted m) u i = map (fun p => (i, ndiv (snd p) (col_norm m i))) (picks m u i).
Proof.
  intros W ND Hu. unfold picks at 1. rewrite fitted_row by auto. unfold coo_row. rewrite filter_flat.
  set (E := o_entries (cosine_weights_by sqrtT m)).
  assert (AT : forall c, map snd (filter (fun e => (fst (fst e) =? u) && (snd (fst e) =? c)) E) = map (fun p => ndiv (snd p) (col_norm m c)) (picks m u c)).
  { intros c. unfold E. rewrite fitted_entries.
    assert (G : forall l : list (nat * nat * T), map snd (filter (fun e => (fst (fst e) =? u) && (snd (fst e) =? c)) (map (fun e => (erow e, ecol e, ndiv (eval_ e) (col_norm m (ecol e)))) l)) =
       map (fun e => ndiv (eval_ e) (col_norm m c)) (filter (fun e => (erow e =? u) && (ecol e =? c)) l)).
    { induction l as [|e l IH]; auto. cbn [map filter fst snd]. destruct ((erow e =? u) && (ecol e =? c)) eqn:B; auto. cbn [map snd]. rewrite IH. f_equal.
      apply andb_true_iff in B. destruct B as [_ B]. apply Nat.eqb_eq in B. rewrite B. auto. }
    rewrite G, entries_at by auto. rewrite map_map. apply map_ext. intros p. reflexivity. }
  destruct (Nat.lt_ge_cases i (c_cols m)) as [Hi|Hi].
  - rewrite (flat_pick _ i); auto.
    + rewrite AT. destruct (nodup_filter_fst (csr_row m u) i ND) as [P|(v & P)]; unfold picks; rewrite P; cbn [map filter fst snd fold_left]; auto. rewrite Nat.eqb_refl. auto.
    + intros c _ NE. destruct (map snd _); auto. cbn [filter fst]. destruct (Nat.eqb_spec c i); [congruence|auto].
  - assert (P : picks m u i = []).
    { apply filter_empty. intros p Hp. apply Nat.eqb_neq. assert (fst p < c_cols m) by (apply (csr_row_indices_lt m u); auto; apply in_map; auto). lia. }
    rewrite P. cbn [map]. rewrite <- filter_flat. apply filter_empty. intros p Hp. apply in_flat_map in Hp. destruct Hp as (c & Hc & Hp). apply in_seq in Hc.
    destruct (map snd _); [destruct Hp|]. destruct Hp as [<-|[]]. cbn [fst]. apply Nat.eqb_neq. lia.
Qed.

(** The terms of a similarity: for every user with both items, the product of the two weights. *)
Definition both (m : csr T) (i j : nat) (u : nat) : list (T * T) :=
  match picks m u i, picks m u j with p :: _, q :: _ => [(snd p, snd q)] | _, _ => [] end.
Lemma fitted_terms m i j : csr_wf m -> (forall u, u < c_rows m -> NoDup (csr_row_indices m u)) ->
  spec_terms (fitted m) i j =
  map (fun pq => nmul (ndiv (snd pq) (col_norm m j)) (ndiv (fst pq) (col_norm m i))) (flat_map (both m i j) (seq 0 (c_rows m))).
Proof.
  intros W ND. unfold spec_terms. rewrite fitted_rows, map_flat.
  assert (G : forall l, (forall u, In u l -> u < c_rows m) ->
    flat_map (fun u => flat_map (fun p => map (fun q => nmul (snd q) (snd p)) (picks (fitted m) u j)) (picks (fitted m) u i)) l =
    flat_map (fun u => map (fun pq => nmul (ndiv (snd pq) (col_norm m j)) (ndiv (fst pq) (col_norm m i))) (both m i j u)) l).
  { induction l as [|u l IH]; intros B; auto. cbn [flat_map]. rewrite IH by (intros; apply B; right; auto). f_equal.
    assert (Hu : u < c_rows m) by (apply B; left; auto). rewrite !fitted_picks by auto. unfold both.
    destruct (nodup_filter_fst (csr_row m u) i (ND u Hu)) as [P|(v & P)]; unfold picks; rewrite P; cbn [map flat_map snd]; auto.
    rewrite app_nil_r. destruct (nodup_filter_fst (csr_row m u) j (ND u Hu)) as [P'|(v' & P')]; rewrite P'; cbn [map snd fst]; auto. }
  apply G. intros u Hu. apply in_seq in Hu. lia.
Qed.
Lemma both_swap m i j u : both m j i u = map (fun pq => (snd pq, fst pq)) (both m i j u).
Proof. unfold both. destruct (picks m u i), (picks m u j); auto. Qed.
Lemma fitted_cooc_sym m i j : csr_wf m -> (forall u, u < c_rows m -> NoDup (csr_row_indices m u)) -> (forall a b : T, nmul a b = nmul b a) ->
  spec_cooc (fitted m) i j = spec_cooc (fitted m) j i.
Proof.
  intros W ND C. unfold spec_cooc. f_equal. rewrite !fitted_terms by auto. rewrite !map_flat. apply flat_map_ext. intros u.
  rewrite (both_swap m i j), map_map. apply map_ext. intros pq. cbn [fst snd]. apply C.
Qed.
Lemma both_length m i j l : length (flat_map (both m i j) l) <= length (flat_map (fun u => map snd (picks m u i)) l).
Proof.
  induction l as [|u l IH]; auto. cbn [flat_map]. rewrite !app_length, map_length. unfold both at 1.
  destruct (picks m u i), (picks m u j); cbn [length]; lia.
Qed.
Lemma fitted_shares m i : csr_wf m -> (forall u, u < c_rows m -> NoDup (csr_row_indices m u)) -> shares_user (fitted m) i = shares_user m i.
Proof.
  intros W ND. unfold shares_user. rewrite fitted_rows. change (c_cols (fitted m)) with (c_cols m).
  assert (MI : forall u k, u < c_rows m -> memn k (csr_row_indices (fitted m) u) = memn k (csr_row_indices m u)).
  { intros u k Hu. apply eq_true_iff_eq. rewrite !memn_spec.
    assert (X : forall M : csr T, In k (csr_row_indices M u) <-> picks M u k <> []).
    { intros M. unfold picks, csr_row_indices. split.
      - intros Hk E. apply in_map_iff in Hk. destruct Hk as (p & <- & Hp). assert (Q : In p (filter (fun p0 => fst p0 =? fst p) (csr_row M u))) by (apply filter_In; split; auto; apply Nat.eqb_refl). rewrite E in Q. destruct Q.
      - intros NE. destruct (filter _ _) as [|p l] eqn:E; [congruence|]. assert (Q : In p (filter (fun p => fst p =? k) (csr_row M u))) by (rewrite E; left; auto).
        apply filter_In in Q. destruct Q as [Q1 Q2]. apply Nat.eqb_eq in Q2. apply in_map_iff. exists p. auto. }
    rewrite (X (fitted m)), (X m), fitted_picks by auto. destruct (picks m u k); cbn; split; congruence. }
  apply filter_ext. intros j. 
  assert (G : forall l, (forall u, In u l -> u < c_rows m) ->
     existsb (fun u => memn i (csr_row_indices (fitted m) u) && memn j (csr_row_indices (fitted m) u)) l =
     existsb (fun u => memn i (csr_row_indices m u) && memn j (csr_row_indices m u)) l).
  { induction l as [|u l IH]; intros B; auto. cbn [existsb]. rewrite IH by (intros; apply B; right; auto). rewrite !MI by (apply B; left; auto). auto. }
  apply G. intros u Hu. apply in_seq in Hu. lia.
Qed.
End Any.

Local Open Scope R_scope.
(* ---------- the numbers of a format ---------- *)
Section Fl.
Variables (rd : R -> R) (u : R).
Hypothesis FO : format rd u.
Notation NF := (Num_fl rd u FO).
Notation ND := (Num_rnd rd).
Lemma fl_eq (a b : fl rd) : val a = val b -> a = b.
Proof. destruct a as [a A], b as [b B]. cbn. intros <-. f_equal. apply UIP_dec. apply Req_EM_T. Qed.
Lemma NumOrd_fl : @NumOrd (fl rd) NF.
Proof.
  constructor; cbn; intros.
  - apply (@nltb_irrefl R Num_R NumOrd_R (val a)).
  - apply (@nltb_trans R Num_R NumOrd_R (val a) (val b) (val c)); auto.
  - apply (@nltb_cotrans R Num_R NumOrd_R (val a) (val b) (val c)); auto.
Qed.
Lemma fl_add_zero (x : fl rd) : @nadd _ NF x (@nzero _ NF) = x.
Proof. apply fl_eq. cbn. rewrite Rplus_0_r. apply (proj2_sig x). Qed.
Lemma fl_mul_comm (a b : fl rd) : @nmul _ NF a b = @nmul _ NF b a.
Proof. apply fl_eq. cbn. rewrite Rmult_comm. auto. Qed.
Lemma val_nsum l : val (@nsum _ NF l) = @nsum R ND (map val l).
Proof.
  unfold nsum. assert (G : forall s, val (fold_left (@nadd _ NF) l s) = fold_left (@nadd R ND) (map val l) (val s)); [|apply G].
  induction l as [|x l IH]; intros s; cbn [map fold_left]; auto. rewrite IH. reflexivity.
Qed.
Definition values (m : csr (fl rd)) : csr R :=
  {| c_rows := c_rows m; c_cols := c_cols m; c_indptr := c_indptr m; c_indices := c_indices m; c_data := map val (c_data m) |}.
Lemma values_row m k : csr_row (values m) k = map (fun p => (fst p, val (snd p))) (csr_row m k).
Proof.
  unfold csr_row, values. cbn [c_indptr c_indices c_data]. unfold slice. rewrite skipn_map, firstn_map.
  generalize (firstn (nth (S k) (c_indptr m) 0%nat - nth k (c_indptr m) 0%nat) (skipn (nth k (c_indptr m) 0%nat) (c_indices m))).
  generalize (firstn (nth (S k) (c_indptr m) 0%nat - nth k (c_indptr m) 0%nat) (skipn (nth k (c_indptr m) 0%nat) (c_data m))).
  intros l l'. revert l. induction l'; destruct l; simpl; auto. rewrite IHl'. auto.
Qed.
Lemma values_dense m k i : dense (values m) k i = rsum (map (fun p => val (snd p)) (picks m k i)).
Proof.
  unfold dense, picks. rewrite values_row. induction (csr_row m k) as [|p l IH]; auto. cbn [map filter fst snd]. destruct (fst p =? i)%nat; auto. cbn [map rsum snd]. rewrite IH. auto.
Qed.

Variable m : csr (fl rd).
Hypothesis WF : csr_wf m.
Hypothesis NDp : forall k, (k < c_rows m)%nat -> NoDup (csr_row_indices m k).
Notation norm i := (@col_norm _ NF (sqrt_fl rd u FO) m i).
Notation colv i := (map val (stored_col m i)).

Lemma norm_val i : val (norm i) = norm_rnd rd (colv i).
Proof.
  unfold col_norm, sqrt_fl, norm_rnd. cbn [val proj1_sig round]. do 2 f_equal. fold (@val rd). rewrite val_nsum, map_map. unfold ndot. f_equal.
  induction (stored_col m i) as [|x l IH]; auto. cbn [map combine]. rewrite IH. reflexivity.
Qed.
Lemma rsum_flat_seq {A} (f : A -> list R) l : rsum (flat_map f l) = rsum (map (fun x => rsum (f x)) l).
Proof. apply rsum_flat. Qed.
Lemma column_sq i : rdot (column (values m) i) (column (values m) i) = rdot (colv i) (colv i).
Proof.
  unfold column. rewrite rdot_map, rdot_map. unfold stored_col. rewrite map_flat, rsum_flat. cbn [values c_rows]. apply rsum_map_ext. intros k Hk. apply in_seq in Hk.
  rewrite values_dense. destruct (nodup_filter_fst (csr_row m k) i (NDp k ltac:(lia))) as [P|(v & P)]; unfold picks; rewrite P; cbn [map rsum snd]; lra.
Qed.
Lemma column_prod i j : rdot (column (values m) i) (column (values m) j) = rsum (map (fun pq => val (snd pq) * val (fst pq)) (flat_map (both m i j) (seq 0 (c_rows m)))).
Proof.
  unfold column. rewrite rdot_map, map_flat, rsum_flat. cbn [values c_rows]. apply rsum_map_ext. intros k Hk. apply in_seq in Hk.
  rewrite !values_dense. unfold both. destruct (nodup_filter_fst (csr_row m k) i (NDp k ltac:(lia))) as [P|(v & P)]; unfold picks; rewrite P; cbn [map rsum snd]; [lra|].
  destruct (nodup_filter_fst (csr_row m k) j (NDp k ltac:(lia))) as [P'|(v' & P')]; rewrite P'; cbn [map rsum snd fst]; lra.
Qed.
Lemma column_abs i j : rsum (map (fun pq => Rabs (val (snd pq)) * Rabs (val (fst pq))) (flat_map (both m i j) (seq 0 (c_rows m)))) <= rnorm (colv i) * rnorm (colv j).
Proof.
  pose proof (pabs_cs (column (values m) i) (column (values m) j)) as CS. unfold rnorm in *. rewrite !column_sq in CS.
  eapply Rle_trans; [|exact CS]. right. unfold pabs, column. cbn [values c_rows].
  assert (C2 : forall f g : nat -> R, forall l, combine (map f l) (map g l) = map (fun k => (f k, g k)) l) by (induction l; simpl; auto; rewrite IHl; auto).
  rewrite C2, map_map, map_flat, rsum_flat. apply rsum_map_ext. intros k Hk. apply in_seq in Hk. cbn [fst snd].
  rewrite !values_dense. unfold both. destruct (nodup_filter_fst (csr_row m k) i (NDp k ltac:(lia))) as [P|(v & P)]; unfold picks; rewrite P; cbn [map rsum snd].
  - rewrite Rmult_0_l, Rabs_R0. auto.
  - destruct (nodup_filter_fst (csr_row m k) j (NDp k ltac:(lia))) as [P'|(v' & P')]; rewrite P'; cbn [map rsum snd fst].
    + rewrite Rmult_0_r, Rabs_R0. auto.
    + rewrite !Rplus_0_r, Rabs_mult. lra.
Qed.

Notation h := (/ (1 - u)).
Let RD := fo_rel rd u FO.
Let UR := fo_unit rd u FO.
Lemma h1 : 1 + u <= h. Proof. apply (h_ge u UR). Qed.
Lemma hp k : 1 <= h ^ k. Proof. apply (hn_one u UR). Qed.
Lemma h_mono k l : (k <= l)%nat -> h ^ k <= h ^ l.
Proof. intros. apply Rle_pow; auto. pose proof h1. destruct UR. lra. Qed.

(** A weight: the count divided by the norm of the item. *)
Lemma weight_ap w i (c : fl rd) : (length (stored_col m i) <= w)%nat -> 0 < rnorm (colv i) ->
  ap (h ^ (w + 3)) (val c / rnorm (colv i)) (Rabs (val c) / rnorm (colv i)) (rd (val c / norm_rnd rd (colv i))).
Proof.
  intros LW NP. assert (NE := norm_err rd u RD UR (length (stored_col m i)) (colv i) (map_length _ _)).
  set (k := (length (stored_col m i) + 2)%nat) in *. set (N := norm_rnd rd (colv i)) in *. set (n := rnorm (colv i)) in *.
  pose proof (Qn_pos u UR k) as QP. pose proof (Qhn u UR k) as QH. pose proof (hp k) as HP.
  assert (N0 : 0 < N) by (assert (0 < (1 - u) ^ k * n) by (apply Rmult_lt_0_compat; auto); lra).
  assert (I1 : / N <= h ^ k * / n).
  { apply (Rmult_le_reg_r N); auto. rewrite Rinv_l by lra. apply (Rmult_le_reg_r n); auto. replace (h ^ k * / n * N * n) with (h ^ k * N) by (field; lra).
    assert (h ^ k * ((1 - u) ^ k * n) <= h ^ k * N) by (apply Rmult_le_compat_l; lra). rewrite <- Rmult_assoc, (Rmult_comm (h ^ k) ((1 - u) ^ k)), QH in H. lra. }
  assert (I2 : (1 - u) ^ k * / n <= / N).
  { apply (Rmult_le_reg_r N); auto. rewrite Rinv_l by lra. apply (Rmult_le_reg_r n); auto. replace ((1 - u) ^ k * / n * N * n) with ((1 - u) ^ k * N) by (field; lra).
    assert ((1 - u) ^ k * N <= (1 - u) ^ k * (h ^ k * n)) by (apply Rmult_le_compat_l; lra). rewrite <- Rmult_assoc, QH in H. lra. }
  assert (n0 : 0 < / n) by (apply Rinv_0_lt_compat; auto).
  assert (A : ap (h ^ k) (val c / n) (Rabs (val c) / n) (val c / N)).
  { repeat split; auto.
    - unfold Rdiv. rewrite Rabs_mult, (Rabs_right (/ n)) by lra. lra.
    - replace (val c / N - val c / n) with (val c * (/ N - / n)) by (unfold Rdiv; ring). rewrite Rabs_mult. replace ((h ^ k - 1) * (Rabs (val c) / n)) with (Rabs (val c) * ((h ^ k - 1) * / n)) by (unfold Rdiv; ring).
      apply Rmult_le_compat_l; [apply Rabs_pos|]. 
      assert (S2 : 2 <= h ^ k + (1 - u) ^ k) by nra.
      apply Rabs_le. split; [|lra]. assert ((1 - h ^ k) * / n <= ((1 - u) ^ k - 1) * / n) by (apply Rmult_le_compat_r; lra). lra. }
  eapply ap_mono; [apply (ap_rnd rd u RD (proj1 UR)); exact A|].
  apply Rle_trans with (h ^ k * h); [apply Rmult_le_compat_l; [lra|apply h1]|]. replace (h ^ k * h) with (h ^ S k) by (simpl; ring). apply h_mono. unfold k. lia.
Qed.

Theorem cosine_err w i j : (length (stored_col m i) <= w)%nat -> (length (stored_col m j) <= w)%nat -> 0 < rnorm (colv i) -> 0 < rnorm (colv j) ->
  Rabs (val (@spec_cooc _ NF (@fitted _ NF (sqrt_fl rd u FO) m) i j) - spec_cosine (values m) i j) <= h ^ (3 * w + 7) - 1.
Proof.
  intros Li Lj Pi Pj. unfold spec_cooc. rewrite (@fitted_terms _ NF _ m i j WF NDp). rewrite val_nsum, map_map.
  set (L := flat_map (both m i j) (seq 0 (c_rows m))).
  assert (LL : (length L <= w)%nat) by (eapply Nat.le_trans; [apply both_length|exact Li]).
  assert (A : apv (h ^ (w + 3) * h ^ (w + 3) * (1 + u)) (map (fun pq => val (snd pq) / rnorm (colv j) * (val (fst pq) / rnorm (colv i))) L)
     (map (fun pq => Rabs (val (snd pq)) / rnorm (colv j) * (Rabs (val (fst pq)) / rnorm (colv i))) L)
     (map (fun pq => val (@nmul _ NF (@ndiv _ NF (snd pq) (norm j)) (@ndiv _ NF (fst pq) (norm i)))) L)).
  { apply apv_map. intros pq _. cbn [nmul ndiv Num_fl]. cbn [val proj1_sig round]. fold (@val rd). rewrite !norm_val.
    apply (ap_mul rd u RD (proj1 UR)); apply weight_ap; auto. }
  assert (G1 : 1 <= h ^ (w + 3) * h ^ (w + 3) * (1 + u)).
  { pose proof (hp (w + 3)). destruct UR. assert (1 <= h ^ (w + 3) * h ^ (w + 3)) by nra. nra. }
  destruct (ap_nsum rd u RD (proj1 UR) _ _ _ _ G1 A) as (_ & _ & B).
  assert (V : rsum (map (fun pq => val (snd pq) / rnorm (colv j) * (val (fst pq) / rnorm (colv i))) L) = spec_cosine (values m) i j).
  { unfold spec_cosine. rewrite column_prod, !column_sq. fold L. fold (rnorm (colv i)) (rnorm (colv j)).
    rewrite (rsum_map_ext _ (fun pq => / (rnorm (colv i) * rnorm (colv j)) * (val (snd pq) * val (fst pq)))).
    - rewrite rsum_map_scale. unfold Rdiv. ring.
    - intros pq _. field. lra. }
  rewrite V in B.
  assert (M1 : rsum (map (fun pq => Rabs (val (snd pq)) / rnorm (colv j) * (Rabs (val (fst pq)) / rnorm (colv i))) L) <= 1).
  { rewrite (rsum_map_ext _ (fun pq => / (rnorm (colv i) * rnorm (colv j)) * (Rabs (val (snd pq)) * Rabs (val (fst pq))))).
    - rewrite rsum_map_scale. pose proof (column_abs i j) as C. fold L in C. assert (P : 0 < rnorm (colv i) * rnorm (colv j)) by (apply Rmult_lt_0_compat; auto).
      apply (Rmult_le_reg_l (rnorm (colv i) * rnorm (colv j))); auto. rewrite <- Rmult_assoc, Rinv_r by lra. lra.
    - intros pq _. field. lra. }
  set (g := h ^ (w + 3) * h ^ (w + 3) * (1 + u) * _) in *.
  assert (G2 : 1 <= g) by (unfold g; pose proof (pow_ge u (proj1 UR) (length (map (fun pq : fl rd * fl rd => val (snd pq) / rnorm (colv j) * (val (fst pq) / rnorm (colv i))) L))); nra).
  assert (G3 : g <= h ^ (3 * w + 7)).
  { unfold g. rewrite map_length. replace (3 * w + 7)%nat with ((w + 3) + (w + 3) + 1 + w)%nat by lia. rewrite !pow_add. rewrite pow_1.
    assert (E1 : (1 + u) ^ length L <= h ^ w).
    { apply Rle_trans with ((1 + u) ^ w); [apply (pow_mono u (proj1 UR)); auto|]. apply pow_incr. pose proof h1. destruct UR. lra. }
    rewrite <- !pow_add. pose proof (hp (w + 3 + (w + 3))). pose proof h1. pose proof (pow_ge u (proj1 UR) (length L)). destruct UR.
    apply Rmult_le_compat; auto; [|lra|]; [apply Rmult_le_pos; lra|]. apply Rmult_le_compat_l; lra. }
  eapply Rle_trans; [exact B|]. apply Rle_trans with ((g - 1) * 1); [apply Rmult_le_compat_l; lra|lra].
Qed.
End Fl.
