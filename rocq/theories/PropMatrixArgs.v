(** C120 to C122: what training and queries do with the matrix they are given. *)
From Coq Require Import List Arith Lia Bool ZArith Reals Lra Permutation Sorted.
From Verif Require Import Base Num Heap Sparse TopkModel TopkSpec RVec RecommendModel BprModel LmfModel KnnModel WeightModel WeightProofs
  BprProofs StorageProofs PropKnn PropWeight MatrixArgs.
Import ListNotations.

(* ------------------------------------------------------------------ C120 *)
(** Full statement: fit leaves the matrix it is given as it was:
      forall t m, fst (prepare t m) = m.
    False: the index arrays are sorted in place. *)
Theorem C120_refuted :
  exists (t : trainer) (m : smat Z), csr_wf (s_csr m) /\
    csr_row (s_csr m) 0 = [(1%nat, 5); (0%nat, 7)]%Z /\ csr_row (s_csr (fst (prepare t m))) 0 = [(0%nat, 7); (1%nat, 5)]%Z.
Proof.
  exists Lmf, {| s_fmt := FCsr; s_val := NF32; s_csr := csr_of_rows 2 [[(1%nat, 5); (0%nat, 7)]]%Z |}.
  split; [|split; vm_compute; reflexivity].
  apply csr_of_rows_wf. intros r p [<-|[]] Hp. simpl in Hp. destruct Hp as [<-|[<-|[]]]; simpl; lia.
Qed.
Print Assumptions C120_refuted.

(** Rows in increasing order of their columns; the trainers that rely on it. *)
Definition in_order {T} (m : csr T) : Prop := forall u, u < c_rows m -> StronglySorted le (csr_row_indices m u).
Definition sorts (t : trainer) : Prop := t <> BprCpu false /\ t <> BprGpu false.

Lemma sorted_indices {T} (m : csr T) : has_sorted_indices m = true <-> in_order m.
Proof.
  unfold has_sorted_indices, in_order, csr_to_rows. rewrite forallb_forall. split.
  - intros A u Hu. specialize (A (csr_row m u) ltac:(apply in_map; apply in_seq; lia)). clear Hu.
    unfold csr_row_indices. induction (csr_row m u) as [|e r IH]; simpl; constructor.
    + apply IH. unfold row_sorted in *. destruct r; auto. simpl in A |- *. apply andb_true_iff in A. apply A.
    + clear IH. revert e A. induction r as [|f r IH]; intros e A; simpl; constructor.
      * unfold row_sorted in A. simpl in A. apply andb_true_iff in A. apply Nat.leb_le. apply A.
      * assert (B : row_sorted (f :: r) = true /\ fst e <= fst f).
        { unfold row_sorted in A |- *. simpl in A |- *. apply andb_true_iff in A. split; [apply A|apply Nat.leb_le; apply A]. }
        destruct B as [B L]. specialize (IH f B). eapply Forall_impl; [|exact IH]. intros; lia.
  - intros A r Hr. apply in_map_iff in Hr. destruct Hr as (u & <- & Hu). apply in_seq in Hu. specialize (A u ltac:(lia)).
    apply sorted_row_sorted. unfold csr_row_indices in A. induction (csr_row m u) as [|e r IH]; constructor; inversion A; subst; auto.
    rewrite Forall_forall in *. intros x Hx. apply Nat.ltb_ge. match goal with H : forall _, In _ (map fst r) -> _ |- _ => apply H end. apply in_map; auto.
Qed.
Lemma reordered_refl {T} (m : csr T) : reordered m m.
Proof. repeat split; auto. Qed.

(** What holds: the matrix still is of the same format and type and has the same entries, in
    the same rows; it is the very same unless it is a float32 csr matrix with unsorted indices
    and the model sorts.  The matrix used for training is a float32 csr matrix with the same
    entries, and with sorted rows if the model relies on it. *)
Theorem C120_partial : forall {T} `{Num T} (t : trainer) (m : smat T), csr_wf (s_csr m) ->
  let '(m', used) := prepare t m in
  s_fmt m' = s_fmt m /\ s_val m' = s_val m /\ reordered (s_csr m) (s_csr m') /\
  (s_fmt m <> FCsr \/ s_val m <> NF32 \/ in_order (s_csr m) \/ ~ sorts t -> m' = m) /\
  s_fmt used = FCsr /\ s_val used = NF32 /\ reordered (s_csr m) (s_csr used) /\ (sorts t -> in_order (s_csr used)).
Proof.
  intros T NT t m W. destruct (sort_indices_spec (s_csr m) W) as (_ & _ & SI & R1 & R2 & R3).
  assert (RS : reordered (s_csr m) (sort_indices (s_csr m))) by (split; auto).
  destruct m as [f v M]. cbn [s_csr s_fmt s_val] in *.
  destruct (has_sorted_indices M) eqn:HS; destruct f, v as [b| |]; destruct t as [[]|[]|];
    unfold prepare, check_csr, to_float32, sort_if_needed, deref; cbn [s_fmt s_val s_csr ntype_eqb]; rewrite ?HS;
    cbn [s_fmt s_val s_csr deref];
    repeat split; auto using reordered_refl; try (apply RS); try (intros [A B]; congruence);
    try (intros _; apply sorted_indices; auto; fail);
    try (intros [A|[A|[A|A]]]; try congruence; [apply sorted_indices in A; congruence|exfalso; apply A; split; congruence]).
Qed.
Print Assumptions C120_partial.
Example C120_example :
  let m := {| s_fmt := FCoo; s_val := NInt 64; s_csr := csr_of_rows 2 [[(1%nat, 5); (0%nat, 7)]]%Z |} in
  prepare (BprCpu true) m = (m, {| s_fmt := FCsr; s_val := NF32; s_csr := csr_of_rows 2 [[(0%nat, 7); (1%nat, 5)]]%Z |}).
Proof. vm_compute. reflexivity. Qed.

(* ------------------------------------------------------------------ C121 *)
(** Full statement: the type in which the counts are stored does not matter to an item-item
    model: forall v m ..., recommend with the counts as [v] = recommend with them as float64.
    False for integers, of any width. *)
Definition stored_as {T} (v : ntype) (M : csr T) : smat T := {| s_fmt := FCsr; s_val := v; s_csr := M |}.
Theorem C121_refuted : forall w,
  exists (sim M : csr Z), csr_wf M /\
    ii_recommend_typed simple_heap (-1000)%Z (-999)%Z sim (acc_new 3) (Scalar 0) (stored_as NF64 M) 2 false None None = Ok (OneRow [1; 0] [12; 8], acc_new 3)%Z /\
    ii_recommend_typed simple_heap (-1000)%Z (-999)%Z sim (acc_new 3) (Scalar 0) (stored_as (NInt w) M) 2 false None None = Raise TypeError.
Proof.
  intros w. exists ex_sim, (csr_of_rows 3 [[(0%nat, 1); (1%nat, 2)]]%Z). split; [|split; vm_compute; reflexivity].
  apply csr_of_rows_wf. intros r p [<-|[]] Hp. simpl in Hp. destruct Hp as [<-|[<-|[]]]; simpl; lia.
Qed.
Print Assumptions C121_refuted.
(** Likewise the similarity of the plain item-item model can be trained on float64 only. *)
Theorem C121_fit_refuted : forall HP K M v, v <> NF64 -> ii_fit_typed HP K (stored_as v M) = Raise ValueError.
Proof. intros HP K M v Hv. unfold ii_fit_typed, buffer. destruct v; cbn; auto. congruence. Qed.
Print Assumptions C121_fit_refuted.

(** What holds: both floating types are taken alike, and every other type is refused, not
    misread: no answer differs from the one for float64. *)
Theorem C121_partial : forall {T} `{Num T} HP fmin fmin32 (sim : csr T) a ids (M : csr T) N fl fi its,
  ii_recommend_typed HP fmin fmin32 sim a ids (stored_as NF64 M) N fl fi its = ii_recommend HP fmin fmin32 sim a ids (Csr M) N fl fi its /\
  ii_recommend_typed HP fmin fmin32 sim a ids (stored_as NF32 M) N fl fi its = ii_recommend HP fmin fmin32 sim a ids (Csr M) N fl fi its /\
  forall v r, ii_recommend_typed HP fmin fmin32 sim a ids (stored_as v M) N fl fi its = Ok r ->
              ii_recommend HP fmin fmin32 sim a ids (Csr M) N fl fi its = Ok r.
Proof.
  intros. unfold ii_recommend_typed, stored_as. cbn [s_fmt s_val s_csr fused_floating bind].
  destruct (ii_recommend HP fmin fmin32 sim a ids (Csr M) N fl fi its) as [x|e]; cbn [bind].
  - repeat split; try (destruct ids as [|[]]; reflexivity). intros v r. destruct ids as [|[]], v; cbn; congruence.
  - repeat split; auto. 
Qed.
Print Assumptions C121_partial.

(* ------------------------------------------------------------------ C122 *)
Local Open Scope R_scope.
(** The counts as real numbers. *)
Definition real_counts (m : csr Z) : csr R :=
  {| c_rows := c_rows m; c_cols := c_cols m; c_indptr := c_indptr m; c_indices := c_indices m; c_data := map IZR (c_data m) |}.
Lemma real_row m u : csr_row (real_counts m) u = map (fun p => (fst p, IZR (snd p))) (csr_row m u).
Proof.
  unfold csr_row, real_counts. cbn [c_indptr c_indices c_data]. rewrite slice_map.
  generalize (slice (nth u (c_indptr m) 0%nat) (nth (S u) (c_indptr m) 0%nat) (c_indices m)).
  generalize (slice (nth u (c_indptr m) 0%nat) (nth (S u) (c_indptr m) 0%nat) (c_data m)).
  intros l l'. revert l. induction l'; intros [|x l]; simpl; auto. f_equal; auto.
Qed.
Definition real_entry (e : nat * nat * Z) : nat * nat * R := (erow e, ecol e, IZR (eval_ e)).
Lemma real_coo m : o_entries (coo_of_csr (real_counts m)) = map real_entry (o_entries (coo_of_csr m)).
Proof.
  unfold coo_of_csr. cbn [o_entries c_rows real_counts]. induction (seq 0 (c_rows m)) as [|u l IH]; simpl; auto.
  rewrite map_app, <- IH. f_equal. rewrite real_row, !map_map. auto.
Qed.
Lemma real_items m : o_entries (coo_T (coo_of_csr (real_counts m))) = map real_entry (o_entries (coo_T (coo_of_csr m))).
Proof. unfold coo_T. cbn [o_entries]. rewrite real_coo, !map_map. auto. Qed.

Lemma wrap_id w z : (- 2 ^ (Z.of_nat w - 1) <= z < 2 ^ (Z.of_nat w - 1))%Z -> wrap w z = z.
Proof. intros H. unfold wrap. cbv zeta. rewrite Z.mod_small by lia. lia. Qed.
Lemma rsum_nonneg l : (forall x, In x l -> 0 <= x) -> 0 <= rsum l.
Proof. induction l as [|x l IH]; simpl; intros A; [lra|]. pose proof (A x (or_introl eq_refl)). assert (0 <= rsum l) by auto. lra. Qed.

(** Full statement: training the cosine model on integers is training it on the same numbers
    as reals: forall w counts, (counts fit into w bits) ->
      cosine_fit_int HP K w counts = cosine_fit HP K (real_counts counts).
    It holds if the squares fit too. *)
Theorem C122_partial : forall HP K w (counts : csr Z),
  (forall v, In v (c_data counts) -> (v * v < 2 ^ (Z.of_nat w - 1))%Z) ->
  cosine_fit_int HP K w counts = cosine_fit HP K (real_counts counts).
Proof.
  intros HP K w counts SQ. unfold cosine_fit_int, cosine_fit. f_equal. unfold cosine_weights_int, cosine_weights. f_equal. f_equal.
  unfold normalize_int, normalize, set_data. f_equal. rewrite real_items.
  set (E := o_entries (coo_T (coo_of_csr counts))).
  assert (IN : forall e, In e E -> (eval_ e * eval_ e < 2 ^ (Z.of_nat w - 1))%Z).
  { intros e He. apply SQ. unfold E, coo_T in He. cbn [o_entries] in He. apply in_map_iff in He. destruct He as (e' & <- & He).
    unfold coo_of_csr in He. cbn [o_entries] in He. apply in_flat_map in He. destruct He as (u & _ & He). apply in_map_iff in He. destruct He as (p & <- & He).
    unfold eval_. cbn [snd]. unfold csr_row in He. destruct p as [c v]. apply in_combine_r in He. eapply in_slice; eauto. }
  rewrite map_map. apply map_ext_in. intros e He. unfold real_entry at 1 2 3. unfold erow at 1, ecol at 1. cbn [fst snd]. f_equal.
  assert (RT : rsum (map (fun e' => IZR (wrap w (eval_ e' * eval_ e'))) (filter (fun e' => (erow e' =? erow e)%nat) E)) =
               row_total (fun x => x * x) (coo_T (coo_of_csr (real_counts counts))) (erow (real_entry e))).
  { unfold row_total. rewrite real_items. fold E. change (erow (real_entry e)) with (erow e).
    assert (G : forall l, incl l E -> rsum (map (fun e' => IZR (wrap w (eval_ e' * eval_ e'))) (filter (fun e' => (erow e' =? erow e)%nat) l)) =
                 rsum (map (fun e0 : nat * nat * R => eval_ e0 * eval_ e0) (filter (fun e0 : nat * nat * R => (erow e0 =? erow e)%nat) (map real_entry l)))).
    { induction l as [|x l IH]; intros Hl; auto. cbn [map filter]. change (erow (real_entry x)) with (erow x).
      specialize (IH (fun y Hy => Hl y (or_intror Hy))). destruct (erow x =? erow e)%nat; auto. cbn [map rsum].
      rewrite IH. f_equal. rewrite wrap_id. { rewrite mult_IZR. auto. }
      pose proof (IN x (Hl x (or_introl eq_refl))). pose proof (Z.square_nonneg (eval_ x)). lia. }
    apply G. apply incl_refl. }
  rewrite RT. unfold fsqrt. destruct (Rlt_dec _ 0) as [L|_]; auto.
  exfalso. apply (Rlt_irrefl 0). eapply Rle_lt_trans; [|exact L]. apply rsum_nonneg. intros x Hx. apply in_map_iff in Hx. destruct Hx as (y & <- & _). nra.
Qed.
Print Assumptions C122_partial.

(** Otherwise not.  8 bit integers, one user with 23 for two items: 23 * 23 wraps around to 17,
    and the similarity of an item with itself is 529/17, not 1.  With 12 instead of 23 (a square
    that wraps to a negative number) all weights are NaN. *)
Definition wrapped : csr Z := csr_of_rows 2 [[(0%nat, 23%Z); (1%nat, 23%Z)]].
Definition q : R := 23 / sqrt 17.
Definition wrapped_w : coo R := {| o_rows := 1; o_cols := 2; o_entries := [(0%nat, 0%nat, q); (0%nat, 1%nat, q)] |}.
Lemma wrapped_weights : cosine_weights_int 8 wrapped = Some wrapped_w.
Proof.
  unfold cosine_weights_int, normalize_int.
  rewrite (finite_some _ _ (fun _ => q)).
  - reflexivity.
  - intros e He.
    assert (E : rsum (map (fun e' => IZR (wrap 8 (eval_ e' * eval_ e'))) (filter (fun e' => (erow e' =? erow e)%nat) (o_entries (coo_T (coo_of_csr wrapped))))) = 17 /\ eval_ e = 23%Z).
    { cbn in He. destruct He as [<-|[<-|[]]]; (split; [|reflexivity]); cbn; lra. }
    destruct E as [-> ->]. unfold fsqrt. destruct (Rlt_dec 17 0) as [L|_]; [lra|]. apply fdiv_some.
    pose proof (sqrt_lt_R0 17). lra.
Qed.
Theorem C122_refuted :
  exists (w : nat) (counts : csr Z),
    (forall v, In v (c_data counts) -> (- 2 ^ (Z.of_nat w - 1) <= v < 2 ^ (Z.of_nat w - 1))%Z) /\
    forall HP K, std_heap_ok HP -> (2 <= K)%nat ->
      exists S, cosine_fit_int HP K w counts = Some (Ok S) /\ exists v, In (1%nat, v) (csr_row S 1) /\ v > 31.
Proof.
  exists 8%nat, wrapped. split.
  { intros v Hv. cbn in Hv. destruct Hv as [<-|[<-|[]]]; cbn; lia. }
  intros HP K HC HK. unfold cosine_fit_int. rewrite wrapped_weights. cbn [fit_weighted].
  set (M := coo_to_csr _ _ _).
  destruct (C15_exact R Num_R NumOrd_R HP M K HC (coo_to_csr_wf _ _ _) ltac:(lia) Rplus_0_r) as (S & E & _ & _ & _ & RW).
  exists S. split; [rewrite E; auto|].
  destruct (RW 1%nat (le_n 2)) as (ids & sc & TN & extra & EX & _ & RI).
  assert (SH : shares_user M 1 = [0; 1]%nat) by (cbn; reflexivity).
  rewrite SH in TN. cbn [length] in TN. rewrite Nat.min_r in TN by lia.
  assert (IN : In 1%nat ids).
  { pose proof (topn_nodup _ _ _ _ _ TN) as ND. pose proof (topn_length _ _ _ _ _ TN) as L. pose proof (topn_incl _ _ _ _ _ TN) as I.
    apply (NoDup_length_incl (l' := [0; 1]%nat) ND); [rewrite L; simpl; lia|exact I|simpl; auto]. }
  exists (spec_cooc M 1 1). split; [apply RI; left; auto|].
  rewrite C15_gram. cbn. unfold q.
  assert (P : sqrt 17 * sqrt 17 = 17) by (apply sqrt_sqrt; lra). assert (Q : 0 < sqrt 17) by (apply sqrt_lt_R0; lra).
  replace (_ + _) with (529 / (sqrt 17 * sqrt 17)) by (field; lra). rewrite P. lra.
Qed.
Print Assumptions C122_refuted.
Theorem C122_nan_refuted :
  exists (w : nat) (counts : csr Z),
    (forall v, In v (c_data counts) -> (0 < v < 2 ^ (Z.of_nat w - 1))%Z) /\ cosine_weights_int w counts = None /\
    exists W, cosine_weights (real_counts counts) = Some W.
Proof.
  exists 8%nat, (csr_of_rows 1 [[(0%nat, 12%Z)]]). split; [|split].
  - intros v Hv. cbn in Hv. destruct Hv as [<-|[]]; cbn; lia.
  - unfold cosine_weights_int, normalize_int, set_data. cbn. unfold fsqrt. destruct (Rlt_dec _ 0) as [_|N]; [reflexivity|lra].
  - eexists. unfold cosine_weights, normalize. rewrite (finite_some _ _ (fun e => eval_ e / sqrt 144)); [reflexivity|].
    intros e He. cbn in He. destruct He as [<-|[]]. cbn. replace (12 * 12 + 0) with 144 by lra. apply fdiv_some. pose proof (sqrt_lt_R0 144). lra.
Qed.
Print Assumptions C122_nan_refuted.
Example C122_example : forall v, In v (c_data (csr_of_rows 2 [[(0%nat, 11%Z); (1%nat, (-3)%Z)]])) -> (v * v < 2 ^ (Z.of_nat 8 - 1))%Z.
Proof. intros v Hv. cbn in Hv. destruct Hv as [<-|[<-|[]]]; cbn; lia. Qed.
