(** More proofs about BprModel: the training matrix, one update run alone. *)
From Coq Require Import List Arith Lia Bool ZArith Permutation.
From Verif Require Import Base Num Heap Sparse ThreadProg BprModel BprProofs.
Import ListNotations.

Section Mat.
Context {T : Type} `{Num T}.

Lemma bpr_matrix_spec (o : bpr_opts (T := T)) M : csr_wf M -> csr_tight M ->
  let M' := bpr_matrix o M in
  csr_wf M' /\ csr_tight M' /\ c_rows M' = c_rows M /\ c_cols M' = c_cols M /\
  (forall u, u < c_rows M -> Permutation (csr_row M' u) (csr_row M u)) /\
  (b_verify o = true -> rows_sorted M').
Proof.
  intros W HT. unfold bpr_matrix. destruct (b_verify o) eqn:EV; simpl.
  - destruct (has_sorted_indices M) eqn:ES; simpl.
    + repeat split; auto; try apply W; try apply HT. intros _. apply has_sorted_rows_sorted; auto.
    + destruct (sort_indices_spec M W) as (W' & T' & S' & R' & C' & P'). repeat split; auto; try apply W'; try apply T'.
      intros _. apply has_sorted_rows_sorted; auto.
  - repeat split; auto; try apply W; try apply HT. discriminate.
Qed.

Lemma perm_in_row (M M' : csr T) u i : Permutation (csr_row M' u) (csr_row M u) -> In i (csr_row_indices M' u) <-> In i (csr_row_indices M u).
Proof. intros P. unfold csr_row_indices. split; apply Permutation_in; [|symmetry]; apply Permutation_map; auto. Qed.

Lemma has_non_zero_spec (M : csr T) u i : csr_wf M -> rows_sorted M -> u < c_rows M ->
  has_non_zero (c_indptr M) (c_indices M) u i = true <-> In i (csr_row_indices M u).
Proof.
  intros W HS Hu. unfold has_non_zero. rewrite in_row by auto. apply binary_search_spec; [|apply HS; auto].
  apply (wf_indptr_mono _ W); lia.
Qed.

Lemma bpr_matrix_nnz (o : bpr_opts (T := T)) M0 : csr_wf M0 -> csr_tight M0 -> length (c_indices (bpr_matrix o M0)) = length (c_indices M0).
Proof.
  intros W0 T0. unfold bpr_matrix. destruct (_ && _); auto. destruct T0 as [Z0 L0].
    cbn [sort_indices csr_of_rows c_indices]. rewrite map_length.
    assert (E : length (concat (map (sort_by (fun a b => fst b <? fst a)) (csr_to_rows M0))) = length (concat (csr_to_rows M0))).
    { generalize (csr_to_rows M0). induction l as [|r rs IH]; simpl; auto. rewrite !app_length, IH. f_equal. apply Permutation_length. apply sort_by_perm. }
    rewrite E.
    assert (G : forall k, k <= c_rows M0 -> length (concat (map (csr_row M0) (seq 0 k))) = nth k (c_indptr M0) 0).
    { induction k as [|k IH]; intros Hk; auto. rewrite seq_S, map_app, concat_app, app_length, IH by lia. simpl. rewrite app_nil_r.
      rewrite <- (map_length fst). change (map fst (csr_row M0 k)) with (csr_row_indices M0 k). rewrite row_indices_slice, slice_length by (auto; apply indptr_bound; auto).
      pose proof (wf_indptr_mono _ W0 k (S k) ltac:(lia) Hk). lia. }
    unfold csr_to_rows. rewrite G; auto.
Qed.

(** What the arrays say about a draw. *)
Lemma draw_spec (o : bpr_opts (T := T)) M0 dr : csr_wf M0 -> csr_tight M0 ->
  let M := bpr_matrix o M0 in
  fst dr < length (c_indices M0) -> snd dr < length (c_indices M0) ->
  let u := nth (fst dr) (row_ids (c_rows M) (c_indptr M)) 0 in
  let l := nth (fst dr) (c_indices M) 0 in let d := nth (snd dr) (c_indices M) 0 in
  u < c_rows M0 /\ In l (csr_row_indices M0 u) /\ (exists v, v < c_rows M0 /\ In d (csr_row_indices M0 v)) /\
  (b_verify o && has_non_zero (c_indptr M) (c_indices M) u d = false -> b_verify o = true -> ~ In d (csr_row_indices M0 u)).
Proof.
  intros W0 T0 M. destruct (bpr_matrix_spec o M0 W0 T0) as (W & HT & HR & HC & HP & HS). fold M in W, HT, HR, HC, HP, HS.
  pose proof (bpr_matrix_nnz o M0 W0 T0) as HN. fold M in HN.
  intros Hl Hd. rewrite <- HN in Hl, Hd.
  destruct (row_ids_spec M W HT (fst dr) Hl) as (Hu & Hpu). destruct (row_ids_spec M W HT (snd dr) Hd) as (Hv & Hpv).
  set (u := nth (fst dr) _ 0) in *. set (v := nth (snd dr) _ 0) in *. cbv zeta.
  rewrite HR in Hu, Hv. repeat split; auto.
  - apply (perm_in_row M0 M); auto. apply in_row; auto; [lia|]. eauto.
  - exists v. split; auto. apply (perm_in_row M0 M); auto. apply in_row; auto; [lia|]. eauto.
  - intros HB EV Hin. rewrite EV in HB. simpl in HB. apply (perm_in_row M0 M u) in Hin; auto.
    apply has_non_zero_spec in Hin; auto; [congruence|lia].
Qed.

Lemma user_counts_zero (M : csr T) u : csr_wf M -> u < c_rows M -> csr_row M u = [] -> nth u (user_counts (c_rows M) (c_indptr M)) 0 = 0.
Proof.
  intros W Hu E. unfold user_counts. rewrite nth_indep with (d' := (fun u => nth (S u) (c_indptr M) 0 - nth u (c_indptr M) 0) 0) by (rewrite map_length, seq_length; lia).
  rewrite (map_nth (fun u => nth (S u) (c_indptr M) 0 - nth u (c_indptr M) 0)), seq_nth by lia. simpl (0 + u).
  rewrite <- (slice_length (c_indices M)) by (apply indptr_bound; auto). rewrite <- row_indices_slice by auto.
  unfold csr_row_indices. rewrite E. auto.
Qed.

Lemma bincount_zero (M : csr T) i : csr_wf M -> csr_tight M -> i < c_cols M -> (forall u, u < c_rows M -> ~ In i (csr_row_indices M u)) ->
  nth i (bincount (c_cols M) (c_indices M)) 0 = 0.
Proof.
  intros W HT Hi HN. unfold bincount. rewrite nth_indep with (d' := (fun i => count_occ Nat.eq_dec (c_indices M) i) 0) by (rewrite map_length, seq_length; lia).
  rewrite (map_nth (fun i => count_occ Nat.eq_dec (c_indices M) i)), seq_nth by lia. simpl (0 + i).
  apply count_occ_not_In. intros Hin. apply (In_nth _ _ 0) in Hin. destruct Hin as (p & Hp & Ep).
  destruct (row_ids_spec M W HT p Hp) as (Hu & Hpu). apply (HN _ Hu). apply in_row; auto. eauto.
Qed.
End Mat.

(* ------------------------------------------------------------------ one update alone *)
Section Alone.
Context {T : Type} `{Num T}.
Notation mset := (mset cell_eqb).
Notation bmem := (bmem (T := T)).

Definition ustep (lr reg z : T) (u l d : nat) (m : bmem) (j : nat) : bmem :=
  let m1 := mset m (CX u j) (nadd (m (CX u j)) (nmul lr (nsub (nmul z (nsub (m (CY l j)) (m (CY d j)))) (nmul reg (m (CX u j)))))) in
  let m2 := mset m1 (CY l j) (nadd (m1 (CY l j)) (nmul lr (nsub (nmul z (m (CX u j))) (nmul reg (m1 (CY l j)))))) in
  mset m2 (CY d j) (nadd (m2 (CY d j)) (nmul lr (nsub (nmul (nopp z) (m (CX u j))) (nmul reg (m2 (CY d j)))))).
Definition bstep (lr reg z : T) (l d f : nat) (m : bmem) : bmem :=
  let m1 := mset m (CY l f) (nadd (m (CY l f)) (nmul lr (nsub z (nmul reg (m (CY l f)))))) in
  mset m1 (CY d f) (nadd (m1 (CY d f)) (nmul lr (nsub (nopp z) (nmul reg (m1 (CY d f)))))).

Lemma run_score u l d js score (k : T -> bprog) m :
  run_alone cell_eqb (score_loop u l d js score k) m =
  run_alone cell_eqb (k (fold_left (fun s j => nadd s (nmul (m (CX u j)) (nsub (m (CY l j)) (m (CY d j))))) js score)) m.
Proof. revert score. induction js; intros; simpl; auto. Qed.
Lemma run_update lr reg z u l d js (k : bprog) m :
  run_alone cell_eqb (update_loop lr reg z u l d js k) m = run_alone cell_eqb k (fold_left (ustep lr reg z u l d) js m).
Proof. revert m. induction js as [|j js IH]; intros; [reflexivity|]. cbn [update_loop run_alone fold_left]. rewrite IH. reflexivity. Qed.
Lemma run_bias lr reg z l d f (k : bprog) m :
  run_alone cell_eqb (bias_update lr reg z l d f k) m = run_alone cell_eqb k (bstep lr reg z l d f m).
Proof. reflexivity. Qed.

(** The values after the update, for distinct items. *)
Definition newX (lr reg z : T) (m : bmem) u l d j := nadd (m (CX u j)) (nmul lr (nsub (nmul z (nsub (m (CY l j)) (m (CY d j)))) (nmul reg (m (CX u j))))).
Definition newL (lr reg z : T) (m : bmem) u l j := nadd (m (CY l j)) (nmul lr (nsub (nmul z (m (CX u j))) (nmul reg (m (CY l j))))).
Definition newD (lr reg z : T) (m : bmem) u d j := nadd (m (CY d j)) (nmul lr (nsub (nmul (nopp z) (m (CX u j))) (nmul reg (m (CY d j))))).

Ltac neqs := repeat (first [rewrite mset_eq | rewrite mset_neq by congruence]).

Lemma ustep_other lr reg z u l d m j c : c <> CX u j -> c <> CY l j -> c <> CY d j -> ustep lr reg z u l d m j c = m c.
Proof. intros. unfold ustep. cbv zeta. neqs. auto. Qed.

Lemma fold_ustep lr reg z u l d js : NoDup js -> l <> d -> forall m,
  let m' := fold_left (ustep lr reg z u l d) js m in
  (forall j, In j js -> m' (CX u j) = newX lr reg z m u l d j /\ m' (CY l j) = newL lr reg z m u l j /\ m' (CY d j) = newD lr reg z m u d j) /\
  (forall c, (forall j, In j js -> c <> CX u j /\ c <> CY l j /\ c <> CY d j) -> m' c = m c).
Proof.
  intros ND Hld. induction ND as [|j js Hj ND IH]; intros m; cbv zeta.
  - simpl. split; [contradiction|auto].
  - cbn [fold_left]. destruct (IH (ustep lr reg z u l d m j)) as [I1 I2]. split.
    + intros j' [<-|Hj'].
      * assert (N : forall j', In j' js -> j <> j') by (intros; congruence).
        assert (Hn : forall c, c = CX u j \/ c = CY l j \/ c = CY d j -> forall j', In j' js -> c <> CX u j' /\ c <> CY l j' /\ c <> CY d j').
        { intros c Hc j' Hj'. specialize (N _ Hj'). destruct Hc as [-> | [-> | ->]]; repeat split; congruence. }
        rewrite (I2 (CX u j)) by auto. rewrite (I2 (CY l j)) by auto. rewrite (I2 (CY d j)) by auto.
        unfold ustep. cbv zeta. repeat split; neqs; reflexivity.
      * assert (N : j <> j') by congruence. destruct (I1 j' Hj') as (E1 & E2 & E3).
        rewrite E1, E2, E3. unfold newX, newL, newD. rewrite !(ustep_other lr reg z u l d m j) by congruence. auto.
    + intros c Hc. rewrite I2 by (intros; apply Hc; simpl; auto). destruct (Hc j (or_introl eq_refl)) as (? & ? & ?). apply ustep_other; auto.
Qed.

(** The whole sample. *)
Definition score_of (m : bmem) (f u l d : nat) : T :=
  fold_left (fun s j => nadd s (nmul (m (CX u j)) (nsub (m (CY l j)) (m (CY d j))))) (seq 0 (S f)) nzero.

Lemma sample_alone (o : bpr_opts) userids itemids indptr dr m m' cs ev :
  let u := nth (fst dr) userids 0 in let l := nth (fst dr) itemids 0 in let d := nth (snd dr) itemids 0 in let f := b_factors o in
  let z := ndiv none_ (nadd none_ (b_exp o (score_of m f u l d))) in
  run_alone cell_eqb (bpr_thread o userids itemids indptr [dr] 0 0) m = (m', cs, ev) ->
  (b_verify o && has_non_zero indptr itemids u d = true /\ m' = m /\ cs = (0, 1) /\ ev = []) \/
  (b_verify o && has_non_zero indptr itemids u d = false /\ cs = (if nltb z half then 1 else 0, 0) /\ ev = [(u, l, d)] /\
   m' = bstep (b_lr o) (b_reg o) z l d f (fold_left (ustep (b_lr o) (b_reg o) z u l d) (seq 0 f) m)).
Proof.
  cbv zeta. cbn [bpr_thread]. unfold bpr_sample. cbv zeta.
  destruct (b_verify o && _) eqn:EV.
  - cbn [run_alone]. intros HE; injection HE as <- <- <-. left. auto.
  - cbn [run_alone]. rewrite run_score. cbv zeta. rewrite run_update, run_bias. fold (score_of m (b_factors o) (nth (fst dr) userids 0) (nth (fst dr) itemids 0) (nth (snd dr) itemids 0)).
    destruct (nltb _ half); cbn [run_alone]; intros HE; injection HE as <- <- <-; right; auto.
Qed.

Lemma sample_values lr reg z u l d f m : l <> d ->
  let m' := bstep lr reg z l d f (fold_left (ustep lr reg z u l d) (seq 0 f) m) in
  (forall j, j < f -> m' (CX u j) = newX lr reg z m u l d j /\ m' (CY l j) = newL lr reg z m u l j /\ m' (CY d j) = newD lr reg z m u d j) /\
  m' (CY l f) = nadd (m (CY l f)) (nmul lr (nsub z (nmul reg (m (CY l f))))) /\
  m' (CY d f) = nadd (m (CY d f)) (nmul lr (nsub (nopp z) (nmul reg (m (CY d f))))) /\
  (forall c, (forall j, j < f -> c <> CX u j) -> (forall j, j <= f -> c <> CY l j /\ c <> CY d j) -> m' c = m c).
Proof.
  intros Hld. destruct (fold_ustep lr reg z u l d (seq 0 f) (seq_NoDup _ _) Hld m) as [F1 F2]. cbv zeta in *.
  set (m1 := fold_left _ _ m) in *.
  assert (EL : m1 (CY l f) = m (CY l f)) by (apply F2; intros j Hj; apply in_seq in Hj; repeat split; try congruence; intros E; injection E; lia).
  assert (ED : m1 (CY d f) = m (CY d f)) by (apply F2; intros j Hj; apply in_seq in Hj; repeat split; try congruence; intros E; injection E; lia).
  unfold bstep. cbv zeta. split; [|split; [|split]].
  - intros j Hj. rewrite !mset_neq by (try congruence; intros E; injection E; lia). apply F1. apply in_seq. lia.
  - neqs. rewrite EL. auto.
  - neqs. rewrite ED. auto.
  - intros c Hc1 Hc2. destruct (Hc2 f (le_n _)) as [N1 N2]. rewrite !mset_neq by congruence. apply F2. intros j Hj. apply in_seq in Hj.
    destruct (Hc2 j ltac:(lia)). repeat split; auto. apply Hc1. lia.
Qed.

(** The same item twice: only the user changes. *)
Lemma sample_same lr reg z u l f m :
  let m' := bstep lr reg z l l f (fold_left (ustep lr reg z u l l) (seq 0 f) m) in
  forall v j, v <> u \/ f <= j -> m' (CX v j) = m (CX v j).
Proof.
  intros m' v j Hv. unfold m', bstep. cbv zeta. rewrite !mset_neq by congruence.
  assert (G : forall js m, Forall (fun i => i < f) js -> fold_left (ustep lr reg z u l l) js m (CX v j) = m (CX v j)).
  { induction js as [|i js IH]; intros m0 HF; auto. inversion HF; subst. cbn [fold_left]. rewrite IH by auto. apply ustep_other; try congruence. intros E; injection E; lia. }
  apply G. apply Forall_forall. intros i Hi. apply in_seq in Hi. lia.
Qed.
End Alone.
