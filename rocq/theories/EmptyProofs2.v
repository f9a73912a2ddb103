(** Users and items without entries in BPR and LMF training. *)
From Coq Require Import List Arith Lia Bool ZArith FunctionalExtensionality.
From Verif Require Import Base Num Heap Sparse TopkModel RecommendModel AlsModel AlsProofs2 ThreadProg BprModel BprProofs BprProofs2 LmfModel LmfProofs StorageProofs EmptyProofs.
Import ListNotations.

Section Arrays.
Context {T : Type}.

Lemma to_rows_more k (M M' : csr T) : more_rows k M M' -> csr_to_rows M' = csr_to_rows M ++ repeat [] k.
Proof.
  intros (ER & ES & EE). unfold csr_to_rows. rewrite ER, seq_app, map_app. simpl plus. f_equal.
  - apply map_ext_in. intros u Hu. apply in_seq in Hu. apply ES. lia.
  - assert (G : forall s n, (forall u, s <= u < s + n -> csr_row M' u = []) -> map (csr_row M') (seq s n) = repeat [] n).
    { intros s n. revert s. induction n as [|n IH]; intros s0 HG; simpl; auto. rewrite HG by lia. f_equal. apply IH. intros u Hu. apply HG. lia. }
    apply G. auto.
Qed.
Lemma of_rows_tight cols (rows : list (list (nat * T))) : csr_tight (csr_of_rows cols rows).
Proof.
  unfold csr_tight, csr_of_rows. cbn [c_rows c_indptr c_indices]. rewrite !indptr_from_nth by lia. simpl. split; auto. rewrite firstn_all, map_length. auto.
Qed.
Lemma of_to_rows (M : csr T) : csr_wf M -> csr_tight M -> csr_of_rows (c_cols M) (csr_to_rows M) = M.
Proof.
  intros W TM. apply csr_ext; auto.
  - apply csr_of_rows_wf. intros r p Hr Hp. unfold csr_to_rows in Hr. apply in_map_iff in Hr. destruct Hr as (u & <- & _).
    apply (csr_row_indices_lt M u); auto. apply in_map; auto.
  - apply of_rows_tight.
  - simpl. unfold csr_to_rows. rewrite map_length, seq_length. auto.
  - intros u Hu. rewrite csr_row_of_rows. unfold csr_to_rows. apply seq_nth_map; auto.
Qed.

(** The arrays of the larger matrix. *)
Lemma concat_nils (rows : list (list (nat * T))) k : concat (rows ++ repeat [] k) = concat rows.
Proof. rewrite concat_app. replace (concat (repeat [] k)) with (@nil (nat * T)); [apply app_nil_r|]. induction k; simpl; auto. Qed.
Lemma more_arrays k (M M' : csr T) : csr_wf M -> csr_tight M -> csr_wf M' -> csr_tight M' -> more_rows k M M' ->
  c_indices M' = c_indices M /\ c_data M' = c_data M /\
  (forall u, u <= c_rows M -> nth u (c_indptr M') 0 = nth u (c_indptr M) 0) /\
  (forall u, c_rows M <= u <= c_rows M + k -> nth u (c_indptr M') 0 = length (c_indices M)).
Proof.
  intros W TM W' TM' HM. assert (ER : length (csr_to_rows M) = c_rows M) by (unfold csr_to_rows; rewrite map_length, seq_length; auto).
  pose proof (of_to_rows M' W' TM') as EM'. rewrite (to_rows_more k M M' HM) in EM'. pose proof (of_to_rows M W TM) as EM.
  assert (I1 : c_indices M = map fst (concat (csr_to_rows M))) by (rewrite <- EM at 1; auto).
  assert (I2 : c_data M = map snd (concat (csr_to_rows M))) by (rewrite <- EM at 1; auto).
  assert (I3 : c_indptr M = indptr_from 0 (csr_to_rows M)) by (rewrite <- EM at 1; auto).
  assert (J1 : c_indices M' = map fst (concat (csr_to_rows M ++ repeat [] k))) by (rewrite <- EM' at 1; auto).
  assert (J2 : c_data M' = map snd (concat (csr_to_rows M ++ repeat [] k))) by (rewrite <- EM' at 1; auto).
  assert (J3 : c_indptr M' = indptr_from 0 (csr_to_rows M ++ repeat [] k)) by (rewrite <- EM' at 1; auto).
  rewrite concat_nils in J1, J2. rewrite I1, I2, I3, J1, J2, J3. split; auto. split; auto. split.
  - intros u Hu. rewrite !indptr_from_nth by (rewrite ?app_length; lia). f_equal. f_equal. f_equal. rewrite firstn_app.
    replace (u - length (csr_to_rows M)) with 0 by lia. simpl. apply app_nil_r.
  - intros u Hu. rewrite indptr_from_nth by (rewrite app_length, repeat_length; lia). simpl plus. rewrite firstn_app, firstn_all2 by lia.
    rewrite concat_app. assert (EZ : concat (firstn (u - length (csr_to_rows M)) (repeat (@nil (nat * T)) k)) = []).
    { generalize (u - length (csr_to_rows M)) as n. clear. intros n. revert k. induction n as [|n IH]; intros [|k]; simpl; auto. }
    rewrite EZ, app_nil_r, map_length. auto.
Qed.
Lemma counts_more k (M M' : csr T) u : csr_wf M -> csr_tight M -> csr_wf M' -> csr_tight M' -> more_rows k M M' ->
  nth u (user_counts (c_rows M') (c_indptr M')) 0 = nth u (user_counts (c_rows M) (c_indptr M)) 0.
Proof.
  intros W TM W' TM' HM. destruct (more_arrays k M M' W TM W' TM' HM) as (_ & _ & A1 & A2). destruct HM as (ER & _ & _). unfold user_counts.
  destruct (le_lt_dec (c_rows M) u) as [Hu|Hu].
  - rewrite (nth_overflow (map _ (seq 0 (c_rows M)))) by (rewrite map_length, seq_length; lia).
    destruct (le_lt_dec (c_rows M') u) as [Hu'|Hu']; [apply nth_overflow; rewrite map_length, seq_length; lia|].
    rewrite seq_nth_map by auto. rewrite !A2 by lia. lia.
  - rewrite !seq_nth_map by lia. rewrite !A1 by lia. auto.
Qed.
Lemma row_ids_more k (M M' : csr T) : csr_wf M -> csr_tight M -> csr_wf M' -> csr_tight M' -> more_rows k M M' ->
  row_ids (c_rows M') (c_indptr M') = row_ids (c_rows M) (c_indptr M).
Proof.
  intros W TM W' TM' HM. pose proof (fun u => counts_more k M M' u W TM W' TM' HM) as CM. unfold row_ids.
  destruct HM as (ER & _ & _). replace (seq 0 (c_rows M')) with (seq 0 (c_rows M) ++ seq (c_rows M) k) by (rewrite ER, seq_app; auto). rewrite flat_map_app.
  match goal with |- _ = ?r => rewrite <- (app_nil_r r) end. f_equal.
  - apply KnnProofs.flat_map_ext_in. intros u Hu. rewrite CM. auto.
  - assert (G : forall l, (forall u, In u l -> c_rows M <= u) -> flat_map (fun u => repeat u (nth u (user_counts (c_rows M') (c_indptr M')) 0)) l = []).
    { induction l as [|u l IH]; intros HL; simpl; auto. rewrite CM. unfold user_counts at 1.
      rewrite nth_overflow by (rewrite map_length, seq_length; apply HL; left; auto). simpl. apply IH. intros; apply HL; right; auto. }
    apply G. intros u Hu. apply in_seq in Hu. lia.
Qed.
Lemma bincount_more j cols (l : list nat) i : (forall x, In x l -> x < cols) -> nth i (bincount (cols + j) l) 0 = nth i (bincount cols l) 0.
Proof.
  intros B. unfold bincount. destruct (le_lt_dec cols i) as [Hi|Hi].
  - rewrite (nth_overflow (map _ (seq 0 cols))) by (rewrite map_length, seq_length; lia).
    destruct (le_lt_dec (cols + j) i) as [Hi'|Hi']; [apply nth_overflow; rewrite map_length, seq_length; lia|].
    rewrite seq_nth_map by auto. apply count_occ_not_In. intros X. specialize (B i X). lia.
  - rewrite !seq_nth_map by lia. auto.
Qed.
Lemma sorted_more k (M M' : csr T) : more_rows k M M' -> has_sorted_indices M' = has_sorted_indices M.
Proof.
  intros HM. unfold has_sorted_indices. rewrite (to_rows_more k M M' HM), forallb_app.
  replace (forallb row_sorted (repeat (@nil (nat * T)) k)) with true; [apply andb_true_r|]. clear. induction k; simpl; auto.
Qed.
Lemma sort_more k j (M M' : csr T) : enlarged k j M M' -> enlarged k j (sort_indices M) (sort_indices M').
Proof.
  intros (HM & EC). unfold sort_indices. rewrite (to_rows_more k M M' HM). unfold enlarged, more_rows. cbn [csr_of_rows c_rows c_cols].
  rewrite !map_length, app_length, repeat_length. split; [|auto]. split; auto. rewrite map_app.
  assert (EN : map (sort_by (fun a b : nat * T => fst b <? fst a)) (repeat [] k) = repeat [] k) by (clear; induction k; simpl; f_equal; auto).
  rewrite EN. split; intros u Hu; rewrite !csr_row_of_rows.
  - rewrite app_nth1; auto. rewrite map_length. auto.
  - rewrite app_nth2 by (rewrite map_length; lia). apply nth_repeat.
Qed.
End Arrays.

(* ------------------------------------------------------------------ BPR *)
Section BprMore.
Context {T : Type} `{Num T}.
Variables (k j : nat) (M M' : csr T).
Hypotheses (W : csr_wf M) (TM : csr_tight M) (W' : csr_wf M') (TM' : csr_tight M') (HE : enlarged k j M M').

Lemma bpr_thread_more (o : bpr_opts) : forall ds c s, (forall dr, In dr ds -> fst dr < length (c_indices M) /\ snd dr < length (c_indices M)) ->
  bpr_thread o (row_ids (c_rows M) (c_indptr M)) (c_indices M) (c_indptr M') ds c s =
  bpr_thread o (row_ids (c_rows M) (c_indptr M)) (c_indices M) (c_indptr M) ds c s.
Proof.
  destruct HE as [HM _]. destruct (more_arrays k M M' W TM W' TM' HM) as (_ & _ & A1 & _).
  induction ds as [|dr ds IH]; intros c s B; cbn [bpr_thread]; auto. unfold bpr_sample.
  assert (E0 : has_non_zero (c_indptr M') (c_indices M) (nth (fst dr) (row_ids (c_rows M) (c_indptr M)) 0) (nth (snd dr) (c_indices M) 0) =
               has_non_zero (c_indptr M) (c_indices M) (nth (fst dr) (row_ids (c_rows M) (c_indptr M)) 0) (nth (snd dr) (c_indices M) 0)).
  { unfold has_non_zero. destruct (row_ids_spec M W TM (fst dr)) as (Hu & _); [apply B; left; auto|]. rewrite !A1 by lia. auto. }
  rewrite E0. assert (EK : forall c s, bpr_thread o (row_ids (c_rows M) (c_indptr M)) (c_indices M) (c_indptr M') ds c s =
    bpr_thread o (row_ids (c_rows M) (c_indptr M)) (c_indices M) (c_indptr M) ds c s) by (intros; apply IH; intros; apply B; right; auto).
  destruct (b_verify o && _); [apply EK|]. do 2 f_equal. apply functional_extensionality. intros score. do 2 f_equal. apply EK.
Qed.
Lemma bpr_epochs_more (o : bpr_opts) : forall inputs e m,
  (forall i, In i inputs -> forall ds, In ds (fst i) -> forall dr, In dr ds -> fst dr < length (c_indices M) /\ snd dr < length (c_indices M)) ->
  bpr_epochs o M' inputs e m = bpr_epochs o M inputs e m.
Proof.
  destruct HE as [HM _]. destruct (more_arrays k M M' W TM W' TM' HM) as (EI & _ & _ & _).
  induction inputs as [|[draws sched] inputs IH]; intros e m B; cbn [bpr_epochs]; auto. unfold bpr_update.
  rewrite (row_ids_more k M M' W TM W' TM' HM), EI.
  rewrite (map_ext_in _ (fun ds => bpr_thread o (row_ids (c_rows M) (c_indptr M)) (c_indices M) (c_indptr M) ds 0 0)).
  2:{ intros ds Hds. apply bpr_thread_more. intros dr Hdr. apply (B (draws, sched) (or_introl eq_refl) ds Hds dr Hdr). }
  destruct (interleave _ _ _ _) as [[m' ps] log]. destruct (results ps); auto. rewrite IH; auto. intros i Hi. apply B. right; auto.
Qed.
Lemma bpr_init_more f rx ry rx' ry' : (forall u i, u < c_rows M -> rx' u i = rx u i) -> (forall i l, i < c_cols M -> ry' i l = ry i l) ->
  bpr_init f M' rx' ry' = bpr_init f M rx ry.
Proof.
  intros RX RY. destruct HE as [HM EC]. destruct (more_arrays k M M' W TM W' TM' HM) as (EI & _ & _ & _).
  apply functional_extensionality. intros [u i|i l]; unfold bpr_init.
  - rewrite (counts_more k M M' u W TM W' TM' HM). destruct (i =? f); auto. destruct (Nat.eqb_spec (nth u (user_counts (c_rows M) (c_indptr M)) 0) 0) as [|N]; auto.
    apply RX. destruct (le_lt_dec (c_rows M) u); auto. exfalso. apply N. apply nth_overflow. unfold user_counts. rewrite map_length, seq_length. auto.
  - rewrite EI, EC, bincount_more by apply W. destruct (Nat.eqb_spec (nth i (bincount (c_cols M) (c_indices M)) 0) 0) as [|N]; auto.
    apply RY. destruct (le_lt_dec (c_cols M) i); auto. exfalso. apply N. apply nth_overflow. unfold bincount. rewrite map_length, seq_length. auto.
Qed.
End BprMore.
Lemma bpr_matrix_more {T} k j (M M' : csr T) (o : bpr_opts (T := T)) : enlarged k j M M' -> enlarged k j (bpr_matrix o M) (bpr_matrix o M').
Proof.
  intros HE. unfold bpr_matrix. rewrite (sorted_more k M M') by apply HE. destruct (_ && _); auto. apply sort_more; auto.
Qed.
Lemma bpr_fit_more {T} `{Num T} k j (M M' : csr T) (o : bpr_opts) rx ry rx' ry' inputs :
  csr_wf M -> csr_tight M -> csr_wf M' -> csr_tight M' -> enlarged k j M M' ->
  (forall u i, u < c_rows M -> rx' u i = rx u i) -> (forall i l, i < c_cols M -> ry' i l = ry i l) ->
  (forall i, In i inputs -> forall ds, In ds (fst i) -> forall dr, In dr ds -> fst dr < length (c_indices M) /\ snd dr < length (c_indices M)) ->
  bpr_fit o M' rx' ry' inputs = bpr_fit o M rx ry inputs.
Proof.
  intros W TM W' TM' HE RX RY B. unfold bpr_fit. pose proof (bpr_matrix_more k j M M' o HE) as HE'.
  destruct (bpr_matrix_spec o M W TM) as (W1 & T1 & R1 & C1 & _). destruct (bpr_matrix_spec o M' W' TM') as (W2 & T2 & _).
  rewrite (bpr_init_more k j (bpr_matrix o M) (bpr_matrix o M') W1 T1 W2 T2 HE' (b_factors o) rx ry rx' ry'); try (rewrite ?R1, ?C1; auto).
  apply (bpr_epochs_more k j); auto. rewrite bpr_matrix_nnz; auto.
Qed.

(* ------------------------------------------------------------------ LMF *)
Section LmfMore.
Context {T : Type} `{Num T}.
Variable o : lmf_opts (T := T).
Variables (k : nat) (M M' : csr T).
Hypotheses (W : csr_wf M) (TM : csr_tight M) (W' : csr_wf M') (TM' : csr_tight M') (HM : more_rows k M M').

(** The rows of one thread that exist in the smaller matrix. *)
Definition known (r : nat) (us : list nat) : list nat := filter (fun u => u <? r) us.
Lemma lmf_thread_more stream : forall us pos, (forall u, In u us -> u < c_rows M') ->
  lmf_thread o M' stream us pos = lmf_thread o M stream (known (c_rows M) us) pos.
Proof.
  destruct (more_arrays k M M' W TM W' TM' HM) as (EI & _ & A1 & A2). destruct HM as (ER & ES & EE).
  induction us as [|u us IH]; intros pos B; cbn [lmf_thread known filter]; auto.
  assert (Hu : u < c_rows M') by (apply B; left; auto). assert (IH' : forall p, lmf_thread o M' stream us p = lmf_thread o M stream (known (c_rows M) us) p) by (intros; apply IH; intros; apply B; right; auto).
  destruct (Nat.ltb_spec u (c_rows M)) as [L|L].
  - cbn [lmf_thread]. rewrite !A1, ES, EI by lia. destruct (_ =? _); [apply IH'|].
    f_equal. apply functional_extensionality. intros d1. f_equal. apply functional_extensionality. intros d2. f_equal. apply functional_extensionality. intros d3. f_equal. apply IH'.
  - rewrite !A2 by lia. rewrite Nat.eqb_refl. apply IH'.
Qed.
Definition deal_known (r : nat) (deal : list (list nat * (nat -> nat))) : list (list nat * (nat -> nat)) := map (fun d => (known r (fst d), snd d)) deal.
Lemma lmf_update_more deal sched U V D : (forall d, In d deal -> forall u, In u (fst d) -> u < c_rows M') ->
  lmf_update o M' deal sched U V D = lmf_update o M (deal_known (c_rows M) deal) sched U V D.
Proof.
  intros B. unfold lmf_update, lmf_threads, deal_known. rewrite map_map. cbn [fst snd].
  rewrite (map_ext_in _ (fun d => lmf_thread o M (snd d) (known (c_rows M) (fst d)) 0)); auto.
  intros d Hd. apply lmf_thread_more. apply B; auto.
Qed.
End LmfMore.
Section LmfFit.
Context {T : Type} `{Num T}.
Variable o : lmf_opts (T := T).
Variables (k j : nat) (M M' : csr T).
Hypotheses (W : csr_wf M) (TM : csr_tight M) (W' : csr_wf M') (TM' : csr_tight M') (HE : enlarged k j M M').
Definition input_known (r c : nat) (i : epoch_input) : epoch_input :=
  ((deal_known r (fst (fst i)), snd (fst i)), (deal_known c (fst (snd i)), snd (snd i))).
Lemma lmf_epochs_more f C C' D D' : csr_wf C -> csr_tight C -> csr_wf C' -> csr_tight C' -> more_rows k C C' ->
  csr_wf D -> csr_tight D -> csr_wf D' -> csr_tight D' -> more_rows j D D' -> forall inputs e X Y DX DY,
  (forall i, In i inputs -> (forall d, In d (fst (fst i)) -> forall u, In u (fst d) -> u < c_rows C') /\
                            (forall d, In d (fst (snd i)) -> forall u, In u (fst d) -> u < c_rows D')) ->
  lmf_epochs o f C' D' inputs e X Y DX DY = lmf_epochs o f C D (map (input_known (c_rows C) (c_rows D)) inputs) e X Y DX DY.
Proof.
  intros W1 T1 W2 T2 M1 W3 T3 W4 T4 M2. induction inputs as [|[[d1 s1] [d2 s2]] inputs IH]; intros e X Y DX DY B; cbn [lmf_epochs map input_known fst snd]; auto.
  destruct (B _ (or_introl eq_refl)) as [B1 B2]. cbn [fst snd] in B1, B2.
  rewrite (lmf_update_more o k C C') by auto. destruct (lmf_update o C _ s1 X Y DX) as [[[X1 DX1] l1]|]; auto.
  rewrite (lmf_update_more o j D D') by auto. destruct (lmf_update o D _ s2 Y _ DY) as [[[Y1 DY1] l2]|]; auto.
  rewrite IH; auto. intros i Hi. apply B. right; auto.
Qed.
Lemma lmf_matrix_more {U} a b (C C' : csr U) : enlarged a b C C' -> enlarged a b (lmf_matrix C) (lmf_matrix C').
Proof.
  intros E. unfold lmf_matrix. rewrite (sorted_more a C C') by apply E. destruct (has_sorted_indices C); auto. apply sort_more; auto.
Qed.
Lemma lmf_fit_more f rx ry rx' ry' inputs :
  (forall u i, u < c_rows M -> rx' u i = rx u i) -> (forall i l, i < c_cols M -> ry' i l = ry i l) ->
  (forall i, In i inputs -> (forall d, In d (fst (fst i)) -> forall u, In u (fst d) -> u < c_rows M') /\
                            (forall d, In d (fst (snd i)) -> forall u, In u (fst d) -> u < c_cols M')) ->
  lmf_fit o f M' None None rx' ry' inputs = lmf_fit o f M None None rx ry (map (input_known (c_rows M) (c_cols M)) inputs).
Proof.
  intros RX RY B. unfold lmf_fit. cbv zeta.
  pose proof (lmf_matrix_more k j M M' HE) as HL.
  assert (HT : enlarged j k (transpose M) (transpose M')) by (split; [apply (transpose_more k j); auto|destruct HE as [(ER & _) _]; exact ER]).
  pose proof (lmf_matrix_more j k (transpose M) (transpose M') HT) as HTL.
  destruct (transpose_wf M) as [WT TT]. destruct (transpose_wf M') as [WT' TT'].
  destruct (lmf_matrix_spec M W TM) as (W1 & T1 & R1 & C1 & _). destruct (lmf_matrix_spec M' W' TM') as (W2 & T2 & R2 & C2 & _).
  destruct (lmf_matrix_spec _ WT TT) as (W3 & T3 & R3 & C3 & _). destruct (lmf_matrix_spec _ WT' TT') as (W4 & T4 & R4 & C4 & _).
  destruct (more_arrays k _ _ W1 T1 W2 T2 (proj1 HL)) as (EI & _ & _ & _).
  assert (EY : lmf_init_items f (lmf_matrix M') ry' = lmf_init_items f (lmf_matrix M) ry).
  { apply functional_extensionality. intros i. apply functional_extensionality. intros l. unfold lmf_init_items, set_col.
    rewrite EI, (proj2 HL), bincount_more by apply W1. rewrite C1.
    destruct (Nat.eqb_spec (nth i (bincount (c_cols M) (c_indices (lmf_matrix M))) 0) 0) as [|N]; auto.
    destruct (l =? S f); auto. apply RY. destruct (le_lt_dec (c_cols M) i); auto. exfalso. apply N. apply nth_overflow. unfold bincount. rewrite map_length, seq_length. auto. }
  assert (EX : lmf_init_users f (lmf_matrix M') rx' = lmf_init_users f (lmf_matrix M) rx).
  { apply functional_extensionality. intros u. apply functional_extensionality. intros l. unfold lmf_init_users, set_col.
    rewrite (counts_more k _ _ u W1 T1 W2 T2 (proj1 HL)). rewrite R1.
    destruct (Nat.eqb_spec (nth u (user_counts (c_rows M) (c_indptr (lmf_matrix M))) 0) 0) as [|N]; auto.
    destruct (l =? f); auto. apply RX. destruct (le_lt_dec (c_rows M) u); auto. exfalso. apply N. apply nth_overflow. unfold user_counts. rewrite map_length, seq_length. auto. }
  rewrite EX, EY. rewrite (lmf_epochs_more f (lmf_matrix M) (lmf_matrix M') (lmf_matrix (transpose M)) (lmf_matrix (transpose M'))); auto; try apply HL; try apply HTL.
  - rewrite R1, R3, transpose_rows. auto.
  - intros i Hi. rewrite R2, R4, transpose_rows. auto.
Qed.
End LmfFit.
