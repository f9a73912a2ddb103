(** How samples are drawn: property C146 of properties.jsonl. *)
From Coq Require Import List Arith Lia Bool ZArith QArith Permutation.
From Verif Require Import Base Num Sparse ThreadProg BprModel BprProofs BprProofs2 PropBpr LmfModel LmfProofs PropLmf.
Import ListNotations.
Local Open Scope nat_scope.

Section Threads.
Context {Cell Val Event A : Type} (eqb : Cell -> Cell -> bool).
(** Whatever it reads, the program emits the events [es] and returns something in [Q]. *)
Fixpoint emits (p : @prog Cell Val Event A) (es : list Event) (Q : A -> Prop) : Prop :=
  match p with
  | Ret a => es = [] /\ Q a
  | Rd _ k => forall v, emits (k v) es Q
  | Wr _ _ k => emits k es Q
  | Ev e k => exists es', es = e :: es' /\ emits k es' Q
  end.
Lemma interleave_emits sched : forall m ps log m' ps' log' (EQ : list (list Event * (A -> Prop))),
  Forall2 (fun q p => emits p (fst q) (snd q)) EQ ps -> fold_left (tstep eqb) sched (m, ps, log) = (m', ps', log') ->
  exists EQ', Forall2 (fun q p => emits p (fst q) (snd q)) EQ' ps' /\ map snd EQ' = map snd EQ /\
    Permutation (log' ++ concat (map fst EQ')) (log ++ concat (map fst EQ)).
Proof.
  induction sched as [|t sched IH]; intros m ps log m' ps' log' EQ F HE.
  - simpl in HE. injection HE as -> -> ->. exists EQ. auto.
  - cbn [fold_left] in HE. unfold tstep at 2 in HE. destruct (nth_error ps t) as [p|] eqn:Ep; [|eapply IH; eauto].
    assert (HQ : exists q, nth_error EQ t = Some q /\ emits p (fst q) (snd q)).
    { clear -F Ep. revert t Ep. induction F; intros [|t] Ep; simpl in *; try discriminate; eauto. injection Ep as ->. eauto. }
    destruct HQ as ((es & Q) & Eq & Hp). cbn [fst snd] in Hp.
    assert (HU : forall es1 es' p', emits p' es' Q -> es = es1 ++ es' ->
      Forall2 (fun q p => emits p (fst q) (snd q)) (upd t (es', Q) EQ) (upd t p' ps) /\ map snd (upd t (es', Q) EQ) = map snd EQ /\
      Permutation ((log ++ es1) ++ concat (map fst (upd t (es', Q) EQ))) (log ++ concat (map fst EQ))).
    { intros es1 es' p' Hp' ->. clear HE Hp. rewrite <- app_assoc. split; [|split].
      - clear -F Eq Hp'. revert t Eq. induction F; intros [|t] Eq; simpl in *; try discriminate; constructor; eauto.
      - clear -Eq. revert t Eq. induction EQ as [|q EQ IH]; intros [|t] Eq; simpl in *; try discriminate; [injection Eq as ->; auto|f_equal; auto].
      - apply Permutation_app_head. clear -Eq. revert t Eq. induction EQ as [|q EQ IH]; intros [|t] Eq; simpl in *; try discriminate.
        + injection Eq as ->. simpl. rewrite <- app_assoc. apply Permutation_refl.
        + specialize (IH t Eq). rewrite Permutation_app_swap_app. apply Permutation_app_head. auto. }
    assert (GO : forall es1 es' p' m1, emits p' es' Q -> es = es1 ++ es' -> fold_left (tstep eqb) sched (m1, upd t p' ps, log ++ es1) = (m', ps', log') ->
      exists EQ', Forall2 (fun q p => emits p (fst q) (snd q)) EQ' ps' /\ map snd EQ' = map snd EQ /\ Permutation (log' ++ concat (map fst EQ')) (log ++ concat (map fst EQ))).
    { intros es1 es' p' m1 Hp' E HE'. destruct (HU es1 es' p' Hp' E) as (F1 & E1 & P1). destruct (IH _ _ _ _ _ _ _ F1 HE') as (EQ' & F2 & E2 & P2).
      exists EQ'. split; auto. split; [congruence|]. eapply Permutation_trans; eauto. }
    destruct p as [a|c k|c v k|e k]; cbn [pstep] in HE; cbn [emits] in Hp.
    + apply (GO [] es (Ret a) m); auto.
    + apply (GO [] es (k (m c)) m); auto.
    + apply (GO [] es k (mset eqb m c v)); auto.
    + destruct Hp as (es' & -> & Hp). apply (GO [e] es' k m); auto.
Qed.
Lemma results_emits ps rs (EQ : list (list Event * (A -> Prop))) : Forall2 (fun q p => emits p (fst q) (snd q)) EQ ps -> results (Val := Val) ps = Some rs ->
  concat (map fst EQ) = [] /\ Forall2 (fun Q a => Q a) (map snd EQ) rs.
Proof.
  intros F. revert rs. induction F as [|[es Q] p EQ ps Hp F IH]; intros rs ER; simpl in ER.
  - injection ER as <-. simpl. auto.
  - destruct p; try discriminate. destruct (results ps) as [rs'|]; [|discriminate]. simpl in ER. injection ER as <-.
    destruct (IH _ eq_refl) as [E1 F1]. cbn [emits fst snd] in Hp. destruct Hp as [-> Hq]. simpl. auto.
Qed.
Lemma emits_weaken (p : @prog Cell Val Event A) : forall es (Q Q' : A -> Prop), (forall a, Q a -> Q' a) -> emits p es Q -> emits p es Q'.
Proof.
  induction p as [a|c k IH|c v k IH|e k IH]; intros es Q Q' HQ H; cbn [emits] in *; auto.
  - destruct H; auto.
  - intros v. eapply IH; eauto.
  - eapply IH; eauto.
  - destruct H as (es' & E & H). exists es'. split; auto. eapply IH; eauto.
Qed.
End Threads.

Section Bpr.
Context {T : Type} {NT : Num T}.
Notation emit := (emits (Cell := cell) (Val := T) (Event := event) (A := nat * nat)).
(** The sample a pair of random numbers selects. *)
Definition pick_at (o : bpr_opts (T := T)) (userids itemids indptr : list nat) (dr : nat * nat) : option event :=
  let l := nth (fst dr) itemids 0 in let d := nth (snd dr) itemids 0 in let u := nth (fst dr) userids 0 in
  if b_verify o && has_non_zero indptr itemids u d then None else Some (u, l, d).
Definition opt_list {A} (x : option A) : list A := match x with Some a => [a] | None => [] end.
Definition nones {A B} (f : A -> option B) (l : list A) : nat := length (filter (fun x => match f x with None => true | Some _ => false end) l).
Lemma emit_score u l d js : forall score (k : T -> bprog) es Q, (forall s, emit (k s) es Q) -> emit (score_loop u l d js score k) es Q.
Proof. induction js as [|j js IH]; intros score k es Q H; simpl; auto. Qed.
Lemma emit_update lr reg z u l d js : forall (k : bprog) es Q, emit k es Q -> emit (update_loop lr reg z u l d js k) es Q.
Proof. induction js as [|j js IH]; intros k es Q H; simpl; auto. Qed.
Lemma emit_thread o userids itemids indptr ds : forall c s,
  emit (bpr_thread o userids itemids indptr ds c s) (flat_map (fun dr => opt_list (pick_at o userids itemids indptr dr)) ds)
    (fun r => snd r = s + nones (pick_at o userids itemids indptr) ds).
Proof.
  induction ds as [|dr ds IH]; intros c s.
  - simpl. unfold nones. simpl. auto.
  - cbn [bpr_thread flat_map]. unfold bpr_sample. unfold nones. cbn [filter]. unfold pick_at at 1 3. destruct (b_verify o && _).
    + cbn [opt_list app length]. eapply emits_weaken; [|apply IH]. cbv beta. unfold nones. intros. lia.
    + cbn [opt_list app]. eexists. split; [reflexivity|]. apply emit_score. intros sc. apply emit_update. unfold bias_update. cbn [emits]. intros.
      eapply emits_weaken; [|apply IH]. cbv beta. unfold nones. intros. lia.
Qed.
Lemma update_emits o userids itemids indptr draws sched m m' log correct skipped :
  bpr_update o userids itemids indptr draws sched m = Some (m', log, correct, skipped) ->
  Permutation log (flat_map (fun dr => opt_list (pick_at o userids itemids indptr dr)) (concat draws)) /\ skipped = nones (pick_at o userids itemids indptr) (concat draws).
Proof.
  unfold bpr_update. destruct (interleave _ _ _ _) as [[m1 ps] lg] eqn:EI. destruct (results ps) as [rs|] eqn:ER; [|discriminate].
  intros HE; injection HE as <- <- <- <-. unfold interleave in EI.
  pose (g := fun ds : list (nat * nat) => (flat_map (fun dr => opt_list (pick_at o userids itemids indptr dr)) ds, fun r : nat * nat => snd r = 0 + nones (pick_at o userids itemids indptr) ds)).
  assert (F : Forall2 (fun q p => emit p (fst q) (snd q)) (map g draws) (map (fun ds => bpr_thread o userids itemids indptr ds 0 0) draws)).
  { clear. induction draws; simpl; constructor; auto. apply emit_thread. }
  destruct (interleave_emits cell_eqb sched _ _ _ _ _ _ _ F EI) as (EQ' & F' & E' & P). destruct (results_emits ps rs EQ' F' ER) as [E1 F1].
  rewrite E1, app_nil_r in P. cbn [app] in P. split.
  - rewrite P. clear. induction draws as [|ds draws IH]; simpl; auto. rewrite flat_map_app. apply Permutation_app_head. auto.
  - rewrite E' in F1. clear - F1. revert rs F1. induction draws as [|ds draws IH]; intros rs F1; inversion F1 as [|? ? ? ? H1 H2]; subst; auto.
    cbn [fold_left concat]. rewrite fold_sum_le. rewrite (IH _ H2). cbv beta in H1. cbn [snd g] in H1. unfold nones in *. rewrite filter_app, app_length. lia.
Qed.
Lemma epochs_emit o (M : csr T) : let pick := pick_at o (row_ids (c_rows M) (c_indptr M)) (c_indices M) (c_indptr M) in
  forall inputs epoch m m' log tr, bpr_epochs o M inputs epoch m = Some (m', log, tr) ->
  Permutation log (flat_map (fun dr => opt_list (pick dr)) (concat (concat (map fst inputs)))) /\
  map (fun t => snd (fst t)) tr = map (fun inp => nones pick (concat (fst inp))) inputs.
Proof.
  intros pick. induction inputs as [|[draws sched] inputs IH]; intros epoch m m' log tr HE.
  - simpl in HE. injection HE as <- <- <-. simpl. auto.
  - cbn [bpr_epochs] in HE. destruct (bpr_update _ _ _ _ _ _ _) as [[[[m1 lg] c] s]|] eqn:EU; [|discriminate].
    destruct (bpr_epochs o M inputs (S epoch) m1) as [[[m2 lg2] tr2]|] eqn:EE; [|discriminate]. injection HE as <- <- <-.
    destruct (update_emits _ _ _ _ _ _ _ _ _ _ _ EU) as [P1 S1]. destruct (IH _ _ _ _ _ EE) as [P2 S2]. split.
    + cbn [map concat fst]. rewrite concat_app, flat_map_app. apply Permutation_app; auto.
    + cbn [map fst snd]. f_equal; auto.
Qed.
End Bpr.

(* ------------------------------------------------------------------ counting *)
Lemma count_seq {A} (d : A) (P : A -> bool) (l : list A) : length (filter (fun k => P (nth k l d)) (seq 0 (length l))) = length (filter P l).
Proof.
  assert (E : l = map (fun k => nth k l d) (seq 0 (length l))).
  { clear. induction l as [|x l IH]; simpl; auto. f_equal. rewrite <- seq_shift, map_map. exact IH. }
  transitivity (length (filter P (map (fun k => nth k l d) (seq 0 (length l))))); [|rewrite <- E; auto]. clear E.
  induction (seq 0 (length l)) as [|k ks IH]; simpl; auto. destruct (P (nth k l d)); simpl; auto.
Qed.
Lemma count_prod {A B} (P : A -> bool) (R : B -> bool) (l : list A) (l' : list B) :
  length (filter (fun p => P (fst p) && R (snd p)) (list_prod l l')) = length (filter P l) * length (filter R l').
Proof.
  induction l as [|x l IH]; simpl; auto. rewrite filter_app, app_length, IH.
  assert (E : length (filter (fun p => P (fst p) && R (snd p)) (map (fun y => (x, y)) l')) = if P x then length (filter R l') else 0).
  { clear. induction l' as [|y l' IH]; simpl; [destruct (P x); auto|]. destruct (P x) eqn:E; simpl in *; [destruct (R y); simpl; auto|auto]. }
  rewrite E. destruct (P x); simpl; auto.
Qed.
Lemma count_occ_filter (l : list nat) i : count_occ Nat.eq_dec l i = length (filter (fun x => x =? i) l).
Proof. induction l as [|x l IH]; simpl; auto. destruct (Nat.eq_dec x i) as [->|N]; [rewrite Nat.eqb_refl; simpl; auto|]. destruct (Nat.eqb_spec x i); [congruence|auto]. Qed.
Section Count.
Context {T : Type}.
Lemma indices_rows (M : csr T) : csr_wf M -> csr_tight M -> c_indices M = flat_map (csr_row_indices M) (seq 0 (c_rows M)).
Proof.
  intros W [T0 T1]. assert (G : forall k, k <= c_rows M -> flat_map (csr_row_indices M) (seq 0 k) = firstn (nth k (c_indptr M) 0) (c_indices M)).
  { induction k as [|k IH]; intros Hk; [rewrite T0; auto|]. rewrite seq_S, flat_map_app, IH by lia. cbn [flat_map]. rewrite app_nil_r. simpl (0 + k).
    rewrite row_indices_slice by auto. unfold slice. pose proof (wf_indptr_mono _ W k (S k) ltac:(lia) ltac:(lia)) as Hm.
    set (a := nth k (c_indptr M) 0) in *. set (b := nth (S k) (c_indptr M) 0) in *. clearbody a b. clear - Hm. revert a b Hm.
    induction (c_indices M) as [|x l IH]; intros a b Hm; [rewrite skipn_nil, !firstn_nil; auto|]. destruct a as [|a]; [simpl; rewrite Nat.sub_0_r; auto|]. destruct b as [|b]; [lia|].
    simpl. f_equal. apply IH. lia. }
  rewrite (G (c_rows M)) by lia. rewrite T1, firstn_all. auto.
Qed.
Lemma combine_app {A B} (a a' : list A) (b b' : list B) : length a = length b -> combine (a ++ a') (b ++ b') = combine a b ++ combine a' b'.
Proof. revert b. induction a as [|x a IH]; intros [|y b] H; simpl in *; try discriminate; auto. f_equal. auto. Qed.
Lemma pairs_rows (M : csr T) : csr_wf M -> csr_tight M ->
  combine (row_ids (c_rows M) (c_indptr M)) (c_indices M) = flat_map (fun u => map (pair u) (csr_row_indices M u)) (seq 0 (c_rows M)) /\
  length (row_ids (c_rows M) (c_indptr M)) = length (c_indices M).
Proof.
  intros W TM. rewrite (indices_rows M W TM). unfold row_ids.
  assert (EC : forall k, k < c_rows M -> nth k (user_counts (c_rows M) (c_indptr M)) 0 = length (csr_row_indices M k)).
  { intros k Hk. rewrite row_indices_slice, slice_length by (auto; apply indptr_bound; auto).
    unfold user_counts. rewrite nth_indep with (d' := (fun u => nth (S u) (c_indptr M) 0 - nth u (c_indptr M) 0) 0) by (rewrite map_length, seq_length; lia).
    rewrite (map_nth (fun u => nth (S u) (c_indptr M) 0 - nth u (c_indptr M) 0)), seq_nth by lia. auto. }
  assert (G : forall ks, (forall k, In k ks -> k < c_rows M) ->
    combine (flat_map (fun u => repeat u (nth u (user_counts (c_rows M) (c_indptr M)) 0)) ks) (flat_map (csr_row_indices M) ks) = flat_map (fun u => map (pair u) (csr_row_indices M u)) ks /\
    length (flat_map (fun u => repeat u (nth u (user_counts (c_rows M) (c_indptr M)) 0)) ks) = length (flat_map (csr_row_indices M) ks)).
  { induction ks as [|k ks IH]; intros HK; auto. cbn [flat_map]. destruct IH as [I1 I2]; [intros; apply HK; simpl; auto|].
    rewrite EC by (apply HK; simpl; auto). rewrite combine_app by apply repeat_length. rewrite !app_length, repeat_length, I1, I2. split; auto. f_equal.
    clear. induction (csr_row_indices M k); simpl; auto. f_equal. auto. }
  apply G. intros k Hk. apply in_seq in Hk. lia.
Qed.
(** How often item [i] is stored for user [u], and for anybody. *)
Definition stored_times (M : csr T) (u i : nat) : nat := count_occ Nat.eq_dec (csr_row_indices M u) i.
Definition popularity (M : csr T) (i : nat) : nat := list_sum (map (fun u => stored_times M u i) (seq 0 (c_rows M))).
Lemma count_item (M : csr T) i : csr_wf M -> csr_tight M -> length (filter (fun b => nth b (c_indices M) 0 =? i) (seq 0 (length (c_indices M)))) = popularity M i.
Proof.
  intros W TM. rewrite (count_seq 0 (fun x => x =? i)). rewrite (indices_rows M W TM). unfold popularity, stored_times. clear. induction (seq 0 (c_rows M)) as [|u us IH]; simpl; auto.
  rewrite filter_app, app_length, IH, count_occ_filter. auto.
Qed.
Lemma count_pair (M : csr T) u i : csr_wf M -> csr_tight M -> u < c_rows M ->
  length (filter (fun a => (nth a (row_ids (c_rows M) (c_indptr M)) 0 =? u) && (nth a (c_indices M) 0 =? i)) (seq 0 (length (c_indices M)))) = stored_times M u i.
Proof.
  intros W TM Hu. destruct (pairs_rows M W TM) as [E EL].
  assert (X : forall a, a < length (c_indices M) -> nth a (combine (row_ids (c_rows M) (c_indptr M)) (c_indices M)) (0, 0) = (nth a (row_ids (c_rows M) (c_indptr M)) 0, nth a (c_indices M) 0)).
  { intros a Ha. apply combine_nth. auto. }
  rewrite (filter_ext_in _ (fun a => (fun p => (fst p =? u) && (snd p =? i)) (nth a (combine (row_ids (c_rows M) (c_indptr M)) (c_indices M)) (0, 0)))).
  2:{ intros a Ha. apply in_seq in Ha. cbv beta. rewrite X by lia. auto. }
  replace (length (c_indices M)) with (length (combine (row_ids (c_rows M) (c_indptr M)) (c_indices M))) by (rewrite combine_length; lia).
  rewrite (count_seq (0, 0) (fun p => (fst p =? u) && (snd p =? i))), E. unfold stored_times. rewrite count_occ_filter.
  assert (G : forall us, NoDup us -> length (filter (fun p => (fst p =? u) && (snd p =? i)) (flat_map (fun v => map (pair v) (csr_row_indices M v)) us)) =
    if in_dec Nat.eq_dec u us then length (filter (fun x => x =? i) (csr_row_indices M u)) else 0).
  { induction us as [|v us IH]; intros ND; auto. inversion ND as [|? ? N1 N2]; subst. cbn [flat_map]. rewrite filter_app, app_length, IH by auto.
    assert (F : length (filter (fun p => (fst p =? u) && (snd p =? i)) (map (pair v) (csr_row_indices M v))) = if v =? u then length (filter (fun x => x =? i) (csr_row_indices M v)) else 0).
    { clear. induction (csr_row_indices M v) as [|x l IH]; simpl; [destruct (v =? u); auto|]. destruct (v =? u) eqn:E; simpl in *; auto. destruct (x =? i); simpl; auto. }
    rewrite F. destruct (Nat.eqb_spec v u) as [->|NE].
    - destruct (in_dec Nat.eq_dec u (u :: us)) as [_|X0]; [|simpl in X0; tauto]. destruct (in_dec Nat.eq_dec u us); [tauto|lia].
    - destruct (in_dec Nat.eq_dec u (v :: us)) as [I1|I1]; destruct (in_dec Nat.eq_dec u us) as [I2|I2]; simpl in I1; tauto. }
  rewrite G by apply seq_NoDup. destruct (in_dec Nat.eq_dec u (seq 0 (c_rows M))) as [_|X0]; auto. exfalso. apply X0. apply in_seq. lia.
Qed.
End Count.

(* ------------------------------------------------------------------ C146 *)
(** Each pair of random numbers selects one training sample (user, liked item, negative
    item) or none, whatever the rest of the run does: every run trains exactly on the
    selected samples of its pairs, in some order, and reports the number of pairs that
    select none.  Of all pairs of random numbers, each equally likely, the number that
    selects the sample (u, i, j) is the number of times the rating of i by u is stored,
    times the number of ratings of j by anybody - or zero if j is a rated item of u and
    verify_negative_samples is set. *)
Theorem C146_bpr : forall T (NT : Num T) (o : bpr_opts) (M : csr T), csr_wf M -> csr_tight M ->
  let nnz := length (c_indices M) in
  exists pick : nat * nat -> option (nat * nat * nat),
  (forall rx ry inputs m log tr, bpr_fit o M rx ry inputs = Some (m, log, tr) ->
     Permutation log (flat_map (fun dr => opt_list (pick dr)) (concat (concat (map fst inputs)))) /\
     map (fun t => snd (fst t)) tr = map (fun inp => nones pick (concat (fst inp))) inputs) /\
  (forall u i j, u < c_rows M ->
     length (filter (fun dr => match pick dr with Some (u', i', j') => (u' =? u) && (i' =? i) && (j' =? j) | None => false end) (list_prod (seq 0 nnz) (seq 0 nnz))) =
     stored_times M u i * (if b_verify o && negb (stored_times M u j =? 0) then 0 else popularity M j)).
Proof.
  intros T NT o M W TM nnz. destruct (bpr_matrix_spec o M W TM) as (W' & T' & HR & HC & HP & HS). pose proof (bpr_matrix_nnz o M W TM) as HN.
  set (M' := bpr_matrix o M) in *.
  exists (pick_at o (row_ids (c_rows M') (c_indptr M')) (c_indices M') (c_indptr M')). split.
  - intros rx ry inputs m log tr HF. unfold bpr_fit in HF. cbv zeta in HF. fold M' in HF. exact (epochs_emit o M' inputs 0 _ _ _ _ HF).
  - intros u i j Hu. unfold nnz. rewrite <- HN. unfold pick_at.
    assert (ST : forall v k, v < c_rows M -> stored_times M v k = stored_times M' v k).
    { intros v k Hv. unfold stored_times, csr_row_indices. apply (Permutation_count_occ Nat.eq_dec). apply Permutation_map. apply Permutation_sym. auto. }
    assert (PO : popularity M j = popularity M' j).
    { unfold popularity. rewrite HR. f_equal. apply map_ext_in. intros v Hv. apply ST. apply in_seq in Hv. lia. }
    rewrite (ST u i Hu), (ST u j Hu), PO. rewrite <- (count_pair M' u i W' T') by lia. rewrite <- (count_item M' j W' T').
    set (liked := b_verify o && negb (stored_times M' u j =? 0)).
    assert (LK : b_verify o && has_non_zero (c_indptr M') (c_indices M') u j = liked).
    { unfold liked. destruct (b_verify o) eqn:EV; auto. simpl. pose proof (has_non_zero_spec M' u j W' (HS eq_refl) ltac:(lia)) as HZ.
      unfold stored_times. destruct (in_dec Nat.eq_dec j (csr_row_indices M' u)) as [I1|I1].
      - pose proof (proj1 (count_occ_In Nat.eq_dec _ _) I1) as C. rewrite (proj2 HZ I1). destruct (Nat.eqb_spec (count_occ Nat.eq_dec (csr_row_indices M' u) j) 0); [lia|auto].
      - rewrite (proj1 (count_occ_not_In Nat.eq_dec _ _) I1). simpl. destruct (has_non_zero _ _ _ _) eqn:E; auto. destruct (I1 (proj1 HZ eq_refl)). }
    set (ns := seq 0 (length (c_indices M'))).
    match goal with |- length (filter ?f _) = _ => rewrite (filter_ext f
      (fun dr => ((nth (fst dr) (row_ids (c_rows M') (c_indptr M')) 0 =? u) && (nth (fst dr) (c_indices M') 0 =? i)) && ((nth (snd dr) (c_indices M') 0 =? j) && negb liked))) end.
    + rewrite (count_prod (fun a => (nth a (row_ids (c_rows M') (c_indptr M')) 0 =? u) && (nth a (c_indices M') 0 =? i)) (fun b => (nth b (c_indices M') 0 =? j) && negb liked)). destruct liked; f_equal.
      * rewrite (filter_ext _ (fun _ => false)) by (intros; apply andb_false_r). clear. induction ns; auto.
      * f_equal. apply filter_ext. intros. apply andb_true_r.
    + intros [a b]. cbn [fst snd]. rewrite <- LK. generalize (nth a (row_ids (c_rows M') (c_indptr M')) 0) as x, (nth a (c_indices M') 0) as y, (nth b (c_indices M') 0) as z. intros x y z.
      destruct (Nat.eq_dec x u) as [->|N1]; [destruct (Nat.eq_dec z j) as [->|N2]|].
      * destruct (b_verify o && has_non_zero (c_indptr M') (c_indices M') u j); cbn [negb]; rewrite ?Nat.eqb_refl, ?andb_false_r, ?andb_true_r; auto.
      * apply Nat.eqb_neq in N2. destruct (b_verify o && has_non_zero (c_indptr M') (c_indices M') u z); rewrite ?N2; cbn [andb]; rewrite ?andb_false_r; auto.
      * apply Nat.eqb_neq in N1. destruct (b_verify o && has_non_zero (c_indptr M') (c_indices M') x z); rewrite ?N1; auto.
Qed.
Print Assumptions C146_bpr.
(** Two users; user 0 rated items 0 and 1, user 1 item 1: of the nine pairs of numbers one trains
    user 1 on item 1 against item 0, and none trains user 0. *)
Example C146_example : csr_wf ex_M /\ csr_tight ex_M /\ stored_times ex_M 1 1 * popularity ex_M 0 = 1 /\ popularity ex_M 1 = 2 /\ stored_times ex_M 0 1 = 1.
Proof. destruct ex_M_ok. repeat split; auto; try apply H; try apply H0. Qed.

Section Lmf.
Context {T : Type} {NT : Num T}.
Notation emit := (emits (Cell := lcell) (Val := T) (Event := nat * nat) (A := nat)).
Lemma emit_read cs : forall (k : list T -> lprog) es Q, (forall vs, emit (k vs) es Q) -> emit (read_cells cs k) es Q.
Proof. induction cs as [|c cs IH]; intros k es Q H; simpl; auto. Qed.
Lemma emit_pos o row : forall d (k : list T -> lprog) es Q, (forall d, emit (k d) es Q) -> emit (pos_loop o row d k) es Q.
Proof. induction row as [|[i c] row IH]; intros d k es Q H; simpl; auto. apply emit_read. auto. Qed.
Lemma emit_sig o u row : forall d (k : list T -> lprog) es Q, (forall d, emit (k d) es Q) -> emit (sig_loop o u row d k) es Q.
Proof. induction row as [|[i c] row IH]; intros d k es Q H; simpl; auto. apply emit_read. intros. apply emit_read. auto. Qed.
Lemma emit_neg o u items : forall d (k : list T -> lprog) es Q, (forall d, emit (k d) es Q) -> emit (neg_loop o u items d k) (map (pair u) items ++ es) Q.
Proof. induction items as [|i items IH]; intros d k es Q H; simpl; auto. eexists. split; [reflexivity|]. apply emit_read. intros. apply emit_read. auto. Qed.
Lemma emit_step o u js d : forall (k : lprog) es Q, emit k es Q -> emit (step_loop o u js d k) es Q.
Proof. induction js as [|j js IH]; intros k es Q H; simpl; auto. Qed.
(** A thread with rows [us] uses its random numbers [stream] in order, from number [pos]
    on: for each row as many as it draws negatives. *)
Fixpoint served (o : lmf_opts (T := T)) (M : csr T) (pick stream : nat -> nat) (us : list nat) (pos : nat) : list (nat * nat) :=
  match us with
  | [] => []
  | u :: us => let c := Nat.min (l_n o) (length (csr_row M u) * l_neg o) in
      map (fun k => (u, pick (stream k))) (seq pos c) ++ served o M pick stream us (pos + c)
  end.
Lemma emit_lmf o (M : csr T) stream us : csr_wf M -> (forall u, In u us -> u < c_rows M) -> forall pos,
  emit (lmf_thread o M stream us pos) (served o M (fun a => nth a (c_indices M) 0) stream us pos) (fun _ => True).
Proof.
  intros W. induction us as [|u us IH]; intros HU pos; [simpl; auto|]. cbn [lmf_thread served].
  pose proof (row_len_spec M u W (HU u (or_introl eq_refl))) as RL. unfold row_len in RL. destruct (Nat.eqb_spec (nth u (c_indptr M) 0) (nth (S u) (c_indptr M) 0)) as [E|E].
  - rewrite RL. replace (nth (S u) (c_indptr M) 0 - nth u (c_indptr M) 0) with 0 by lia. rewrite Nat.mul_0_l, Nat.min_0_r. simpl. rewrite Nat.add_0_r. apply IH. intros; apply HU; simpl; auto.
  - apply emit_pos. intros d1. apply emit_sig. intros d2. unfold neg_count. rewrite RL. set (c := Nat.min _ _).
    replace (map (fun k => (u, nth (stream k) (c_indices M) 0)) (seq pos c)) with (map (pair u) (map (fun k => nth (stream (pos + k)) (c_indices M) 0) (seq 0 c))).
    + apply emit_neg. intros d3. apply emit_step. apply IH. intros; apply HU; simpl; auto.
    + rewrite map_map. clear. generalize c as n, pos. induction n as [|n IH]; intros p; auto. cbn [seq map]. rewrite Nat.add_0_r. f_equal.
      rewrite <- (IH (S p)). rewrite <- seq_shift, map_map. apply map_ext. intros k. replace (p + S k) with (S p + k) by lia. reflexivity.
Qed.
End Lmf.
(** Logistic matrix factorization: each random number selects an item; every pass over
    the users (the matrix [M]) or the items (its transpose) draws, for each row in turn,
    the items selected by the next numbers of the thread it is dealt to, no number
    twice.  Of all random numbers, each equally likely, the number that selects item [j]
    is the number of its ratings. *)
Theorem C146_lmf : forall T (NT : Num T) (M : csr T), csr_wf M -> csr_tight M -> exists pick : nat -> nat,
  (forall (o : lmf_opts) deal sched U V D U' D' log, side_ok (length (c_indices M)) (c_rows M) deal -> lmf_update o M deal sched U V D = Some (U', D', log) ->
     Permutation log (flat_map (fun d => served o M pick (snd d) (fst d) 0) deal)) /\
  (forall j, length (filter (fun a => pick a =? j) (seq 0 (length (c_indices M)))) = popularity M j).
Proof.
  intros T NT M W TM. exists (fun a => nth a (c_indices M) 0). split; [|intros; apply count_item; auto].
  intros o deal sched U V D U' D' log [HD _] HU. unfold lmf_update in HU.
  destruct (interleave lcell_eqb sched (lmf_mem U V D) (lmf_threads o M deal)) as [[m2 ps] lg] eqn:EI.
  destruct (results ps) as [rs|] eqn:ER; [|discriminate]. injection HU as _ _ <-. unfold interleave in EI.
  assert (HB : forall d u, In d deal -> In u (fst d) -> u < c_rows M).
  { intros d u Hd Hu. assert (I1 : In u (seq 0 (c_rows M))) by (apply (Permutation_in u HD); apply in_flat_map; eauto). apply in_seq in I1. lia. }
  pose (g := fun d : list nat * (nat -> nat) => (served o M (fun a => nth a (c_indices M) 0) (snd d) (fst d) 0, fun _ : nat => True)).
  assert (F : Forall2 (fun q p => emits p (fst q) (snd q)) (map g deal) (lmf_threads o M deal)).
  { unfold lmf_threads. clear - HB W. induction deal as [|d deal IH]; simpl; constructor.
    - apply emit_lmf; auto. intros u Hu. apply (HB d); simpl; auto.
    - apply IH. intros d' u Hd. apply HB. simpl; auto. }
  destruct (interleave_emits lcell_eqb sched _ _ _ _ _ _ _ F EI) as (EQ' & F' & E' & P). destruct (results_emits ps rs EQ' F' ER) as [E1 _].
  rewrite E1, app_nil_r in P. cbn [app] in P. rewrite P. rewrite map_map. rewrite flat_map_concat_map. apply Permutation_refl.
Qed.
Print Assumptions C146_lmf.
Example C146_lmf_example : csr_wf ex_lM /\ csr_tight ex_lM /\ side_ok (length (c_indices ex_lM)) (c_rows ex_lM) ex_deal /\ popularity ex_lM 1 = 2 /\
  exists r, lmf_update ex_lo ex_lM ex_deal ex_sched (fun _ _ => 1%Q) (fun _ _ => 1%Q) (fun _ _ => 0%Q) = Some r.
Proof.
  destruct ex_lM_ok as [W TM]. split; [auto|]. split; [auto|]. split; [apply ex_deal_ok|]. split; [reflexivity|].
  pose proof ex_log_eq as E. destruct (lmf_update _ _ _ _ _ _ _) as [r|]; [eauto|discriminate].
Qed.
