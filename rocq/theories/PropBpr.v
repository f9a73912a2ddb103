(** BPR: properties C47, C48, C49, C50, C68 (BPR), C70 (BPR), C71 of properties.jsonl. *)
From Coq Require Import List Arith Lia Bool ZArith QArith Reals Lra Psatz Permutation.
From Verif Require Import Base Num Heap Sparse ThreadProg BprModel BprProofs BprProofs2 RVec.
Import ListNotations.
Local Open Scope nat_scope.

(* ---------------------------------------------------------------- spec *)
(** User [u] has item [i]. *)
Definition has_item {T} (M : csr T) (u i : nat) : Prop := u < c_rows M /\ In i (csr_row_indices M u).
(** One epoch draws one pair of entries per stored entry, shared out over the threads
    in any way. *)
Definition epoch_ok (nnz : nat) (inp : list (list (nat * nat)) * list nat) : Prop :=
  length (concat (fst inp)) = nnz /\ Forall (Forall (fun dr => fst dr < nnz /\ snd dr < nnz)) (fst inp).

(* ---------------------------------------------------------------- C47 *)
(** Every update of every run takes a liked item of the user and, with
    verify_negative_samples, a negative which the user does not have. *)
Theorem C47_negatives : forall T (NT : Num T) (o : bpr_opts) (M : csr T) rx ry inputs m log tr,
  csr_wf M -> csr_tight M -> Forall (epoch_ok (length (c_indices M))) inputs ->
  bpr_fit o M rx ry inputs = Some (m, log, tr) ->
  forall u l d, In (u, l, d) log -> has_item M u l /\ (b_verify o = true -> ~ has_item M u d).
Proof.
  intros T NT o M rx ry inputs m log tr W HT HI HF.
  unfold bpr_fit in HF. cbv zeta in HF.
  assert (G : Forall (fun e => has_item M (fst (fst e)) (snd (fst e)) /\ (b_verify o = true -> ~ has_item M (fst (fst e)) (snd e))) log).
  { eapply (bpr_epochs_inv (fun _ => True) (fun _ => True) _ o (bpr_matrix o M) (fun _ => True)); [auto| |auto|exact HF].
    intros draws sched Hin. rewrite Forall_forall in HI. specialize (HI _ Hin). destruct HI as [_ HD].
    eapply Forall_impl; [|exact HD]. intros ds Hds. eapply Forall_impl; [|exact Hds]. intros dr [H1 H2]. cbv zeta. intros EV.
    destruct (draw_spec o M dr W HT H1 H2) as (Hu & Hl & Hd & HN). split; [|intros; auto 10].
    simpl. split; [split; auto|]. intros Ev [_ Hin2]. apply (HN EV Ev Hin2). }
  rewrite Forall_forall in G. intros u l d Hin. apply (G _ Hin).
Qed.

(** The entry at position [p] of the training data. *)
Definition entry_user {T} (M : csr T) (p : nat) : nat := nth p (row_ids (c_rows M) (c_indptr M)) 0.
Definition entry_item {T} (M : csr T) (p : nat) : nat := nth p (c_indices M) 0.
(** A draw that may be trained on, and the cells it may change. *)
Definition touches {T} (o : bpr_opts (T := T)) (M : csr T) (dr : nat * nat) (c : cell) : Prop :=
  let u := entry_user M (fst dr) in let l := entry_item M (fst dr) in let d := entry_item M (snd dr) in
  (b_verify o = true -> ~ has_item M u d) /\
  exists j, (j < b_factors o /\ c = CX u j) \/ (j <= b_factors o /\ (c = CY l j \/ c = CY d j)).

(** Nothing else is changed: a liked item that is drawn as negative leaves no trace. *)
Theorem C47_frame : forall T (NT : Num T) (o : bpr_opts) (M : csr T) rx ry inputs m log tr,
  csr_wf M -> csr_tight M -> has_sorted_indices M = true -> Forall (epoch_ok (length (c_indices M))) inputs ->
  bpr_fit o M rx ry inputs = Some (m, log, tr) ->
  forall c, (forall draws sched ds dr, In (draws, sched) inputs -> In ds draws -> In dr ds -> ~ touches o M dr c) ->
  m c = bpr_init (b_factors o) M rx ry c.
Proof.
  intros T NT o M rx ry inputs m log tr W HT HS HI HF c Hc.
  unfold bpr_fit in HF. cbv zeta in HF. 
  assert (EM : bpr_matrix o M = M) by (unfold bpr_matrix; rewrite HS, andb_false_r; auto). rewrite EM in HF.
  eapply (bpr_epochs_inv (fun _ => True) (fun c' => c' <> c) (fun _ => True) o M (fun m => m c = bpr_init (b_factors o) M rx ry c)); [| |reflexivity|exact HF].
  { intros m0 c' v Hne Hm. rewrite mset_neq by auto. auto. }
  intros draws sched Hin. rewrite Forall_forall in HI. specialize (HI _ Hin). destruct HI as [_ HD]. rewrite Forall_forall in HD.
  apply Forall_forall. intros ds Hds. specialize (HD _ Hds). rewrite Forall_forall in HD. apply Forall_forall. intros dr Hdr. specialize (HD _ Hdr). destruct HD as [H1 H2].
  cbv zeta. intros EV. split; auto. specialize (Hc _ _ _ _ Hin Hds Hdr).
  pose proof (draw_spec o M dr W HT H1 H2) as DS. cbv zeta in DS. rewrite EM in DS. destruct DS as (Hu & Hl & Hd & HN).
  assert (HT2 : b_verify o = true -> ~ has_item M (entry_user M (fst dr)) (entry_item M (snd dr))).
  { intros Ev [_ Hin2]. apply (HN EV Ev Hin2). }
  unfold touches in Hc. cbv zeta in Hc. fold (entry_user M (fst dr)) (entry_item M (fst dr)) (entry_item M (snd dr)).
  intros j Hj. repeat split; auto; try (intros E; apply Hc; split; [auto|exists j; auto]).
  intros Hjf E. apply Hc; split; [auto|exists j; auto].
Qed.

(* ---------------------------------------------------------------- C48 *)
(** CPU: the last user column is 1 after fit and at every callback. *)
Theorem C48_cpu : forall T (NT : Num T) (o : bpr_opts) (M : csr T) rx ry inputs m log tr,
  csr_wf M -> csr_tight M -> Forall (epoch_ok (length (c_indices M))) inputs ->
  bpr_fit o M rx ry inputs = Some (m, log, tr) ->
  (forall u, m (CX u (b_factors o)) = none_) /\
  (forall e c s mc, In (e, c, s, mc) tr -> forall u, mc (CX u (b_factors o)) = none_).
Proof.
  intros T NT o M rx ry inputs m log tr W HT HI HF. unfold bpr_fit in HF. cbv zeta in HF.
  destruct (bpr_epochs_inv (fun _ => True) (fun c => forall u, c <> CX u (b_factors o)) (fun _ => True) o (bpr_matrix o M) (fun m => forall u, m (CX u (b_factors o)) = none_)
     ltac:(intros m0 c v Hn Hm u; rewrite mset_neq by auto; auto) inputs 0 (bpr_init (b_factors o) (bpr_matrix o M) rx ry) m log tr) as (G1 & _ & G2 & _).
  - intros draws sched Hin. apply Forall_forall. intros ds _. apply Forall_forall. intros dr _. cbv zeta. intros _. split; auto.
    intros j Hj. repeat split; auto; try (intros; discriminate). intros Hjf u E. injection E; lia.
  - intros u. simpl. rewrite Nat.eqb_refl. auto.
  - exact HF.
  - split; auto. intros e c s mc Hin. rewrite Forall_forall in G2. apply (G2 _ Hin).
Qed.

(** GPU: one kernel step takes the bias column of the user away from 1, whatever exp is. *)
Theorem C48_gpu_refuted : exists (o : (R -> R) -> bpr_opts (T := R)) (m : bmem), forall expf,
  m (CX 0 1) = 1%R /\ gpu_bpr_sample (o expf) 2 0 0 1 m (CX 0 1) <> 1%R.
Proof.
  exists (fun expf => {| b_exp := expf; b_lr := 1%R; b_reg := (1/2)%R; b_factors := 1; b_verify := true |}).
  exists (fun c => match c with CX _ 1 => 1%R | _ => 0%R end). intros expf. split; auto.
  unfold gpu_bpr_sample. set (z := ndiv none_ _). cbn -[z].
  unfold mset. cbn -[z]. lra.
Qed.
(** The same kernel with the guard its comment announces keeps the column. *)
Definition C48_statement : Prop :=
  forall (o : bpr_opts (T := R)) cols u l d m, m (CX u (cols - 1)) = 1%R -> gpu_bpr_sample o cols u l d m (CX u (cols - 1)) = 1%R.
Theorem C48_refuted : ~ C48_statement.
Proof.
  intros HC. destruct C48_gpu_refuted as (o & m & HE). destruct (HE (fun x => x)) as [H1 H2]. apply H2. apply (HC (o (fun x => x)) 2 0 0 1 m H1).
Qed.

(* ---------------------------------------------------------------- C49 *)
Theorem C49_unrated : forall T (NT : Num T) (o : bpr_opts) (M : csr T) rx ry inputs m log tr,
  csr_wf M -> csr_tight M -> Forall (epoch_ok (length (c_indices M))) inputs ->
  bpr_fit o M rx ry inputs = Some (m, log, tr) ->
  let zero_unrated (m : bmem) :=
    (forall u j, u < c_rows M -> csr_row M u = [] -> j < b_factors o -> m (CX u j) = nzero) /\
    (forall i j, i < c_cols M -> (forall u, ~ has_item M u i) -> m (CY i j) = nzero) in
  zero_unrated m /\ forall e c s mc, In (e, c, s, mc) tr -> zero_unrated mc.
Proof.
  intros T NT o M rx ry inputs m log tr W HT HI HF. cbv zeta. unfold bpr_fit in HF. cbv zeta in HF.
  set (I := fun m0 : bmem (T := T) => (forall u j, u < c_rows M -> csr_row M u = [] -> j < b_factors o -> m0 (CX u j) = nzero) /\
    (forall i j, i < c_cols M -> (forall u, ~ has_item M u i) -> m0 (CY i j) = nzero)).
  destruct (bpr_matrix_spec o M W HT) as (W' & HT' & HR & HCo & HP & _).
  destruct (bpr_epochs_inv (fun _ => True) (fun c => match c with CX u _ => csr_row M u <> [] | CY i _ => exists u, has_item M u i end) (fun _ => True) o (bpr_matrix o M) I) with (inputs := inputs) (epoch := 0) (m := bpr_init (b_factors o) (bpr_matrix o M) rx ry) (m' := m) (log := log) (tr := tr) as (G1 & _ & G2 & _).
  - intros m0 c v Hc [H1 H2]. split; [intros u j Hu He Hj|intros i j Hi Hno].
    + rewrite mset_neq; auto. intros ->. contradiction.
    + rewrite mset_neq; auto. intros ->. destruct Hc as (u & Hu). apply (Hno u Hu).
  - intros draws sched Hin. rewrite Forall_forall in HI. specialize (HI _ Hin). destruct HI as [_ HD].
    eapply Forall_impl; [|exact HD]. intros ds Hds. eapply Forall_impl; [|exact Hds]. intros dr [H1 H2]. cbv zeta. intros EV. split; auto.
    destruct (draw_spec o M dr W HT H1 H2) as (Hu & Hl & Hd & HN).
    intros j Hj. do 3 (split; [auto|]). split; [|split].
    + eexists. split; eauto.
    + destruct Hd as (v & Hv & Hd). exists v. split; auto.
    + intros _ E. unfold csr_row_indices in Hl. rewrite E in Hl. contradiction.
  - split.
    + intros u j Hu E Hj. simpl. destruct (Nat.eqb_spec j (b_factors o)); [lia|].
      specialize (HP u Hu). rewrite E in HP. apply Permutation_sym, Permutation_nil in HP.
      rewrite user_counts_zero; [reflexivity|exact W'|rewrite HR; exact Hu|exact HP].
    + intros i j Hi HN. simpl. rewrite bincount_zero; [reflexivity|exact W'|exact HT'|rewrite HCo; exact Hi|]. intros u Hu Hin. rewrite HR in Hu. apply (HN u). split; auto. apply (perm_in_row M (bpr_matrix o M)); auto.
  - exact HF.
  - split; auto. intros e c s mc Hin. rewrite Forall_forall in G2. apply (G2 _ Hin).
Qed.

(* ---------------------------------------------------------------- C50 *)
(** The statistics, per epoch, and the callbacks (C68 for BPR): one per epoch, in
    order, and the last one sees the final factors. *)
Theorem C50_counts : forall T (NT : Num T) (o : bpr_opts) (M : csr T) rx ry inputs m log tr,
  csr_wf M -> csr_tight M -> Forall (epoch_ok (length (c_indices M))) inputs ->
  bpr_fit o M rx ry inputs = Some (m, log, tr) ->
  forall e correct skipped mc, In (e, correct, skipped, mc) tr -> correct + skipped <= length (c_indices M).
Proof.
  intros T NT o M rx ry inputs m log tr W HT HI HF e c s mc Hin. unfold bpr_fit in HF. cbv zeta in HF.
  eapply (bpr_epochs_inv (fun _ => True) (fun _ => True) (fun _ => True) o (bpr_matrix o M) (fun _ => True)) in HF; auto.
  - destruct HF as (_ & _ & _ & G & _). 
    assert (HA : Forall (fun t : nat * nat * nat * bmem (T := T) => snd (fst (fst t)) + snd (fst t) <= length (c_indices M)) tr).
    { clear -G HI. induction G; constructor; auto; inversion HI; subst; auto. destruct H2 as [E _]. lia. }
    rewrite Forall_forall in HA. apply (HA _ Hin).
  - intros draws sched _. apply Forall_forall. intros ds _. apply Forall_forall. intros dr _. cbv zeta. intros _. split; auto. intros; repeat split; auto.
Qed.

Theorem C68_bpr : forall T (NT : Num T) (o : bpr_opts) (M : csr T) rx ry inputs m log tr,
  bpr_fit o M rx ry inputs = Some (m, log, tr) ->
  map (fun t => fst (fst (fst t))) tr = seq 0 (length inputs) /\
  (inputs <> [] -> exists e c s, nth_error tr (length inputs - 1) = Some (e, c, s, m)).
Proof.
  intros T NT o M rx ry inputs m log tr HF. unfold bpr_fit in HF. cbv zeta in HF.
  eapply (bpr_epochs_inv (fun _ => True) (fun _ => True) (fun _ => True) o (bpr_matrix o M) (fun _ => True)) in HF; auto.
  - destruct HF as (_ & _ & _ & G & ET & EL). split; auto. intros Hne.
    assert (HL : length tr = length inputs) by (clear -G; induction G; simpl; auto).
    destruct (nth_error tr (length tr - 1)) as [t|] eqn:En.
    + specialize (EL _ eq_refl). destruct t as [[[e c] s] mc]. simpl in EL. subst mc. exists e, c, s. rewrite <- HL. auto.
    + apply nth_error_None in En. destruct inputs; [congruence|]. simpl in HL. lia.
  - intros draws sched _. apply Forall_forall. intros ds _. apply Forall_forall. intros dr _. cbv zeta. intros _. split; auto. intros; repeat split; auto.
Qed.

(** Score of an item for a user; margin of the liked over the disliked item. *)
Definition item_score (f : nat) (m : cell -> R) (u i : nat) : R := rsum (map (fun j => m (CX u j) * m (CY i j))%R (seq 0 (S f))).
Definition margin (f : nat) (m : cell -> R) (u l d : nat) : R := (item_score f m u l - item_score f m u d)%R.

Lemma rsum_minus {A} (g h : A -> R) l : (rsum (map g l) - rsum (map h l) = rsum (map (fun x => g x - h x) l))%R.
Proof. induction l; cbn [map rsum]; [lra|]. rewrite <- IHl. lra. Qed.
Lemma margin_sum f m u l d : margin f m u l d = rsum (map (fun j => m (CX u j) * (m (CY l j) - m (CY d j)))%R (seq 0 (S f))).
Proof. unfold margin, item_score. rewrite rsum_minus. apply rsum_map_ext. intros; lra. Qed.
Lemma fold_rsum (g : nat -> R) js s : fold_left (fun s j => s + g j)%R js s = (s + rsum (map g js))%R.
Proof. revert s. induction js; intros; cbn [fold_left map rsum]; [lra|]. rewrite IHjs. lra. Qed.
Lemma score_of_margin f (m : cell -> R) u l d : score_of m f u l d = margin f m u l d.
Proof. unfold score_of. rewrite margin_sum. change nzero with 0%R. rewrite (fold_rsum (fun j => (m (CX u j) * (m (CY l j) - m (CY d j)))%R)). lra. Qed.
Lemma rsum_snoc (g : nat -> R) f : rsum (map g (seq 0 (S f))) = (rsum (map g (seq 0 f)) + g f)%R.
Proof. rewrite seq_S, map_app. induction (seq 0 f); cbn [map app rsum]; [cbn; lra|]. cbn [map app rsum] in IHl. rewrite IHl. lra. Qed.
Lemma rsum_ge0 {A} (g : A -> R) l : (forall x, In x l -> 0 <= g x)%R -> (0 <= rsum (map g l))%R.
Proof. induction l; intros Hg; cbn [map rsum]; [lra|]. specialize (IHl (fun x Hx => Hg x (or_intror Hx))). specialize (Hg a (or_introl eq_refl)). lra. Qed.

(** Without regularization and with learning rate at most 1, an update run alone
    raises the margin of the sampled pair (if the two items differ). *)
Theorem C50_margin : forall (o : bpr_opts (T := R)) userids itemids indptr dr m m' cs ev,
  (forall x, 0 < b_exp o x)%R -> b_reg o = 0%R -> (0 < b_lr o <= 1)%R ->
  let u := nth (fst dr) userids 0 in let l := nth (fst dr) itemids 0 in let d := nth (snd dr) itemids 0 in
  m (CX u (b_factors o)) = 1%R ->
  run_alone cell_eqb (bpr_thread o userids itemids indptr [dr] 0 0) m = (m', cs, ev) ->
  (margin (b_factors o) m u l d <= margin (b_factors o) m' u l d)%R /\
  (ev <> [] -> l <> d -> (margin (b_factors o) m u l d < margin (b_factors o) m' u l d)%R).
Proof.
  intros o userids itemids indptr dr m m' cs ev Hexp Hreg Hlr u l d Hb HE.
  apply sample_alone in HE. cbv zeta in HE. fold u l d in HE. set (f := b_factors o) in *.
  destruct HE as [(_ & -> & _ & ->) | (_ & _ & -> & Em)]; [split; [lra|congruence]|].
  destruct (Nat.eq_dec l d) as [<-|Hld].
  { split; [|congruence]. unfold margin. lra. }
  set (z := ndiv none_ _) in Em.
  assert (Hz : (0 < z < 1)%R).
  { unfold z. change (0 < 1 / (1 + b_exp o (score_of m f u l d)) < 1)%R. specialize (Hexp (score_of m f u l d)). 
    split; [apply Rdiv_lt_0_compat; lra|]. apply (Rmult_lt_reg_r (1 + b_exp o (score_of m f u l d))); [lra|]. unfold Rdiv. rewrite Rmult_assoc, Rinv_l by lra. lra. }
  destruct (sample_values (b_lr o) (b_reg o) z u l d f m Hld) as (V1 & V2 & V3 & V4). cbv zeta in V1, V2, V3, V4. rewrite <- Em in V1, V2, V3, V4.
  assert (VB : m' (CX u f) = 1%R).
  { rewrite V4; auto; intros; [intros E; injection E; lia|split; congruence]. }
  assert (Hmain : (margin f m u l d + 2 * (b_lr o * z) <= margin f m' u l d)%R).
  { rewrite !margin_sum, !rsum_snoc, VB, Hb, V2, V3, Hreg.
    change (nopp z) with (- z)%R. change (@nadd R _) with Rplus. change (@nsub R _) with Rminus. change (@nmul R _) with Rmult.
    assert (HS : (0 <= rsum (map (fun j => m' (CX u j) * (m' (CY l j) - m' (CY d j))) (seq 0 f)) - rsum (map (fun j => m (CX u j) * (m (CY l j) - m (CY d j))) (seq 0 f)))%R).
    { rewrite rsum_minus. apply rsum_ge0. intros j Hj. apply in_seq in Hj. destruct (V1 j ltac:(lia)) as (E1 & E2 & E3). rewrite E1, E2, E3.
      unfold newX, newL, newD. rewrite Hreg. change (nopp z) with (- z)%R. change (@nadd R _) with Rplus. change (@nsub R _) with Rminus. change (@nmul R _) with Rmult.
      set (x := m (CX u j)). set (a := (m (CY l j))). set (b := m (CY d j)).
      assert (Hc : (0 < b_lr o * z < 1)%R) by (split; [apply Rmult_lt_0_compat; lra|nra]). set (c := (b_lr o * z)%R) in *.
      replace ((x + b_lr o * (z * (a - b) - 0 * x)) * (a + b_lr o * (z * x - 0 * a) - (b + b_lr o * (- z * x - 0 * b))) - x * (a - b))%R
        with (c * (2 * x * x + (a - b) * (a - b) + 2 * c * (x * (a - b))))%R by (unfold c; ring).
      apply Rmult_le_pos; [lra|]. set (e := (a - b)%R). 
      assert (0 <= (x + c * e) * (x + c * e))%R by apply Rle_0_sqr. assert (0 <= x * x)%R by apply Rle_0_sqr. assert (0 <= e * e)%R by apply Rle_0_sqr.
      assert (c * c <= 1)%R by nra. nra. }
    lra. }
  assert (0 < b_lr o * z)%R by (apply Rmult_lt_0_compat; lra). split; intros; lra.
Qed.

(* ---------------------------------------------------------------- C71 *)
(** The loss BPR is documented to optimise, for one triple: ln sigmoid(margin) minus
    the squared factors. *)
Definition bpr_objective (f : nat) (reg : R) (u l d : nat) (m : cell -> R) : R :=
  (ln (1 / (1 + exp (- margin f m u l d))) -
   reg / 2 * (rsum (map (fun j => m (CX u j) * m (CX u j) + m (CY l j) * m (CY l j) + m (CY d j) * m (CY d j)) (seq 0 (S f)))))%R.
(** The parameters of a triple: all of its cells but the fixed user column. *)
Definition parameter (f u l d : nat) (c : cell) : Prop :=
  (exists j, j < f /\ c = CX u j) \/ (exists j, j <= f /\ (c = CY l j \/ c = CY d j)).
Definition set_cell (m : cell -> R) (c : cell) (t : R) : cell -> R := mset cell_eqb m c t.

Lemma rsum_one (g h : nat -> R) js j v :
  NoDup js -> In j js -> (forall i, In i js -> i <> j -> g i = h i) -> g j = (h j + v)%R -> rsum (map g js) = (rsum (map h js) + v)%R.
Proof.
  intros ND. induction ND as [|i js Hi ND IH]; intros Hin He Hj; [contradiction|]. cbn [map rsum]. destruct Hin as [->|Hin].
  - rewrite Hj. replace (rsum (map g js)) with (rsum (map h js)); [lra|]. apply rsum_map_ext. intros i' Hi'. symmetry. apply He; [right; auto|congruence].
  - rewrite (He i) by (simpl; auto; congruence). rewrite IH; auto; [lra|]. intros; apply He; simpl; auto.
Qed.

(** margin and penalty as functions of one parameter. *)
Lemma set_cell_eq m c t : set_cell m c t c = t. Proof. apply mset_eq. Qed.
Lemma set_cell_neq m c t c' : c <> c' -> set_cell m c t c' = m c'. Proof. apply mset_neq. Qed.

Definition slope (f : nat) (m : cell -> R) (u l d : nat) (c : cell) : R :=
  match c with
  | CX _ j => (m (CY l j) - m (CY d j))%R
  | CY i j => if i =? l then m (CX u j) else (- m (CX u j))%R
  end.
(** A cell of one of the three rows. *)
Definition row_cell (f u l d : nat) (c : cell) : Prop := exists j, j <= f /\ (c = CX u j \/ c = CY l j \/ c = CY d j).
Lemma parameter_row_cell f u l d c : parameter f u l d c -> row_cell f u l d c.
Proof. intros [(j & Hj & ->)|(j & Hj & [-> | ->])]; exists j; split; auto; lia. Qed.
Lemma margin_affine f m u l d c t : l <> d -> row_cell f u l d c ->
  margin f (set_cell m c t) u l d = (margin f m u l d + slope f m u l d c * (t - m c))%R.
Proof.
  intros Hld HJ. rewrite !margin_sum.
  destruct HJ as (j & Hj & Hc). apply rsum_one with (j := j); [apply seq_NoDup|apply in_seq; lia| |].
  - intros i _ Hij. rewrite !set_cell_neq; auto; destruct Hc as [-> | [-> | ->]]; congruence.
  - destruct Hc as [-> | [-> | ->]]; unfold slope.
    + rewrite set_cell_eq, !set_cell_neq by congruence. lra.
    + rewrite set_cell_eq, !set_cell_neq by congruence. rewrite Nat.eqb_refl. lra.
    + rewrite set_cell_eq, !set_cell_neq by congruence. rewrite (proj2 (Nat.eqb_neq d l)) by congruence. lra.
Qed.
Lemma penalty_quadratic f m u l d c t : l <> d -> row_cell f u l d c ->
  let pen m := rsum (map (fun j => m (CX u j) * m (CX u j) + m (CY l j) * m (CY l j) + m (CY d j) * m (CY d j))%R (seq 0 (S f))) in
  pen (set_cell m c t) = (pen m + (t * t - m c * m c))%R.
Proof.
  intros Hld HJ pen. unfold pen.
  destruct HJ as (j & Hj & Hc). apply rsum_one with (j := j); [apply seq_NoDup|apply in_seq; lia| |].
  - intros i _ Hij. rewrite !set_cell_neq; auto; destruct Hc as [-> | [-> | ->]]; congruence.
  - destruct Hc as [-> | [-> | ->]]; rewrite set_cell_eq, !set_cell_neq by congruence; lra.
Qed.

Lemma lnsig_derivative a b x : derivable_pt_lim (fun t => ln (1 / (1 + exp (- (a + b * (t - x)))))) x (b * (1 / (1 + exp a)))%R.
Proof.
  assert (HF : forall t, ln (1 / (1 + exp (- (a + b * (t - x))))) = (- ln (1 + exp (- (a + b * (t - x)))))%R).
  { intros t. unfold Rdiv. rewrite Rmult_1_l, ln_Rinv; auto. pose proof (exp_pos (- (a + b * (t - x)))). lra. }
  apply (derivable_pt_lim_ext (fun t => - ln (1 + exp (- (a + b * (t - x)))))%R); [intros; symmetry; apply HF|].
  assert (D1 : derivable_pt_lim (fun t => (- (a + b * (t - x)))%R) x (- b)%R).
  { intros eps Heps. exists (mkposreal 1 Rlt_0_1). intros h Hh _.
    replace ((- (a + b * (x + h - x)) - - (a + b * (x - x))) / h - - b)%R with 0%R by (field; auto). rewrite Rabs_R0. auto. }
  assert (D2 := derivable_pt_lim_comp _ exp x _ _ D1 (derivable_pt_lim_exp _)). 
  assert (D3 := derivable_pt_lim_plus (fct_cte 1) _ x _ _ (derivable_pt_lim_const 1 x) D2).
  assert (Hpos : (0 < (fct_cte 1 + comp exp (fun t => (- (a + b * (t - x)))%R))%F x)%R).
  { unfold plus_fct, fct_cte, comp. pose proof (exp_pos (- (a + b * (x - x)))). lra. }
  assert (D4 := derivable_pt_lim_comp _ ln x _ _ D3 (derivable_pt_lim_ln _ Hpos)).
  assert (D5 := derivable_pt_lim_opp _ x _ D4).
  match type of D5 with derivable_pt_lim _ _ ?v => replace (b * (1 / (1 + exp a)))%R with v end.
  - exact D5.
  - unfold plus_fct, fct_cte, comp. replace (- (a + b * (x - x)))%R with (- a)%R by ring. rewrite exp_Ropp. pose proof (exp_pos a). field. split; lra.
Qed.

(** The derivative of the objective in one cell of the three rows. *)
Lemma objective_derivative f reg m u l d c : l <> d -> row_cell f u l d c ->
  derivable_pt_lim (fun t => bpr_objective f reg u l d (set_cell m c t)) (m c)
    (slope f m u l d c * (1 / (1 + exp (margin f m u l d))) - reg * m c)%R.
Proof.
  intros Hld HP.
  set (pen0 := rsum (map (fun j => m (CX u j) * m (CX u j) + m (CY l j) * m (CY l j) + m (CY d j) * m (CY d j))%R (seq 0 (S f)))).
  apply (derivable_pt_lim_ext (fun t => ln (1 / (1 + exp (- (margin f m u l d + slope f m u l d c * (t - m c))))) - reg / 2 * (pen0 + (t * t - m c * m c)))%R).
  { intros t. unfold bpr_objective. rewrite margin_affine by auto. rewrite (penalty_quadratic f m u l d c t Hld HP). reflexivity. }
  apply (derivable_pt_lim_minus _ (fun t => reg / 2 * (pen0 + (t * t - m c * m c)))%R); [apply lnsig_derivative|].
  intros eps Heps.
  assert (Hden : (0 < Rabs reg / 2 + 1)%R) by (pose proof (Rabs_pos reg); lra).
  assert (Hdel : (0 < eps / (Rabs reg / 2 + 1))%R) by (apply Rdiv_lt_0_compat; lra).
  exists (mkposreal _ Hdel). simpl. intros h Hh Hb2.
  replace ((reg / 2 * (pen0 + ((m c + h) * (m c + h) - m c * m c)) - reg / 2 * (pen0 + (m c * m c - m c * m c))) / h - reg * m c)%R with (reg / 2 * h)%R by (field; auto).
  rewrite Rabs_mult. apply (Rmult_lt_compat_r (Rabs reg / 2 + 1)) in Hb2; [|auto].
  replace (eps / (Rabs reg / 2 + 1) * (Rabs reg / 2 + 1))%R with eps in Hb2 by (field; lra).
  replace (Rabs (reg / 2)) with (Rabs reg / 2)%R; [|unfold Rdiv; rewrite Rabs_mult, (Rabs_right (/ 2)); lra].
  pose proof (Rabs_pos h). nra.
Qed.

(** A sample run alone is one gradient ascent step, of size learning_rate, on all
    parameters of its triple at once; nothing else changes. *)
Theorem C71_gradient : forall (o : bpr_opts (T := R)) userids itemids indptr dr m m' cs ev,
  b_exp o = exp ->
  run_alone cell_eqb (bpr_thread o userids itemids indptr [dr] 0 0) m = (m', cs, ev) ->
  let u := nth (fst dr) userids 0 in let l := nth (fst dr) itemids 0 in let d := nth (snd dr) itemids 0 in let f := b_factors o in
  l <> d -> m (CX u f) = 1%R ->
  (ev = [] -> forall c, m' c = m c) /\
  (ev <> [] -> ev = [(u, l, d)] /\
   (forall c, parameter f u l d c -> exists g, derivable_pt_lim (fun t => bpr_objective f (b_reg o) u l d (set_cell m c t)) (m c) g /\ m' c = (m c + b_lr o * g)%R) /\
   (forall c, ~ parameter f u l d c -> m' c = m c)).
Proof.
  intros o userids itemids indptr dr m m' cs ev Hexp HE u l d f Hld Hb.
  apply sample_alone in HE. cbv zeta in HE. fold u l d f in HE.
  destruct HE as [(_ & -> & _ & ->) | (_ & _ & -> & Em)]; [split; congruence|]. split; [congruence|]. intros _. split; auto.
  rewrite score_of_margin, Hexp in Em. set (z := ndiv none_ _) in Em.
  destruct (sample_values (b_lr o) (b_reg o) z u l d f m Hld) as (V1 & V2 & V3 & V4). cbv zeta in V1, V2, V3, V4. rewrite <- Em in V1, V2, V3, V4.
  unfold newX, newL, newD in V1. change (nopp z) with (- z)%R in *. change (@nadd R _) with Rplus in *. change (@nsub R _) with Rminus in *. change (@nmul R _) with Rmult in *.
  assert (Ez : z = (1 / (1 + exp (margin f m u l d)))%R) by reflexivity. split.
  - intros c HP. exists (slope f m u l d c * z - b_reg o * m c)%R. split.
    + rewrite Ez. apply objective_derivative; auto. apply parameter_row_cell; auto.
    + destruct HP as [(j & Hj & ->)|(j & Hj & [-> | ->])].
      * destruct (V1 j Hj) as (-> & _ & _). unfold slope. ring.
      * unfold slope. rewrite Nat.eqb_refl. destruct (Nat.eq_dec j f) as [->|Hn].
        -- rewrite V2, Hb. ring.
        -- destruct (V1 j ltac:(lia)) as (_ & -> & _). ring.
      * unfold slope. rewrite (proj2 (Nat.eqb_neq d l)) by congruence. destruct (Nat.eq_dec j f) as [->|Hn].
        -- rewrite V3, Hb. ring.
        -- destruct (V1 j ltac:(lia)) as (_ & _ & ->). ring.
  - intros c HN. apply V4.
    + intros j Hj E. apply HN. left. eauto.
    + intros j Hj. split; intros E; apply HN; right; eauto.
Qed.

(* ---------------------------------------------------------------- C70 *)
(** The next cell a thread reads or writes. *)
Definition next_access {C V E A} (p : prog C V E A) : option C :=
  match p with Rd c _ => Some c | Wr c _ _ => Some c | _ => None end.
(** A cell of factor matrices with nx users, ny items and [cols] columns. *)
Definition in_bounds (nx ny cols : nat) (c : cell) : Prop :=
  match c with CX u j => u < nx /\ j < cols | CY i j => i < ny /\ j < cols end.
(** At no point of any interleaving of an epoch does a thread access a cell outside. *)
Definition epoch_in_bounds {T} `{Num T} (o : bpr_opts (T := T)) (M : csr T) (nx ny : nat) : Prop :=
  forall draws sched m m' ps log t p c,
  epoch_ok (length (c_indices M)) (draws, sched) ->
  interleave cell_eqb sched m (map (fun ds => bpr_thread o (row_ids (c_rows M) (c_indptr M)) (c_indices M) (c_indptr M) ds 0 0) draws) = (m', ps, log) ->
  nth_error ps t = Some p -> next_access p = Some c -> in_bounds nx ny (S (b_factors o)) c.

(** Factors of the shape of the matrix (a new model, or the same shape again). *)
Theorem C70_bpr_partial : forall T (NT : Num T) (o : bpr_opts) (M0 : csr T), csr_wf M0 -> csr_tight M0 ->
  forall nx ny, c_rows M0 <= nx -> c_cols M0 <= ny -> epoch_in_bounds o (bpr_matrix o M0) nx ny.
Proof.
  intros T NT o M0 W HT nx ny Hx Hy draws sched m m' ps log t p c [_ HD] HE Hp Hc. simpl in HD.
  set (M := bpr_matrix o M0) in *.
  set (B := in_bounds nx ny (S (b_factors o))).
  rewrite (bpr_matrix_nnz o M0 W HT : length (c_indices M) = _) in HD.
  pose (PA := map (fun ds : list (nat * nat) => fun r : nat * nat => fst r + snd r <= 0 + 0 + length ds) draws).
  assert (HS : Forall2 (fun Q p => safe B B (fun _ => True) Q p) PA (map (fun ds => bpr_thread o (row_ids (c_rows M) (c_indptr M)) (c_indices M) (c_indptr M) ds 0 0) draws)).
  { unfold PA. clear HE. induction HD as [|ds draws Hds HD IH]; simpl; constructor; auto.
    apply (bpr_thread_safe B B (fun _ => True) o (row_ids (c_rows M) (c_indptr M)) (c_indices M) (c_indptr M) ds) with (correct := 0) (skipped := 0).
    eapply Forall_impl; [|exact Hds]. intros dr [H1 H2]. cbv zeta. intros EV. split; auto.
    destruct (draw_spec o M0 dr W HT H1 H2) as (Hu & Hl & (v & Hv & Hd) & _). fold M in Hu, Hl, Hd.
    assert (HIn : forall u i, In i (csr_row_indices M0 u) -> i < ny).
    { intros u0 i Hi. rewrite row_indices_slice in Hi by auto. apply in_slice in Hi. apply (wf_cols _ W) in Hi. lia. }
    apply HIn in Hl. apply HIn in Hd. intros j Hj. unfold B, in_bounds. repeat split; auto; try lia. }
  destruct (interleave_inv cell_eqb B B (fun _ => True) PA (fun _ => True) sched (fun _ _ _ _ _ => I) _ _ _ _ _ _ I HS (Forall_nil _) HE) as (_ & HS' & _).
  assert (HQ : exists Q, safe B B (fun _ => True) Q p).
  { clear -HS' Hp. revert t Hp. induction HS'; intros [|t] Hp; simpl in *; try discriminate; eauto. injection Hp as ->. eauto. }
  destruct HQ as (Q & Sp). destruct p; simpl in Hc; try discriminate; injection Hc as <-; inversion Sp; subst; auto.
Qed.

(** A fitted model, fitted again on a matrix with one more user: the factors are kept
    as they are (bpr.pyx:158-173) and row 1 of a one-row array is accessed. *)
Definition C70_statement : Prop :=
  forall T (NT : Num T) (o : bpr_opts) (M0 : csr T) nx ny, csr_wf M0 -> csr_tight M0 -> epoch_in_bounds o (bpr_matrix o M0) nx ny.
Definition ex_o : bpr_opts (T := Q) := {| b_exp := fun x => 1%Q; b_lr := (1#2)%Q; b_reg := (1#10)%Q; b_factors := 1; b_verify := true |}.
Definition ex_M : csr Q := csr_of_rows 3 [[(1, 1%Q); (0, 1%Q)]; [(1, 1%Q)]; []].
Lemma ex_M_ok : csr_wf ex_M /\ csr_tight ex_M.
Proof. apply csr_of_rows_wf. intros r p Hr Hp. simpl in Hr. repeat (destruct Hr as [<-|Hr]; [simpl in Hp; repeat (destruct Hp as [<-|Hp]; [simpl; lia|]); contradiction|]). contradiction. Qed.
Theorem C70_refuted : ~ C70_statement.
Proof.
  intros HC. specialize (HC Q Num_Q ex_o ex_M 1 3 (proj1 ex_M_ok) (proj2 ex_M_ok)).
  (* entry 2 (user 1, item 1) against entry 0 (item 0) *)
  specialize (HC [[(2, 0); (0, 0); (0, 0)]] [0] (fun _ => 0%Q)). 
  destruct (interleave cell_eqb [0] (fun _ => 0%Q) (map (fun ds => bpr_thread ex_o (row_ids (c_rows (bpr_matrix ex_o ex_M)) (c_indptr (bpr_matrix ex_o ex_M))) (c_indices (bpr_matrix ex_o ex_M)) (c_indptr (bpr_matrix ex_o ex_M)) ds 0 0) [[(2, 0); (0, 0); (0, 0)]])) as [[m' ps] log] eqn:EI.
  specialize (HC m' ps log 0).
  assert (HP : exists p, nth_error ps 0 = Some p /\ next_access p = Some (CX 1 0)).
  { assert (EP : ps = snd (fst (m', ps, log))) by reflexivity. rewrite EP, <- EI. eexists. split; [reflexivity|reflexivity]. }
  destruct HP as (p & Hp & Ha). specialize (HC p (CX 1 0)).
  assert (HB : in_bounds 1 3 2 (CX 1 0)).
  { apply HC; auto. split; [reflexivity|]. repeat constructor; simpl; lia. }
  destruct HB as [HB _]. lia.
Qed.

(* ---------------------------------------------------------------- the hypotheses can be met *)
(** Every epoch can be run to its end from every state: some schedule finishes all
    threads. *)
Lemma finish_one {C V E A} (eqb : C -> C -> bool) (p : prog C V E A) : forall t ps m log, nth_error ps t = Some p ->
  exists n m' a log', fold_left (tstep eqb) (repeat t n) (m, ps, log) = (m', upd t (Ret a) ps, log').
Proof.
  assert (UU : forall t (a b : prog C V E A) ps, upd t a (upd t b ps) = upd t a ps).
  { induction t; intros a b [|x ps]; simpl; auto. f_equal. auto. }
  assert (NU : forall t (a : prog C V E A) ps p0, nth_error ps t = Some p0 -> nth_error (upd t a ps) t = Some a).
  { induction t; intros a [|x ps] p0 Hp; simpl in *; try discriminate; auto. eapply IHt; eauto. }
  assert (US : forall t (a : prog C V E A) ps, nth_error ps t = Some a -> upd t a ps = ps).
  { induction t; intros a [|x ps] Hp; simpl in *; try discriminate; [congruence|]. f_equal. auto. }
  induction p as [a|c k IH|c v k IH|e k IH]; intros t ps m log Hp.
  - exists 0, m, a, log. simpl. rewrite US; auto.
  - destruct (IH (m c) t (upd t (k (m c)) ps) m (log ++ []) (NU _ _ _ _ Hp)) as (n & m' & a & log' & HE).
    exists (S n), m', a, log'. cbn [repeat fold_left]. unfold tstep at 2. rewrite Hp. cbn [pstep]. rewrite HE, UU. auto.
  - destruct (IH t (upd t k ps) (mset eqb m c v) (log ++ []) (NU _ _ _ _ Hp)) as (n & m' & a & log' & HE).
    exists (S n), m', a, log'. cbn [repeat fold_left]. unfold tstep at 2. rewrite Hp. cbn [pstep]. rewrite HE, UU. auto.
  - destruct (IH t (upd t k ps) m (log ++ [e]) (NU _ _ _ _ Hp)) as (n & m' & a & log' & HE).
    exists (S n), m', a, log'. cbn [repeat fold_left]. unfold tstep at 2. rewrite Hp. cbn [pstep]. rewrite HE, UU. auto.
Qed.
Theorem bpr_epoch_can_finish : forall T (NT : Num T) (o : bpr_opts) userids itemids indptr draws m,
  exists sched r, bpr_update o userids itemids indptr draws sched m = Some r.
Proof.
  intros T NT o userids itemids indptr draws m. unfold bpr_update, interleave.
  set (ps0 := map _ draws). generalize (@nil event) as log. clearbody ps0. 
  assert (G : forall (pre : list (nat * nat)) (ps : list (bprog (T := T))) m log, exists sched m' rs log',
     fold_left (tstep cell_eqb) sched (m, map (fun a => Ret a) pre ++ ps, log) = (m', map (fun a => Ret a) (pre ++ rs), log')).
  { intros pre ps. revert pre. induction ps as [|p ps IH]; intros pre m0 log0.
    - exists [], m0, [], log0. simpl. rewrite !app_nil_r. auto.
    - destruct (finish_one cell_eqb p (length pre) (map (fun a => Ret a) pre ++ p :: ps) m0 log0) as (n & m1 & a & log1 & HE).
      { rewrite nth_error_app2; rewrite map_length; auto. rewrite Nat.sub_diag. auto. }
      destruct (IH (pre ++ [a]) m1 log1) as (sched & m2 & rs & log2 & HE2).
      exists (repeat (length pre) n ++ sched), m2, (a :: rs), log2. rewrite fold_left_app, HE.
      replace (upd (length pre) (Ret a) (map (fun a0 => Ret a0) pre ++ p :: ps)) with (map (fun a0 => Ret (Cell := cell) (Val := T) (Event := event) a0) (pre ++ [a]) ++ ps).
      + rewrite HE2. rewrite <- app_assoc. auto.
      + rewrite map_app, <- app_assoc. simpl. clear. induction pre; simpl; auto. f_equal. auto. }
  intros log. destruct (G [] ps0 m log) as (sched & m' & rs & log' & HE). exists sched. cbn [app map] in HE. rewrite HE.
  assert (ER : results (map (fun a => Ret (Cell := cell) (Val := T) (Event := event) a) rs) = Some rs).
  { clear. induction rs; simpl; auto. rewrite IHrs. auto. }
  rewrite ER. eauto.
Qed.

(** Two racing threads on a concrete matrix (unsorted row, a user without items, an item
    without users); thread 1 is interrupted in the middle of its update. *)
Definition ex_rand (a b : nat) : Q := Qmake (1 + Z.of_nat a + 2 * Z.of_nat b) 5.
Definition ex_inputs : list (list (list (nat * nat)) * list nat) :=
  [([[(2, 0); (0, 2)]; [(2, 0)]], repeat 1 9 ++ repeat 0 40 ++ repeat 1 40)].
Definition ex_fit := Eval vm_compute in match bpr_fit ex_o ex_M ex_rand ex_rand ex_inputs with
  | None => None
  | Some (m, log, tr) => Some (map m [CX 0 0; CX 0 1; CX 1 0; CX 1 1; CX 2 0; CX 2 1; CY 0 0; CY 0 1; CY 1 0; CY 1 1; CY 2 0; CY 2 1], log, map (fun t => fst t) tr)
  end.
Example C47_C48_C49_example :
  Forall (epoch_ok (length (c_indices ex_M))) ex_inputs /\ b_verify ex_o = true /\
  match bpr_fit ex_o ex_M ex_rand ex_rand ex_inputs with
  | None => False
  | Some (m, log, tr) => log = [(1, 1, 0); (1, 1, 0)] /\ map fst tr = [(0, 0, 1)] /\ m (CX 0 1) = 1%Q /\ m (CX 1 1) = 1%Q /\ m (CX 2 0) = 0%Q /\ m (CY 2 1) = 0%Q /\
     m (CY 0 0) <> ex_rand 0 0
  end.
Proof.
  split; [repeat constructor; simpl; lia|]. split; [reflexivity|]. vm_compute. repeat split; intros E; discriminate.
Qed.
Example C50_C71_example : exists (o : bpr_opts (T := R)) userids itemids indptr dr (m : cell -> R) m' cs ev,
  b_exp o = exp /\ (forall x, 0 < b_exp o x)%R /\ b_reg o = 0%R /\ (0 < b_lr o <= 1)%R /\
  m (CX (nth (fst dr) userids 0) (b_factors o)) = 1%R /\ nth (fst dr) itemids 0 <> nth (snd dr) itemids 0 /\
  run_alone cell_eqb (bpr_thread o userids itemids indptr [dr] 0 0) m = (m', cs, ev) /\ ev <> [].
Proof.
  exists {| b_exp := exp; b_lr := 1%R; b_reg := 0%R; b_factors := 1; b_verify := true |}, [0; 0; 1], [0; 1; 1], [0; 2; 3], (2, 0), (fun _ => 1%R).
  destruct (run_alone _ _ _) as [[m' cs] ev] eqn:ER. exists m', cs, ev.
  pose proof (sample_alone _ _ _ _ _ _ _ _ _ ER) as HS. cbv zeta in HS.
  repeat split; auto; try (simpl; lra); try (simpl; lia); try (intros; apply exp_pos).
  destruct HS as [(HV & _) | (_ & _ & -> & _)]; [vm_compute in HV; discriminate|discriminate].
Qed.

Print Assumptions C47_negatives.
Print Assumptions C47_frame.
Print Assumptions C48_cpu.
Print Assumptions C48_gpu_refuted.
Print Assumptions C48_refuted.
Print Assumptions C49_unrated.
Print Assumptions C50_counts.
Print Assumptions C50_margin.
Print Assumptions C68_bpr.
Print Assumptions C70_bpr_partial.
Print Assumptions C70_refuted.
Print Assumptions C71_gradient.
Print Assumptions bpr_epoch_can_finish.
