(** BPR on the GPU: properties C93, C94, C95 of properties.jsonl. *)
From Coq Require Import List Arith Lia Bool ZArith QArith Reals Lra Psatz Permutation.
From Verif Require Import Base Num Heap Sparse ThreadProg RaceFree BprModel BprProofs BprProofs2 RVec PropBpr GpuAls GpuAlsProofs2 GpuBpr GpuBprProofs.
Import ListNotations.
Local Open Scope nat_scope.

(* ---------------------------------------------------------------- what a sample is *)
(** The positions of the two entries drawn for sample [i] of an epoch: the random numbers modulo the number of
    entries. *)
Definition drawn {T} (M : csr T) (e : epoch_in (T := T)) (i : nat) : nat * nat :=
  (e_likes e i mod length (c_indices M), e_dislikes e i mod length (c_indices M)).

Lemma drawn_bound {T} (M : csr T) e i : length (c_indices M) <> 0 ->
  fst (drawn M e i) < length (c_indices M) /\ snd (drawn M e i) < length (c_indices M).
Proof. intros HN. unfold drawn. split; apply Nat.mod_upper_bound; auto. Qed.

Lemma fit_ok {T} {NT : Num T} (o : bpr_opts (T := T)) M G rx ry inputs r : csr_wf M -> csr_tight M -> gpu_bpr_fit o M G rx ry inputs = Ok r ->
  length (c_indices M) <> 0 /\ r = gpu_bpr_epochs o (bpr_matrix o M) G inputs 0 (bpr_init (b_factors o) (bpr_matrix o M) rx ry).
Proof.
  intros W HT. unfold gpu_bpr_fit. cbv zeta. rewrite (bpr_matrix_nnz o M W HT). destruct (Nat.eqb_spec (length (c_indices M)) 0); [discriminate|].
  intros E; injection E as <-. auto.
Qed.

Lemma sample_facts {T} {NT : Num T} (o : bpr_opts (T := T)) M e i : csr_wf M -> csr_tight M -> length (c_indices M) <> 0 ->
  let k := epoch_kernel (bpr_matrix o M) e in let '(u, l, d) := sample_of k i in
  has_item M u l /\ (exists v, has_item M v d) /\ (is_skipped o k i = false -> b_verify o = true -> ~ has_item M u d).
Proof.
  intros W HT HN. cbv zeta. pose proof (bpr_matrix_nnz o M W HT) as EN.
  assert (HN' : length (c_indices (bpr_matrix o M)) <> 0) by (rewrite EN; auto).
  destruct (drawn_bound (bpr_matrix o M) e i HN') as [B1 B2]. rewrite EN in B1, B2.
  pose proof (draw_spec o M (drawn (bpr_matrix o M) e i) W HT B1 B2) as DS. cbv zeta in DS.
  unfold is_skipped. destruct (sample_of (epoch_kernel (bpr_matrix o M) e) i) as [[u l] d] eqn:ES.
  unfold sample_of, epoch_kernel in ES. cbn [k_likes k_dislikes k_samples k_userids k_itemids k_indptr] in *. cbv zeta in ES. unfold drawn in DS. cbn [fst snd] in DS.
  injection ES as Eu El Ed. rewrite Eu, El, Ed in DS. destruct DS as (Hu & Hl & (v & Hv & Hd) & HS).
  split; [split; auto|]. split; [exists v; split; auto|]. intros EV Ev [_ Hin]. exact (HS EV Ev Hin).
Qed.

(* ---------------------------------------------------------------- C93 *)
(** Every update of every run takes an item of the user and, with verify_negative_samples, a negative which the
    user does not have: for all random numbers, numbers of blocks, interleavings of all threads, and whatever
    the inner products give. *)
Theorem C93_negatives : forall T (NT : Num T) (o : bpr_opts) (M : csr T) G rx ry inputs m log tr,
  csr_wf M -> csr_tight M -> 0 < G ->
  gpu_bpr_fit o M G rx ry inputs = Ok (Some (m, log, tr)) ->
  forall u l d, In (u, l, d) log -> has_item M u l /\ (b_verify o = true -> ~ has_item M u d).
Proof.
  intros T NT o M G rx ry inputs m log tr W HT HG HF. apply fit_ok in HF; auto. destruct HF as [HN HF]. symmetry in HF.
  assert (GL : Forall (fun e => has_item M (fst (fst e)) (snd (fst e)) /\ (b_verify o = true -> ~ has_item M (fst (fst e)) (snd e))) log).
  { eapply (epochs_inv (fun _ => True) _ (fun _ => True) o (bpr_matrix o M) G HG); [auto| |auto|exact HF].
    intros e He i Hi Hsk. pose proof (sample_facts o M e i W HT HN) as SF. cbv zeta in SF. destruct (sample_of _ i) as [[u l] d].
    destruct SF as (S1 & S2 & S3). cbn [fst snd]. repeat split; auto; apply S1. }
  rewrite Forall_forall in GL. intros u l d Hin. apply (GL _ Hin).
Qed.

(** The cells a sample may change. *)
Definition gpu_touches {T} (o : bpr_opts (T := T)) (M : csr T) (dr : nat * nat) (c : cell) : Prop :=
  let u := entry_user M (fst dr) in let l := entry_item M (fst dr) in let d := entry_item M (snd dr) in
  (b_verify o = true -> ~ has_item M u d) /\ exists j, j <= b_factors o /\ (c = CX u j \/ c = CY l j \/ c = CY d j).
(** Nothing else is changed. *)
Theorem C93_frame : forall T (NT : Num T) (o : bpr_opts) (M : csr T) G rx ry inputs m log tr,
  csr_wf M -> csr_tight M -> 0 < G -> has_sorted_indices M = true ->
  gpu_bpr_fit o M G rx ry inputs = Ok (Some (m, log, tr)) ->
  forall c, (forall e i, In e inputs -> i < length (c_indices M) -> ~ gpu_touches o M (drawn M e i) c) ->
  m c = bpr_init (b_factors o) M rx ry c.
Proof.
  intros T NT o M G rx ry inputs m log tr W HT HG HS HF c Hc. apply fit_ok in HF; auto. destruct HF as [HN HF]. symmetry in HF.
  assert (EM : bpr_matrix o M = M) by (unfold bpr_matrix; rewrite HS, andb_false_r; auto). 
  pose proof (fun e i => sample_facts o M e i W HT HN) as SF. cbv zeta in SF. rewrite EM in *.
  eapply (epochs_inv (fun c' => c' <> c) (fun _ => True) (fun m => m c = bpr_init (b_factors o) M rx ry c) o M G HG); [| |reflexivity|exact HF].
  { intros m0 c' v Hne Hm. rewrite mset_neq by auto. auto. }
  intros e He i Hi Hsk. specialize (SF e i). specialize (Hc e i He Hi).
  assert (ES : sample_of (epoch_kernel M e) i = (entry_user M (fst (drawn M e i)), entry_item M (fst (drawn M e i)), entry_item M (snd (drawn M e i)))) by reflexivity.
  rewrite ES in *. destruct SF as (_ & _ & S3). split; auto. intros j Hj.
  repeat split; intros E; apply Hc; (split; [auto|exists j; auto]).
Qed.

(** Users and items without ratings keep the factors they start with: zeros, and 1 in the user's last column. *)
Theorem C93_unrated : forall T (NT : Num T) (o : bpr_opts) (M : csr T) G rx ry inputs m log tr,
  csr_wf M -> csr_tight M -> 0 < G ->
  gpu_bpr_fit o M G rx ry inputs = Ok (Some (m, log, tr)) ->
  let unrated_kept (m : bmem) :=
    (forall u, u < c_rows M -> csr_row M u = [] -> (forall j, j < b_factors o -> m (CX u j) = nzero) /\ m (CX u (b_factors o)) = none_) /\
    (forall i j, i < c_cols M -> (forall u, ~ has_item M u i) -> m (CY i j) = nzero) in
  unrated_kept m /\ forall e c s mc, In (e, c, s, mc) tr -> unrated_kept mc.
Proof.
  intros T NT o M G rx ry inputs m log tr W HT HG HF. cbv zeta. apply fit_ok in HF; auto. destruct HF as [HN HF]. symmetry in HF.
  set (J := fun m0 : bmem (T := T) =>
    (forall u, u < c_rows M -> csr_row M u = [] -> (forall j, j < b_factors o -> m0 (CX u j) = nzero) /\ m0 (CX u (b_factors o)) = none_) /\
    (forall i j, i < c_cols M -> (forall u, ~ has_item M u i) -> m0 (CY i j) = nzero)).
  destruct (bpr_matrix_spec o M W HT) as (W' & HT' & HR & HCo & HP & _).
  destruct (epochs_inv (fun c => match c with CX u _ => csr_row M u <> [] | CY i _ => exists u, has_item M u i end) (fun _ => True) J o (bpr_matrix o M) G HG)
    with (inputs := inputs) (epoch := 0) (m := bpr_init (b_factors o) (bpr_matrix o M) rx ry) (m' := m) (log := log) (tr := tr) as (G1 & _ & G2).
  - intros m0 c v Hc [H1 H2]. split; [intros u Hu He|intros i j Hi Hno].
    + destruct (H1 u Hu He) as [K1 K2]. split; [intros j Hj; rewrite mset_neq; auto|rewrite mset_neq; auto]; intros ->; contradiction.
    + rewrite mset_neq; auto. intros ->. destruct Hc as (u & Hu). apply (Hno u Hu).
  - intros e He i Hi Hsk. pose proof (sample_facts o M e i W HT HN) as SF. cbv zeta in SF. destruct (sample_of _ i) as [[u l] d].
    destruct SF as (S1 & S2 & S3). split; auto. intros j Hj. split; [exists u; auto|]. split; [auto|].
    intros E. destruct S1 as [_ S1]. unfold csr_row_indices in S1. rewrite E in S1. contradiction.
  - split.
    + intros u Hu E. specialize (HP u Hu). rewrite E in HP. apply Permutation_sym, Permutation_nil in HP. split.
      * intros j Hj. simpl. destruct (Nat.eqb_spec j (b_factors o)); [lia|].
        rewrite user_counts_zero; [reflexivity|exact W'|rewrite HR; exact Hu|exact HP].
      * simpl. rewrite Nat.eqb_refl. auto.
    + intros i j Hi HNo. simpl. rewrite bincount_zero; [reflexivity|exact W'|exact HT'|rewrite HCo; exact Hi|]. intros u Hu Hin. rewrite HR in Hu. apply (HNo u). split; auto. apply (perm_in_row M (bpr_matrix o M)); auto.
  - exact HF.
  - split; auto. intros e c s mc Hin. rewrite Forall_forall in G2. apply (G2 _ Hin).
Qed.

(* ---------------------------------------------------------------- C94 *)
(** The samples of an epoch whose negative the user has, and the others, in terms of the matrix trained on. *)
Definition bad_sample {T} (M : csr T) (dr : nat * nat) : Prop := has_item M (entry_user M (fst dr)) (entry_item M (snd dr)).
Definition triple {T} (M : csr T) (dr : nat * nat) : event := (entry_user M (fst dr), entry_item M (fst dr), entry_item M (snd dr)).

(** One epoch, any interleaving, up to 1023 factors: the samples are one per rating; [kept] are those trained
    on and [bad] those skipped; every thread of the block trains on its sample exactly once, [skipped] is the
    number of bad samples, and [correct] at most the rest. *)
Theorem C94_epoch_partial : forall T (NT : Num T) (o : bpr_opts) (M : csr T) G e m m' log correct skipped,
  csr_wf M -> csr_tight M -> has_sorted_indices M = true -> 0 < length (c_indices M) -> 0 < G -> b_factors o <= 1023 ->
  gpu_bpr_update o (epoch_kernel M e) G (S (b_factors o)) (e_zs e) (e_sched e) m = Some (m', log, correct, skipped) ->
  exists kept bad, Permutation (kept ++ bad) (map (drawn M e) (seq 0 (length (c_indices M)))) /\
    (b_verify o = true -> Forall (fun dr => ~ bad_sample M dr) kept /\ Forall (bad_sample M) bad) /\
    (b_verify o = false -> bad = []) /\
    Permutation log (concat (repeat (map (triple M) kept) (S (b_factors o)))) /\
    skipped = length bad /\ correct <= length kept.
Proof.
  intros T NT o M G e m m' log correct skipped W HT HS HN HG HC HE.
  apply update_exact in HE; [|auto|lia|lia]. destruct HE as (Es & Ec & HP). cbn [k_samples epoch_kernel] in *.
  set (k := epoch_kernel M e) in *. set (n := length (c_indices M)) in *.
  exists (map (drawn M e) (GpuBprProofs.kept o k (seq 0 n))), (map (drawn M e) (filter (is_skipped o k) (seq 0 n))).
  assert (EM : bpr_matrix o M = M) by (unfold bpr_matrix; rewrite HS, andb_false_r; auto).
  assert (SK : b_verify o = true -> forall i, is_skipped o k i = true <-> bad_sample M (drawn M e i)).
  { intros Ev i. destruct (drawn_bound M e i ltac:(unfold n in HN; lia)) as [B1 B2].
    pose proof (draw_spec o M (drawn M e i) W HT B1 B2) as DS. cbv zeta in DS. rewrite EM in DS. destruct DS as (Hu & _ & _ & HNeg).
    unfold is_skipped. assert (ES : sample_of k i = (entry_user M (fst (drawn M e i)), entry_item M (fst (drawn M e i)), entry_item M (snd (drawn M e i)))) by reflexivity.
    rewrite ES. cbn [k k_indptr k_itemids epoch_kernel]. fold (entry_user M (fst (drawn M e i))) (entry_item M (snd (drawn M e i))) in HNeg, Hu. rewrite Ev. cbn [andb].
    rewrite Ev in HNeg. cbn [andb] in HNeg.
    destruct (has_non_zero (c_indptr M) (c_indices M) (entry_user M (fst (drawn M e i))) (entry_item M (snd (drawn M e i)))) eqn:EH.
    - split; auto. intros _. split; auto. destruct (bpr_matrix_spec o M W HT) as (_ & _ & _ & _ & _ & HSo). rewrite EM in HSo.
      apply has_non_zero_spec in EH; auto.
    - split; [discriminate|]. intros [_ Hin]. exfalso. exact (HNeg eq_refl eq_refl Hin). }
  split; [|split; [|split; [|split; [|split]]]].
  - rewrite <- map_app. apply Permutation_map. unfold GpuBprProofs.kept. generalize (seq 0 n). clear. induction l as [|i l IH]; simpl; auto.
    destruct (is_skipped o k i); simpl; auto. etransitivity; [apply Permutation_sym, Permutation_middle|]. apply perm_skip. exact IH.
  - intros Ev. split; apply Forall_forall; intros dr Hd; apply in_map_iff in Hd; destruct Hd as (i & <- & Hi); apply filter_In in Hi; destruct Hi as [_ Hi].
    + intros X. apply (SK Ev) in X. rewrite X in Hi. discriminate.
    + apply (SK Ev); auto.
  - intros Ev. replace (filter (is_skipped o k) (seq 0 n)) with (@nil nat); auto.
    generalize (seq 0 n). induction l as [|i l IH]; auto. cbn [filter]. rewrite <- IH. unfold is_skipped. destruct (sample_of k i) as [[? ?] ?]. rewrite Ev. auto.
  - rewrite HP. rewrite map_map. auto.
  - rewrite Es. unfold n_skipped. rewrite map_length. auto.
  - rewrite Ec. unfold n_correct. rewrite map_length.
    generalize (GpuBprProofs.kept o k (seq 0 n)). induction l as [|i l IH]; simpl; auto. destruct (nltb _ _); simpl; lia.
Qed.

(** Whole runs: one callback per epoch, in order, with correct + skipped at most the number of ratings; the last
    one sees the final factors. *)
Theorem C94_callbacks_partial : forall T (NT : Num T) (o : bpr_opts) (M : csr T) G rx ry inputs m log tr,
  csr_wf M -> csr_tight M -> 0 < G -> b_factors o <= 1023 ->
  gpu_bpr_fit o M G rx ry inputs = Ok (Some (m, log, tr)) ->
  map (fun t => fst (fst (fst t))) tr = seq 0 (length inputs) /\
  (forall e correct skipped mc, In (e, correct, skipped, mc) tr -> correct + skipped <= length (c_indices M)) /\
  (inputs <> [] -> exists e c s, nth_error tr (length inputs - 1) = Some (e, c, s, m)).
Proof.
  intros T NT o M G rx ry inputs m log tr W HT HG HC HF. apply fit_ok in HF; auto. destruct HF as [HN HF]. symmetry in HF.
  destruct (epochs_trace (fun _ c s => c + s <= length (c_indices M)) o (bpr_matrix o M) G inputs 0 (bpr_init (b_factors o) (bpr_matrix o M) rx ry) m log tr) as (F & EM & EL).
  - intros e m0 m1 lg c s _ HE. apply update_exact in HE; [|auto|lia|lia]. destruct HE as (-> & -> & _).
    cbn [k_samples epoch_kernel]. rewrite (bpr_matrix_nnz o M W HT).
    generalize (epoch_kernel (bpr_matrix o M) e). intros k. unfold n_correct, n_skipped, GpuBprProofs.kept.
    rewrite <- (seq_length (length (c_indices M)) 0) at 3. generalize (seq 0 (length (c_indices M))). induction l as [|i l IH]; simpl; auto.
    destruct (is_skipped o k i); simpl; [lia|]. destruct (nltb _ _); simpl; lia.
  - exact HF.
  - split; [auto|]. split.
    + intros e c s mc Hin. clear -F Hin. induction F; [contradiction|]. destruct Hin as [->|Hin]; auto.
    + intros Hne. assert (HL : length tr = length inputs) by (clear -F; induction F; simpl; auto).
      destruct (nth_error tr (length tr - 1)) as [t|] eqn:En.
      * specialize (EL _ eq_refl). destruct t as [[[e c] s] mc]. simpl in EL. subst mc. exists e, c, s. rewrite <- HL. auto.
      * apply nth_error_None in En. destruct inputs; [congruence|]. simpl in HL. lia.
Qed.

(** Every epoch can be run to its end from every state. *)
Theorem C94_can_finish : forall T (NT : Num T) (o : bpr_opts) k G cols (zs : nat -> nat -> T) m,
  exists sched r, gpu_bpr_update o k G cols zs sched m = Some r.
Proof. intros. apply update_ends. Qed.

(** From 1024 factors on nothing happens: the factors stay as they were drawn, and 0 correct and 0 skipped is
    reported, without an error. *)
Definition C94_statement : Prop :=
  forall T (NT : Num T) (o : bpr_opts) (M : csr T) G e m m' log correct skipped,
  csr_wf M -> csr_tight M -> has_sorted_indices M = true -> 0 < length (c_indices M) -> 0 < G ->
  gpu_bpr_update o (epoch_kernel M e) G (S (b_factors o)) (e_zs e) (e_sched e) m = Some (m', log, correct, skipped) ->
  b_verify o = false -> log <> [].
Theorem C94_limit_refuted : forall T (NT : Num T) (o : bpr_opts) (M : csr T) G e m m' log correct skipped,
  1024 <= b_factors o ->
  gpu_bpr_update o (epoch_kernel M e) G (S (b_factors o)) (e_zs e) (e_sched e) m = Some (m', log, correct, skipped) ->
  m' = m /\ log = [] /\ correct = 0 /\ skipped = 0.
Proof.
  intros T NT o M G e m m' log c s HC. unfold gpu_bpr_update. rewrite launches_gt by lia. intros E; injection E as <- <- <- <-. auto.
Qed.
Definition one_M : csr Q := csr_of_rows 2 [[(0, 1%Q)]; [(1, 1%Q)]].
Lemma one_M_ok : csr_wf one_M /\ csr_tight one_M.
Proof. apply csr_of_rows_wf. intros r p Hr Hp. simpl in Hr. repeat (destruct Hr as [<-|Hr]; [simpl in Hp; repeat (destruct Hp as [<-|Hp]; [simpl; lia|]); contradiction|]). contradiction. Qed.
Definition big_o : bpr_opts (T := Q) := {| b_exp := fun _ => 1%Q; b_lr := (1#2)%Q; b_reg := (1#10)%Q; b_factors := 1024; b_verify := false |}.
Theorem C94_refuted : ~ C94_statement.
Proof.
  intros HC. destruct one_M_ok as [W HT].
  set (e := {| e_likes := fun i => i; e_dislikes := fun i => S i; e_zs := fun _ _ => (1#2)%Q; e_sched := [] |}).
  refine (HC Q Num_Q big_o one_M 1 e (fun _ => 0%Q) (fun _ => 0%Q) [] 0 0 W HT _ _ _ _ _ _); try reflexivity; try (simpl; lia).
Qed.
(** Without a rating [fit] raises IndexError, where the CPU model returns. *)
Theorem C94_empty_refuted : forall T (NT : Num T) (o : bpr_opts) (M : csr T) G rx ry inputs,
  csr_wf M -> csr_tight M -> c_indices M = [] ->
  gpu_bpr_fit o M G rx ry inputs = Raise IndexError /\ exists r, bpr_fit o M rx ry [] = Some r.
Proof.
  intros T NT o M G rx ry inputs W HT E. split.
  - unfold gpu_bpr_fit. cbv zeta. rewrite (bpr_matrix_nnz o M W HT), E. reflexivity.
  - eexists. reflexivity.
Qed.

(* ---------------------------------------------------------------- C95 *)
(** One sample, its threads in any interleaving, no other block running; [z] is what C71 wants it to be. *)
Definition one_sample {T} {NT : Num T} (o : bpr_opts (T := T)) (k : kernel_in) (i : nat) (z : T) : list (bprog (T := T)) :=
  map (fun j => gpu_bpr_lane o k (S (b_factors o)) j (fun _ => z) [i] 0 0) (seq 0 (S (b_factors o))).

(** What each thread does to its column. *)
Lemma lane_alone {T} {NT : Num T} (o : bpr_opts (T := T)) k j i z m : j <= b_factors o -> is_skipped o k i = false ->
  let '(u, l, d) := sample_of k i in l <> d ->
  let m' := fst (fst (run_alone cell_eqb (gpu_bpr_lane o k (S (b_factors o)) j (fun _ => z) [i] 0 0) m)) in
  m' (CX u j) = newX (b_lr o) (b_reg o) z m u l d j /\ m' (CY l j) = newL (b_lr o) (b_reg o) z m u l j /\ m' (CY d j) = newD (b_lr o) (b_reg o) z m u d j /\
  forall c, c <> CX u j -> c <> CY l j -> c <> CY d j -> m' c = m c.
Proof.
  intros Hj Hsk. cbn [gpu_bpr_lane]. rewrite Hsk. destruct (sample_of k i) as [[u l] d]. intros Hld. cbv zeta.
  cbn [run_alone]. rewrite (proj2 (Nat.ltb_lt j (S (b_factors o)))) by lia. cbn [run_alone fst].
  unfold newX, newL, newD. repeat split; intros; repeat (first [rewrite mset_eq | rewrite mset_neq by congruence]); reflexivity.
Qed.
Lemma cell_eqb_iff a b : cell_eqb a b = true <-> a = b.
Proof. split; [apply cell_eqb_eq|]. intros <-. destruct a; simpl; rewrite !Nat.eqb_refl; auto. Qed.
(** Every thread keeps to its column. *)
Definition column (c : cell) : option nat := match c with CX _ j => Some j | CY _ j => Some j end.
Lemma lane_column {T} {NT : Num T} (o : bpr_opts (T := T)) k cols j z is c s : well_behaved column j (gpu_bpr_lane o k cols j z is c s).
Proof.
  apply lane_safe. apply Forall_forall. intros i _ _. destruct (sample_of k i) as [[u l] d]. unfold may_read, may_write. cbn [column]. auto 10.
Qed.

Theorem C95_columns : forall T (NT : Num T) (o : bpr_opts) k i (z : T) sched m m' ps log rs,
  interleave cell_eqb sched m (one_sample o k i z) = (m', ps, log) -> results ps = Some rs -> is_skipped o k i = false ->
  let '(u, l, d) := sample_of k i in l <> d ->
  (forall j, j <= b_factors o -> m' (CX u j) = newX (b_lr o) (b_reg o) z m u l d j /\ m' (CY l j) = newL (b_lr o) (b_reg o) z m u l j /\ m' (CY d j) = newD (b_lr o) (b_reg o) z m u d j) /\
  (forall c, ~ row_cell (b_factors o) u l d c -> m' c = m c).
Proof.
  intros T NT o k i z sched m m' ps log rs HE HR Hsk. 
  assert (EN : forall j, j <= b_factors o -> nth_error (one_sample o k i z) j = Some (gpu_bpr_lane o k (S (b_factors o)) j (fun _ => z) [i] 0 0)).
  { intros j Hj. unfold one_sample. rewrite nth_error_map, (nth_error_nth' _ 0) by (rewrite seq_length; lia). rewrite seq_nth by lia. auto. }
  assert (EL : length (one_sample o k i z) = S (b_factors o)) by (unfold one_sample; rewrite map_length, seq_length; auto).
  destruct (race_free cell_eqb cell_eqb_iff column sched m (one_sample o k i z) m' ps log rs) as (R1 & R2 & _ & _); auto.
  { intros t p Hp. assert (Ht : t < length (one_sample o k i z)) by (apply nth_error_Some; intros X; pose proof (eq_trans (eq_sym Hp) X) as Y; discriminate Y). rewrite EL in Ht. pose proof (eq_trans (eq_sym (EN t ltac:(lia))) Hp) as Y. apply (f_equal (fun x => match x with Some q => q | None => p end)) in Y. rewrite <- Y. apply lane_column. }
  destruct (sample_of k i) as [[u l] d] eqn:ES. intros Hld. split.
  - intros j Hj. destruct (R1 j _ (EN j Hj)) as [_ RC]. pose proof (lane_alone o k j i z m Hj Hsk) as LA. rewrite ES in LA. specialize (LA Hld). cbv zeta in LA.
    destruct LA as (L1 & L2 & L3 & _). rewrite !RC by reflexivity. auto.
  - intros c Hc. destruct (column c) as [j|] eqn:Ec; [|destruct c; discriminate].
    destruct (Nat.le_gt_cases j (b_factors o)) as [Hj|Hj].
    + destruct (R1 j _ (EN j Hj)) as [_ RC]. rewrite RC by auto. pose proof (lane_alone o k j i z m Hj Hsk) as LA. rewrite ES in LA. specialize (LA Hld). cbv zeta in LA.
      destruct LA as (_ & _ & _ & L4). apply L4; intros ->; apply Hc; exists j; auto.
    + apply R2. intros t Ht. rewrite Ec in Ht. injection Ht as <-. eapply Nat.le_trans; [apply Nat.eq_le_incl; exact EL|lia].
Qed.

(** A gradient step of the objective in ALL cells of the three rows, the user's last column included; nothing
    else changes.  Missing to the full statement: that column should stay (C48). *)
Theorem C95_gradient_partial : forall (o : bpr_opts (T := R)) k i sched m m' ps log rs,
  let '(u, l, d) := sample_of k i in let f := b_factors o in
  let z := (1 / (1 + exp (margin f m u l d)))%R in
  interleave cell_eqb sched m (one_sample o k i z) = (m', ps, log) -> results ps = Some rs -> is_skipped o k i = false ->
  l <> d ->
  (forall c, row_cell f u l d c -> exists g, derivable_pt_lim (fun t => bpr_objective f (b_reg o) u l d (set_cell m c t)) (m c) g /\ m' c = (m c + b_lr o * g)%R) /\
  (forall c, ~ row_cell f u l d c -> m' c = m c).
Proof.
  intros o k i sched m m' ps log rs. destruct (sample_of k i) as [[u l] d] eqn:ES. intros f z HE HR Hsk Hld.
  pose proof (C95_columns R _ o k i z sched m m' ps log rs HE HR Hsk) as HC. rewrite ES in HC. destruct (HC Hld) as [V1 V2]. split; [|exact V2].
  intros c HP. exists (slope f m u l d c * z - b_reg o * m c)%R. split; [apply objective_derivative; auto|].
  unfold newX, newL, newD in V1. change (nopp z) with (- z)%R in *. change (@nadd R _) with Rplus in *. change (@nsub R _) with Rminus in *. change (@nmul R _) with Rmult in *.
  destruct HP as (j & Hj & [-> | [-> | ->]]); destruct (V1 j Hj) as (E1 & E2 & E3); unfold slope.
  - rewrite E1. ring.
  - rewrite E2, Nat.eqb_refl. ring.
  - rewrite E3, (proj2 (Nat.eqb_neq d l)) by congruence. ring.
Qed.

(** The statement that a GPU update is the CPU update: same sample, same factors, both alone. *)
Definition C95_statement : Prop :=
  forall (o : bpr_opts (T := R)) k i sched m m' ps log rs mc cs ev,
  let '(u, l, d) := sample_of k i in let f := b_factors o in
  b_exp o = exp -> m (CX u f) = 1%R -> l <> d ->
  interleave cell_eqb sched m (one_sample o k i (1 / (1 + exp (margin f m u l d)))%R) = (m', ps, log) -> results ps = Some rs -> 
  run_alone cell_eqb (bpr_thread o (k_userids k) (k_itemids k) (k_indptr k) [(k_likes k i mod k_samples k, k_dislikes k i mod k_samples k)] 0 0) m = (mc, cs, ev) ->
  forall c, m' c = mc c.

Lemma all_ret {C V E A} (eqb : C -> C -> bool) sched (m : C -> V) : forall (ps0 : list (prog C V E A)) lg m' ps log,
  (forall t p, nth_error ps0 t = Some p -> exists a, p = Ret a) ->
  fold_left (tstep eqb) sched (m, ps0, lg) = (m', ps, log) -> m' = m.
Proof.
  induction sched as [|t sched IH]; intros ps0 lg m' ps log AL HE; simpl in HE; [injection HE as <- <- <-; auto|].
  destruct (nth_error ps0 t) as [p|] eqn:Ep; [|eauto]. destruct (AL t p Ep) as [a ->]. simpl in HE.
  eapply IH; [|exact HE]. intros t' p' Hp'. apply nth_error_In in Hp'.
  assert (UI : forall (ps1 : list (prog C V E A)) t1 x y, In x (upd t1 y ps1) -> x = y \/ In x ps1).
  { clear. induction ps1 as [|q ps1 IH]; intros [|t1] x y Hx; simpl in *; auto. { destruct Hx; auto. } destruct Hx as [|Hx]; auto. apply IH in Hx. tauto. }
  apply UI in Hp'. destruct Hp' as [->|Hp']; [eauto|]. apply In_nth_error in Hp'. destruct Hp' as [n Hn]. eapply AL; eauto.
Qed.
(** All cells but the user's last column agree. *)
Theorem C95_cpu_partial : forall (o : bpr_opts (T := R)) k i sched m m' ps log rs mc cs ev,
  let '(u, l, d) := sample_of k i in let f := b_factors o in
  b_exp o = exp -> m (CX u f) = 1%R -> l <> d ->
  interleave cell_eqb sched m (one_sample o k i (1 / (1 + exp (margin f m u l d)))%R) = (m', ps, log) -> results ps = Some rs ->
  run_alone cell_eqb (bpr_thread o (k_userids k) (k_itemids k) (k_indptr k) [(k_likes k i mod k_samples k, k_dislikes k i mod k_samples k)] 0 0) m = (mc, cs, ev) ->
  forall c, c <> CX u f -> m' c = mc c.
Proof.
  intros o k i sched m m' ps log rs mc cs ev. destruct (sample_of k i) as [[u l] d] eqn:ES. intros f Hexp Hb Hld HE HR HA c Hc.
  set (z := (1 / (1 + exp (margin f m u l d)))%R) in *.
  apply sample_alone in HA. cbv zeta in HA. cbn [fst snd] in HA.
  pose proof ES as ES'. unfold sample_of in ES'. cbv zeta in ES'. injection ES' as Eu El Ed. rewrite Eu, El, Ed in HA. fold f in HA.
  assert (EK : is_skipped o k i = b_verify o && has_non_zero (k_indptr k) (k_itemids k) u d) by (unfold is_skipped; rewrite ES; auto).
  destruct HA as [(HV & -> & _ & _) | (HV & _ & _ & Em)].
  - (* skipped by both *)
    assert (AL : forall t p, nth_error (one_sample o k i z) t = Some p -> exists a, p = Ret a).
    { intros t p Hp. unfold one_sample in Hp. rewrite nth_error_map in Hp. destruct (nth_error (seq 0 (S (b_factors o))) t); [|discriminate]. simpl in Hp. injection Hp as <-.
      cbn [gpu_bpr_lane]. rewrite EK, HV. eauto. }
    exact (f_equal (fun g : cell -> R => g c) (all_ret cell_eqb sched m _ _ _ _ _ AL HE)).
  - rewrite score_of_margin, Hexp in Em. change (ndiv none_ (nadd none_ (exp (margin f m u l d)))) with z in Em.
    pose proof (C95_columns R _ o k i z sched m m' ps log rs HE HR ltac:(congruence)) as HC. rewrite ES in HC. destruct (HC Hld) as [V1 V2]. fold f in V1, V2.
    destruct (sample_values (b_lr o) (b_reg o) z u l d f m Hld) as (W1 & W2 & W3 & W4). cbv zeta in W1, W2, W3, W4. rewrite <- Em in W1, W2, W3, W4.
    assert (DEC : row_cell f u l d c \/ ~ row_cell f u l d c).
    { unfold row_cell. destruct c as [v j|v j].
      - destruct (Nat.eq_dec v u) as [->|]; [|right; intros (j' & ? & [E|[E|E]]); congruence].
        destruct (Nat.le_gt_cases j f); [left; exists j; auto|right; intros (j' & ? & [E|[E|E]]); try discriminate; injection E; lia].
      - destruct (Nat.le_gt_cases j f); [|right; intros (j' & ? & [E|[E|E]]); try discriminate; injection E; lia].
        destruct (Nat.eq_dec v l) as [->|]; [left; exists j; auto|]. destruct (Nat.eq_dec v d) as [->|]; [left; exists j; auto|].
        right; intros (j' & ? & [E|[E|E]]); congruence. }
    destruct DEC as [(j & Hj & Hcj)|HNo].
    + destruct (Nat.eq_dec j f) as [->|Hn].
      * destruct (V1 f (le_n _)) as (_ & E2 & E3). unfold newL, newD in E2, E3. rewrite Hb in E2, E3.
        destruct Hcj as [-> | [-> | ->]]; [congruence| |].
        -- rewrite E2, W2. change (@nadd R _) with Rplus. change (@nsub R _) with Rminus. change (@nmul R _) with Rmult. ring.
        -- rewrite E3, W3. change (nopp z) with (- z)%R. change (@nadd R _) with Rplus. change (@nsub R _) with Rminus. change (@nmul R _) with Rmult. ring.
      * destruct (V1 j Hj) as (E1 & E2 & E3). destruct (W1 j ltac:(lia)) as (F1 & F2 & F3). destruct Hcj as [-> | [-> | ->]]; congruence.
    + rewrite V2 by auto. symmetry. apply W4.
      * intros j Hj ->. apply HNo. exists j. split; [lia|auto].
      * intros j Hj. split; intros ->; apply HNo; exists j; auto.
Qed.
Theorem C95_refuted : ~ C95_statement.
Proof.
  intros HC. set (o := {| b_exp := exp; b_lr := 1%R; b_reg := (1/2)%R; b_factors := 1; b_verify := false |}).
  set (k := {| k_samples := 2; k_userids := [0; 1]; k_itemids := [0; 1]; k_indptr := [0; 1; 2]; k_likes := fun _ => 0; k_dislikes := fun _ => 1 |}).
  set (m := fun c : cell => match c with CX _ 1 => 1%R | _ => 0%R end).
  destruct (schedule_ends cell_eqb (map (fun j => if j =? 0 then (n_correct o k (fun _ => (1 / (1 + exp (margin 1 m 0 0 1)))%R) [0], 0) else (0, 0)) (seq 0 2)) (map (fun _ => [(0, 0, 1)]) (seq 0 2))
     (one_sample o k 0 (1 / (1 + exp (margin 1 m 0 0 1)))%R)) with (done := @nil (nat * nat)) (m := m) (log := @nil event) as (sched & m' & lg & E).
  { unfold one_sample. cbn [b_factors o seq map combine]. constructor; [|constructor; [|constructor]]; cbn [fst snd].
    - exact (lane_emits o k 2 0 (fun _ => (1 / (1 + exp (margin 1 m 0 0 1)))%R) [0] 0 0).
    - exact (lane_emits o k 2 1 (fun _ => (1 / (1 + exp (margin 1 m 0 0 1)))%R) [0] 0 0). }
  { rewrite !map_length. auto. }
  cbn [map app] in E.
  destruct (run_alone cell_eqb (bpr_thread o (k_userids k) (k_itemids k) (k_indptr k) [(k_likes k 0 mod k_samples k, k_dislikes k 0 mod k_samples k)] 0 0) m) as [[mc cs] ev] eqn:EA.
  assert (Q1 : m' (CX 0 1) = mc (CX 0 1)).
  { refine (HC o k 0 sched m m' _ lg _ mc cs ev eq_refl eq_refl ltac:(discriminate) E (results_rets _) EA _). }
  pose proof (C95_columns R _ o k 0 _ sched m m' _ lg _ E (results_rets _) eq_refl) as V. cbn in V. specialize (V ltac:(lia)). destruct V as [V _]. destruct (V 1 ltac:(lia)) as (V1 & _).
  apply sample_alone in EA. cbv zeta in EA. destruct EA as [(X & _)|(_ & _ & _ & Em)]; [discriminate X|].
  destruct (sample_values (b_lr o) (b_reg o) (ndiv none_ (nadd none_ (b_exp o (score_of m (b_factors o) 0 0 1)))) 0 0 1 1 m ltac:(lia)) as (_ & _ & _ & W4).
  cbv zeta in W4. 
  assert (Q2 : mc (CX 0 1) = 1%R).
  { rewrite Em. change 1%R with (m (CX 0 1)). apply W4; [intros j Hj X; injection X; lia|intros j Hj; split; discriminate]. }
  rewrite V1, Q2 in Q1. unfold newX in Q1. cbn in Q1. lra.
Qed.

(* ---------------------------------------------------------------- the hypotheses can be met *)
(** The matrix of C47's example on a grid of two blocks: one sample is skipped. *)
Definition gex_inputs : list (epoch_in (T := Q)) :=
  [{| e_likes := fun i => nth i [2; 3; 5] 0; e_dislikes := fun i => nth i [3; 5; 0] 0; e_zs := fun _ _ => (1#3)%Q; 
      e_sched := repeat 0 7 ++ repeat 2 5 ++ repeat 1 40 ++ repeat 3 40 ++ repeat 0 40 ++ repeat 2 40 |}].
Example C93_C94_example :
  csr_wf ex_M /\ csr_tight ex_M /\
  match gpu_bpr_fit ex_o ex_M 2 ex_rand ex_rand gex_inputs with
  | Ok (Some (m, log, tr)) => log <> [] /\ map fst tr = [(0, 2, 1)] /\ m (CX 2 0) = 0%Q /\ m (CX 2 1) = 1%Q /\ m (CY 2 1) = 0%Q /\ m (CX 1 0) <> ex_rand 1 0
  | _ => False
  end.
Proof. split; [apply ex_M_ok|]. split; [apply ex_M_ok|]. vm_compute. repeat split; intros E; discriminate. Qed.

Print Assumptions C93_negatives.
Print Assumptions C93_frame.
Print Assumptions C93_unrated.
Print Assumptions C94_epoch_partial.
Print Assumptions C94_callbacks_partial.
Print Assumptions C94_can_finish.
Print Assumptions C94_limit_refuted.
Print Assumptions C94_refuted.
Print Assumptions C94_empty_refuted.
Print Assumptions C95_columns.
Print Assumptions C95_gradient_partial.
Print Assumptions C95_cpu_partial.
Print Assumptions C95_refuted.
