(** C151: how evenly BPR draws its samples on the GPU. *)
From Coq Require Import List Arith Lia Bool ZArith Permutation.
From Verif Require Import Base Num Heap Sparse ThreadProg BprModel BprProofs BprProofs2 PropBpr PropFair GpuAls GpuBpr GpuBprProofs PropGpuBpr.
Import ListNotations.

(** Numbers below [R] by their remainder: [R / n] full rounds and the start of one more. *)
Lemma mod_rounds n (P : nat -> bool) q : n <> 0 -> length (filter (fun a => P (a mod n)) (seq 0 (q * n))) = q * length (filter P (seq 0 n)).
Proof.
  intros N. induction q as [|q IH]; auto. replace (S q * n) with (q * n + n) by lia. rewrite seq_app, filter_app, app_length, IH. simpl (0 + q * n).
  assert (E : length (filter (fun a => P (a mod n)) (seq (q * n) n)) = length (filter P (seq 0 n))); [|lia].
  assert (G : forall m k, k + m <= n -> length (filter (fun a => P (a mod n)) (seq (q * n + k) m)) = length (filter P (seq k m))).
  { induction m as [|m IHm]; intros k Hk; auto. cbn [seq filter]. replace ((q * n + k) mod n) with k.
    - specialize (IHm (S k) ltac:(lia)). replace (S (q * n + k)) with (q * n + S k) by lia. destruct (P k); cbn [length]; lia.
    - rewrite Nat.add_comm, Nat.mod_add by auto. symmetry. apply Nat.mod_small. lia. }
  specialize (G n 0 ltac:(lia)). rewrite Nat.add_0_r in G. exact G.
Qed.
Lemma mod_count n (P : nat -> bool) R : n <> 0 ->
  length (filter (fun a => P (a mod n)) (seq 0 R)) = (R / n) * length (filter P (seq 0 n)) + length (filter P (seq 0 (R mod n))).
Proof.
  intros N. rewrite (Nat.div_mod R n N) at 1. replace (n * (R / n) + R mod n) with (R / n * n + R mod n) by lia.
  rewrite seq_app, filter_app, app_length, (mod_rounds n P (R / n) N). f_equal. simpl (0 + R / n * n).
  pose proof (Nat.mod_upper_bound R n N) as B.
  assert (G : forall m k, k + m <= n -> length (filter (fun a => P (a mod n)) (seq (R / n * n + k) m)) = length (filter P (seq k m))).
  { induction m as [|m IHm]; intros k Hk; auto. cbn [seq filter]. replace ((R / n * n + k) mod n) with k.
    - specialize (IHm (S k) ltac:(lia)). replace (S (R / n * n + k)) with (R / n * n + S k) by lia. destruct (P k); cbn [length]; lia.
    - rewrite Nat.add_comm, Nat.mod_add by auto. symmetry. apply Nat.mod_small. lia. }
  specialize (G (R mod n) 0 ltac:(lia)). rewrite Nat.add_0_r in G. exact G.
Qed.
Lemma filter_prefix (P : nat -> bool) m n : m <= n -> length (filter P (seq 0 m)) <= length (filter P (seq 0 n)).
Proof. intros L. replace n with (m + (n - m)) by lia. rewrite seq_app, filter_app, app_length. lia. Qed.

Section Fair.
Context {T : Type} {NT : Num T}.

(** A pair of random positions selects (u, i, j) if the first is a stored rating of i by u
    and the second one of j, unless the pair is refused. *)
Lemma pick_split (o : bpr_opts (T := T)) (M : csr T) u i j : csr_wf M -> csr_tight M -> u < c_rows M ->
  let M' := bpr_matrix o M in
  let liked := b_verify o && negb (stored_times M' u j =? 0) in
  forall a b,
  match pick_at o (row_ids (c_rows M') (c_indptr M')) (c_indices M') (c_indptr M') (a, b) with
  | Some (u', i', j') => (u' =? u) && (i' =? i) && (j' =? j) | None => false end =
  ((nth a (row_ids (c_rows M') (c_indptr M')) 0 =? u) && (nth a (c_indices M') 0 =? i)) && ((nth b (c_indices M') 0 =? j) && negb liked).
Proof.
  intros W TM Hu M' liked. destruct (bpr_matrix_spec o M W TM) as (W' & T' & HR & HC & HP & HS). fold M' in W', T', HR, HC, HP, HS.
  assert (LK : b_verify o && has_non_zero (c_indptr M') (c_indices M') u j = liked).
  { unfold liked. destruct (b_verify o) eqn:EV; auto. simpl. pose proof (has_non_zero_spec M' u j W' (HS eq_refl) ltac:(lia)) as HZ.
    unfold stored_times. destruct (in_dec Nat.eq_dec j (csr_row_indices M' u)) as [I1|I1].
    - pose proof (proj1 (count_occ_In Nat.eq_dec _ _) I1) as C. rewrite (proj2 HZ I1). destruct (Nat.eqb_spec (count_occ Nat.eq_dec (csr_row_indices M' u) j) 0); [lia|auto].
    - rewrite (proj1 (count_occ_not_In Nat.eq_dec _ _) I1). simpl. destruct (has_non_zero _ _ _ _) eqn:E; auto. destruct (I1 (proj1 HZ eq_refl)). }
  intros a b. unfold pick_at. cbn [fst snd]. rewrite <- LK. generalize (nth a (row_ids (c_rows M') (c_indptr M')) 0) as x, (nth a (c_indices M') 0) as y, (nth b (c_indices M') 0) as z. intros x y z.
  destruct (Nat.eq_dec x u) as [->|N1]; [destruct (Nat.eq_dec z j) as [->|N2]|].
  - destruct (b_verify o && has_non_zero (c_indptr M') (c_indices M') u j); cbn [negb]; rewrite ?Nat.eqb_refl, ?andb_false_r, ?andb_true_r; auto.
  - apply Nat.eqb_neq in N2. destruct (b_verify o && has_non_zero (c_indptr M') (c_indices M') u z); rewrite ?N2; cbn [andb]; rewrite ?andb_false_r; auto.
  - apply Nat.eqb_neq in N1. destruct (b_verify o && has_non_zero (c_indptr M') (c_indices M') x z); rewrite ?N1; auto.
Qed.
End Fair.

(** How many of the pairs of numbers below [range] select (u, i, j). *)
Definition chances (pick : nat * nat -> option (nat * nat * nat)) (range u i j : nat) : nat :=
  length (filter (fun dr => match pick dr with Some (u', i', j') => (u' =? u) && (i' =? i) && (j' =? j) | None => false end)
                 (list_prod (seq 0 range) (seq 0 range))).

(** Strongest true part.  Every thread of every sample trains on what its two random numbers
    select, and the number of samples that select nothing is reported, in every
    interleaving.  With numbers below [range], the number of pairs that select (u, i, j)
    is the one of C146 times the square of [range / nnz], up to one more round; exactly
    so if the number of ratings divides [range].  Missing: numbers are reduced by the
    remainder, so that some ratings are drawn by one more number than others. *)
Theorem C151_partial : forall T (NT : Num T) (o : bpr_opts) (M : csr T), csr_wf M -> csr_tight M ->
  let nnz := length (c_indices M) in 0 < nnz ->
  exists pick : nat * nat -> option (nat * nat * nat),
  (forall G e m m' log correct skipped, 0 < G -> b_factors o <= 1023 ->
     gpu_bpr_update o (epoch_kernel (bpr_matrix o M) e) G (S (b_factors o)) (e_zs e) (e_sched e) m = Some (m', log, correct, skipped) ->
     let draws := map (fun s => (e_likes e s, e_dislikes e s)) (seq 0 nnz) in
     Permutation log (concat (repeat (flat_map (fun dr => opt_list (pick dr)) draws) (S (b_factors o)))) /\ skipped = nones pick draws) /\
  (forall range u i j, u < c_rows M ->
     let even := stored_times M u i * (if b_verify o && negb (stored_times M u j =? 0) then 0 else popularity M j) in
     let q := range / nnz in
     q * q * even <= chances pick range u i j <= S q * S q * even /\
     (range mod nnz = 0 -> chances pick range u i j = q * q * even)).
Proof.
  intros T NT o M W TM nnz NZ. destruct (bpr_matrix_spec o M W TM) as (W' & T' & HR & HC & HP & HS). pose proof (bpr_matrix_nnz o M W TM) as HN.
  pose proof (pick_split o M) as PS. set (M' := bpr_matrix o M) in *. fold nnz in HN.
  set (pk := pick_at o (row_ids (c_rows M') (c_indptr M')) (c_indices M') (c_indptr M')).
  exists (fun dr => pk (fst dr mod nnz, snd dr mod nnz)). split.
  - intros G e m m' log correct skipped HG HF HE draws.
    apply update_exact in HE; [|auto|lia|lia]. destruct HE as (Es & _ & HL). set (k := epoch_kernel M' e) in *. cbn [k k_samples epoch_kernel] in Es, HL. rewrite HN in Es, HL.
    assert (ONE : forall s, pk (e_likes e s mod nnz, e_dislikes e s mod nnz) = if is_skipped o k s then None else Some (sample_of k s)).
    { intros s. unfold pk, pick_at, is_skipped, sample_of. cbn [fst snd k k_likes k_dislikes k_samples k_userids k_itemids k_indptr epoch_kernel]. rewrite HN. reflexivity. }
    split.
    + rewrite HL. replace (map (sample_of k) (GpuBprProofs.kept o k (seq 0 nnz))) with (flat_map (fun dr => opt_list (pk (fst dr mod nnz, snd dr mod nnz))) draws); auto.
      unfold draws, GpuBprProofs.kept. rewrite flat_map_concat_map, map_map, <- flat_map_concat_map. cbn [fst snd]. generalize (seq 0 nnz). induction l as [|s l IH]; auto.
      cbn [flat_map filter]. rewrite ONE, IH. destruct (is_skipped o k s); reflexivity.
    + rewrite Es. unfold n_skipped, nones, draws. generalize (seq 0 nnz). induction l as [|s l IH]; auto. cbn [map filter fst snd]. rewrite ONE.
      destruct (is_skipped o k s); cbn [length]; auto.
  - intros range u i j Hu even q. specialize (PS u i j W TM Hu). cbv zeta in PS. fold M' in PS.
    assert (ST : forall v k, v < c_rows M -> stored_times M v k = stored_times M' v k).
    { intros v k Hv. unfold stored_times, csr_row_indices. apply (Permutation_count_occ Nat.eq_dec). apply Permutation_map. apply Permutation_sym. auto. }
    assert (PO : popularity M j = popularity M' j).
    { unfold popularity. rewrite HR. f_equal. apply map_ext_in. intros v Hv. apply ST. apply in_seq in Hv. lia. }
    set (liked := b_verify o && negb (stored_times M' u j =? 0)) in *.
    set (PA := fun a => (nth a (row_ids (c_rows M') (c_indptr M')) 0 =? u) && (nth a (c_indices M') 0 =? i)) in *.
    set (PB := fun b => (nth b (c_indices M') 0 =? j) && negb liked) in *.
    assert (NZ' : nnz <> 0) by lia.
    assert (CH : chances (fun dr => pk (fst dr mod nnz, snd dr mod nnz)) range u i j =
       length (filter (fun a => PA (a mod nnz)) (seq 0 range)) * length (filter (fun b => PB (b mod nnz)) (seq 0 range))).
    { unfold chances. rewrite <- (count_prod (fun a => PA (a mod nnz)) (fun b => PB (b mod nnz))). f_equal. apply filter_ext. intros [a b]. cbn [fst snd]. apply PS. }
    assert (CA : length (filter PA (seq 0 nnz)) = stored_times M u i).
    { rewrite ST by auto. rewrite <- (count_pair M' u i W' T') by lia. rewrite HN. reflexivity. }
    assert (CB : length (filter PB (seq 0 nnz)) = if b_verify o && negb (stored_times M u j =? 0) then 0 else popularity M j).
    { rewrite (ST u j Hu), PO. fold liked. rewrite <- (count_item M' j W' T'), HN. unfold PB. destruct liked.
      - rewrite (filter_ext _ (fun _ => false)) by (intros; apply andb_false_r). clear. induction (seq 0 nnz); auto.
      - f_equal. apply filter_ext. intros. apply andb_true_r. }
    assert (EV : even = length (filter PA (seq 0 nnz)) * length (filter PB (seq 0 nnz))) by (unfold even; rewrite CA, CB; reflexivity).
    rewrite CH, !(mod_count nnz) by auto. fold q. rewrite EV. pose proof (Nat.mod_upper_bound range nnz NZ') as MB.
    pose proof (filter_prefix PA (range mod nnz) nnz ltac:(lia)) as FA. pose proof (filter_prefix PB (range mod nnz) nnz ltac:(lia)) as FB.
    set (x := length (filter PA (seq 0 nnz))) in *. set (y := length (filter PB (seq 0 nnz))) in *.
    split.
    + set (dx := length (filter PA (seq 0 (range mod nnz)))) in *. set (dy := length (filter PB (seq 0 (range mod nnz)))) in *.
      split.
      * replace (q * q * (x * y)) with ((q * x) * (q * y)) by lia. apply Nat.mul_le_mono; lia.
      * replace (S q * S q * (x * y)) with ((S q * x) * (S q * y)) by lia. apply Nat.mul_le_mono; lia.
    + intros Z0. rewrite Z0. cbn [seq filter length]. lia.
Qed.
Print Assumptions C151_partial.

(** Three users with one rating each: of the pairs of 32-bit numbers more select the first
    rating against the second one than the second against the third. *)
Definition three : csr Z := csr_of_rows 3 [[(0, 1%Z)]; [(1, 1%Z)]; [(2, 1%Z)]].
Definition any_opts : bpr_opts (T := Z) := {| b_exp := fun x => x; b_factors := 2; b_lr := 1%Z; b_reg := 0%Z; b_verify := false |}.
Definition bits32 : nat := Z.to_nat (2 ^ 32).
Lemma bits32_div : exists q, q <> 0 /\ bits32 = q * 3 + 1.
Proof.
  exists (Z.to_nat (2 ^ 32 / 3)). split.
  - intros X. apply (f_equal Z.of_nat) in X. rewrite Z2Nat.id in X by (vm_compute; discriminate). discriminate X.
  - unfold bits32. apply Nat2Z.inj. rewrite Nat2Z.inj_add, Nat2Z.inj_mul, !Z2Nat.id by (vm_compute; discriminate). reflexivity.
Qed.
Lemma uneven pick R q : q <> 0 -> R = q * 3 + 1 -> (forall a b, pick (a, b) = Some (a mod 3, a mod 3, b mod 3)) ->
  chances pick R 0 0 1 <> chances pick R 1 1 2.
Proof.
  intros HQ Q ONE.
  assert (CH : forall u v, chances pick R u u v = length (filter (fun a => a mod 3 =? u) (seq 0 R)) * length (filter (fun b => b mod 3 =? v) (seq 0 R))).
  { intros u v. unfold chances. rewrite <- (count_prod (fun a => a mod 3 =? u) (fun b => b mod 3 =? v)). f_equal. apply filter_ext. intros [a b]. rewrite ONE. cbn [fst snd].
    destruct (a mod 3 =? u); reflexivity. }
  rewrite !CH. rewrite !(mod_count 3 (fun a => a =? _)) by lia.
  assert (D : R / 3 = q) by (rewrite Q, Nat.div_add_l by lia; simpl (1 / 3); lia).
  assert (R1 : R mod 3 = 1) by (rewrite Q, Nat.add_comm, Nat.mod_add by lia; reflexivity).
  rewrite D, R1. cbn [seq filter length Nat.eqb]. nia.
Qed.
Theorem C151_refuted : exists (T : Type) (NT : Num T) (o : bpr_opts) (M : csr T), csr_wf M /\ csr_tight M /\ 0 < length (c_indices M) /\
  stored_times M 0 0 * popularity M 1 = stored_times M 1 1 * popularity M 2 /\
  forall pick : nat * nat -> option (nat * nat * nat),
  (forall G e m m' log correct skipped, 0 < G ->
     gpu_bpr_update o (epoch_kernel (bpr_matrix o M) e) G (S (b_factors o)) (e_zs e) (e_sched e) m = Some (m', log, correct, skipped) ->
     Permutation log (concat (repeat (flat_map (fun dr => opt_list (pick dr)) (map (fun s => (e_likes e s, e_dislikes e s)) (seq 0 (length (c_indices M))))) (S (b_factors o))))) ->
  chances pick bits32 0 0 1 <> chances pick bits32 1 1 2.
Proof.
  exists Z, Num_Z, any_opts, three. split; [|split; [|split; [|split]]].
  - apply csr_of_rows_wf. intros r p Hr Hp. simpl in Hr. repeat (destruct Hr as [<-|Hr]; [simpl in Hp; destruct Hp as [<-|[]]; simpl; lia|]). destruct Hr.
  - split; reflexivity.
  - simpl. lia.
  - reflexivity.
  - intros pick HL.
    (* three times the same draw shows what it selects *)
    assert (ONE : forall a b, pick (a, b) = Some (a mod 3, a mod 3, b mod 3)).
    { intros a b. set (k := epoch_kernel (bpr_matrix any_opts three) {| e_likes := fun _ => a; e_dislikes := fun _ => b; e_zs := fun _ _ => 0%Z; e_sched := [] |}).
      destruct (C94_can_finish Z Num_Z any_opts k 1 3 (fun _ _ => 0%Z) (fun _ => 0%Z)) as [sched [[[[m' log] c] s] HE]].
      pose proof (HL 1 {| e_likes := fun _ => a; e_dislikes := fun _ => b; e_zs := fun _ _ => 0%Z; e_sched := sched |} (fun _ => 0%Z) m' log c s ltac:(lia) HE) as P.
      apply update_exact in HE; try lia. destruct HE as (_ & _ & P2). rewrite P2 in P. clear P2. cbn [b_factors any_opts] in P.
      assert (S3 : forall i, sample_of k i = (a mod 3, a mod 3, b mod 3)).
      { intros i. unfold sample_of. cbn [k epoch_kernel k_likes k_dislikes k_samples k_userids k_itemids]. cbn [e_likes e_dislikes].
        change (length (c_indices (bpr_matrix any_opts three))) with 3. change (c_indices (bpr_matrix any_opts three)) with [0; 1; 2].
        change (row_ids (c_rows (bpr_matrix any_opts three)) (c_indptr (bpr_matrix any_opts three))) with [0; 1; 2].
        assert (L : forall x, nth (x mod 3) [0; 1; 2] 0 = x mod 3).
        { intros x. pose proof (Nat.mod_upper_bound x 3 ltac:(lia)). destruct (x mod 3) as [|[|[|?]]]; simpl; lia. }
        rewrite !L. reflexivity. }
      assert (SK : forall i, is_skipped any_opts k i = false) by (intros i; unfold is_skipped; destruct (sample_of k i) as [[? ?] ?]; reflexivity).
      change (k_samples k) with 3 in P. change (length (c_indices three)) with 3 in P. unfold GpuBprProofs.kept in P. cbn [seq filter map] in P. rewrite !SK in P. cbn [negb map] in P. rewrite !S3 in P.
      cbn [e_likes e_dislikes flat_map] in P. destruct (pick (a, b)) as [t|].
      - f_equal. cbn [opt_list app repeat concat] in P. apply (Permutation_in (a mod 3, a mod 3, b mod 3)) in P; [|left; auto]. simpl in P. intuition.
      - cbn [opt_list app repeat concat] in P. apply Permutation_sym, Permutation_nil in P. discriminate P. }
    destruct bits32_div as [q [Q1 Q2]]. exact (uneven pick bits32 q Q1 Q2 ONE).
Qed.
Print Assumptions C151_refuted.

Example C151_example : csr_wf three /\ csr_tight three /\ 0 < length (c_indices three) /\ stored_times three 1 1 * popularity three 2 = 1 /\ 12 mod length (c_indices three) = 0.
Proof.
  split; [|split; [split; reflexivity|split; [simpl; lia|split; reflexivity]]].
  apply csr_of_rows_wf. intros r p Hr Hp. simpl in Hr. repeat (destruct Hr as [<-|Hr]; [simpl in Hp; destruct Hp as [<-|[]]; simpl; lia|]). destruct Hr.
Qed.
