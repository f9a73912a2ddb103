(** calculate_loss against the training loss. *)
From Coq Require Import List Arith Lia Bool Reals Lra Permutation.
From Verif Require Import Base Num Sparse TopkBatch RVec AlsModel AlsSpec AlsProofs AlsProofs2.
Import ListNotations.
Local Open Scope R_scope.

Definition abs_sum (row : list (nat * R)) : R := rsum (map (fun p => Rabs (snd p)) row).
Definition neg_sum (row : list (nat * R)) : R := rsum (map (fun p => Rabs (snd p) - pos (snd p)) row).

Lemma symv1 (A : list (list R)) x : symv none_ A x = mv A x.
Proof. unfold symv, mv. apply map_ext. intros r. rewrite ndot_rdot. simpl. lra. Qed.

Lemma loss_fold n Y x row : mat_ok n Y -> length x = n -> (forall p, In p row -> (fst p < length Y)%nat) ->
  forall r t l, length r = n -> exists r',
  fold_res (fun s e =>
      let '(r, total, loss) := s in
      do y <- raw_row Y (fst e);
      let c := conf_abs (snd e) in
      let t0 := if nltb nzero (snd e) then nmul (nopp (nadd none_ none_)) (snd e) else nzero in
      let t := nadd t0 (nmul (nsub c none_) (ndot y x)) in
      Ok (axpy t y r, nadd total c, nadd loss c)) row (r, t, l) = Ok (r', t + abs_sum row, l + abs_sum row) /\ length r' = n /\
  rdot r' x = rdot r x + rsum (map (fun p => (-2 * pos (snd p) + (Rabs (snd p) - 1) * rdot (nth (fst p) Y []) x) * rdot (nth (fst p) Y []) x) row).
Proof.
  intros MY Lx. induction row as [|[i c] row IH]; intros B r t l Lr.
  - exists r. unfold abs_sum. simpl. split; [|split; auto; lra]. rewrite !Rplus_0_r; auto.
  - assert (Bi : (i < length Y)%nat) by (apply (B (i, c)); left; auto). cbn [fold_res fst snd]. rewrite raw_row_ok by auto. cbn [bind]. cbv zeta.
    rewrite ndot_rdot, conf_abs_R. set (y := nth i Y []) in *.
    assert (Ly : length y = n) by (apply mat_row; auto).
    set (k := nadd (if nltb nzero c then nmul (nopp (nadd none_ none_)) c else nzero) (nmul (nsub (Rabs c) none_) (rdot y x))).
    assert (Ek : k = -2 * pos c + (Rabs c - 1) * rdot y x).
    { unfold k, pos. simpl. unfold Rltb. destruct (Rlt_dec 0 c); lra. }
    destruct (IH (fun p Hp => B p (or_intror Hp)) (axpy k y r) (t + Rabs c) (l + Rabs c)) as [r' [E [Lr' D]]]; [rewrite axpy_length; auto|].
    exists r'. split; [etransitivity; [exact E|]; unfold abs_sum; simpl; rewrite !Rplus_assoc; auto|]. split; auto. rewrite D. simpl.
    rewrite rdot_axpy by congruence. fold y. rewrite Ek. lra.
Qed.

Lemma psq_sum Y row : row_ok (length Y) row -> psq Y row = rsum (map (fun p => pos (snd p)) row).
Proof.
  intros OK. unfold psq.
  transitivity (rsum (map (fun i => match entry row i with Some c => pos c | None => 0 end) (seq 0 (length Y)))).
  - apply rsum_map_ext. intros i _. unfold confidence, preference, sq, pos. destruct (entry row i) as [c|]; [|lra].
    destruct (Rlt_dec 0 c); [rewrite Rabs_right; lra|lra].
  - rewrite (sparse_sum (length Y) row (fun _ => 0) (fun c _ => pos c)) by auto. rewrite rsum_zero.
    + rewrite Rplus_0_l. apply rsum_map_ext. intros p _. lra.
    + intros v Hv. apply in_map_iff in Hv. destruct Hv as [? [<- _]]. auto.
Qed.

Lemma loss_user_value n Y row x : mat_ok n Y -> row_ok (length Y) row -> length x = n ->
  loss_user (gram n Y) Y row x = Ok (abs_sum row, row_error Y row x + neg_sum row, rdot x x).
Proof.
  intros MY RO Lx. unfold loss_user. rewrite symv1.
  destruct (loss_fold n Y x row MY Lx (proj2 RO) (mv (gram n Y) x) 0 0) as [r' [E [Lr' D]]].
  { rewrite mv_length. apply (gram_shape n Y). }
  match goal with |- bind ?F _ = _ => replace F with (Ok (r', 0 + abs_sum row, 0 + abs_sum row)) by (symmetry; exact E) end. cbn [bind]. rewrite !ndot_rdot. rewrite !Rplus_0_l. do 2 f_equal. f_equal.
  simpl nadd. rewrite D. rewrite gram_form by auto. rewrite row_error_form, wform_sum, wlin_sum, psq_sum by auto. unfold neg_sum, abs_sum.
  rewrite rsum_map_sub.
  replace (rsum (map (fun p => (-2 * pos (snd p) + (Rabs (snd p) - 1) * rdot (nth (fst p) Y []) x) * rdot (nth (fst p) Y []) x) row))
    with (-2 * rsum (map (fun p => pos (snd p) * rdot (nth (fst p) Y []) x) row) +
          rsum (map (fun p => (Rabs (snd p) - 1) * (rdot (nth (fst p) Y []) x * rdot (nth (fst p) Y []) x)) row)).
  2:{ rewrite <- rsum_map_scale, <- rsum_map_add. apply rsum_map_ext. intros p _. lra. }
  lra.
Qed.

Lemma csr_row_length {T} (m : csr T) u : csr_wf m -> (u < c_rows m)%nat ->
  length (csr_row m u) = (nth (S u) (c_indptr m) 0 - nth u (c_indptr m) 0)%nat.
Proof.
  intros W B. unfold csr_row. rewrite combine_length.
  pose proof (wf_indptr_last m W). pose proof (wf_indptr_mono m W (S u) (c_rows m)). pose proof (wf_data_len m W).
  rewrite !slice_length by lia. lia.
Qed.
Lemma nnz_sum {T} (m : csr T) : csr_wf m -> nth 0 (c_indptr m) 0%nat = 0%nat ->
  rsum (map (fun u => INR (length (csr_row m u))) (seq 0 (c_rows m))) = INR (nth (c_rows m) (c_indptr m) 0%nat).
Proof.
  intros W Z.
  assert (G : forall k, (k <= c_rows m)%nat -> rsum (map (fun u => INR (length (csr_row m u))) (seq 0 k)) = INR (nth k (c_indptr m) 0%nat)).
  { induction k as [|k IH]; intros B; [rewrite Z; auto|]. rewrite seq_S, map_app, rsum_app, IH by lia. simpl plus. cbn [map rsum].
    rewrite csr_row_length by (auto; lia). pose proof (wf_indptr_mono m W k (S k)). rewrite minus_INR by lia. lra. }
  apply G; auto.
Qed.

Lemma total_confidence_sum m : canonical m -> nth 0 (c_indptr m) 0%nat = 0%nat ->
  total_confidence (csr_row m) (c_rows m) (c_cols m) =
  rsum (map (fun u => abs_sum (csr_row m u)) (seq 0 (c_rows m))) + INR (c_rows m * c_cols m) - INR (nth (c_rows m) (c_indptr m) 0%nat).
Proof.
  intros C Z. unfold total_confidence. rewrite <- nnz_sum by (auto; apply C).
  transitivity (rsum (map (fun u => abs_sum (csr_row m u) + INR (c_cols m) - INR (length (csr_row m u))) (seq 0 (c_rows m)))).
  - apply rsum_map_ext. intros u Hu. apply in_seq in Hu. unfold confidence.
    rewrite (sparse_sum (c_cols m) (csr_row m u) (fun _ => 1) (fun c _ => Rabs c)) by (apply canonical_row; auto; lia).
    unfold abs_sum. rewrite rsum_map_sub, !rsum_map_const, seq_length. lra.
  - rewrite rsum_map_sub, rsum_map_add, rsum_map_const, seq_length, mult_INR. lra.
Qed.

Theorem calculate_loss_value n m X Y reg uorder iorder :
  canonical m -> nth 0 (c_indptr m) 0%nat = 0%nat -> mat_ok n X -> mat_ok n Y -> length X = c_rows m -> length Y = c_cols m ->
  Permutation uorder (seq 0 (c_rows m)) -> Permutation iorder (seq 0 (c_cols m)) ->
  calculate_loss INR n uorder iorder m X Y reg =
    c_div (total_loss (csr_row m) reg X Y + rsum (map (fun u => neg_sum (csr_row m u)) (seq 0 (c_rows m))))
          (total_confidence (csr_row m) (c_rows m) (c_cols m)).
Proof.
  intros C Z MX MY LX LY PU PI. unfold calculate_loss.
  rewrite (map_res_map _ (fun u => (abs_sum (csr_row m u), row_error Y (csr_row m u) (nth u X []) + neg_sum (csr_row m u), rdot (nth u X []) (nth u X [])))).
  2:{ intros u Hu. apply (Permutation_in _ PU) in Hu. apply in_seq in Hu. rewrite raw_entries_ok by (try apply C; lia). cbn [bind].
      rewrite raw_row_ok by lia. cbn [bind]. apply loss_user_value; auto; [rewrite LY; apply canonical_row; auto; lia|apply mat_row; auto; lia]. }
  cbn [bind]. rewrite (map_res_map _ (fun i => rdot (nth i Y []) (nth i Y []))).
  2:{ intros i Hi. apply (Permutation_in _ PI) in Hi. apply in_seq in Hi. rewrite raw_row_ok by lia. cbn [bind]. rewrite ndot_rdot. auto. }
  cbn [bind]. rewrite !map_map, !nsum_rsum. cbn [fst snd].
  assert (PS : forall f, rsum (map f uorder) = rsum (map f (seq 0 (c_rows m)))) by (intros f; apply rsum_perm, Permutation_map; auto).
  assert (PT : forall f, rsum (map f iorder) = rsum (map f (seq 0 (c_cols m)))) by (intros f; apply rsum_perm, Permutation_map; auto).
  rewrite !PS, PT. rewrite total_confidence_sum by auto.
  rewrite rsum_map_add. unfold total_loss, norms. rewrite <- (map_nth_all (fun x => rdot x x) X []), <- (map_nth_all (fun x => rdot x x) Y []), LX, LY.
  f_equal. simpl. lra.
Qed.
