(** The GPU kernels of ALS compute, over the reals, what the native CPU code computes. *)
From Coq Require Import List Arith Lia Bool ZArith Reals Lra Permutation.
From Verif Require Import Base Num Sparse TopkModel TopkBatch RecommendModel RVec SimilarBatch AlsModel AlsSpec AlsProofs AlsProofs2 AlsConc RowConc KnnConc CgProofs GpuKnn GpuKnnProofs2 GpuAls.
Import ListNotations.
Local Open Scope R_scope.

(** What is asked of the block reduction. *)
Definition dot_ok (n : nat) (bdot : list R -> R) : Prop := forall l, length l = n -> bdot l = rsum l.

Lemma prods_sum a b : rsum (prods a b) = rdot a b.
Proof. unfold prods, lanes2. revert b. induction a as [|x a IH]; intros [|y b]; cbn; auto. unfold prods, lanes2 in IH. rewrite IH. auto. Qed.
Lemma lanes2_length (f : R -> R -> R) a b n : length a = n -> length b = n -> length (lanes2 f a b) = n.
Proof. intros La Lb. unfold lanes2. rewrite map_length, combine_length. lia. Qed.
Lemma bdot_dot n bdot a b : dot_ok n bdot -> length a = n -> length b = n -> bdot (prods a b) = rdot a b.
Proof. intros D La Lb. rewrite D by (apply lanes2_length; auto). apply prods_sum. Qed.
Lemma lanes2_axpy (f : R -> R -> R) s r y : (forall a b, f a b = a + s * b) -> length r = length y -> lanes2 f r y = axpy s y r.
Proof.
  intros F. unfold lanes2. revert y. induction r as [|a r IH]; intros [|b y] L; cbn in *; try discriminate; auto. rewrite F, IH by lia. auto.
Qed.
Lemma fold_nsub l a : fold_left (fun r p => nsub r (nmul (fst p) (snd p))) l a = a - rsum (map (fun p : R * R => fst p * snd p) l).
Proof. revert a. induction l as [|p l IH]; intros a; cbn; [lra|]. cbn in IH. rewrite IH. lra. Qed.
Lemma fold_nadd l a : fold_left (fun r p => nadd r (nmul (fst p) (snd p))) l a = a + rsum (map (fun p : R * R => fst p * snd p) l).
Proof. revert a. induction l as [|p l IH]; intros a; cbn; [lra|]. cbn in IH. rewrite IH. lra. Qed.
Lemma combine_rdot x y : rsum (map (fun p : R * R => fst p * snd p) (combine x y)) = rdot x y.
Proof. revert y. induction x as [|a x IH]; intros [|b y]; cbn; auto. rewrite IH. auto. Qed.

Lemma column_dot n A t x : square n A -> symmetric n A -> (t < n)%nat -> length x = n -> rdot x (column A t) = rdot (nth t A []) x.
Proof.
  intros [LA RA] SY B Lx.
  rewrite (rdot_nth x (column A t) n), (rdot_nth (nth t A []) x n); auto; [|apply RA, nth_In; lia|unfold column; rewrite map_length; auto].
  apply rsum_map_ext. intros k Hk. apply in_seq in Hk. unfold column. rewrite (nth_map_lt (fun r => nth t r nzero) A k 0 []) by lia.
  simpl nzero. rewrite (SY k t) by lia. lra.
Qed.

Section Row.
Variables (n : nat) (Y : list (list R)) (A : list (list R)) (bdot : list R -> R) (eps : R).
Hypothesis MY : mat_ok n Y.
Hypothesis SA : square n A.
Hypothesis SYM : symmetric n A.
Hypothesis DO : dot_ok n bdot.

Lemma init_sub x : length x = n ->
  map (fun t => fold_left (fun r p => nsub r (nmul (fst p) (snd p))) (combine x (column A t)) nzero) (seq 0 n) = symv (nopp none_) A x.
Proof.
  intros Lx. unfold symv. apply nth_ext with (d := 0) (d' := 0); [rewrite !map_length, seq_length; symmetry; apply SA|].
  intros t B. rewrite map_length, seq_length in B. rewrite (nth_map_lt _ (seq 0 n) t 0 0%nat) by (rewrite seq_length; auto).
  rewrite (nth_map_lt (fun row => nmul (nopp none_) (ndot row x)) A t 0 []) by (rewrite (proj1 SA); auto).
  rewrite seq_nth by auto. rewrite fold_nsub, combine_rdot, (column_dot n), ndot_rdot by auto. simpl. lra.
Qed.
Lemma init_add x : length x = n ->
  map (fun t => fold_left (fun r p => nadd r (nmul (fst p) (snd p))) (combine x (column A t)) nzero) (seq 0 n) = symv none_ A x.
Proof.
  intros Lx. unfold symv. apply nth_ext with (d := 0) (d' := 0); [rewrite !map_length, seq_length; symmetry; apply SA|].
  intros t B. rewrite map_length, seq_length in B. rewrite (nth_map_lt _ (seq 0 n) t 0 0%nat) by (rewrite seq_length; auto).
  rewrite (nth_map_lt (fun row => nmul none_ (ndot row x)) A t 0 []) by (rewrite (proj1 SA); auto).
  rewrite seq_nth by auto. rewrite fold_nadd, combine_rdot, (column_dot n), ndot_rdot by auto. simpl. lra.
Qed.
Lemma symv_len a x : length (symv a A x) = n.
Proof. unfold symv. rewrite map_length. apply SA. Qed.

Lemma raw_row_len i y : raw_row Y i = Ok y -> length y = n.
Proof. unfold raw_row. destruct (nth_error Y i) as [z|] eqn:E; [|discriminate]. intros X. inversion X; subst. apply MY. eapply nth_error_In; eauto. Qed.

(** A loop over the entries adding multiples of item rows. *)
Lemma entry_loop_eq (f g : list R -> nat * R -> res (list R)) row :
  (forall r e, length r = n -> f r e = g r e) -> (forall r e r', length r = n -> g r e = Ok r' -> length r' = n) ->
  forall r, length r = n -> fold_res f row r = fold_res g row r /\ (forall r', fold_res g row r = Ok r' -> length r' = n).
Proof.
  intros FG LG. induction row as [|e row IH]; intros r Lr; cbn [fold_res]; [split; auto; intros r' X; inversion X; subst; auto|].
  rewrite (FG r e Lr). destruct (g r e) as [r1|] eqn:E; cbn [bind]; [|split; auto; discriminate]. apply IH. eapply LG; eauto.
Qed.

Lemma gpu_residual_eq row x : length x = n -> gpu_residual bdot n A Y row x = residual A Y row x /\ (forall r, residual A Y row x = Ok r -> length r = n).
Proof.
  intros Lx. unfold gpu_residual, residual. rewrite init_sub by auto. apply entry_loop_eq; [| |apply symv_len].
  - intros r e Lr. destruct (raw_row Y (fst e)) as [y|] eqn:Ey; cbn [bind]; auto. pose proof (raw_row_len _ _ Ey) as Ly. cbv zeta.
    rewrite (bdot_dot n) by auto. rewrite ndot_rdot. unfold conf_abs. simpl. unfold Rltb. destruct (Rlt_dec 0 (snd e)); apply (f_equal (@Ok (list R))); apply lanes2_axpy; try congruence; intros a b; simpl; lra.
  - intros r e r' Lr. destruct (raw_row Y (fst e)) as [y|] eqn:Ey; cbn [bind]; [|discriminate]. cbv zeta. intros X. inversion X. rewrite axpy_length; auto.
Qed.
Lemma gpu_apply_eq row p : length p = n -> gpu_apply bdot n A Y row p = apply_A A Y row p /\ (forall r, apply_A A Y row p = Ok r -> length r = n).
Proof.
  intros Lp. unfold gpu_apply, apply_A. rewrite init_add by auto. apply entry_loop_eq; [| |apply symv_len].
  - intros r e Lr. destruct (raw_row Y (fst e)) as [y|] eqn:Ey; cbn [bind]; auto. pose proof (raw_row_len _ _ Ey) as Ly. cbv zeta.
    rewrite (bdot_dot n) by auto. rewrite ndot_rdot. apply (f_equal (@Ok (list R))). apply lanes2_axpy; [|congruence]. intros a b. simpl. unfold Rltb. destruct (Rlt_dec (snd e) 0); lra.
  - intros r e r' Lr. destruct (raw_row Y (fst e)) as [y|] eqn:Ey; cbn [bind]; [|discriminate]. cbv zeta. intros X. inversion X. rewrite axpy_length; auto.
Qed.
Lemma gpu_cg_loop_eq row k : forall x r p rs, length x = n -> length r = n -> length p = n ->
  gpu_cg_loop bdot eps k n A Y row x r p rs = cg_loop eps k A Y row x r p rs.
Proof.
  induction k as [|k IH]; intros x r p rs Lx Lr Lp; cbn [gpu_cg_loop cg_loop]; auto.
  destruct (gpu_apply_eq row p Lp) as [-> LA]. destruct (apply_A A Y row p) as [Ap|] eqn:EA; cbn [bind]; auto. specialize (LA Ap eq_refl).
  rewrite (bdot_dot n), ndot_rdot by auto. destruct (c_div rs (rdot p Ap)) as [a|]; cbn [bind]; auto. cbv zeta.
  rewrite (lanes2_axpy (fun xt pt => nadd xt (nmul a pt)) a) by (auto; congruence).
  rewrite (lanes2_axpy (fun rt at_ => nsub rt (nmul a at_)) (nmul a (nopp none_))) by (try congruence; intros; simpl; lra).
  set (r' := axpy (nmul a (nopp none_)) Ap r). set (x' := axpy a p x).
  assert (Lr' : length r' = n) by (unfold r'; rewrite axpy_length; auto). assert (Lx' : length x' = n) by (unfold x'; rewrite axpy_length; auto).
  rewrite (bdot_dot n), ndot_rdot by auto. destruct (nltb (rdot r' r') eps); auto. destruct (c_div (rdot r' r') rs) as [b|]; cbn [bind]; auto.
  assert (EP : lanes2 (fun rt pt => nadd rt (nmul b pt)) r' p = axpy none_ r' (scal b p)).
  { clear -Lr' Lp. unfold lanes2, scal. revert n p Lp Lr'. induction r' as [|c r' IH]; intros n [|d p] L1 L2; cbn in *; subst; try discriminate; auto. f_equal; [lra|]. apply (IH (length r')); lia. }
  rewrite EP. apply IH; auto. rewrite axpy_length. unfold scal. rewrite map_length. auto.
Qed.
Lemma gpu_cg_row_eq steps row x : length x = n -> gpu_cg_row bdot eps steps n A Y row x = cg_row eps steps A n Y row x.
Proof.
  intros Lx. unfold gpu_cg_row, cg_row. destruct row as [|e row']; auto. destruct (gpu_residual_eq (e :: row') x Lx) as [-> LR].
  destruct (residual A Y (e :: row') x) as [r|] eqn:Er; cbn [bind]; auto. specialize (LR r eq_refl). cbv zeta. rewrite (bdot_dot n), ndot_rdot by auto.
  destruct (nltb (rdot r r) eps); auto. apply gpu_cg_loop_eq; auto.
Qed.
End Row.

Lemma normal_symmetric n Y reg : mat_ok n Y -> square n (add_diag reg (gram n Y)) /\ symmetric n (add_diag reg (gram n Y)).
Proof.
  intros MY. assert (S0 : square n (add_diag reg (gram n Y))) by (apply diag_shape, gram_shape). split; auto.
  apply (form_symmetric n _ (fun x z => rsum (map (fun y => rdot y x * rdot y z) Y) + reg * rdot x z)); auto.
  - intros x z Lx Lz. rewrite initial_form by auto. auto.
  - intros x z. rewrite (rdot_comm x z). f_equal. apply rsum_map_ext. intros; lra.
Qed.
